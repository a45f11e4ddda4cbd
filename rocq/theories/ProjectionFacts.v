(** Orthogonality of the partial waves of a subsystem (C138) *)
From Coq Require Import String ZArith QArith Qcanon List Bool Reals Lia Lra Psatz Permutation.
From Coquelicot Require Import Complex Hierarchy RInt.
From Verif Require Import Prelude Spin Decay Expr Angles Sums Wigner CG CExpr SpecKin SpecDPD Builder
  SpinFacts DecayFacts AnglesFacts WignerFacts CExprFacts BuilderFacts ModelFacts RefFacts LSBasis LSProofs BuilderProofs ChainProofs FormProofs HankelFacts SpecObs LegendreFacts ObsProofs SpecEnvelope EnvelopeFacts SpecReorder SpecProjection.
Import ListNotations.
Local Open Scope R_scope.

(** ** Sums *)
Lemma Csum_parts {A B} `{EqDec B} (l : list A) (g : A -> B) (qs : list B) f : NoDup qs -> (forall x, In x l -> In (g x) qs) ->
  Csum l f = Csum qs (fun q => Csum (filter (fun x => eqb (g x) q) l) f).
Proof.
  intros ND I. rewrite (Csum_ext qs _ (fun q => Csum l (fun x => if eqb (g x) q then f x else RtoC 0))) by (intros; apply Csum_filter).
  rewrite Csum_swap. apply Csum_ext. intros x Hx. rewrite (Csum_single qs (g x)).
  - rewrite (proj2 (Prelude.eqb_eq _ _) eq_refl). reflexivity.
  - exact ND.
  - apply I. exact Hx.
  - intros q _ N. destruct (eqb (g x) q) eqn:E; [|reflexivity]. apply (proj1 (Prelude.eqb_eq _ _)) in E. congruence.
Qed.
Lemma Rsum_parts {A} (l : list A) (g : A -> Z) (js : list Z) (f : A -> R) : NoDup js -> (forall x, In x l -> In (g x) js) ->
  Rsum js (fun J => Rsum (filter (fun x => g x =? J)%Z l) f) = Rsum l f.
Proof.
  intros ND I. rewrite (Rsum_ext js _ (fun q => Rsum l (fun x => if (g x =? q)%Z then f x else 0))) by (intros; apply Rsum_filter).
  rewrite Rsum_swap. apply Rsum_ext. intros x Hx. rewrite (Rsum_single js (g x)).
  - rewrite Z.eqb_refl. reflexivity.
  - exact ND.
  - apply I. exact Hx.
  - intros q _ N. destruct (Z.eqb_spec (g x) q); [congruence|reflexivity].
Qed.
Lemma parseval_real {A B} (l : list A) (qs : list B) (G : B -> A -> R) (x : B -> R) :
  NoDup qs -> (forall q q', In q qs -> In q' qs -> q <> q' -> Rsum l (fun a => G q a * G q' a) = 0) ->
  (forall q, In q qs -> Rsum l (fun a => G q a * G q a) = 1) ->
  Rsum l (fun a => Rsum qs (fun q => G q a * x q) ^ 2) = Rsum qs (fun q => x q ^ 2).
Proof.
  intros ND O N.
  rewrite (Rsum_ext l _ (fun a => Rsum qs (fun q => Rsum qs (fun q' => x q * x q' * (G q a * G q' a))))).
  2:{ intros a _. cbn [pow]. rewrite Rmult_1_r, <- Rsum_scal_r. apply Rsum_ext. intros q _. rewrite <- Rsum_scal_l. apply Rsum_ext. intros q' _. ring. }
  rewrite Rsum_swap. apply Rsum_ext. intros q Hq. rewrite Rsum_swap. rewrite (Rsum_single qs q).
  - rewrite Rsum_scal_l, N by exact Hq. ring.
  - exact ND.
  - exact Hq.
  - intros q' Hq' Nq. rewrite Rsum_scal_l, O by (try assumption; congruence). ring.
Qed.
Lemma parseval {A B} (l : list A) (qs : list B) (G : B -> A -> R) (h : B -> C) :
  NoDup qs -> (forall q q', In q qs -> In q' qs -> q <> q' -> Rsum l (fun a => G q a * G q' a) = 0) ->
  (forall q, In q qs -> Rsum l (fun a => G q a * G q a) = 1) ->
  Rsum l (fun a => Cmod (Csum qs (fun q => RtoC (G q a) * h q)%C) ^ 2) = Rsum qs (fun q => Cmod (h q) ^ 2).
Proof.
  intros ND O N.
  assert (M : forall z : C, Cmod z ^ 2 = Re z ^ 2 + Im z ^ 2).
  { intros z. unfold Cmod. rewrite <- Rsqr_pow2, Rsqr_sqrt; [reflexivity|]. pose proof (pow2_ge_0 (fst z)). pose proof (pow2_ge_0 (snd z)). lra. }
  rewrite (Rsum_ext l _ (fun a => Rsum qs (fun q => G q a * Re (h q)) ^ 2 + Rsum qs (fun q => G q a * Im (h q)) ^ 2)).
  - rewrite Rsum_plus, !parseval_real by assumption. rewrite <- Rsum_plus. apply Rsum_ext. intros q _. symmetry. apply M.
  - intros a _. rewrite M, Csum_Re, Csum_Im. f_equal; f_equal; apply Rsum_ext; intros q _; unfold Re, Im, Cmult, RtoC; cbn [fst snd]; ring.
Qed.
(** products of sums with a delta *)
Lemma delta_product (rs : list Z) (x : Z) (f g : Z -> R) : NoDup rs ->
  Rsum rs (fun r => if (x =? r)%Z then f r else 0) * Rsum rs (fun r => if (x =? r)%Z then g r else 0)
  = Rsum rs (fun r => if (x =? r)%Z then f r * g r else 0).
Proof.
  intros ND. destruct (in_dec Z.eq_dec x rs) as [I|N].
  - rewrite !(Rsum_single rs x); try assumption; try (intros y _ Ny; destruct (Z.eqb_spec x y); [congruence|reflexivity]).
    rewrite Z.eqb_refl. reflexivity.
  - rewrite !Rsum_zero; [ring| | |]; intros y Hy; destruct (Z.eqb_spec x y); try reflexivity; subst; contradiction.
Qed.

(** ** The angular functions of the waves *)
Lemma ls_factor_projection J c j1 l1 j2 l2 : is_projection J (l1 - l2) = false -> ls_factor J c j1 l1 j2 l2 = 0.
Proof. intros H. unfold ls_factor. rewrite (cg_zero_l (2 * ls_L c)) by exact H. ring. Qed.
Definition vertex (J : Z) (ls : option ls_coupling) (j1 l1 j2 l2 : Z) : R :=
  match ls with Some c => ls_factor J c j1 l1 j2 l2 | None => 0 end.
Definition wave_function (s : Z -> state) (i j k : Z) (q : wave) (l : Z * Z * Z * Z) : R :=
  Rsum (helicities (wave_spin q)) (fun r => if (at4 l 0 + at4 l k =? r)%Z then
    vertex (p_spin (s 0%Z)) (snd (fst q)) (wave_spin q) r (p_spin (s k)) (at4 l k)
    * vertex (wave_spin q) (snd q) (p_spin (s i)) (at4 l i) (p_spin (s j)) (at4 l j) else 0).
Lemma allowed_physical J j1 j2 ls : allowed_ls J j1 j2 ls -> physical_ls J j1 j2 ls.
Proof. intros [([A B] & E) ([A' B'] & E')]. split; apply tri; assumption. Qed.
Lemma wave_orthogonal (s : Z -> state) i j k J a a' p p' : cyclic i j k -> (forall n, In n [0; 1; 2; 3]%Z -> (0 <= p_spin (s n))%Z) -> (0 <= J)%Z ->
  allowed_ls (p_spin (s 0%Z)) J (p_spin (s k)) a -> allowed_ls (p_spin (s 0%Z)) J (p_spin (s k)) a' ->
  allowed_ls J (p_spin (s i)) (p_spin (s j)) p -> allowed_ls J (p_spin (s i)) (p_spin (s j)) p' ->
  Rsum (tuples s) (fun l => wave_function s i j k (J, Some a, Some p) l * wave_function s i j k (J, Some a', Some p') l)
  = (if eq_dec a a' then 1 else 0) * (if eq_dec p p' then 1 else 0).
Proof.
  intros Cy S0 HJ Ha Ha' Hp Hp'. destruct (cyclic_in _ _ _ Cy) as (Ii & Ij & Ik).
  set (j0 := p_spin (s 0%Z)) in *. set (ji := p_spin (s i)) in *. set (jj := p_spin (s j)) in *. set (jk := p_spin (s k)) in *.
  assert (J0 : (0 <= j0)%Z) by (apply S0; left; reflexivity).
  assert (Jk : (0 <= jk)%Z) by (apply S0; right; exact Ik).
  assert (Ji : (0 <= ji)%Z) by (apply S0; right; exact Ii).
  assert (Jj : (0 <= jj)%Z) by (apply S0; right; exact Ij).
  set (f := fun r lk => ls_factor j0 a J r jk lk * ls_factor j0 a' J r jk lk).
  set (g := fun li lj => ls_factor J p ji li jj lj * ls_factor J p' ji li jj lj).
  rewrite (Rsum_ext (tuples s) _ (fun l => Rsum (helicities J) (fun r => if (at4 l 0 + at4 l k =? r)%Z then f r (at4 l k) * g (at4 l i) (at4 l j) else 0))).
  2:{ intros l _. unfold wave_function, wave_spin, vertex. cbn [fst snd]. fold j0 ji jj jk. rewrite delta_product by apply helicities_NoDup.
      apply Rsum_ext. intros r _. destruct (Z.eqb _ _); [|reflexivity]. unfold f, g. ring. }
  rewrite tuples_final.
  rewrite (Rsum_ext (final_tuples s) _ (fun l => Rsum (helicities J) (fun r => f r (at4 l k)) * g (at4 l i) (at4 l j))).
  - rewrite (final_factors s i j k (fun lk => Rsum (helicities J) (fun r => f r lk)) g Cy). fold ji jj jk. rewrite Rsum_swap.
    unfold f, g. rewrite !ls_orthonormal by (try assumption; apply allowed_physical; assumption). reflexivity.
  - intros l Hl. fold j0. rewrite Rsum_swap, <- Rsum_scal_r. apply Rsum_ext. intros r Hr.
    assert (AT : forall z, at4 (with_parent l z) 0 = z /\ at4 (with_parent l z) i = at4 l i /\ at4 (with_parent l z) j = at4 l j /\ at4 (with_parent l z) k = at4 l k).
    { intros z. destruct l as [[[l0 l1] l2] l3]. destruct Cy as [E|[E|[E|[]]]]; inversion E; subst; repeat split. }
    rewrite (Rsum_ext _ _ (fun z => if (r - at4 l k =? z)%Z then f r (at4 l k) * g (at4 l i) (at4 l j) else 0)).
    2:{ intros z _. destruct (AT z) as (-> & -> & -> & ->). destruct (Z.eqb_spec (z + at4 l k) r), (Z.eqb_spec (r - at4 l k) z); try reflexivity; lia. }
    destruct (in_dec Z.eq_dec (r - at4 l k)%Z (helicities j0)) as [I|N].
    + rewrite (Rsum_single _ (r - at4 l k)%Z); [rewrite Z.eqb_refl; reflexivity|apply helicities_NoDup|exact I|].
      intros z _ Nz. destruct (Z.eqb_spec (r - at4 l k) z); [congruence|reflexivity].
    + rewrite Rsum_zero.
      * unfold f. rewrite ls_factor_projection; [ring|]. destruct (is_projection j0 (r - at4 l k)) eqn:E; [|reflexivity].
        apply is_projection_In in E. rewrite helicities_range in N. contradiction.
      * intros z Hz. destruct (Z.eqb_spec (r - at4 l k) z); [subst; contradiction|reflexivity].
Qed.

(** ** The projection *)
Section Projection.
  Context (b : builder) (s : Z -> state) (D : std_decay (b_decay b) s) (i j k : Z) (Cy : cyclic i j k) (One : one_subsystem (b_decay b) k)
    (Al : forall c, In c (d_chains (b_decay b)) -> allowed_chain c).
  Let d := b_decay b.
  Lemma one_chain c : In c (d_chains d) -> ch_spectator c = s k /\ st_index (ch_spectator c) = k /\ p_spin (ch_parent c) = p_spin (s 0%Z)
    /\ (ch_decay_products c = (s i, s j) \/ ch_decay_products c = (s j, s i)).
  Proof.
    intros I. destruct (spectator_label b s D c I) as (K & E & Cy'). rewrite (proj2 One c I) in E.
    split; [exact E|]. split; [apply One; exact I|]. split; [rewrite (std_parent _ _ D c I); reflexivity|].
    exact (std_products _ _ D k i j c I E Cy).
  Qed.
  Lemma chain_factors c r l : In c (d_chains d) ->
    prod_factor false c r (at4 l k) * dec_factor false c (at4 l)
    = cyclic_sign c * (vertex (p_spin (s 0%Z)) (ch_incoming_ls c) (p_spin (ch_resonance c)) r (p_spin (s k)) (at4 l k)
        * vertex (p_spin (ch_resonance c)) (ch_outgoing_ls c) (p_spin (s i)) (at4 l i) (p_spin (s j)) (at4 l j)).
  Proof.
    intros I. destruct (one_chain c I) as (E & K & EP & Pr).
    destruct (cyclic_in _ _ _ Cy) as (Ii & Ij & Ik).
    assert (IX : forall q, In q [1; 2; 3]%Z -> st_index (s q) = q) by (intros q Hq; apply (sd_index _ _ D); right; exact Hq).
    unfold cyclic_sign, order_sign, prod_factor, dec_factor, coupling_sign, vertex. rewrite !andb_true_r, K, (proj1 (next_labels _ _ _ Cy)), EP, E.
    assert (Nij : (j =? i)%Z = false) by (apply Z.eqb_neq; intros ->; destruct Cy as [A|[A|[A|[]]]]; inversion A; lia).
    destruct (ch_incoming_ls c) as [a|]; [|ring]. destruct (ch_outgoing_ls c) as [p|]; [|ring].
    assert (P1 : (if resonance_first c then ls_factor (p_spin (s 0%Z)) a (p_spin (ch_resonance c)) r (p_spin (s k)) (at4 l k)
       else ls_factor (p_spin (s 0%Z)) a (p_spin (s k)) (at4 l k) (p_spin (ch_resonance c)) r)
      = (if negb (resonance_first c) then parity_sign (2 * ls_L a + ls_S a - p_spin (s 0%Z)) else 1)
        * ls_factor (p_spin (s 0%Z)) a (p_spin (ch_resonance c)) r (p_spin (s k)) (at4 l k)).
    { destruct (resonance_first c); cbn [negb]; [ring|apply ls_factor_swap]. }
    rewrite P1. clear P1.
    destruct Pr as [-> | ->]; cbn [fst snd]; rewrite !IX by assumption; [rewrite Z.eqb_refl|rewrite Nij]; cbn [negb]; [ring|].
    rewrite (ls_factor_swap _ p (p_spin (s i)) (at4 l i)). ring.
  Qed.
  Lemma wave_amplitude (g X : chain -> C) l J : In l (tuples s) ->
    partial_wave false false (d_chains d) (fun c r => g c) X (at4 l) i j k J
    = Csum (filter (fun q => wave_spin q =? J)%Z (waves d)) (fun q =>
        RtoC (wave_function s i j k q l) * Csum (chains_of_wave d q) (fun c => RtoC (cyclic_sign c) * (X c * g c)))%C.
  Proof.
    intros Hl. unfold partial_wave.
    rewrite (Csum_ext _ _ (fun c => RtoC (wave_function s i j k (wave_of c) l) * (RtoC (cyclic_sign c) * (X c * g c)))%C).
    2:{ intros c Hc. apply filter_In in Hc. destruct Hc as [I EJ]. apply Z.eqb_eq in EJ.
        unfold wave_function, wave_of, wave_spin. cbn [fst snd]. rewrite EJ.
        rewrite <- Csum_RtoC, <- Csum_scal_r. apply Csum_ext. intros r _.
        replace (at4 l 0 =? r - at4 l k)%Z with (at4 l 0 + at4 l k =? r)%Z.
        2:{ destruct (Z.eqb_spec (at4 l 0 + at4 l k) r), (Z.eqb_spec (at4 l 0) (r - at4 l k)); try reflexivity; lia. }
        destruct (Z.eqb_spec (at4 l 0 + at4 l k) r) as [Er|]; cbn [andb]; [|ring].
        rewrite (chain_factors c r l I), EJ.
        destruct (memb (at4 l i - at4 l j)%Z (helicities J)) eqn:Mm.
        - rewrite !RtoC_mult. ring.
        - replace (vertex J (ch_outgoing_ls c) (p_spin (s i)) (at4 l i) (p_spin (s j)) (at4 l j)) with 0; [rewrite !Rmult_0_r; ring|].
          unfold vertex. destruct (ch_outgoing_ls c) as [p|]; [|reflexivity]. symmetry. apply ls_factor_projection.
          destruct (is_projection J _) eqn:E; [|reflexivity]. apply is_projection_In in E. rewrite <- helicities_range in E.
          apply memb_In in E. congruence. }
    rewrite (Csum_parts (filter (fun c => p_spin (ch_resonance c) =? J)%Z (d_chains d)) wave_of (filter (fun q => wave_spin q =? J)%Z (waves d))).
    - apply Csum_ext. intros q Hq. apply filter_In in Hq. destruct Hq as [_ EJ]. apply Z.eqb_eq in EJ.
      rewrite <- Csum_scal_l. unfold chains_of_wave.
      replace (filter (fun x => eqb (wave_of x) q) (filter (fun c => (p_spin (ch_resonance c) =? J)%Z) (d_chains d)))
        with (filter (fun c => eqb (wave_of c) q) (d_chains d)).
      + apply Csum_ext. intros c Hc. apply filter_In in Hc. destruct Hc as [_ E]. apply (proj1 (Prelude.eqb_eq _ _)) in E. rewrite E. reflexivity.
      + clear Al. induction (d_chains d) as [|c cs IH]; [reflexivity|]. cbn [filter]. destruct (Z.eqb_spec (p_spin (ch_resonance c)) J) as [EE|NE].
        * cbn [filter]. rewrite IH. reflexivity.
        * destruct (eqb (wave_of c) q) eqn:E; [|exact IH]. apply (proj1 (Prelude.eqb_eq _ _)) in E. rewrite <- E in EJ. contradiction.
    - apply NoDup_filter, NoDup_nodup.
    - intros c Hc. apply filter_In in Hc. destruct Hc as [I EJ]. apply filter_In. split; [|exact EJ].
      apply nodup_In, in_map. exact I.
  Qed.
  Lemma wave_sum (g X : chain -> C) :
    Rsum (tuples s) (fun l => Rsum (resonance_spins d) (fun J => / IZR (J + 1) *
      Cmod (partial_wave false false (d_chains d) (fun c r => g c) X (at4 l) i j k J) ^ 2))
    = Rsum (waves d) (fun q => / IZR (wave_spin q + 1) * Cmod (Csum (chains_of_wave d q) (fun c => RtoC (cyclic_sign c) * (X c * g c))%C) ^ 2).
  Proof.
    rewrite Rsum_swap. rewrite <- (Rsum_parts (waves d) wave_spin (resonance_spins d)).
    - apply Rsum_ext. intros J _. rewrite Rsum_scal_l.
      rewrite (Rsum_ext (filter _ _) _ (fun q => / IZR (J + 1) * Cmod (Csum (chains_of_wave d q) (fun c => RtoC (cyclic_sign c) * (X c * g c))%C) ^ 2)).
      2:{ intros q Hq. apply filter_In in Hq. destruct Hq as [_ E]. apply Z.eqb_eq in E. rewrite E. reflexivity. }
      rewrite Rsum_scal_l. f_equal.
      rewrite (Rsum_ext (tuples s) _ (fun l => Cmod (Csum (filter (fun q => wave_spin q =? J)%Z (waves d)) (fun q =>
        RtoC (wave_function s i j k q l) * Csum (chains_of_wave d q) (fun c => RtoC (cyclic_sign c) * (X c * g c)))%C) ^ 2)).
      2:{ intros l Hl. rewrite wave_amplitude by exact Hl. reflexivity. }
      assert (W : forall q, In q (filter (fun q => wave_spin q =? J)%Z (waves d)) -> exists a p, q = (J, Some a, Some p) /\ (0 <= J)%Z /\
        allowed_ls (p_spin (s 0%Z)) J (p_spin (s k)) a /\ allowed_ls J (p_spin (s i)) (p_spin (s j)) p).
      { intros q Hq. apply filter_In in Hq. destruct Hq as [I E]. apply Z.eqb_eq in E. apply nodup_In, in_map_iff in I.
        destruct I as (c & <- & I). cbn [wave_spin wave_of fst] in E. destruct (one_chain c I) as (Es & _ & EP & Pr).
        destruct (Al c I) as [(a & A & HA) (p & P & HP)]. exists a, p. unfold wave_of. rewrite A, P, E. rewrite EP, Es, E in HA. rewrite E in HP.
        split; [reflexivity|]. split.
        { destruct HA as [[[HA _] _] _]. destruct HP as [_ [[H1 H2] _]]. destruct HP as [[[H3 H4] _] _] || idtac. lia. }
        split; [exact HA|]. destruct Pr as [Pr|Pr]; rewrite Pr in HP; cbn [fst snd] in HP; [exact HP|].
        destruct HP as [[[B1 B2] B3] B4]. split; [|exact B4]. split; [lia|]. rewrite Z.add_comm. exact B3. }
      assert (S0 : forall n, In n [0; 1; 2; 3]%Z -> (0 <= p_spin (s n))%Z) by (intros n Hn; exact (sd_spin _ _ D n Hn)).
      apply parseval.
      + apply NoDup_filter, NoDup_nodup.
      + intros q q' Hq Hq' N. destruct (W q Hq) as (a & p & -> & HJ & Ha & Hp). destruct (W q' Hq') as (a' & p' & -> & _ & Ha' & Hp').
        rewrite wave_orthogonal by assumption. destruct (eq_dec a a') as [<-|]; [|ring]. destruct (eq_dec p p') as [<-|]; [|ring].
        destruct (N eq_refl).
      + intros q Hq. destruct (W q Hq) as (a & p & -> & HJ & Ha & Hp). rewrite wave_orthogonal by assumption.
        destruct (eq_dec a a) as [_|N]; [|destruct (N eq_refl)]. destruct (eq_dec p p) as [_|N]; [ring|destruct (N eq_refl)].
    - apply NoDup_nodup.
    - intros q Hq. apply nodup_In, in_map_iff in Hq. destruct Hq as (c & <- & I). apply nodup_In, in_map_iff. exists c. split; [reflexivity|exact I].
  Qed.
End Projection.

Theorem c138 b s dyn ref cl uc m i j k base cpl lo hi : std_decay (b_decay b) s -> dynamics_of b dyn -> plain_resonances (b_decay b) ->
  formulate b ref cl uc = Ok m -> b_prod_helicity b = false -> b_dec_helicity b = false ->
  (forall c, In c (d_chains (b_decay b)) -> allowed_chain c) -> one_subsystem (b_decay b) k -> cyclic i j k ->
  (forall c, In c (d_chains (b_decay b)) ->
     ~ In (sigma_at i) (symbols_of (de_expr (dyn c))) /\ ~ In (sigma_at j) (symbols_of (de_expr (dyn c)))) ->
  between_thresholds base i j k -> dalitz_range base i j k lo hi ->
  is_RInt (fun x => Re (full_value (at_point (m_variables m) (dalitz_line base i j k x) cpl) m)) lo hi
    ((hi - lo) * Rsum (waves (b_decay b)) (fun q => / IZR (wave_spin q + 1) * Cmod (Csum (chains_of_wave (b_decay b) q) (fun c =>
      RtoC (cyclic_sign c) * (ceval (Env base cpl) (fun _ => 0%Z) (de_expr (dyn c))
        * (if uc then coefficient else coupling_product) (Env base cpl) false false c 0%Z 0%Z 0%Z 0%Z))%C) ^ 2)).
Proof.
  intros D Y P F Hp Hd Al One Cy Ind BT Rg.
  pose proof (c94 b s dyn ref cl uc m i j k base cpl lo hi D Y (fun _ => P) F One Cy Ind BT Rg) as I94.
  rewrite Hp, Hd in I94.
  rewrite <- (wave_sum b s D i j k Cy One Al (fun c => (if uc then coefficient else coupling_product) (Env base cpl) false false c 0%Z 0%Z 0%Z 0%Z)
    (fun c => ceval (Env base cpl) (fun _ => 0%Z) (de_expr (dyn c)))).
  destruct uc; exact I94.
Qed.

(** Chains of pairwise different waves do not interfere. *)
Lemma cyclic_sign_abs c : Rabs (cyclic_sign c) = 1.
Proof.
  assert (P : forall J ls, Rabs (coupling_sign J ls) = 1) by (intros J [ls|]; [apply parity_sign_abs|apply Rabs_R1]).
  unfold cyclic_sign, order_sign. rewrite Rabs_mult.
  destruct (_ && _); destruct (_ && _); rewrite ?P, ?Rabs_R1; ring.
Qed.
Lemma different_waves (cs : list chain) (f : wave -> list chain -> R) : NoDup (map wave_of cs) ->
  Rsum (nodup (@eq_dec wave _) (map wave_of cs)) (fun q => f q (filter (fun c => eqb (wave_of c) q) cs)) = Rsum cs (fun c => f (wave_of c) [c]).
Proof.
  intros ND. rewrite nodup_fixed_point by exact ND. rewrite Rsum_map. apply Rsum_ext. intros c I. f_equal.
  induction cs as [|x cs IH]; [destruct I|]. cbn [map] in ND. inversion ND as [|? ? Nx ND']; subst. cbn [filter].
  destruct (eqb (wave_of x) (wave_of c)) eqn:E.
  - apply (proj1 (Prelude.eqb_eq _ _)) in E. destruct I as [->|I].
    + f_equal. clear - Nx. induction cs as [|y cs IH]; [reflexivity|]. cbn [filter]. destruct (eqb (wave_of y) (wave_of c)) eqn:E.
      * apply (proj1 (Prelude.eqb_eq _ _)) in E. destruct Nx. left. exact E.
      * apply IH. intros I. apply Nx. right. exact I.
    + destruct Nx. rewrite E. apply in_map. exact I.
  - destruct I as [->|I]; [rewrite (proj2 (Prelude.eqb_eq _ _) eq_refl) in E; discriminate|]. apply IH; assumption.
Qed.
Theorem c138_different b s dyn ref cl uc m i j k base cpl lo hi : std_decay (b_decay b) s -> dynamics_of b dyn -> plain_resonances (b_decay b) ->
  formulate b ref cl uc = Ok m -> b_prod_helicity b = false -> b_dec_helicity b = false ->
  (forall c, In c (d_chains (b_decay b)) -> allowed_chain c) -> one_subsystem (b_decay b) k -> cyclic i j k ->
  NoDup (map wave_of (d_chains (b_decay b))) ->
  (forall c, In c (d_chains (b_decay b)) ->
     ~ In (sigma_at i) (symbols_of (de_expr (dyn c))) /\ ~ In (sigma_at j) (symbols_of (de_expr (dyn c)))) ->
  between_thresholds base i j k -> dalitz_range base i j k lo hi ->
  is_RInt (fun x => Re (full_value (at_point (m_variables m) (dalitz_line base i j k x) cpl) m)) lo hi
    ((hi - lo) * Rsum (d_chains (b_decay b)) (fun c => / IZR (p_spin (ch_resonance c) + 1) * Cmod (ceval (Env base cpl) (fun _ => 0%Z) (de_expr (dyn c))
        * (if uc then coefficient else coupling_product) (Env base cpl) false false c 0%Z 0%Z 0%Z 0%Z)%C ^ 2)).
Proof.
  intros D Y P F Hp Hd Al One Cy ND Ind BT Rg.
  pose proof (c138 b s dyn ref cl uc m i j k base cpl lo hi D Y P F Hp Hd Al One Cy Ind BT Rg) as I.
  unfold waves, chains_of_wave in I.
  rewrite (different_waves (d_chains (b_decay b)) (fun q cs => / IZR (wave_spin q + 1) * Cmod (Csum cs (fun c =>
      RtoC (cyclic_sign c) * (ceval (Env base cpl) (fun _ => 0%Z) (de_expr (dyn c))
        * (if uc then coefficient else coupling_product) (Env base cpl) false false c 0%Z 0%Z 0%Z 0%Z))%C) ^ 2) ND) in I.
  rewrite (Rsum_ext (d_chains (b_decay b)) _ (fun c => / IZR (p_spin (ch_resonance c) + 1) * Cmod (ceval (Env base cpl) (fun _ => 0%Z) (de_expr (dyn c))
        * (if uc then coefficient else coupling_product) (Env base cpl) false false c 0%Z 0%Z 0%Z 0%Z)%C ^ 2)) in I; [exact I|].
  intros c _. f_equal. cbn [Csum]. rewrite Cplus_0_r, Cmod_mult, Cmod_R, cyclic_sign_abs. f_equal. ring.
Qed.
