(** The lineshapes of the Breit-Wigner builder and projections (proofs for C94) *)
From Coq Require Import String Ascii ZArith QArith Qcanon Qreals List Bool Reals Lia Lra Permutation.
From Coquelicot Require Import Complex Hierarchy RInt RInt_analysis.
From Verif Require Import Prelude Spin Decay Expr Angles Sums Wigner CG CExpr SpecKin SpecDPD Builder Dynamics SpecDynamics
  SpinFacts DecayFacts BuilderFacts DynamicsProofs SpecObs ObsProofs.
Import ListNotations.
Local Open Scope string_scope.
Local Open Scope Z_scope.
Local Open Scope list_scope.

Lemma bw_independent d s dyn : std_decay d s -> two_body_resonances d -> breit_wigner_dynamics d dyn ->
  forall c i, In c (d_chains d) -> In i [1; 2; 3] -> i <> st_index (ch_spectator c) ->
  ~ In (sigma_at i) (symbols_of (de_expr (dyn c))).
Proof.
  intros D Tb Bw c i Hc Hi N Hx.
  destruct (Bw c Hc) as [E|(w & Ph & E)]; [rewrite E in Hx; destruct Hx|].
  assert (Iso : exists r x y k, isobar_chain c (s 0) r x y k (ch_incoming_ls c) (ch_outgoing_ls c) /\
    ch_spectator c = k /\ ch_resonance c = r /\ (forall z, In z [x; y; k] -> In (st_index z) [1; 2; 3] /\ z = s (st_index z))).
  { apply (std_isobar _ _ _ D); auto.
    - intros c' Hc'. destruct (Tb c' Hc') as (r & x & y & j & ->). cbn. eauto.
    - destruct (Tb c Hc) as (r & x & y & j & ->). eauto. }
  destruct Iso as (r & x & y & k & Is & Sp & _ & St).
  destruct (c36_symbols _ _ _ _ _ _ _ _ _ _ Ph Is E) as [_ Sy].
  assert (First : forall n, sigma_at i = Sym n ANonneg -> String.get 0 n = Some "s"%char).
  { intros n En. apply (f_equal sname) in En. cbn [sname sigma_at] in En. rewrite <- En. reflexivity. }
  assert (Om : forall q, sigma_at i <> outer_mass q) by (intros q Eq; apply First in Eq; discriminate Eq).
  destruct (Sy _ Hx) as [Eq|[(q & Hq & Eq)|(v & Hv)]].
  - apply (f_equal sname) in Eq. cbn [sname sigma_at sigma_of] in Eq.
    apply (f_equal (String.get 5)) in Eq. destruct (St k) as [K _]; [cbn; auto|]. rewrite <- Sp in *.
    apply In_123 in K, Hi. destruct Hi as [->|[->| ->]], K as [Ek|[Ek|Ek]]; rewrite Ek in *; try congruence; discriminate Eq.
  - destruct (Om q Eq).
  - apply (c36_defaults _ _ _ _ _ _ _ _ _ _ Is E) in Hv. destruct Hv as (z & q & Ez & _ & Iz). injection Ez as <-.
    unfold bw_parameters in Iz. repeat (apply in_app_or in Iz; destruct Iz as [Iz|Iz]).
    + cbn [In] in Iz. destruct Iz as [Iz|[Iz|[Iz|[]]]]; apply (f_equal fst) in Iz; cbn [fst] in Iz; symmetry in Iz;
        apply First in Iz; discriminate Iz.
    + destruct (bw_decay_form_factor w); [|destruct Iz].
      cbn [In] in Iz. destruct Iz as [Iz|[Iz|[]]]; apply (f_equal fst) in Iz; cbn [fst] in Iz; symmetry in Iz;
        apply First in Iz; discriminate Iz.
    + destruct (bw_production_form_factor w); [|destruct Iz].
      cbn [In] in Iz. destruct Iz as [Iz|[Iz|[Iz|[]]]]; apply (f_equal fst) in Iz; cbn [fst] in Iz; symmetry in Iz;
        apply First in Iz; discriminate Iz.
Qed.
Lemma bw_independent_line d s dyn i j k : std_decay d s -> two_body_resonances d -> breit_wigner_dynamics d dyn ->
  one_subsystem d k -> cyclic i j k -> forall c, In c (d_chains d) ->
  ~ In (sigma_at i) (symbols_of (de_expr (dyn c))) /\ ~ In (sigma_at j) (symbols_of (de_expr (dyn c))).
Proof.
  intros D Tb Bw [_ One] Cy c Hc. pose proof (One c Hc) as E.
  split; apply (bw_independent d s dyn D Tb Bw c _ Hc); rewrite ?E;
    destruct Cy as [X|[X|[X|[]]]]; injection X as <- <- <-; cbn; auto; lia.
Qed.

(** Pairwise different spins *)
Lemma filter_one {A} (g : A -> Z) (l : list A) c : NoDup (map g l) -> In c l -> filter (fun x => g x =? g c) l = [c].
Proof.
  induction l as [|a l IH]; intros ND H; [destruct H|]. cbn [map] in ND. inversion ND as [|? ? N ND']; subst.
  cbn [filter]. destruct H as [->|H].
  - rewrite Z.eqb_refl. f_equal. destruct (filter (fun x => g x =? g c) l) as [|y r] eqn:E; auto.
    assert (Y : In y (filter (fun x => g x =? g c) l)) by (rewrite E; left; reflexivity).
    rewrite filter_In, Z.eqb_eq in Y. destruct Y as [Y1 Y2]. destruct N. rewrite <- Y2. apply in_map. exact Y1.
  - destruct (Z.eqb_spec (g a) (g c)) as [E|_].
    + destruct N. rewrite E. apply in_map. exact H.
    + apply IH; assumption.
Qed.
Lemma incoherent d ph dh scal X lam i j k : NoDup (map (fun c => p_spin (ch_resonance c)) (d_chains d)) ->
  Rsum (resonance_spins d) (fun J => / IZR (J + 1) * Cmod (partial_wave ph dh (d_chains d) scal X lam i j k J) ^ 2)%R =
  Rsum (d_chains d) (fun c => / IZR (p_spin (ch_resonance c) + 1)
    * Cmod (partial_wave ph dh [c] scal X lam i j k (p_spin (ch_resonance c))) ^ 2)%R.
Proof.
  intros ND. unfold resonance_spins. rewrite nodup_fixed_point by exact ND. rewrite Rsum_map.
  apply Rsum_ext. intros c Hc. do 3 f_equal. unfold partial_wave at 1.
  rewrite (filter_one (fun c => p_spin (ch_resonance c)) _ c ND Hc).
  unfold partial_wave. cbn [filter]. rewrite Z.eqb_refl. reflexivity.
Qed.

Theorem c94_bw b s dyn ref cl uc m i j k base cpl lo hi :
  std_decay (b_decay b) s -> dynamics_of b dyn -> two_body_resonances (b_decay b) -> breit_wigner_dynamics (b_decay b) dyn ->
  formulate b ref cl uc = Ok m -> one_subsystem (b_decay b) k -> cyclic i j k ->
  NoDup (map (fun c => p_spin (ch_resonance c)) (d_chains (b_decay b))) ->
  between_thresholds base i j k -> dalitz_range base i j k lo hi ->
  is_RInt (fun x => Re (full_value (at_point (m_variables m) (dalitz_line base i j k x) cpl) m)) lo hi
    ((hi - lo) * Rsum (tuples s) (fun l => Rsum (d_chains (b_decay b)) (fun c =>
       / IZR (p_spin (ch_resonance c) + 1)
       * Cmod (partial_wave (b_prod_helicity b) (b_dec_helicity b) [c]
           (fun c r => (if uc then coefficient else coupling_product) (Env base cpl) (b_prod_helicity b)
                         (b_dec_helicity b) c r (at4 l k) (at4 l i) (at4 l j))
           (fun c => ceval (Env base cpl) (fun _ => 0%Z) (de_expr (dyn c))) (at4 l) i j k (p_spin (ch_resonance c))) ^ 2)))%R.
Proof.
  intros D Dyn Tb Bw F One Cy ND BT Rg.
  assert (PR : b_prod_helicity b = false -> plain_resonances (b_decay b)).
  { intros _ c Hc. destruct (Tb c Hc) as (r & x & y & j' & ->). cbn. eauto. }
  pose proof (c94 b s dyn ref cl uc m i j k base cpl lo hi D Dyn PR F One Cy
    (bw_independent_line _ s dyn i j k D Tb Bw One Cy) BT Rg) as I.
  match type of I with is_RInt _ _ _ ?v => match goal with |- is_RInt _ _ _ ?v' => replace v' with v; [exact I|] end end.
  f_equal. apply Rsum_ext. intros l _. apply incoherent. exact ND.
Qed.
