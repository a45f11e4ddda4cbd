(** Models with LS couplings and models with helicity couplings are the same family of models. *)
From Coq Require Import String ZArith QArith Qcanon Qreals List Bool Reals Lia Lra Permutation Sorted.
From Coquelicot Require Import Complex.
From Verif Require Import Prelude Spin Decay Expr Angles Sums Wigner CG CExpr SpecKin SpecDPD Builder
  SpinFacts DecayFacts AnglesFacts WignerFacts CExprFacts BuilderFacts ModelFacts RefFacts CGFacts LSBasis SpecLS LSProofs
  SpecBasis ChainProofs.
Import ListNotations.
Local Open Scope string_scope.
Local Open Scope Z_scope.
Local Open Scope list_scope.

(** ** Vertices of a chain *)
(** Factors of the production with coupling [p] and of the decay with coupling [q], for the helicities in the order of
    the indices of the helicity couplings *)
Definition PF (c : chain) (p : ls_coupling) (r lk : Z) : R :=
  let jR := p_spin (ch_resonance c) in let jk := p_spin (ch_spectator c) in
  if resonance_first c then ls_factor (p_spin (ch_parent c)) p jR r jk lk
  else ls_factor (p_spin (ch_parent c)) p jk lk jR r.
(** the first decay product comes first in cyclic order *)
Definition in_order (c : chain) : bool :=
  st_index (fst (ch_decay_products c)) =? (st_index (ch_spectator c)) mod 3 + 1.
Definition DF (c : chain) (q : ls_coupling) (li lj : Z) : R :=
  let (s1, s2) := ch_decay_products c in
  if in_order c then ls_factor (p_spin (ch_resonance c)) q (p_spin s1) li (p_spin s2) lj
  else ls_factor (p_spin (ch_resonance c)) q (p_spin s1) lj (p_spin s2) li.

Lemma with_ls_facts c p q : valid_chain c ->
  ch_resonance (with_ls p q c) = ch_resonance c /\ ch_spectator (with_ls p q c) = ch_spectator c /\
  ch_parent (with_ls p q c) = ch_parent c /\ ch_decay_products (with_ls p q c) = ch_decay_products c /\
  resonance_first (with_ls p q c) = resonance_first c /\
  ch_incoming_ls (with_ls p q c) = Some p /\ ch_outgoing_ls (with_ls p q c) = Some q.
Proof.
  intros V. destruct (valid_chain_nodes c V) as (s0 & R & d1 & d2 & i & j & sp & s1 & s2 & [->| ->] & _);
    repeat split; reflexivity.
Qed.
Lemma with_ls_prod c p q r lk : valid_chain c -> prod_factor false (with_ls p q c) r lk = PF c p r lk.
Proof.
  intros V. destruct (with_ls_facts c p q V) as (A & B & C & _ & D & E & _).
  unfold prod_factor, PF. rewrite E, D, A, B, C. reflexivity.
Qed.

Section Vertices.
  Variables (d : decay) (s : Z -> state).
  Hypothesis D : std_decay d s.
  Variables (i j k : Z).
  Hypothesis Cy : cyclic i j k.
  Variable c : chain.
  Hypothesis Ic : In c (d_chains d).
  Hypothesis Ek : ch_spectator c = s k.

  Lemma idx n : In n [1; 2; 3] -> st_index (s n) = n.
  Proof. intros H. apply (sd_index _ _ D). right. exact H. Qed.
  Lemma next_k : k mod 3 + 1 = i /\ i <> j.
  Proof. destruct Cy as [X|[X|[X|[]]]]; inversion X; subst; split; try reflexivity; discriminate. Qed.
  Lemma products_order : (in_order c = true /\ ch_decay_products c = (s i, s j)) \/ (in_order c = false /\ ch_decay_products c = (s j, s i)).
  Proof.
    destruct (cyclic_in _ _ _ Cy) as (Hi & Hj & Hk). unfold in_order. rewrite Ek, (idx k Hk).
    destruct next_k as [-> N].
    destruct (std_products d s D k i j c Ic Ek Cy) as [X|X]; rewrite X; cbn [fst].
    - left. rewrite (idx i Hi), Z.eqb_refl. auto.
    - right. rewrite (idx j Hj). split; [|reflexivity]. apply Z.eqb_neq. congruence.
  Qed.
  Lemma with_ls_dec p q lam : dec_factor false (with_ls p q c) lam = DF c q (lam i) (lam j).
  Proof.
    destruct (with_ls_facts c p q (std_valid d s D c Ic)) as (A & _ & _ & B & _ & _ & E).
    destruct (cyclic_in _ _ _ Cy) as (Hi & Hj & _).
    unfold dec_factor, DF. rewrite E, A, B.
    destruct products_order as [[-> ->]|[-> ->]]; rewrite (idx i Hi), (idx j Hj); reflexivity.
  Qed.

  (** The couplings of the vertices of a chain *)
  Definition prod_coef (H : Z -> Z -> C) (p : ls_coupling) : C :=
    match c with
    | Leaf _ => RtoC 0
    | Node o c1 c2 _ => coef o c1 c2 (fun x => if resonance_first c then H (fst x) (snd x) else H (snd x) (fst x)) p
    end.
  Definition dec_coef (H : Z -> Z -> C) (q : ls_coupling) : C :=
    match ch_decay_node c with
    | Leaf _ => RtoC 0
    | Node o c1 c2 _ => coef o c1 c2 (fun x => if in_order c then H (fst x) (snd x) else H (snd x) (fst x)) q
    end.
  Lemma prod_expand H ps r lk : all_couplings c ps ->
    In r (helicities (p_spin (ch_resonance c))) -> In lk (helicities (p_spin (s k))) -> Z.abs (r - lk) <= p_spin (s 0) ->
    H r lk = Csum ps (fun p => prod_coef H p * RtoC (PF c p r lk))%C.
  Proof.
    intros A Hr Hk B.
    pose proof (std_parent d s D c Ic) as Ep. revert A Hr Ek Ep. unfold prod_coef, PF.
    destruct (valid_chain_nodes c (std_valid d s D c Ic)) as (s0 & R & d1 & d2 & i0 & j0 & sp & s1 & s2 & S & _ & _ & X1 & _ & X2 & X3 & _).
    rewrite X1, X2, X3. intros A Hr -> ->. destruct S as [->| ->]; cbn [resonance_first all_couplings] in *;
      destruct A as (Vx & L & Big & G).
    - pose proof (coef_expand (PSt (s 0)) (Node R d1 d2 j0) (Leaf (PSt (s k))) L Vx Big ps (fun x => H (fst x) (snd x)) (r, lk) G) as E.
      cbn [fst snd] in E. apply E. apply helicity_pairs_In. repeat split; assumption.
    - pose proof (coef_expand (PSt (s 0)) (Leaf (PSt (s k))) (Node R d1 d2 j0) L Vx Big ps (fun x => H (snd x) (fst x)) (lk, r) G) as E.
      cbn [fst snd] in E. apply E. apply helicity_pairs_In. repeat split; try assumption.
      cbn [pobj_particle]. lia.
  Qed.
  Lemma dec_expand H qs li lj : all_couplings (ch_decay_node c) qs ->
    In li (helicities (p_spin (s i))) -> In lj (helicities (p_spin (s j))) -> Z.abs (li - lj) <= p_spin (ch_resonance c) ->
    H li lj = Csum qs (fun q => dec_coef H q * RtoC (DF c q li lj))%C.
  Proof.
    intros A Hi Hj B. pose proof products_order as O. revert A B O. unfold dec_coef, DF.
    destruct (valid_chain_nodes c (std_valid d s D c Ic)) as (s0 & R & d1 & d2 & i0 & j0 & sp & s1 & s2 & _ & T1 & T2 & _ & X1 & X2 & _ & X3 & _).
    rewrite X1, X2, X3. cbn [all_couplings]. intros (Vx & L & Big & G) B O.
    destruct O as [[-> X]|[-> X]]; injection X as -> ->.
    - pose proof (coef_expand R d1 d2 L Vx Big qs (fun x => H (fst x) (snd x)) (li, lj) G) as E.
      cbn [fst snd] in E. unfold spin_of in E. rewrite T1, T2 in E. apply E. apply helicity_pairs_In. repeat split; assumption.
    - pose proof (coef_expand R d1 d2 L Vx Big qs (fun x => H (snd x) (fst x)) (lj, li) G) as E.
      cbn [fst snd] in E. unfold spin_of in E. rewrite T1, T2 in E. apply E. apply helicity_pairs_In.
      repeat split; try assumption. lia.
  Qed.
End Vertices.

(** At least one LS coupling *)
Lemma all_couplings_nonempty t cs : all_couplings t cs -> exists c, In c cs.
Proof.
  destruct t as [o|o c1 c2 x]; [intros []|]. intros (Vx & L & Big & G).
  destruct (vx_pos o c1 c2 Vx) as (PJ & Q1 & Q2). pose proof (vx_even o c1 c2 Vx) as E.
  assert (Pm := ls_couplings_perm _ _ _ L Q1 Q2 PJ E Big cs G).
  destruct cs as [|c cs]; [|exists c; left; reflexivity]. exfalso.
  apply Permutation_length in Pm. rewrite ls_count in Pm by auto. cbn [length] in Pm.
  set (J := p_spin (pobj_particle o)) in *. set (j1 := spin_of c1) in *. set (j2 := spin_of c2) in *.
  assert (I : In (j1 mod 2, j2 mod 2) (helicity_pairs J j1 j2)).
  { apply helicity_pairs_In. rewrite !helicities_range, <- !is_projection_In, !is_projection_spec.
    apply even_half in E. destruct E as [q E].
    pose proof (Z.mod_pos_bound j1 2 ltac:(lia)). pose proof (Z.mod_pos_bound j2 2 ltac:(lia)).
    pose proof (Z.div_mod j1 2 ltac:(lia)). pose proof (Z.div_mod j2 2 ltac:(lia)).
    assert (V : forall z, Z.even (z - z mod 2) = true).
    { intros z. apply Z.even_spec. exists (z / 2). pose proof (Z.div_mod z 2 ltac:(lia)). lia. }
    split; [split; [lia|apply V]|]. split; [split; [lia|apply V]|]. lia. }
  destruct (helicity_pairs J j1 j2); [destruct I|discriminate].
Qed.

(** ** Two models *)
Lemma find_label (l : list chain) c : NoDup (map (fun c => p_latex (ch_resonance c)) l) -> In c l ->
  find (fun x => String.eqb (p_latex (ch_resonance x)) (p_latex (ch_resonance c))) l = Some c.
Proof.
  induction l as [|x l IH]; [intros _ []|]. cbn [map]. intros ND. inversion_clear ND as [|? ? N N'].
  intros [->|I]; cbn [find].
  - rewrite String.eqb_refl. reflexivity.
  - destruct (String.eqb_spec (p_latex (ch_resonance x)) (p_latex (ch_resonance c))) as [Y|Y]; [|apply IH; assumption].
    exfalso. apply N. rewrite Y. apply (in_map (fun c => p_latex (ch_resonance c))). exact I.
Qed.
Definition ls_index (lab : string) (c : ls_coupling) : list ival := [IStr lab; IHel (2 * ls_L c); IHel (ls_S c)].
Section Basis.
  Variables (d d' : decay) (s : Z -> state) (ps qs : chain -> list ls_coupling).
  Hypothesis D : std_decay d s.
  Hypothesis D' : std_decay d' s.
  Hypothesis Cs : forall c, In c (d_chains d') -> all_couplings c (ps c) /\ all_couplings (ch_decay_node c) (qs c).
  Hypothesis Pm : Permutation (d_chains d)
      (flat_map (fun c => flat_map (fun p => map (fun q => with_ls p q c) (qs c)) (ps c)) (d_chains d')).
  Notation lab c := (p_latex (ch_resonance c)).

  Lemma expansion_In x : In x (d_chains d) <-> exists c p q, In c (d_chains d') /\ In p (ps c) /\ In q (qs c) /\ x = with_ls p q c.
  Proof.
    transitivity (In x (flat_map (fun c => flat_map (fun p => map (fun q => with_ls p q c) (qs c)) (ps c)) (d_chains d'))).
    { split; intros I; (eapply Permutation_in; [|exact I]); [exact Pm|apply Permutation_sym; exact Pm]. }
    rewrite in_flat_map. split.
    - intros (c & I & X). apply in_flat_map in X. destruct X as (p & Ip & X). apply in_map_iff in X. destruct X as (q & <- & Iq).
      exists c, p, q. auto.
    - intros (c & p & q & I & Ip & Iq & ->). exists c. split; [exact I|]. apply in_flat_map. exists p. split; [exact Ip|].
      apply in_map_iff. exists q. auto.
  Qed.
  Lemma expansion_ids k : In k (get_subsystem_ids d) <-> In k (get_subsystem_ids d').
  Proof.
    rewrite !get_subsystem_ids_In. split.
    - intros (x & I & E). apply expansion_In in I. destruct I as (c & p & q & I & _ & _ & ->).
      exists c. split; [exact I|]. destruct (with_ls_facts c p q (std_valid d' s D' c I)) as (_ & B & _). rewrite <- B. exact E.
    - intros (c & I & E). destruct (Cs c I) as [A B].
      destruct (all_couplings_nonempty _ _ A) as [p Ip]. destruct (all_couplings_nonempty _ _ B) as [q Iq].
      exists (with_ls p q c). split; [apply expansion_In; exists c, p, q; auto|].
      destruct (with_ls_facts c p q (std_valid d' s D' c I)) as (_ & X & _). rewrite X. exact E.
  Qed.

  (** The helicity couplings [cpl'] are those of the LS couplings [cpl]. *)
  Definition related (cpl cpl' : string -> list ival -> C) : Prop := forall c i j k, In c (d_chains d') ->
    ch_spectator c = s k -> cyclic i j k ->
    (forall r lk, In r (helicities (p_spin (ch_resonance c))) -> In lk (helicities (p_spin (s k))) -> Z.abs (r - lk) <= p_spin (s 0) ->
       cpl' (production_name true) [IStr (lab c); IHel r; IHel lk]
       = Csum (ps c) (fun p => cpl (production_name false) (ls_index (lab c) p) * RtoC (PF c p r lk))%C) /\
    (forall li lj, In li (helicities (p_spin (s i))) -> In lj (helicities (p_spin (s j))) -> Z.abs (li - lj) <= p_spin (ch_resonance c) ->
       cpl' (decay_name true) [IStr (lab c); IHel li; IHel lj]
       = Csum (qs c) (fun q => cpl (decay_name false) (ls_index (lab c) q) * RtoC (DF c q li lj))%C).

  Variables X X' : chain -> C.
  Hypothesis HX : forall c p q, In c (d_chains d') -> In p (ps c) -> In q (qs c) -> X (with_ls p q c) = X' c.

  Lemma amplitude_related sym cpl cpl' theta l i j k : related cpl cpl' -> cyclic i j k -> helicity_tuple s l ->
    dpd_amplitude false false s (d_chains d)
      (fun c r => coupling_product (Env sym cpl) false false c r (at4 l k) (at4 l i) (at4 l j)) X theta (at4 l) i j k
    = dpd_amplitude true true s (d_chains d')
      (fun c r => coupling_product (Env sym cpl') true true c r (at4 l k) (at4 l i) (at4 l j)) X' theta (at4 l) i j k.
  Proof.
    intros Rel Cy Hl. unfold dpd_amplitude. rewrite !Csum_filter, (Csum_perm _ _ _ Pm), Csum_flat_map.
    apply Csum_ext. intros c Ic. rewrite Csum_flat_map. pose proof (std_valid d' s D' c Ic) as V.
    assert (Hn : forall n, In n [0; 1; 2; 3] -> In (at4 l n) (helicities (p_spin (s n)))).
    { intros n Hn. destruct l as [[[l0 l1] l2] l3]. destruct Hl as (H0 & H1 & H2 & H3). apply In_0123 in Hn.
      destruct Hn as [->|[->|[->| ->]]]; cbn [at4]; assumption. }
    destruct (cyclic_in _ _ _ Cy) as (Hi & Hj & Hk).
    destruct (Z.eqb_spec (st_index (ch_spectator c)) k) as [E|E].
    2:{ apply Csum_zero. intros p Ip. rewrite Csum_map. apply Csum_zero. intros q Iq.
        destruct (with_ls_facts c p q V) as (_ & B & _). rewrite B.
        destruct (Z.eqb_spec (st_index (ch_spectator c)) k); [contradiction|reflexivity]. }
    assert (Ek : ch_spectator c = s k).
    { destruct (subsystem_chains d' s D' k c) as (_ & Y & _); [|exact Y]. apply filter_In. split; [exact Ic|]. apply Z.eqb_eq. exact E. }
    set (K := fun r => (RtoC (parity_sign (p_spin (s k) - at4 l k) * parity_sign (p_spin (s j) - at4 l j)) * X' c
         * RtoC (wigner_d (p_spin (ch_resonance c)) r (at4 l i - at4 l j) theta))%C).
    set (A := fun p => cpl (production_name false) (ls_index (lab c) p)).
    set (B := fun q => cpl (decay_name false) (ls_index (lab c) q)).
    transitivity (Csum (ps c) (fun p => Csum (qs c) (fun q => Csum (helicities (p_spin (ch_resonance c))) (fun r =>
      if at4 l 0 =? r - at4 l k then (K r * (A p * RtoC (PF c p r (at4 l k))) * (B q * RtoC (DF c q (at4 l i) (at4 l j))))%C else RtoC 0)))).
    - apply Csum_ext. intros p Ip. rewrite Csum_map. apply Csum_ext. intros q Iq.
      destruct (with_ls_facts c p q V) as (W1 & W2 & W3 & W4 & W5 & W6 & W7). rewrite W2, W1.
      destruct (Z.eqb_spec (st_index (ch_spectator c)) k) as [_|]; [|contradiction].
      apply Csum_ext. intros r Hr. destruct (_ =? _); [|reflexivity].
      rewrite with_ls_prod by exact V. rewrite (with_ls_dec d' s D' i j k Cy c Ic Ek). rewrite (HX c p q Ic Ip Iq).
      unfold coupling_product. rewrite W1, W6, W7. unfold K, A, B, ls_index. cbn [coupling_index e_idx]. rewrite !RtoC_mult. ring.
    - rewrite (Csum_ext _ _ (fun p => Csum (helicities (p_spin (ch_resonance c))) (fun r => Csum (qs c) (fun q => 
        if at4 l 0 =? r - at4 l k then (K r * (A p * RtoC (PF c p r (at4 l k))) * (B q * RtoC (DF c q (at4 l i) (at4 l j))))%C else RtoC 0))))
        by (intros p _; apply Csum_swap).
      rewrite Csum_swap. apply Csum_ext. intros r Hr. 
      destruct (Z.eqb_spec (at4 l 0) (r - at4 l k)) as [H0|H0].
      2:{ apply Csum_zero. intros p _. apply Csum_zero. reflexivity. }
      transitivity (K r * Csum (ps c) (fun p => A p * RtoC (PF c p r (at4 l k))) * Csum (qs c) (fun q => B q * RtoC (DF c q (at4 l i) (at4 l j))))%C.
      { set (SB := Csum (qs c) (fun q => B q * RtoC (DF c q (at4 l i) (at4 l j)))%C).
        transitivity (Csum (ps c) (fun p => (K r * (A p * RtoC (PF c p r (at4 l k)))) * SB))%C.
        - apply Csum_ext. intros p _. apply Csum_scal_l.
        - rewrite Csum_scal_r, Csum_scal_l. reflexivity. }
      destruct (Rel c i j k Ic Ek Cy) as [RP RD].
      assert (H0' : Z.abs (r - at4 l k) <= p_spin (s 0)).
      { rewrite <- H0. pose proof (Hn 0 ltac:(simpl; auto)) as Y.
        rewrite helicities_range, <- is_projection_In, is_projection_spec in Y. lia. }
      unfold A. rewrite <- (RP r (at4 l k) Hr (Hn k (or_intror Hk)) H0').
      unfold coupling_product. cbn [prod_factor dec_factor coupling_index e_idx]. rewrite Rmult_1_l, Cmult_1_r.
      destruct (Z.leb_spec (Z.abs (at4 l i - at4 l j)) (p_spin (ch_resonance c))) as [L|L].
      + unfold B. rewrite <- (RD (at4 l i) (at4 l j) (Hn i (or_intror Hi)) (Hn j (or_intror Hj)) L). unfold K. ring.
      + unfold K. rewrite wigner_d_out_r; [ring|].
        destruct (is_projection (p_spin (ch_resonance c)) (at4 l i - at4 l j)) eqn:Y; [|reflexivity].
        apply is_projection_spec in Y. lia.
  Qed.

  (** *** Related couplings exist *)
  Hypothesis Labels : NoDup (map (fun c => lab c) (d_chains d')).
  Definition chain_of (n : string) : option chain := find (fun c => String.eqb (lab c) n) (d_chains d').
  Lemma chain_of_lab c : In c (d_chains d') -> chain_of (lab c) = Some c.
  Proof. apply find_label. exact Labels. Qed.
  Definition to_hel (cpl : string -> list ival -> C) (name : string) (ix : list ival) : C :=
    match ix with
    | [IStr n; IHel x; IHel y] =>
        match chain_of n with
        | Some c =>
            if String.eqb name (production_name true)
            then Csum (ps c) (fun p => cpl (production_name false) (ls_index n p) * RtoC (PF c p x y))%C
            else Csum (qs c) (fun q => cpl (decay_name false) (ls_index n q) * RtoC (DF c q x y))%C
        | None => RtoC 0
        end
    | _ => RtoC 0
    end.
  Lemma to_hel_related cpl : related cpl (to_hel cpl).
  Proof.
    intros c i j k Ic Ek Cy. split; intros; unfold to_hel; rewrite (chain_of_lab c Ic).
    - rewrite String.eqb_refl. reflexivity.
    - change (String.eqb (decay_name true) (production_name true)) with false. reflexivity.
  Qed.
  Definition to_LS (cpl' : string -> list ival -> C) (name : string) (ix : list ival) : C :=
    match ix with
    | [IStr n; IHel x; IHel y] =>
        match chain_of n with
        | Some c =>
            if String.eqb name (production_name false)
            then prod_coef c (fun r lk => cpl' (production_name true) [IStr n; IHel r; IHel lk]) (LS (x / 2) y)
            else dec_coef c (fun li lj => cpl' (decay_name true) [IStr n; IHel li; IHel lj]) (LS (x / 2) y)
        | None => RtoC 0
        end
    | _ => RtoC 0
    end.
  Lemma to_LS_related cpl' : related (to_LS cpl') cpl'.
  Proof.
    intros c i j k Ic Ek Cy. destruct (Cs c Ic) as [CP CD]. 
    split; intros a b Ha Hb B; unfold to_LS, ls_index; rewrite (chain_of_lab c Ic).
    - rewrite String.eqb_refl.
      rewrite (prod_expand d' s D' k c Ic Ek (fun r lk => cpl' (production_name true) [IStr (lab c); IHel r; IHel lk]) (ps c) a b CP Ha Hb B).
      apply Csum_ext. intros p _. rewrite half_2. destruct p; reflexivity.
    - change (String.eqb (decay_name false) (production_name false)) with false. cbv iota.
      rewrite (dec_expand d' s D' i j k Cy c Ic Ek (fun li lj => cpl' (decay_name true) [IStr (lab c); IHel li; IHel lj]) (qs c) a b CD Ha Hb B).
      apply Csum_ext. intros p _. rewrite half_2. destruct p; reflexivity.
  Qed.
End Basis.

Lemma lineshape_env ev ev' e : lineshape e = true -> (forall x, e_sym ev x = e_sym ev' x) ->
  ceval ev (fun _ => 0) e = ceval ev' (fun _ => 0) e.
Proof. intros L E. apply lineshape_eval; auto. Qed.

Lemma c84 b b' s dyn dyn' ref cl m ref' cl' m' r :
  std_decay (b_decay b) s -> std_decay (b_decay b') s -> dynamics_of b dyn -> dynamics_of b' dyn' ->
  plain_resonances (b_decay b) ->
  b_prod_helicity b = false -> b_dec_helicity b = false -> b_prod_helicity b' = true -> b_dec_helicity b' = true ->
  b_all_subsystems b = b_all_subsystems b' ->
  formulate b ref cl false = Ok m -> formulate b' ref' cl' false = Ok m' ->
  resolve_reference (b_decay b) ref = Ok r -> resolve_reference (b_decay b') ref' = Ok r ->
  ls_expansion (b_decay b) (b_decay b') ->
  NoDup (map (fun c => p_latex (ch_resonance c)) (d_chains (b_decay b'))) ->
  (forall c p q, In c (d_chains (b_decay b')) -> In (with_ls p q c) (d_chains (b_decay b)) -> de_expr (dyn (with_ls p q c)) = de_expr (dyn' c)) ->
  (forall x, dget x (m_variables m) = dget x (m_variables m')) /\
  (forall cpl, exists cpl', forall base,
     full_value (Env base cpl) m = full_value (Env base cpl') m' /\
     forall k l, In k [1; 2; 3] -> helicity_tuple s l -> amp_value (Env base cpl) m k l = amp_value (Env base cpl') m' k l) /\
  (forall cpl', exists cpl, forall base,
     full_value (Env base cpl) m = full_value (Env base cpl') m' /\
     forall k l, In k [1; 2; 3] -> helicity_tuple s l -> amp_value (Env base cpl) m k l = amp_value (Env base cpl') m' k l).
Proof.
  intros D D' Y Y' PR E1 E2 E3 E4 Eall F F' Rf Rf' (ps & qs & Cs & Pm) Labels HX.
  pose proof (expansion_ids (b_decay b) (b_decay b') s ps qs D' Cs Pm) as Ids.
  assert (P : b_prod_helicity b = false -> plain_resonances (b_decay b)) by auto.
  assert (P' : b_prod_helicity b' = false -> plain_resonances (b_decay b')) by (rewrite E3; discriminate).
  assert (A : forall cpl cpl' base, related (b_decay b') s ps qs cpl cpl' -> forall k l, In k [1; 2; 3] -> helicity_tuple s l ->
    amp_value (Env base cpl) m k l = amp_value (Env base cpl') m' k l).
  { intros cpl cpl' base Rel k l Hk Hl. destruct (cyclic_ex k Hk) as (i & j & Cy).
    rewrite (amplitude_total b s dyn ref cl false m D Y P F l i j k (Env base cpl) Hl Cy).
    rewrite (amplitude_total b' s dyn' ref' cl' false m' D' Y' P' F' l i j k (Env base cpl') Hl Cy).
    rewrite E1, E2, E3, E4. cbv iota.
    refine (amplitude_related (b_decay b) (b_decay b') s ps qs D' Pm _ _ _ base cpl cpl' _ l i j k Rel Cy Hl).
    intros c p q Ic Ip Iq.
    assert (I : In (with_ls p q c) (d_chains (b_decay b))).
    { apply (expansion_In (b_decay b) (b_decay b') ps qs Pm). exists c, p, q. auto. }
    rewrite (HX c p q Ic I). apply lineshape_env; [|reflexivity]. apply (Y' c Ic). }
  assert (T : forall cpl cpl', related (b_decay b') s ps qs cpl cpl' -> forall base,
     full_value (Env base cpl) m = full_value (Env base cpl') m' /\
     forall k l, In k [1; 2; 3] -> helicity_tuple s l -> amp_value (Env base cpl) m k l = amp_value (Env base cpl') m' k l).
  { intros cpl cpl' Rel base. split; [|apply A; exact Rel].
    exact (intensity_sub b b' s dyn' false false ref ref' cl cl' m m' r D D' Y' P' F F' Rf Rf' (fun k => proj2 (Ids k))
      (Env base cpl) (Env base cpl') (fun x => eq_refl) (A cpl cpl' base Rel)). }
  split; [|split].
  - intros x. destruct (dget x (m_variables m')) as [e|] eqn:G.
    + exact (sub_variables b b' s dyn dyn' false false ref ref' cl cl' m m' r D D' Y Y' P P' F F' Rf Rf' (fun k => proj2 (Ids k)) x e (eq_sym Eall) G).
    + destruct (dget x (m_variables m)) as [e|] eqn:G'; [|reflexivity].
      pose proof (sub_variables b' b s dyn' dyn false false ref' ref cl' cl m' m r D' D Y' Y P' P F' F Rf' Rf (fun k => proj1 (Ids k)) x e Eall G') as Z.
      congruence.
  - intros cpl. exists (to_hel (b_decay b') ps qs cpl). apply T. apply to_hel_related. exact Labels.
  - intros cpl'. exists (to_LS (b_decay b') cpl'). apply T. apply to_LS_related; assumption.
Qed.
