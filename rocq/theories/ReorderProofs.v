(** Proofs about the order of the decay products in the nodes of a chain (C108, C109) *)
From Coq Require Import String ZArith QArith Qcanon List Bool Reals Lia Lra Permutation.
From Coquelicot Require Import Complex.
From Verif Require Import Prelude Spin Decay DecayFacts Expr Angles Sums Wigner CG CGFacts CExpr SpecKin SpecDPD Builder
  BuilderFacts ModelFacts ChainProofs SpecLS LSBasis LSProofs ParityProofs InterferenceFacts SpecRelabel RelabelFacts SpecReorder ReorderFacts RelabelProofs.
Import ListNotations.
Local Open Scope string_scope.
Local Open Scope Z_scope.
Local Open Scope list_scope.

Lemma scaled_aligned s ks A A' zeta l e : (forall k l', In k ks -> helicity_tuple s l' -> A' k l' = (RtoC e * A k l')%C) ->
  aligned_amplitude s ks A' zeta l = (RtoC e * aligned_amplitude s ks A zeta l)%C.
Proof.
  intros E. unfold aligned_amplitude. rewrite <- Csum_scal_l. apply Csum_ext. intros l' Hl'. apply tuples_In in Hl'.
  rewrite <- Csum_scal_l. apply Csum_ext. intros k Hk. rewrite E by auto. ring.
Qed.

Lemma c108 b b' s dyn dyn' pr de uc ref cl m ref' cl' m' r ev ev' e :
  std_decay (b_decay b) s -> std_decay (b_decay b') s -> dynamics_of b dyn -> dynamics_of b' dyn' ->
  (b_prod_helicity b = false -> plain_resonances (b_decay b)) ->
  b_prod_helicity b' = b_prod_helicity b -> b_dec_helicity b' = b_dec_helicity b ->
  formulate b ref cl uc = Ok m -> formulate b' ref' cl' uc = Ok m' ->
  resolve_reference (b_decay b) ref = Ok r -> resolve_reference (b_decay b') ref' = Ok r ->
  Permutation (d_chains (b_decay b')) (map (reorder pr de) (d_chains (b_decay b))) ->
  (forall x, e_sym ev' x = e_sym ev x) ->
  (forall c, In c (d_chains (b_decay b)) ->
    ceval ev' (fun _ => 0) (de_expr (dyn' (reorder pr de c))) = ceval ev (fun _ => 0) (de_expr (dyn c))) ->
  (e = 1 \/ e = -1)%R ->
  (forall c h l i j k, In c (d_chains (b_decay b)) -> ch_spectator c = s k -> cyclic i j k -> helicity_tuple s l ->
    (if uc then coefficient else coupling_product) ev' (b_prod_helicity b) (b_dec_helicity b) c h (at4 l k) (at4 l i) (at4 l j)
    = (RtoC (e * order_sign (b_prod_helicity b) (b_dec_helicity b) pr de c) *
       (if uc then coefficient else coupling_product) ev (b_prod_helicity b) (b_dec_helicity b) c h (at4 l k) (at4 l i) (at4 l j))%C) ->
  (forall k l, In k [1; 2; 3] -> helicity_tuple s l -> amp_value ev' m' k l = (RtoC e * amp_value ev m k l)%C) /\
  full_value ev' m' = full_value ev m.
Proof.
  intros D D' Y Y' P Ep Ed F F' Rf Rf' Pm Es Ex He Hc.
  assert (P' : b_prod_helicity b' = false -> plain_resonances (b_decay b')).
  { rewrite Ep. intros X c Hc'. apply (Permutation_in _ Pm) in Hc'. apply in_map_iff in Hc'. destruct Hc' as (c0 & <- & Hc0).
    destruct (P X c0 Hc0) as (R & ER). exists R. apply reorder_plain; [|exact ER].
    apply valid_two_nodes, (std_valid _ _ D c0 Hc0). }
  assert (A : forall k l, In k [1; 2; 3] -> helicity_tuple s l -> amp_value ev' m' k l = (RtoC e * amp_value ev m k l)%C).
  { intros k l Hk Hl. destruct (cyclic_ex k Hk) as (i & j & Cy).
    rewrite (amplitude_total b s dyn ref cl uc m D Y P F l i j k ev Hl Cy).
    rewrite (amplitude_total b' s dyn' ref' cl' uc m' D' Y' P' F' l i j k ev' Hl Cy).
    rewrite Ep, Ed, Es. unfold dpd_amplitude. rewrite <- Csum_scal_l, !Csum_filter.
    rewrite (Csum_perm _ _ _ Pm), Csum_map. apply Csum_ext. intros c Hin.
    pose proof (valid_two_nodes c (std_valid _ _ D c Hin)) as V.
    destruct (reorder_accessors pr de c V) as (A1 & A2 & A3 & A4 & A5 & A6 & A7).
    rewrite A2, A3. destruct (st_index (ch_spectator c) =? k) eqn:Ek; [|ring].
    assert (Sk : ch_spectator c = s k).
    { refine (proj1 (proj2 (subsystem_chains _ s D k c _))). apply filter_In. split; [exact Hin|exact Ek]. }
    rewrite <- Csum_scal_l. apply Csum_ext. intros h _. destruct (at4 l 0 =? h - at4 l k); [|ring].
    rewrite reorder_coupling by exact V. rewrite (Hc c h l i j k Hin Sk Cy Hl), (Ex c Hin).
    rewrite reorder_prod, reorder_dec by exact V.
    pose proof (order_sign_sq pr de c (b_prod_helicity b) (b_dec_helicity b)) as Q.
    fold (order_sign (b_prod_helicity b) (b_dec_helicity b) pr de c).
    set (x := (if pr c && negb (b_prod_helicity b) then coupling_sign (p_spin (ch_parent c)) (ch_incoming_ls c) else 1)%R).
    set (y := (if de c && negb (b_dec_helicity b) then coupling_sign (p_spin (ch_resonance c)) (ch_outgoing_ls c) else 1)%R).
    change (order_sign (b_prod_helicity b) (b_dec_helicity b) pr de c) with (x * y)%R in *.
    set (pf := prod_factor (b_prod_helicity b) c h (at4 l k)). set (df := dec_factor (b_dec_helicity b) c (at4 l)).
    replace (x * pf * (y * df))%R with ((x * y) * (pf * df))%R by ring.
    rewrite (RtoC_mult (x * y) (pf * df)), (RtoC_mult e (x * y)).
    assert (Q' : (RtoC (x * y) * RtoC (x * y))%C = RtoC 1) by (rewrite <- RtoC_mult, Q; reflexivity).
    set (q := RtoC (x * y)) in *.
    match goal with |- (?u * ?v * ?w * (_ * _ * ?z) * (_ * ?t))%C = _ =>
      transitivity ((q * q) * (RtoC e * (u * v * w * z * t)))%C; [ring|] end.
    rewrite Q'. ring. }
  split; [exact A|].
  rewrite (intensity_all b s dyn ref cl uc m r D Y P F Rf ev), (intensity_all b' s dyn' ref' cl' uc m' r D' Y' P' F' Rf' ev').
  f_equal. unfold intensity_value. apply Rsum_ext. intros l _. f_equal.
  transitivity (Cmod (RtoC e * aligned_amplitude s [1; 2; 3] (amp_value ev m) (fun i k => Re (e_sym ev (zeta_symbol i k r))) l)%C).
  - f_equal. rewrite <- (scaled_aligned s _ (amp_value ev m) (amp_value ev' m') _ l e A).
    unfold aligned_amplitude. apply Csum_ext. intros l' _. apply Csum_ext. intros k _. unfold alignment. rewrite !Es. reflexivity.
  - rewrite Cmod_mult, Cmod_R. destruct He as [-> | ->].
    + rewrite Rabs_R1. ring.
    + rewrite Rabs_left by lra. ring.
Qed.

Lemma c108_helicity b b' s dyn dyn' pr de uc ref cl m ref' cl' m' r ev :
  std_decay (b_decay b) s -> std_decay (b_decay b') s -> dynamics_of b dyn -> dynamics_of b' dyn' ->
  b_prod_helicity b = true -> b_dec_helicity b = true -> b_prod_helicity b' = true -> b_dec_helicity b' = true ->
  formulate b ref cl uc = Ok m -> formulate b' ref' cl' uc = Ok m' ->
  resolve_reference (b_decay b) ref = Ok r -> resolve_reference (b_decay b') ref' = Ok r ->
  Permutation (d_chains (b_decay b')) (map (reorder pr de) (d_chains (b_decay b))) ->
  (forall c, In c (d_chains (b_decay b)) ->
    ceval ev (fun _ => 0) (de_expr (dyn' (reorder pr de c))) = ceval ev (fun _ => 0) (de_expr (dyn c))) ->
  (forall k l, In k [1; 2; 3] -> helicity_tuple s l -> amp_value ev m' k l = amp_value ev m k l) /\
  full_value ev m' = full_value ev m.
Proof.
  intros D D' Y Y' Hp Hd Hp' Hd' F F' Rf Rf' Pm Ex.
  destruct (c108 b b' s dyn dyn' pr de uc ref cl m ref' cl' m' r ev ev 1) as [A I]; try assumption.
  - rewrite Hp. discriminate.
  - congruence.
  - congruence.
  - reflexivity.
  - left. reflexivity.
  - intros c h l i j k Hc _ _ _. rewrite Hp, Hd. unfold order_sign. cbn [negb]. rewrite !andb_false_r, !Rmult_1_l, Cmult_1_l. reflexivity.
  - split; [|exact I]. intros k l Hk Hl. rewrite (A k l Hk Hl). apply Cmult_1_l.
Qed.

Lemma reorder_relabel p pr de c : two_nodes c ->
  relabel p (reorder pr de c) = reorder (fun _ => pr c) (fun _ => de c) (relabel p c).
Proof.
  intros (s0 & c1 & c2 & i & R & d1 & d2 & j & sp & s1 & s2 & -> & S & E1 & E2).
  unfold reorder. destruct S as [[-> ->]|[-> ->]], (pr _), (de _); reflexivity.
Qed.
Lemma order_sign_relabel p pr de ph dh c : valid_chain c ->
  order_sign ph dh (fun _ => pr c) (fun _ => de c) (relabel p c) = order_sign ph dh pr de c.
Proof.
  intros V. destruct (relabel_chain p c V) as (E1 & E2 & E3 & E4 & E5 & E6 & E7). unfold order_sign. rewrite E1, E2, E5, E6. reflexivity.
Qed.

Lemma c109 b b' p s s' dyn dyn' uc ref cl m ref' cl' m' r base base' cpl cpl' pr de e :
  std_decay (b_decay b) s -> std_decay (b_decay b') s' -> dynamics_of b dyn -> dynamics_of b' dyn' ->
  (b_prod_helicity b = false -> plain_resonances (b_decay b)) ->
  b_prod_helicity b' = b_prod_helicity b -> b_dec_helicity b' = b_dec_helicity b ->
  formulate b ref cl uc = Ok m -> formulate b' ref' cl' uc = Ok m' ->
  resolve_reference (b_decay b) ref = Ok r -> resolve_reference (b_decay b') ref' = Ok (p r) ->
  relabelling p -> exchanges p -> relabelled_up_to_order p pr de (b_decay b) s (b_decay b') s' -> relabelled_point p base base' ->
  physical (fun x => Re (base x)) -> nonsingular (fun x => Re (base x)) ->
  (forall c, In c (d_chains (b_decay b)) ->
    ceval (Env base' cpl') (fun _ => 0) (de_expr (dyn' (relabel p (reorder pr de c))))
    = ceval (Env base cpl) (fun _ => 0) (de_expr (dyn c))) ->
  (e = 1 \/ e = -1)%R ->
  (forall c h l i j k, In c (d_chains (b_decay b)) -> ch_spectator c = s k -> cyclic i j k -> helicity_tuple s l ->
    (if uc then coefficient else coupling_product) (Env base' cpl') (b_prod_helicity b) (b_dec_helicity b)
      (relabel p (reorder pr de c)) h (at4 l k) (at4 l j) (at4 l i)
    = (RtoC (e * exchange_sign c * order_sign (b_prod_helicity b) (b_dec_helicity b) pr de c) *
       (if uc then coefficient else coupling_product) (Env base cpl) (b_prod_helicity b) (b_dec_helicity b)
         c h (at4 l k) (at4 l i) (at4 l j))%C) ->
  (forall k l l', In k [1; 2; 3] -> helicity_tuple s l -> relabelled_helicities p l l' ->
     amp_value (at_point (m_variables m') base' cpl') m' (p k) l'
     = (RtoC (e * orientation_sign s l) * amp_value (at_point (m_variables m) base cpl) m k l)%C) /\
  full_value (at_point (m_variables m') base' cpl') m' = full_value (at_point (m_variables m) base cpl) m.
Proof.
  intros D D' Y Y' PR HP HD F F' R1 R2 P O [RD RC] RP Ph NS DV Ee CV.
  assert (E : forall c, In c (d_chains (b_decay b)) ->
    relabel p (reorder pr de c) = reorder (fun _ => pr c) (fun _ => de c) (relabel p c)).
  { intros c Hc. apply reorder_relabel, valid_two_nodes, (std_valid _ _ D c Hc). }
  apply (relabelled_models b b' p s s' dyn dyn' uc true ref ref' cl cl' m m' r base base' cpl cpl' e pr de
    D D' Y Y' PR HP HD F F' R1 R2 P O); try assumption.
  - split; [exact RD|]. rewrite (map_ext_in _ _ _ E) in RC. exact RC.
  - intros _. split; assumption.
  - intros c Hc. rewrite <- (E c Hc). exact (DV c Hc).
  - intros c h l i j k Hc Sk Cy Hl. rewrite <- (E c Hc), (order_sign_relabel p pr de _ _ c (std_valid _ _ D c Hc)).
    exact (CV c h l i j k Hc Sk Cy Hl).
Qed.

Lemma c109_identical b p s dyn uc ref cl m r base base' cpl pr de e :
  std_decay (b_decay b) s -> dynamics_of b dyn ->
  (b_prod_helicity b = false -> plain_resonances (b_decay b)) ->
  formulate b ref cl uc = Ok m -> resolve_reference (b_decay b) ref = Ok r -> p r = r ->
  relabelling p -> exchanges p -> relabelled_up_to_order p pr de (b_decay b) s (b_decay b) s -> relabelled_point p base base' ->
  physical (fun x => Re (base x)) -> nonsingular (fun x => Re (base x)) ->
  (forall c, In c (d_chains (b_decay b)) ->
    ceval (Env base' cpl) (fun _ => 0) (de_expr (dyn (relabel p (reorder pr de c))))
    = ceval (Env base cpl) (fun _ => 0) (de_expr (dyn c))) ->
  (b_dec_helicity b = false \/ forall i, In i [1; 2; 3] -> p_spin (s i) = 0) ->
  (forall c, In c (d_chains (b_decay b)) ->
    (exchange_sign c * order_sign (b_prod_helicity b) (b_dec_helicity b) pr de c = e)%R) ->
  (forall k l l', In k [1; 2; 3] -> helicity_tuple s l -> relabelled_helicities p l l' ->
     amp_value (at_point (m_variables m) base' cpl) m (p k) l'
     = (RtoC (e * orientation_sign s l) * amp_value (at_point (m_variables m) base cpl) m k l)%C) /\
  full_value (at_point (m_variables m) base' cpl) m = full_value (at_point (m_variables m) base cpl) m.
Proof.
  intros D Y PR F R1 Er P O RD RP Ph NS DV S X.
  assert (EX : forall c, ((exchange_sign c * order_sign (b_prod_helicity b) (b_dec_helicity b) pr de c)
    * (exchange_sign c * order_sign (b_prod_helicity b) (b_dec_helicity b) pr de c) = 1)%R).
  { intros c. pose proof (LSProofs.parity_sign_sq (p_spin (ch_parent c) + p_spin (ch_resonance c) + p_spin (ch_spectator c))) as A.
    fold (exchange_sign c) in A. pose proof (order_sign_sq pr de c (b_prod_helicity b) (b_dec_helicity b)) as B.
    set (x := exchange_sign c) in *. set (y := order_sign _ _ _ _ _) in *.
    transitivity ((x * x) * (y * y))%R; [ring|]. rewrite A, B. ring. }
  assert (CV : forall e', (forall c, In c (d_chains (b_decay b)) ->
      (exchange_sign c * order_sign (b_prod_helicity b) (b_dec_helicity b) pr de c = e')%R) -> (e' = 1 \/ e' = -1)%R ->
    (forall k l l', In k [1; 2; 3] -> helicity_tuple s l -> relabelled_helicities p l l' ->
     amp_value (at_point (m_variables m) base' cpl) m (p k) l'
     = (RtoC (e' * orientation_sign s l) * amp_value (at_point (m_variables m) base cpl) m k l)%C) /\
    full_value (at_point (m_variables m) base' cpl) m = full_value (at_point (m_variables m) base cpl) m).
  { intros e' Xe Ee.
    apply (c109 b b p s s dyn dyn uc ref cl m ref cl m r base base' cpl cpl pr de e' D D Y Y PR eq_refl eq_refl F F R1);
      try assumption; [rewrite Er; exact R1|].
    intros c h l i j k Hc _ C Hl. pose proof (std_valid _ _ D c Hc) as V. pose proof (valid_two_nodes c V) as V2.
    rewrite (reorder_relabel p pr de c V2), (reorder_coupling _ _ (relabel p c) (relabel_two_nodes p c V2)).
    rewrite (coupling_relabelled uc base) by exact V.
    rewrite Rmult_assoc, Xe by exact Hc. replace (e' * e')%R with 1%R by (destruct Ee as [-> | ->]; ring). rewrite Cmult_1_l.
    destruct (cyclic_in _ _ _ C) as (Ii & Ij & _).
    destruct S as [S|S].
    - rewrite S. destruct uc; unfold coefficient, coupling_product, coupling_index; reflexivity.
    - assert (Z0 : forall n, In n [1; 2; 3] -> at4 l n = 0).
      { intros n Hn. assert (T : In (at4 l n) (helicities (p_spin (s n)))).
        { destruct l as [[[l0 l1] l2] l3]. destruct Hl as (A0 & A1 & A2 & A3). destruct Hn as [<-|[<-|[<-|[]]]]; assumption. }
        rewrite (S n Hn) in T. destruct T as [<-|[]]. reflexivity. }
      rewrite (Z0 i Ii), (Z0 j Ij). reflexivity. }
  destruct (d_chains (b_decay b)) as [|c0 cs] eqn:Ec.
  { destruct (CV 1%R ltac:(intros c []) (or_introl eq_refl)) as [A I]. split; [|exact I].
    intros k l l' Hk Hl Hl'. rewrite (A k l l' Hk Hl Hl'). destruct (cyclic_ex k Hk) as (i & j & C).
    rewrite (amplitude_total b s dyn ref cl uc m D Y PR F l i j k _ Hl C). unfold dpd_amplitude. rewrite Ec. cbn [filter Csum]. ring. }
  apply CV; [exact X|]. assert (Q : (e * e = 1)%R) by (rewrite <- (X c0 (or_introl eq_refl)); apply EX).
  destruct (Rmult_integral (e - 1) (e + 1) ltac:(rewrite <- Rminus_diag_eq with (1 := Q); ring)) as [G|G]; [left|right]; lra.
Qed.
