(** Facts about the amplitude builder, for decays with states 0..3. *)
From Coq Require Import String ZArith QArith Qcanon Qreals List Bool Reals Lia Lra Permutation Sorted.
From Coquelicot Require Import Complex.
From Verif Require Import Prelude Spin Decay Expr Angles Sums Wigner CG CExpr SpecDPD Builder
  SpinFacts DecayFacts CExprFacts.
Import ListNotations.
Local Open Scope string_scope.
Local Open Scope Z_scope.
Local Open Scope list_scope.

Lemma bind_ok {A B} (x : res A) (f : A -> res B) b : bind x f = Ok b -> exists a, x = Ok a /\ f a = Ok b.
Proof. destruct x; simpl; [eauto|discriminate]. Qed.
Ltac inv_bind H :=
  let a := fresh "v" in let E := fresh "E" in
  apply bind_ok in H; destruct H as (a & E & H).

Ltac ok_inj F :=
  match type of F with Ok ?x = Ok ?y =>
    let X := fresh "X" in assert (X : x = y) by congruence; clear F; rename X into F end.

Lemma In_0123 i : In i [0; 1; 2; 3] <-> i = 0 \/ i = 1 \/ i = 2 \/ i = 3.
Proof. simpl. intuition. Qed.
Lemma In_123 i : In i [1; 2; 3] <-> i = 1 \/ i = 2 \/ i = 3.
Proof. simpl. intuition. Qed.

Lemma comparable_Z (l : list Z) : comparable l.
Proof. intros a b _ _. exists (Z.compare a b). reflexivity. Qed.
Lemma sorted_Z (l : list Z) : exists r, sorted l = Ok r /\ Permutation l r.
Proof.
  destruct (sorted_ok l (comparable_Z l)) as [r Hr]. exists r. split; auto. apply sorted_perm; auto.
Qed.

Section Std.
  Variables (d : decay) (s : Z -> state).
  Hypothesis (D : std_decay d s).

  Lemma std_keys : Permutation (dkeys (d_states d)) [0; 1; 2; 3].
  Proof. exact (Permutation_map fst (sd_states _ _ D)). Qed.
  Lemma std_keys_NoDup : NoDup (dkeys (d_states d)).
  Proof.
    eapply Permutation_NoDup; [symmetry; apply std_keys|].
    repeat constructor; simpl; intuition discriminate.
  Qed.
  Lemma std_get i : In i [0; 1; 2; 3] -> dget i (d_states d) = Some (s i).
  Proof.
    intros Hi. apply In_dget; [apply std_keys_NoDup|].
    eapply Permutation_in; [symmetry; apply (sd_states _ _ D)|].
    apply In_0123 in Hi. simpl. intuition (subst; auto).
  Qed.
  Lemma std_sorted_keys : sorted (dkeys (d_states d)) = Ok [0; 1; 2; 3].
  Proof.
    destruct (sorted_Z (dkeys (d_states d))) as (r & E & P). rewrite E. f_equal.
    assert (E' : sorted [0; 1; 2; 3] = Ok [0; 1; 2; 3]) by reflexivity.
    eapply sorted_unique; eauto. apply std_keys.
  Qed.
  Lemma std_values x : In x (dvalues (d_states d)) <-> x = s 0 \/ x = s 1 \/ x = s 2 \/ x = s 3.
  Proof.
    pose proof (Permutation_map snd (sd_states _ _ D)) as P.
    change (In x (map snd (d_states d)) <-> x = s 0 \/ x = s 1 \/ x = s 2 \/ x = s 3). split.
    - intros H. eapply Permutation_in in H; [|exact P]. simpl in H. intuition.
    - intros H. eapply Permutation_in; [symmetry; exact P|]. simpl. intuition.
  Qed.
  Lemma std_index0 : st_index (s 0) = 0. Proof. apply (sd_index _ _ D). simpl; auto. Qed.
  Lemma std_index1 : st_index (s 1) = 1. Proof. apply (sd_index _ _ D). simpl; auto. Qed.
  Lemma std_index2 : st_index (s 2) = 2. Proof. apply (sd_index _ _ D). simpl; auto. Qed.
  Lemma std_index3 : st_index (s 3) = 3. Proof. apply (sd_index _ _ D). simpl; auto. Qed.

  Lemma std_final i : In i [1; 2; 3] -> dget i (final_states d) = Some (s i).
  Proof.
    intros Hi.
    assert (Ii : st_index (s i) = i) by (apply (sd_index _ _ D); simpl in *; intuition).
    rewrite <- Ii at 1. apply last_with_index_dget.
    split; [apply In_123 in Hi; lia|].
    assert (H : In (s i) (dvalues (d_states d))).
    { apply std_values. apply In_123 in Hi. intuition (subst; auto). }
    destruct (in_split _ _ H) as (l1 & l2 & E). exists l1, l2. split; auto.
    intros s' Hs' Eq.
    assert (ND : NoDup (map st_index (dvalues (d_states d)))).
    { eapply Permutation_NoDup.
      - symmetry. apply Permutation_map. apply (Permutation_map snd). apply (sd_states _ _ D).
      - simpl. rewrite std_index0, std_index1, std_index2, std_index3.
        repeat constructor; simpl; intuition discriminate. }
    rewrite E in ND. rewrite map_app in ND. simpl in ND. apply NoDup_remove_2 in ND.
    apply ND. apply in_or_app. right. rewrite <- Eq. apply in_map. exact Hs'.
  Qed.
  Lemma std_initial : initial_state_r d = Ok (s 0).
  Proof. apply dgetitem_ok. apply std_get. simpl; auto. Qed.

  (** The chains *)
  Lemma std_chain_state c x : In c (d_chains d) ->
    In x [ch_spectator c; fst (ch_decay_products c); snd (ch_decay_products c)] ->
    In (st_index x) [1; 2; 3] /\ x = s (st_index x).
  Proof.
    intros Hc Hx. destruct (valid_decay_spec d (sd_valid _ _ D)) as (s0 & _ & H).
    destruct (H c Hc) as (_ & _ & H2). pose proof (proj1 (H2 x) Hx) as (N & l1 & l2 & E & _).
    assert (In x (dvalues (d_states d))) by (rewrite E; apply in_elt).
    apply std_values in H0.
    destruct H0 as [->|[->|[->| ->]]].
    - rewrite std_index0 in N. lia.
    - rewrite std_index1. simpl. auto.
    - rewrite std_index2. simpl. auto.
    - rewrite std_index3. simpl. auto.
  Qed.
  Lemma std_parent c : In c (d_chains d) -> ch_parent c = s 0.
  Proof.
    intros Hc. destruct (valid_decay_spec d (sd_valid _ _ D)) as (s0 & E & H).
    destruct (H c Hc) as (_ & -> & _). rewrite std_get in E by (simpl; auto). congruence.
  Qed.
  Lemma std_valid c : In c (d_chains d) -> valid_chain c.
  Proof.
    intros Hc. destruct (valid_decay_spec d (sd_valid _ _ D)) as (s0 & E & H). apply (H c Hc).
  Qed.

  Lemma subsystem_chains k c : In c (filter (fun c => st_index (ch_spectator c) =? k) (d_chains d)) ->
    In c (d_chains d) /\ ch_spectator c = s k /\ In k [1; 2; 3].
  Proof.
    rewrite filter_In, Z.eqb_eq. intros [Hc <-].
    destruct (std_chain_state c (ch_spectator c) Hc) as [A B]; simpl; auto.
  Qed.
  (** The decay products are the other two states, in one of the two orders. *)
  Lemma std_products k i j c : In c (d_chains d) -> ch_spectator c = s k -> cyclic i j k ->
    ch_decay_products c = (s i, s j) \/ ch_decay_products c = (s j, s i).
  Proof.
    intros Hc Hk Cy.
    destruct (std_chain_state c (fst (ch_decay_products c)) Hc) as [A1 B1]; [simpl; auto|].
    destruct (std_chain_state c (snd (ch_decay_products c)) Hc) as [A2 B2]; [simpl; auto|].
    destruct (valid_chain_accessors c (std_valid c Hc))
      as (s0 & n & sp & s1 & s2 & _ & _ & _ & _ & _ & Esp & _ & Edp & _ & _ & ND).
    rewrite Edp in *. simpl fst in *. simpl snd in *. rewrite <- Esp, Hk in ND.
    inversion ND as [|? ? _ ND1]; subst. inversion ND1 as [|? ? N1 ND2]; subst.
    inversion ND2 as [|? ? N2 _]; subst. simpl in N1, N2.
    assert (In k [1; 2; 3]) as Kin
      by (destruct Cy as [C|[C|[C|[]]]]; inversion C; simpl; auto).
    assert (Ik : st_index (s k) = k) by (apply (sd_index _ _ D); simpl in *; intuition).
    rewrite Ik in *. rewrite B1, B2. clear B1 B2.
    apply In_123 in A1, A2.
    destruct Cy as [C|[C|[C|[]]]]; inversion C; subst i j k; clear C;
      destruct A1 as [A1|[A1|A1]]; destruct A2 as [A2|[A2|A2]]; rewrite A1, A2 in *;
      try (exfalso; intuition congruence); auto.
  Qed.
End Std.

(** ** Angles and names of a subsystem *)
Lemma product_ids_cyclic k i j : get_decay_product_ids k = Ok (i, j) <-> cyclic i j k.
Proof.
  unfold get_decay_product_ids, cyclic. split.
  - destruct (Z.eqb_spec k 1) as [->|_]; [intros E; inversion E; simpl; auto|].
    destruct (Z.eqb_spec k 2) as [->|_]; [intros E; inversion E; simpl; auto|].
    destruct (Z.eqb_spec k 3) as [->|_]; [intros E; inversion E; simpl; auto|discriminate].
  - intros [C|[C|[C|[]]]]; inversion C; reflexivity.
Qed.
Lemma cyclic_ex k : In k [1; 2; 3] -> exists i j, cyclic i j k.
Proof.
  rewrite In_123. unfold cyclic. intros [->|[->| ->]].
  - exists 2, 3; simpl; auto.
  - exists 3, 1; simpl; auto.
  - exists 1, 2; simpl; auto.
Qed.
Lemma cyclic_in i j k : cyclic i j k -> In i [1; 2; 3] /\ In j [1; 2; 3] /\ In k [1; 2; 3].
Proof. intros [C|[C|[C|[]]]]; inversion C; simpl; intuition. Qed.
Lemma cyclic_fun i j i' j' k : cyclic i j k -> cyclic i' j' k -> i = i' /\ j = j'.
Proof. rewrite <- !product_ids_cyclic. intros -> E. inversion E; auto. Qed.
Lemma amp_base_name k : In k [1; 2; 3] -> amp_base k = Ok (amp_name k).
Proof. rewrite In_123. intros [->|[->| ->]]; reflexivity. Qed.
Lemma amp_base_inv k a : amp_base k = Ok a -> In k [1; 2; 3] /\ a = amp_name k.
Proof.
  intros H. apply dgetitem_ok, dget_Some_In in H.
  destruct H as [H|[H|[H|[]]]]; inversion H; subst; simpl; auto.
Qed.
Lemma amp_name_inj k k' : In k [1; 2; 3] -> In k' [1; 2; 3] -> amp_name k = amp_name k' -> k = k'.
Proof.
  rewrite !In_123. intros [->|[->| ->]] [->|[->| ->]] E; auto; vm_compute in E; discriminate.
Qed.
Lemma scattering_symbol i j k : cyclic i j k -> exists e, formulate_scattering_angle i j = Ok (theta_name i j, e).
Proof. intros [C|[C|[C|[]]]]; inversion C; eexists; reflexivity. Qed.
Lemma lam4_at4 l i : In i [0; 1; 2; 3] -> lam4 l i = at4 l i.
Proof.
  destruct l as [[[l0 l1] l2] l3]. rewrite In_0123. intros [->|[->|[->| ->]]]; reflexivity.
Qed.

(** ** Values of scaling factors and Clebsch-Gordan factors *)
Definition scal_value (ev : env) (b : builder) (use_coefficients : bool) (c : chain) (r lk li lj : Z) : C :=
  if use_coefficients
  then coefficient ev (b_prod_helicity b) (b_dec_helicity b) c r lk li lj
  else coupling_product ev (b_prod_helicity b) (b_dec_helicity b) c r lk li lj.

Lemma scaling_value ev h b uc c lR lk li lj s :
  create_scaling_factors c (b_prod_helicity b) lR lk (b_dec_helicity b) li lj uc = Ok s ->
  ceval ev h (scaling_product s) = scal_value ev b uc c (heval h lR) (heval h lk) (heval h li) (heval h lj)
  /\ (b_prod_helicity b = false -> ch_incoming_ls c <> None)
  /\ (b_dec_helicity b = false -> ch_outgoing_ls c <> None).
Proof.
  unfold create_scaling_factors, create_coupling_symbol, scal_value, coupling_product, coefficient,
    coupling_index.
  destruct (b_prod_helicity b), (b_dec_helicity b), uc,
    (ch_incoming_ls c) as [[L1 S1]|], (ch_outgoing_ls c) as [[L2 S2]|];
    cbn -[Z.mul]; try discriminate; intros E; inversion E; subst;
    (split; [reflexivity|split; congruence]).
Qed.
Lemma scaling_total c ph dh lR lk li lj uc :
  (ph = false -> ch_incoming_ls c <> None) -> (dh = false -> ch_outgoing_ls c <> None) ->
  exists s, create_scaling_factors c ph lR lk dh li lj uc = Ok s.
Proof.
  unfold create_scaling_factors, create_coupling_symbol.
  destruct ph, dh, uc, (ch_incoming_ls c), (ch_outgoing_ls c); simpl; intros A B;
    try (exfalso; intuition congruence); eauto.
Qed.

Lemma cg_zero_j3 j1 m1 j2 m2 j3 m3 : j3 < 0 -> cg j1 m1 j2 m2 j3 m3 = 0%R.
Proof.
  intros H. unfold cg. destruct (cg_couples j1 m1 j2 m2 j3 m3) eqn:E; auto. exfalso.
  unfold cg_couples, is_projection in E. rewrite !andb_true_iff, !Z.leb_le in E. lia.
Qed.
Lemma cg_zero_j1 j1 m1 j2 m2 j3 m3 : j1 < 0 -> cg j1 m1 j2 m2 j3 m3 = 0%R.
Proof.
  intros H. unfold cg. destruct (cg_couples j1 m1 j2 m2 j3 m3) eqn:E; auto. exfalso.
  unfold cg_couples, is_projection in E. rewrite !andb_true_iff, !Z.leb_le in E. lia.
Qed.
Lemma cg_factor_value ev h parent c1 c2 ls hel h1 h2 e :
  dget (to_particle c1) hel = Some h1 -> dget (to_particle c2) hel = Some h2 ->
  formulate_clebsch_gordan_factors (Node parent c1 c2 (Some ls)) hel = Ok e ->
  ceval ev h e = RtoC (ls_factor (p_spin (pobj_particle parent)) ls
    (p_spin (pobj_particle (to_particle c1))) (heval h h1)
    (p_spin (pobj_particle (to_particle c2))) (heval h h2)).
Proof.
  intros G1 G2 F. unfold formulate_clebsch_gordan_factors in F.
  rewrite (proj2 (dgetitem_ok _ _ _) G1), (proj2 (dgetitem_ok _ _ _) G2) in F. cbn [bind] in F.
  ok_inj F. rewrite <- F. cbn [ceval heval].
  set (j := p_spin (pobj_particle parent)). unfold ls_factor.
  destruct (Z_lt_le_dec j 0) as [Hj|Hj].
  { rewrite !(cg_zero_j3 _ _ _ _ j) by auto. rewrite Rmult_0_r, Rmult_0_l, Cmult_0_r, Cmult_0_l. reflexivity. }
  destruct (Z_lt_le_dec (ls_L ls) 0) as [HL|HL].
  { rewrite !(cg_zero_j1 (2 * ls_L ls)) by lia. rewrite Rmult_0_r, Rmult_0_l, Cmult_0_r, Cmult_0_l. reflexivity. }
  rewrite Q2R_div by lia. rewrite csqrt_nonneg.
  - rewrite <- !RtoC_mult. reflexivity.
  - apply Rmult_le_pos; [apply IZR_le; lia|]. apply Rlt_le, Rinv_0_lt_compat, IZR_lt. lia.
Qed.

Lemma cg_value' ev h parent c1 c2 ls hel h1 h2 e :
  formulate_clebsch_gordan_factors (Node parent c1 c2 (Some ls)) hel = Ok e ->
  dget (to_particle c1) hel = Some h1 -> dget (to_particle c2) hel = Some h2 ->
  ceval ev h e = RtoC (ls_factor (p_spin (pobj_particle parent)) ls
    (p_spin (pobj_particle (to_particle c1))) (heval h h1)
    (p_spin (pobj_particle (to_particle c2))) (heval h h2)).
Proof. intros F A B. exact (cg_factor_value ev h parent c1 c2 ls hel h1 h2 e A B F). Qed.

(** ** The amplitude of one chain *)
Lemma valid_chain_nodes c : valid_chain c -> exists s0 R d1 d2 i j sp s1 s2,
  (c = Node (PSt s0) (Node R d1 d2 j) (Leaf (PSt sp)) i \/
   c = Node (PSt s0) (Leaf (PSt sp)) (Node R d1 d2 j) i) /\
  to_particle d1 = PSt s1 /\ to_particle d2 = PSt s2 /\
  ch_parent c = s0 /\ ch_decay_node c = Node R d1 d2 j /\ ch_resonance c = pobj_particle R /\
  ch_spectator c = sp /\ ch_decay_products c = (s1, s2) /\
  ch_incoming_ls c = i /\ ch_outgoing_ls c = j /\ st_index s1 <> st_index s2.
Proof.
  intros V. destruct (valid_chain_shape c V) as
    (s0 & c1 & c2 & i & R & d1 & d2 & j & sp & s1 & s2 & -> & S & E1 & E2 & ND).
  exists s0, R, d1, d2, i, j, sp, s1, s2.
  assert (st_index s1 <> st_index s2).
  { inversion ND as [|? ? _ ND1]; subst. inversion ND1 as [|? ? N1 _]; subst. simpl in N1. intuition. }
  destruct S as [[-> ->]|[-> ->]];
    (split; [auto|]); repeat (split; [auto|]);
    unfold ch_parent, ch_decay_node, ch_resonance, ch_decay_node, ch_spectator, ch_decay_products,
      ch_incoming_ls, ch_outgoing_ls, decay_products_r, decay_node_r, spectator_r, children; simpl;
    rewrite ?E1, ?E2; simpl; auto 10.
Qed.

Lemma state_eq_index (s s' : state) : s = s' -> st_index s = st_index s'.
Proof. congruence. Qed.

Lemma dget_two (a b : pobj) (x y : hexpr) : a <> b ->
  dget a (dict_of [(a, x); (b, y)]) = Some x /\ dget b (dict_of [(a, x); (b, y)]) = Some y.
Proof.
  intros N. unfold dict_of. cbn [dupdate dset].
  destruct (eq_dec b a) as [E|_]; [congruence|]. simpl.
  destruct (eq_dec a a); [|congruence]. destruct (eq_dec b a); [congruence|].
  destruct (eq_dec b b); [auto|congruence].
Qed.

Section Amplitude.
  Variables (b : builder) (s : Z -> state) (dyn : chain -> defexpr) (uc : bool).
  Hypothesis (D : std_decay (b_decay b) s) (Dyn : dynamics_of b dyn).
  Hypothesis (PR : b_prod_helicity b = false -> plain_resonances (b_decay b)).

  (** The formula for one chain and one resonance helicity *)
  Definition chain_formula (ev : env) (lam : Z -> Z) (i j k : Z) (c : chain) (r : Z) : C :=
    if lam 0 =? r - lam k then
      (RtoC (parity_sign (p_spin (s k) - lam k) * parity_sign (p_spin (s j) - lam j))
       * ceval ev (fun _ => 0%Z) (de_expr (dyn c))
       * RtoC (wigner_d (p_spin (ch_resonance c)) r (lam i - lam j) (Re (e_sym ev (theta_name i j))))
       * scal_value ev b uc c r (lam k) (lam i) (lam j)
       * RtoC (prod_factor (b_prod_helicity b) c r (lam k) * dec_factor (b_dec_helicity b) c lam))%C
    else RtoC 0.

  Variables (lam spin : Z -> Z) (i j k : Z).
  Hypothesis (Cy : cyclic i j k).
  Hypothesis (Spin : forall n, In n [1; 2; 3] -> spin n = p_spin (s n)).
  Hypothesis (Ek : Z.even (p_spin (s k) - lam k) = true).
  Hypothesis (Ej : Z.even (p_spin (s j) - lam j) = true).

  Lemma dec_cg_value c e h ev : In c (d_chains (b_decay b)) -> ch_spectator c = s k ->
    ch_outgoing_ls c <> None -> 
    formulate_clebsch_gordan_factors (ch_decay_node c)
      (dict_of [(PSt (s i), HVal (lam i)); (PSt (s j), HVal (lam j))]) = Ok e ->
    ceval ev h e = RtoC (dec_factor false c lam).
  Proof.
    intros Hc Hk Hls F. unfold dec_factor.
    destruct (valid_chain_nodes c (std_valid _ _ D c Hc)) as
      (s0 & R & d1 & d2 & ii & jj & sp & s1 & s2 & _ & T1 & T2 & _ & N & RR & _ & DP & _ & OL & NE).
    destruct (std_products _ _ D k i j c Hc Hk Cy) as [P|P].
    - rewrite N in F. rewrite OL in *. destruct jj as [ls|]; [|congruence].
      rewrite DP in *. inversion P; subst s1 s2.
      destruct (dget_two (PSt (s i)) (PSt (s j)) (HVal (lam i)) (HVal (lam j))) as [G1 G2];
        [intros X; inversion X; congruence|].
      rewrite (cg_value' ev h _ _ _ _ _ (HVal (lam i)) (HVal (lam j)) e F) by (rewrite ?T1, ?T2; auto).
      rewrite T1, T2, RR. cbn [heval pobj_particle].
      destruct (cyclic_in _ _ _ Cy) as (Ii & Ij & _).
      rewrite !(sd_index _ _ D); auto; simpl in *; intuition.
    - rewrite N in F. rewrite OL in *. destruct jj as [ls|]; [|congruence].
      rewrite DP in *. inversion P; subst s1 s2.
      destruct (dget_two (PSt (s i)) (PSt (s j)) (HVal (lam i)) (HVal (lam j))) as [G1 G2];
        [intros X; inversion X; congruence|].
      rewrite (cg_value' ev h _ _ _ _ _ (HVal (lam j)) (HVal (lam i)) e F) by (rewrite ?T1, ?T2; auto).
      rewrite T1, T2, RR. cbn [heval pobj_particle].
      destruct (cyclic_in _ _ _ Cy) as (Ii & Ij & _).
      rewrite !(sd_index _ _ D); auto; simpl in *; intuition.
  Qed.

  Lemma prod_cg_value c e h ev R0 : In c (d_chains (b_decay b)) -> ch_spectator c = s k ->
    ch_incoming_ls c <> None -> to_particle (ch_decay_node c) = PPart R0 ->
    formulate_clebsch_gordan_factors c
      (dict_of [(to_particle (ch_decay_node c), HVar lambda_R); (PSt (s k), HVal (lam k))]) = Ok e ->
    ceval ev h e = RtoC (prod_factor false c (h lambda_R) (lam k)).
  Proof.
    intros Hc Hk Hls HR F. unfold prod_factor.
    destruct (valid_chain_nodes c (std_valid _ _ D c Hc)) as
      (s0 & R & d1 & d2 & ii & jj & sp & s1 & s2 & Sh & T1 & T2 & PA & N & RR & SP & DP & IL & _ & _).
    rewrite HR in F. rewrite N in HR. simpl in HR. subst R. rewrite IL in *.
    destruct ii as [ls|]; [|congruence]. rewrite PA, RR, Hk. cbn [pobj_particle].
    rewrite Hk in SP. subst sp.
    destruct (dget_two (PPart R0) (PSt (s k)) (HVar lambda_R) (HVal (lam k))) as [G1 G2]; [discriminate|].
    destruct Sh as [Sh|Sh]; rewrite Sh in F |- *.
    - rewrite (cg_value' ev h _ _ _ _ _ (HVar lambda_R) (HVal (lam k)) e F) by (assumption || reflexivity || exact G1 || exact G2). reflexivity.
    - rewrite (cg_value' ev h _ _ _ _ _ (HVal (lam k)) (HVar lambda_R) e F) by (assumption || reflexivity || exact G1 || exact G2). reflexivity.
  Qed.

  Lemma chain_term_value ev h c params e params' :
    In c (d_chains (b_decay b)) -> ch_spectator c = s k ->
    chain_term b c lam spin k i j (theta_name i j) uc params = Ok (e, params') ->
    ceval ev h e = Csum (helicities (p_spin (ch_resonance c))) (chain_formula ev lam i j k c).
  Proof.
    intros Hc Hk H. unfold chain_term in H.
    destruct (Dyn c Hc) as [(f & G & Fc) LSh]. rewrite G in H. cbn [bind] in H.
    rewrite Fc in H. cbn [bind] in H.
    inv_bind H. inv_bind H. rename v0 into sc. rename E0 into Esc.
    destruct (cyclic_in _ _ _ Cy) as (Ii & Ij & Ik).
    rewrite !(proj2 (dgetitem_ok _ _ _) (std_final _ _ D _ Ii)),
      (proj2 (dgetitem_ok _ _ _) (std_final _ _ D _ Ij)),
      (proj2 (dgetitem_ok _ _ _) (std_final _ _ D _ Ik)) in H. cbn [bind] in H.
    inv_bind H. rename v0 into e1. inv_bind H. rename v0 into e2.
    assert (He : e = CSum e2 [(lambda_R, spin_range2 (p_spin (ch_resonance c)))]) by congruence.
    subst e. cbn [ceval psum]. rewrite helicities_range. apply Csum_ext. intros r _.
    set (h' := upd h lambda_R r).
    assert (HR : h' lambda_R = r) by apply upd_same.
    destruct (scaling_value ev h' b uc c _ _ _ _ _ Esc) as (SV & IN & OUT).
    cbn [heval] in SV. rewrite HR in SV.
    set (base := chain_amp c lam spin k i j (theta_name i j) (de_expr (dyn c)) sc) in *.
    assert (B0 : ceval ev h' base =
      ((if lam 0 =? r - lam k then RtoC 1 else RtoC 0) * RtoC (parity_sign (p_spin (s k) - lam k))
       * ceval ev (fun _ => 0%Z) (de_expr (dyn c))
       * RtoC (wigner_d (p_spin (ch_resonance c)) r (lam i - lam j) (Re (e_sym ev (theta_name i j))))
       * scal_value ev b uc c r (lam k) (lam i) (lam j)
       * RtoC (parity_sign (p_spin (s j) - lam j)))%C).
    { unfold base, chain_amp. cbn [ceval heval]. rewrite HR, SV, !Spin, !csign_even by auto.
      rewrite (lineshape_eval ev ev h' (fun _ => 0%Z) (de_expr (dyn c)) LSh) by auto. reflexivity. }
    assert (B1 : ceval ev h' e1 = (ceval ev h' base * RtoC (dec_factor (b_dec_helicity b) c lam))%C).
    { destruct (b_dec_helicity b) eqn:DH.
      - assert (e1 = base) by congruence. subst e1. unfold dec_factor. ring.
      - apply bind_ok in E0. destruct E0 as (g & G1 & G2).
        assert (e1 = CMul base g) by congruence. subst e1. cbn [ceval].
        rewrite (dec_cg_value c g h' ev Hc Hk (OUT eq_refl) G1). reflexivity. }
    assert (B2 : ceval ev h' e2 = (ceval ev h' e1 * RtoC (prod_factor (b_prod_helicity b) c r (lam k)))%C).
    { destruct (b_prod_helicity b) eqn:PH.
      - assert (e2 = e1) by congruence. subst e2. unfold prod_factor. ring.
      - apply bind_ok in E1. destruct E1 as (g & G1 & G2).
        assert (e2 = CMul e1 g) by congruence. subst e2. cbn [ceval].
        destruct (PR eq_refl c Hc) as [R0 HR0].
        rewrite (prod_cg_value c g h' ev R0 Hc Hk (IN eq_refl) HR0 G1). rewrite HR. reflexivity. }
    rewrite B2, B1, B0. unfold chain_formula.
    destruct (lam 0 =? r - lam k); rewrite ?RtoC_mult; ring.
  Qed.

  Lemma chain_terms_value ev h cs : forall params es params',
    (forall c, In c cs -> In c (d_chains (b_decay b)) /\ ch_spectator c = s k) ->
    chain_terms b lam spin k i j (theta_name i j) uc cs params = Ok (es, params') ->
    ceval ev h (CAddL es) =
      Csum cs (fun c => Csum (helicities (p_spin (ch_resonance c))) (chain_formula ev lam i j k c)).
  Proof.
    induction cs as [|c cs IH]; intros params es params' Hcs H; cbn [chain_terms] in H.
    - assert (es = []) by congruence. subst. cbn [CAddL Csum]. unfold CNum. cbn [ceval].
      rewrite Q2R_Z. reflexivity.
    - inv_bind H. destruct v as [e p1]. inv_bind H. destruct v as [es1 p2].
      assert (es = e :: es1) by congruence. subst. cbn [CAddL ceval Csum].
      destruct (Hcs c (or_introl eq_refl)) as [Hc Hk].
      rewrite (chain_term_value ev h c _ _ _ Hc Hk E).
      rewrite (IH _ _ _ (fun c Hc => Hcs c (or_intror Hc)) E0). reflexivity.
  Qed.
End Amplitude.
