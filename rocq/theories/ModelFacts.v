(** Facts about the models that [formulate] builds. *)
From Coq Require Import String ZArith QArith Qcanon Qreals List Bool Reals Lia Lra Permutation Sorted.
From Coquelicot Require Import Complex.
From Verif Require Import Prelude Spin Decay Expr Angles Sums Wigner CG CExpr SpecKin SpecDPD Builder
  SpinFacts DecayFacts AnglesFacts WignerFacts CExprFacts BuilderFacts.
Import ListNotations.
Local Open Scope string_scope.
Local Open Scope Z_scope.
Local Open Scope list_scope.

(** ** Helicity tuples *)
Lemma tuples_product s : tuples s =
  product4 (spin_range2 (p_spin (s 0))) (spin_range2 (p_spin (s 1)))
           (spin_range2 (p_spin (s 2))) (spin_range2 (p_spin (s 3))).
Proof. unfold tuples, product4. rewrite !helicities_range. reflexivity. Qed.
Lemma product4_In r0 r1 r2 r3 l0 l1 l2 l3 :
  In (l0, l1, l2, l3) (product4 r0 r1 r2 r3) <-> In l0 r0 /\ In l1 r1 /\ In l2 r2 /\ In l3 r3.
Proof.
  unfold product4. rewrite in_flat_map. split.
  - intros (a & Ha & H). apply in_flat_map in H. destruct H as (b & Hb & H).
    apply in_flat_map in H. destruct H as (c & Hc & H). apply in_map_iff in H.
    destruct H as (e & E & He). inversion E; subst. auto.
  - intros (A & B & C & D). exists l0. split; auto. apply in_flat_map. exists l1. split; auto.
    apply in_flat_map. exists l2. split; auto. apply in_map. auto.
Qed.
Lemma tuples_In s l : In l (tuples s) <-> helicity_tuple s l.
Proof.
  destruct l as [[[l0 l1] l2] l3]. rewrite tuples_product, product4_In. unfold helicity_tuple.
  rewrite !helicities_range. tauto.
Qed.
Lemma psum_product4 f a0 a1 a2 a3 r0 r1 r2 r3 h :
  psum f [(a0, r0); (a1, r1); (a2, r2); (a3, r3)] h =
  Csum (product4 r0 r1 r2 r3) (fun l =>
    f (upd (upd (upd (upd h a0 (at4 l 0)) a1 (at4 l 1)) a2 (at4 l 2)) a3 (at4 l 3))).
Proof.
  cbn [psum]. unfold product4. rewrite Csum_flat_map. apply Csum_ext; intros l0 _.
  rewrite Csum_flat_map. apply Csum_ext; intros l1 _.
  rewrite Csum_flat_map. apply Csum_ext; intros l2 _.
  rewrite Csum_map. reflexivity.
Qed.
Lemma product4_Rsum r0 r1 r2 r3 f0 f1 f2 f3 :
  Rsum (product4 r0 r1 r2 r3) (fun l => f0 (at4 l 0) * f1 (at4 l 1) * f2 (at4 l 2) * f3 (at4 l 3))%R
  = (Rsum r0 f0 * Rsum r1 f1 * Rsum r2 f2 * Rsum r3 f3)%R.
Proof.
  assert (FM : forall (A : Type) (l : list Z) (g : Z -> list A) f,
    Rsum (flat_map g l) f = Rsum l (fun x => Rsum (g x) f)).
  { intros A l g f. induction l as [|x l IH]; [reflexivity|]. cbn [flat_map].
    rewrite Rsum_app, IH. reflexivity. }
  unfold product4. rewrite FM.
  rewrite (Rsum_ext _ _ (fun x => f0 x * (Rsum r1 f1 * Rsum r2 f2 * Rsum r3 f3))%R).
  { rewrite Rsum_scal_r. ring. }
  intros x0 _. rewrite FM.
  rewrite (Rsum_ext _ _ (fun x => f0 x0 * f1 x * (Rsum r2 f2 * Rsum r3 f3))%R).
  { rewrite Rsum_scal_r, Rsum_scal_l. ring. }
  intros x1 _. rewrite FM.
  rewrite (Rsum_ext _ _ (fun x => f0 x0 * f1 x1 * f2 x * Rsum r3 f3)%R).
  { rewrite Rsum_scal_r, Rsum_scal_l. ring. }
  intros x2 _. rewrite Rsum_map. cbn [at4]. rewrite Rsum_scal_l. reflexivity.
Qed.
Lemma NoDup_app2 {A} (l l' : list A) : NoDup l -> NoDup l' -> (forall a, In a l -> In a l' -> False) ->
  NoDup (l ++ l').
Proof.
  induction l as [|x l IH]; intros N N' I; auto. inversion N; subst. simpl. constructor.
  - rewrite in_app_iff. intros [H|H]; [auto|]. apply (I x); simpl; auto.
  - apply IH; auto. intros a Ha Hb. apply (I a); simpl; auto.
Qed.
Lemma product4_NoDup r0 r1 r2 r3 : NoDup r0 -> NoDup r1 -> NoDup r2 -> NoDup r3 ->
  NoDup (product4 r0 r1 r2 r3).
Proof.
  assert (FM : forall (A : Type) (l : list Z) (g : Z -> list A),
    NoDup l -> (forall x, NoDup (g x)) -> (forall x y a, In a (g x) -> In a (g y) -> x = y) ->
    NoDup (flat_map g l)).
  { intros A l g. induction l as [|x l IH]; intros N G I; [constructor|]. inversion N; subst.
    cbn [flat_map]. apply NoDup_app2; auto.
    intros a Ha Hb. apply in_flat_map in Hb. destruct Hb as (y & Hy & Hb).
    rewrite (I x y a Ha Hb) in H1. contradiction. }
  intros N0 N1 N2 N3. unfold product4. apply FM; auto.
  - intros l0. apply FM; auto.
    + intros l1. apply FM; auto.
      * intros l2. apply FinFun.Injective_map_NoDup; auto. intros x y E. congruence.
      * intros x y a Ha Hb. apply in_map_iff in Ha, Hb. destruct Ha as (? & <- & _), Hb as (? & E & _). congruence.
    + intros x y a Ha Hb. apply in_flat_map in Ha, Hb. destruct Ha as (? & _ & Ha), Hb as (? & _ & Hb).
      apply in_map_iff in Ha, Hb. destruct Ha as (? & <- & _), Hb as (? & E & _). congruence.
  - intros x y a Ha Hb. apply in_flat_map in Ha, Hb. destruct Ha as (? & _ & Ha), Hb as (? & _ & Hb).
    apply in_flat_map in Ha, Hb. destruct Ha as (? & _ & Ha), Hb as (? & _ & Hb).
    apply in_map_iff in Ha, Hb. destruct Ha as (? & <- & _), Hb as (? & E & _). congruence.
Qed.

(** ** The loop over helicities and subsystems *)
Lemma amp_index_inj l l' : amp_index l = amp_index l' -> l = l'.
Proof. destruct l as [[[? ?] ?] ?], l' as [[[? ?] ?] ?]. simpl. congruence. Qed.
Lemma theta_name_inj i j k i' j' k' : cyclic i j k -> cyclic i' j' k' ->
  theta_name i j = theta_name i' j' -> k = k'.
Proof.
  intros [C|[C|[C|[]]]] [C'|[C'|[C'|[]]]]; inversion C; inversion C'; subst; intros E; auto;
    vm_compute in E; discriminate.
Qed.

Lemma dget_single {K V} `{EqDec K} (k : K) (v : V) : dget k [(k, v)] = Some v.
Proof. cbn [dget]. destruct (eq_dec k k); congruence. Qed.
Lemma dget_single_inv {K V} `{EqDec K} (k k' : K) (v e : V) : dget k [(k', v)] = Some e -> k = k' /\ v = e.
Proof. cbn [dget]. destruct (eq_dec k k'); [split; congruence|discriminate]. Qed.
Lemma dget_dset_same {K V} `{EqDec K} (k : K) (v : V) d : dget k (dset k v d) = Some v.
Proof. rewrite dget_dset. destruct (eq_dec k k); congruence. Qed.

Section Formulate.
  Variables (b : builder) (s : Z -> state).
  Hypothesis (D : std_decay (b_decay b) s).

  Definition spin4 : Z -> Z := lam4 (p_spin (s 0), p_spin (s 1), p_spin (s 2), p_spin (s 3)).
  Lemma spin4_eq i : In i [0; 1; 2; 3] -> spin4 i = p_spin (s i).
  Proof. unfold spin4. rewrite In_0123. intros [->|[->|[->| ->]]]; reflexivity. Qed.
  Definition chains_of (k : Z) := filter (fun c => st_index (ch_spectator c) =? k) (d_chains (b_decay b)).

  Lemma std_final_item i : In i [1; 2; 3] -> dgetitem i (final_states (b_decay b)) = Ok (s i).
  Proof. intros H. apply dgetitem_ok, (std_final _ _ D _ H). Qed.

  Lemma subsystem_amplitude_inv l k uc m :
    formulate_subsystem_amplitude b l k uc = Ok m ->
    exists i j th terms params,
      cyclic i j k /\ formulate_scattering_angle i j = Ok (theta_name i j, th) /\
      chain_terms b (lam4 l) spin4 k i j (theta_name i j) uc (chains_of k) [] = Ok (terms, params) /\
      m_amplitudes m = [((amp_name k, amp_index l), CAddL terms)] /\
      m_variables m = [(theta_name i j, th)] /\ m_params m = params.
  Proof.
    unfold formulate_subsystem_amplitude. intros H.
    inv_bind H. destruct v as [i j]. rewrite product_ids_cyclic in E.
    destruct (scattering_symbol i j k E) as [th Hth]. rewrite Hth in H. cbn [bind] in H.
    rewrite (std_initial _ _ D) in H. cbn [bind] in H.
    rewrite (std_final_item 1), (std_final_item 2), (std_final_item 3) in H by (simpl; auto).
    cbn [bind] in H. rewrite (get_subsystem_ok _ k (sd_valid _ _ D)) in H. cbn [bind] in H.
    inv_bind H. destruct v as [terms params]. inv_bind H. apply amp_base_inv in E1.
    destruct E1 as [Hk ->]. ok_inj H. subst m. destruct l as [[[l0 l1] l2] l3].
    exists i, j, th, terms, params. cbn [m_amplitudes m_variables m_params d_chains] in *.
    repeat (split; [auto|]). auto.
  Qed.

  Lemma formulate_loop_facts uc work : forall amps vars params amps' vars' params',
    formulate_loop b uc work (amps, vars, params) = Ok (amps', vars', params') ->
    (forall l k, In (l, k) work -> exists m, formulate_subsystem_amplitude b l k uc = Ok m /\
       (forall x e, dget x (m_amplitudes m) = Some e -> dget x amps' = Some e) /\
       (forall x e, dget x (m_variables m) = Some e -> dget x vars' = Some e) /\
       (forall x, In x (dkeys (m_params m)) -> In x (dkeys params'))) /\
    (forall x, In x (dkeys amps') <-> In x (dkeys amps) \/
       exists l k, In (l, k) work /\ x = (amp_name k, amp_index l)) /\
    (forall x, In x (dkeys vars') <-> In x (dkeys vars) \/
       exists l i j k, In (l, k) work /\ cyclic i j k /\ x = theta_name i j) /\
    (forall x, ~ (exists l k, In (l, k) work /\ x = (amp_name k, amp_index l)) -> dget x amps' = dget x amps) /\
    (forall x, ~ (exists l i j k, In (l, k) work /\ cyclic i j k /\ x = theta_name i j) ->
       dget x vars' = dget x vars) /\
    (forall x, In x (dkeys params) -> In x (dkeys params')) /\
    (NoDup (dkeys amps) -> NoDup (dkeys amps')) /\ (NoDup (dkeys vars) -> NoDup (dkeys vars')) /\
    (forall x, In x (dkeys params') -> In x (dkeys params) \/ exists l k m, In (l, k) work /\
       formulate_subsystem_amplitude b l k uc = Ok m /\ In x (dkeys (m_params m))).
  Proof.
    induction work as [|[l k] work IH]; intros amps vars params amps' vars' params' H.
    { cbn [formulate_loop] in H. ok_inj H. inversion H; subst.
      split; [intros ? ? []|]. split; [intros x; split; [auto|intros [?|(? & ? & [] & _)]; auto]|].
      split; [intros x; split; [auto|intros [?|(? & ? & ? & ? & [] & _)]; auto]|].
      repeat (split; [auto|]). auto. }
    cbn [formulate_loop] in H. inv_bind H. rename v into m.
    destruct (subsystem_amplitude_inv _ _ _ _ E) as (i & j & th & terms & ps & Cy & Hth & Hch & EA & EV & EP).
    destruct (IH _ _ _ _ _ _ H) as (I1 & I2 & I3 & I4 & I5 & I6 & I7 & I8 & I9). clear IH.
    rewrite EA, EV in *. cbn [dupdate] in *.
    assert (KU : forall l' k', In (l', k') work -> In k' [1;2;3]).
    { intros l' k' Hw. destruct (I1 l' k' Hw) as (m' & Em' & _).
      destruct (subsystem_amplitude_inv _ _ _ _ Em') as (i' & j' & ? & ? & ? & Cy' & _).
      apply (cyclic_in _ _ _ Cy'). }
    split.
    { intros l' k' [Eq|Hw]; [|apply I1; auto]. inversion Eq; subst l' k'. clear Eq.
      exists m. split; auto. rewrite EA, EV. split; [|split].
      - intros x e Hd. apply dget_single_inv in Hd. destruct Hd as [-> <-].
        destruct (in_dec eq_dec (l, k) work) as [Hw|Hw].
        + destruct (I1 l k Hw) as (m' & Em' & I1a & _).
          assert (m' = m) by congruence. subst m'. apply I1a. rewrite EA. apply dget_single.
        + rewrite I4.
          * apply dget_dset_same.
          * intros (l' & k' & Hw' & Eq). 
            assert (Ea : amp_name k = amp_name k') by congruence.
            assert (Eb : amp_index l = amp_index l') by congruence.
            apply amp_index_inj in Eb. apply amp_name_inj in Ea; [subst; auto| |eauto].
            apply (cyclic_in _ _ _ Cy).
      - intros x e Hd. apply dget_single_inv in Hd. destruct Hd as [-> <-].
        destruct (in_dec eq_dec k (map snd work)) as [Hw|Hw].
        + apply in_map_iff in Hw. destruct Hw as ([l' k'] & Ek & Hw). cbn [snd] in Ek. subst k'.
          destruct (I1 l' k Hw) as (m' & Em' & _ & I1b & _).
          destruct (subsystem_amplitude_inv _ _ _ _ Em') as (i' & j' & th' & ? & ? & Cy' & Hth' & _ & _ & EV' & _).
          destruct (cyclic_fun _ _ _ _ _ Cy Cy') as [<- <-].
          apply I1b. rewrite EV'. replace th with th' by congruence. apply dget_single.
        + rewrite I5.
          * apply dget_dset_same.
          * intros (l' & i' & j' & k' & Hw' & Cy' & Eq).
            apply (theta_name_inj _ _ _ _ _ _ Cy Cy') in Eq. subst k'. apply Hw.
            change k with (snd (l', k)). apply in_map. auto.
      - intros x Hx. apply I6. apply dupdate_keys. auto. }
    split.
    { intros x. rewrite I2, dset_keys. split.
      - intros [[->|Hx]|(l' & k' & Hw & ->)]; auto; right; [exists l, k|exists l', k']; simpl; auto.
      - intros [Hx|(l' & k' & [Eq|Hw] & ->)]; auto.
        + inversion Eq; subst. auto.
        + right. exists l', k'. auto. }
    split.
    { intros x. rewrite I3, dset_keys. split.
      - intros [[->|Hx]|(l' & i' & j' & k' & Hw & Cy' & ->)]; auto; right;
          [exists l, i, j, k|exists l', i', j', k']; simpl; auto.
      - intros [Hx|(l' & i' & j' & k' & [Eq|Hw] & Cy' & ->)]; auto.
        + inversion Eq; subst. destruct (cyclic_fun _ _ _ _ _ Cy Cy') as [<- <-]. auto.
        + right. exists l', i', j', k'. auto. }
    split.
    { intros x Hx. rewrite I4.
      - rewrite dget_dset. destruct (eq_dec x (amp_name k, amp_index l)) as [->|]; auto.
        exfalso. apply Hx. exists l, k. simpl; auto.
      - intros (l' & k' & Hw & ->). apply Hx. exists l', k'. simpl; auto. }
    split.
    { intros x Hx. rewrite I5.
      - rewrite dget_dset. destruct (eq_dec x (theta_name i j)) as [->|]; auto.
        exfalso. apply Hx. exists l, i, j, k. simpl; auto.
      - intros (l' & i' & j' & k' & Hw & Cy' & ->). apply Hx. exists l', i', j', k'. simpl; auto. }
    split.
    { intros x Hx. apply I6. apply dupdate_keys. auto. }
    split; [intros; apply I7, dset_NoDup; auto|]. split; [intros; apply I8, dset_NoDup; auto|].
    intros x Hx. apply I9 in Hx. rewrite dupdate_keys in Hx.
    destruct Hx as [[Hx|Hx]|(l' & k' & m' & Hw & Em' & Hx)]; auto; right.
    - exists l, k, m. simpl; auto.
    - exists l', k', m'. simpl; auto.
  Qed.

  Definition lam_sym (n : Z) : hexpr := HVar (hel_sym n).
  Definition lam_prime (n : Z) : hexpr := HVar (hel_prime n).
  Definition aligned_expr (terms : list cexpr) : cexpr :=
    CSum (CAddL terms) (map (fun n => (hel_prime n, spin_range2 (spin4 n))) [0; 1; 2; 3]).

  Lemma std_item i : In i [0; 1; 2; 3] -> dgetitem i (d_states (b_decay b)) = Ok (s i).
  Proof. intros H. apply dgetitem_ok, (std_get _ _ D _ H). Qed.
  Lemma std_spins : mapM (fun i => let* s := dgetitem i (d_states (b_decay b)) in Ok (p_spin s)) [0; 1; 2; 3]
    = Ok [p_spin (s 0); p_spin (s 1); p_spin (s 2); p_spin (s 3)].
  Proof.
    cbn [mapM]. rewrite (std_item 0), (std_item 1), (std_item 2), (std_item 3) by (simpl; auto). reflexivity.
  Qed.
  Lemma aligned_inv lam r e defs : formulate_aligned_amplitude b lam (Some r) = Ok (e, defs) ->
    exists ks terms, sorted (get_subsystem_ids (b_decay b)) = Ok ks /\
      aligned_terms r spin4 lam lam_prime ks [] = Ok (terms, defs) /\ e = aligned_expr terms.
  Proof.
    unfold formulate_aligned_amplitude. cbn [resolve_reference bind]. intros H.
    rewrite (std_sorted_keys _ _ D) in H. cbn [bind] in H. rewrite std_spins in H. cbn [bind] in H.
    inv_bind H. inv_bind H. destruct v0 as [terms defs']. ok_inj H. inversion H; subst.
    exists v, terms. auto.
  Qed.

  Definition work_of (ids : list Z) : list ((Z * Z * Z * Z) * Z) :=
    flat_map (fun l => map (fun k => (l, k)) ids) (tuples s).
  Lemma work_of_In ids l k : In (l, k) (work_of ids) <-> helicity_tuple s l /\ In k ids.
  Proof.
    unfold work_of. rewrite in_flat_map, <- tuples_In. split.
    - intros (l' & Hl & H). apply in_map_iff in H. destruct H as (k' & E & Hk). inversion E; subst. auto.
    - intros [Hl Hk]. exists l. split; auto. apply in_map. auto.
  Qed.

  Lemma formulate_inv ref cl uc m : formulate b ref cl uc = Ok m ->
    exists r ks terms zdefs amps vars params masses inv,
      resolve_reference (b_decay b) ref = Ok r /\
      sorted (get_subsystem_ids (b_decay b)) = Ok ks /\
      aligned_terms r spin4 lam_sym lam_prime ks [] = Ok (terms, zdefs) /\
      formulate_loop b uc (work_of (if b_all_subsystems b then [1; 2; 3] else ks)) ([], [], [])
        = Ok (amps, vars, params) /\
      create_mass_symbol_mapping (b_decay b) = Ok masses /\
      formulate_invariants (b_decay b) = Ok inv /\
      m = Model (b_decay b)
        (CSum (CAbs2 (if cl then cleanup (aligned_expr terms) else aligned_expr terms))
           (map (fun n => (hel_sym n, spin_range2 (spin4 n))) [0; 1; 2; 3]))
        amps (dupdate vars zdefs)
        (dupdate params (map (fun kv => (KSym (fst kv), real_val (snd kv))) masses)) masses inv.
  Proof.
    unfold formulate. intros H. inv_bind H. rename v into r.
    rewrite (std_item 0), (std_item 1), (std_item 2), (std_item 3) in H by (simpl; auto). cbn [bind] in H.
    inv_bind H. rename v into ids. inv_bind H. destruct v as [[amps vars] params].
    inv_bind H. destruct v as [al zdefs]. destruct (aligned_inv _ _ _ _ E2) as (ks & terms & S & AT & ->).
    inv_bind H. rename v into masses. inv_bind H. rename v into inv. ok_inj H.
    exists r, ks, terms, zdefs, amps, vars, params, masses, inv.
    assert (ids = if b_all_subsystems b then [1; 2; 3] else ks).
    { destruct (b_all_subsystems b); [|congruence]. ok_inj E0. auto. }
    rewrite <- H0. unfold work_of. rewrite tuples_product.
    repeat (split; [auto|]). auto.
  Qed.

  (** *** The alignment terms *)
  Lemma zeta_ok_symbol i k r x e : formulate_zeta_angle i k r = Ok (x, e) -> x = zeta_symbol i k r.
  Proof.
    unfold formulate_zeta_angle. cbn [zeta_fuel].
    repeat match goal with |- (if ?c then _ else _) = _ -> _ => destruct c end;
      intros H; try discriminate; try (inv_bind H; destruct v); ok_inj H; congruence.
  Qed.

  Lemma wigner_gen_facts r j m m' i k defs e defs' : wigner_gen r j m m' i k defs = Ok (e, defs') ->
    (forall ev h, (j = 0 -> heval h m = 0 /\ heval h m' = 0) ->
       ceval ev h e = RtoC (wigner_d j (heval h m) (heval h m') (Re (e_sym ev (zeta_symbol i k r))))) /\
    (forall h, occ h e = (if j =? 0 then [] else [OAngle (zeta_symbol i k r)]) /\ vanishes h e = false) /\
    ((j = 0 /\ defs' = defs) \/
     (j <> 0 /\ exists z, formulate_zeta_angle i k r = Ok (zeta_symbol i k r, z) /\
        defs' = dset (zeta_symbol i k r) z defs)).
  Proof.
    unfold wigner_gen. destruct (Z.eqb_spec j 0) as [->|N]; intros H.
    - ok_inj H. inversion H; subst. split; [|split; [split; reflexivity|left; auto]].
      intros ev h Hz. destruct (Hz eq_refl) as [-> ->]. unfold CNum. cbn [ceval]. rewrite Q2R_Z.
      f_equal. symmetry. apply wigner_d_spin0.
    - inv_bind H. destruct v as [z ze]. pose proof (zeta_ok_symbol _ _ _ _ _ E) as ->.
      ok_inj H. inversion H; subst. split; [reflexivity|]. split; [split; reflexivity|]. right. split; auto.
      exists ze. auto.
  Qed.

  Definition hs (h : symbol -> Z) : Z * Z * Z * Z :=
    (h (hel_sym 0), h (hel_sym 1), h (hel_sym 2), h (hel_sym 3)).
  Definition hp (h : symbol -> Z) : Z * Z * Z * Z :=
    (h (hel_prime 0), h (hel_prime 1), h (hel_prime 2), h (hel_prime 3)).
  (** Consistency of the angle definitions collected so far *)
  Definition zdefs_ok (r : Z) (ks : list Z) (defs : dict symbol rexpr) : Prop :=
    forall x e, dget x defs = Some e -> exists i k, In i [0; 1; 2; 3] /\ In k ks /\ spin4 i <> 0 /\
      x = zeta_symbol i k r /\ formulate_zeta_angle i k r = Ok (x, e).

  Lemma helicity_tuple_zero l i : helicity_tuple s l -> In i [0; 1; 2; 3] -> spin4 i = 0 -> at4 l i = 0.
  Proof.
    intros H Hi Z. rewrite spin4_eq in Z by auto.
    destruct l as [[[l0 l1] l2] l3]. destruct H as (A & B & C & E). apply In_0123 in Hi.
    rewrite !helicities_range in *.
    destruct Hi as [->|[->|[->| ->]]]; rewrite Z in *;
      change (spin_range2 0) with [0] in *; simpl in *; intuition.
  Qed.

  Lemma aligned_term_facts r k defs e defs' : In k [1; 2; 3] ->
    aligned_term r spin4 lam_sym lam_prime k defs = Ok (e, defs') ->
    (forall ev h, helicity_tuple s (hs h) -> helicity_tuple s (hp h) ->
       ceval ev h e = (e_idx ev (amp_name k) (amp_index (hp h))
         * RtoC (alignment s (fun i => Re (e_sym ev (zeta_symbol i k r))) (hs h) (hp h)))%C) /\
    (forall h x, In x (occ h e) <-> x = OIdx (amp_name k) (amp_index (hp h)) \/
       exists i, In i [0; 1; 2; 3] /\ spin4 i <> 0 /\ x = OAngle (zeta_symbol i k r)) /\
    (forall i, In i [0; 1; 2; 3] -> spin4 i <> 0 -> exists z, formulate_zeta_angle i k r = Ok (zeta_symbol i k r, z)) /\
    (forall i, In i [0; 1; 2; 3] -> spin4 i <> 0 -> In (zeta_symbol i k r) (dkeys defs')) /\
    (forall x, In x (dkeys defs) -> In x (dkeys defs')) /\
    (forall ks, In k ks -> zdefs_ok r ks defs -> zdefs_ok r ks defs') /\
    (NoDup (dkeys defs) -> NoDup (dkeys defs')).
  Proof.
    intros Hk. unfold aligned_term. rewrite (amp_base_name k Hk). cbn [bind]. intros H.
    inv_bind H. destruct v as [w0 d0]. inv_bind H. destruct v as [w1 d1].
    inv_bind H. destruct v as [w2 d2]. inv_bind H. destruct v as [w3 d3]. ok_inj H.
    assert (He : e = CMul (CMul (CMul (CMul
        (CIdx (amp_name k) (map (fun n => XHel (lam_prime n)) [0; 1; 2; 3])) w0) w1) w2) w3) by congruence.
    assert (d3 = defs') by congruence. subst d3. clear H.
    destruct (wigner_gen_facts _ _ _ _ _ _ _ _ _ E) as (V0 & O0 & K0).
    destruct (wigner_gen_facts _ _ _ _ _ _ _ _ _ E0) as (V1 & O1 & K1).
    destruct (wigner_gen_facts _ _ _ _ _ _ _ _ _ E1) as (V2 & O2 & K2).
    destruct (wigner_gen_facts _ _ _ _ _ _ _ _ _ E2) as (V3 & O3 & K3).
    clear E E0 E1 E2.
    split; [|split; [|split; [|split; [|split; [|split]]]]].
    - intros ev h Hs Hp.
      pose proof (fun i => helicity_tuple_zero (hs h) i Hs) as Zs.
      pose proof (fun i => helicity_tuple_zero (hp h) i Hp) as Zp.
      rewrite He. cbn [ceval]. rewrite V0, V1, V2, V3.
      + unfold alignment. rewrite !spin4_eq by (simpl; auto). rewrite !RtoC_mult.
        cbn [lam_sym lam_prime heval hs hp at4 map ieval amp_index]. ring.
      + intros Z. cbn [lam_sym lam_prime heval]. split; [apply (Zp 3)|apply (Zs 3)]; simpl; auto.
      + intros Z. cbn [lam_sym lam_prime heval]. split; [apply (Zp 2)|apply (Zs 2)]; simpl; auto.
      + intros Z. cbn [lam_sym lam_prime heval]. split; [apply (Zp 1)|apply (Zs 1)]; simpl; auto.
      + intros Z. cbn [lam_sym lam_prime heval]. split; [apply (Zs 0)|apply (Zp 0)]; simpl; auto.
    - intros h x. destruct (O0 h) as [P0 N0], (O1 h) as [P1 N1], (O2 h) as [P2 N2], (O3 h) as [P3 N3].
      rewrite He. cbn [occ vanishes]. rewrite N0, N1, N2, N3. cbn [orb].
      rewrite !in_app_iff, P0, P1, P2, P3. cbn [map lam_prime ieval heval].
      split.
      + intros [[[[Hx|Hx]|Hx]|Hx]|Hx].
        * destruct Hx as [<-|[]]. auto.
        * destruct (Z.eqb_spec (spin4 0) 0); [destruct Hx|]. destruct Hx as [<-|[]]. right. exists 0. simpl; auto.
        * destruct (Z.eqb_spec (spin4 1) 0); [destruct Hx|]. destruct Hx as [<-|[]]. right. exists 1. simpl; auto.
        * destruct (Z.eqb_spec (spin4 2) 0); [destruct Hx|]. destruct Hx as [<-|[]]. right. exists 2. simpl; auto.
        * destruct (Z.eqb_spec (spin4 3) 0); [destruct Hx|]. destruct Hx as [<-|[]]. right. exists 3. simpl; auto 6.
      + intros [->|(i & Hi & Ni & ->)]; [left; left; left; left; left; reflexivity|].
        apply In_0123 in Hi. destruct Hi as [->|[->|[->| ->]]];
          rewrite (proj2 (Z.eqb_neq _ _) Ni); simpl; auto 10.
    - intros i Hi Ni. apply In_0123 in Hi.
      destruct Hi as [->|[->|[->| ->]]];
        [destruct K0 as [[? _]|(_ & z & ? & _)] | destruct K1 as [[? _]|(_ & z & ? & _)]
        |destruct K2 as [[? _]|(_ & z & ? & _)] | destruct K3 as [[? _]|(_ & z & ? & _)]];
        solve [contradiction | exists z; auto].
    - intros i Hi Ni. apply In_0123 in Hi.
      assert (S3 : forall x, In x (dkeys d2) -> In x (dkeys defs')).
      { intros x Hx. destruct K3 as [[_ ->]|(_ & z & _ & ->)]; auto. apply dset_keys; auto. }
      assert (S2 : forall x, In x (dkeys d1) -> In x (dkeys d2)).
      { intros x Hx. destruct K2 as [[_ ->]|(_ & z & _ & ->)]; auto. apply dset_keys; auto. }
      assert (S1 : forall x, In x (dkeys d0) -> In x (dkeys d1)).
      { intros x Hx. destruct K1 as [[_ ->]|(_ & z & _ & ->)]; auto. apply dset_keys; auto. }
      destruct Hi as [->|[->|[->| ->]]].
      + destruct K0 as [[? _]|(_ & z & _ & E)]; [contradiction|]. apply S3, S2, S1. rewrite E. apply dset_keys; auto.
      + destruct K1 as [[? _]|(_ & z & _ & E)]; [contradiction|]. apply S3, S2. rewrite E. apply dset_keys; auto.
      + destruct K2 as [[? _]|(_ & z & _ & E)]; [contradiction|]. apply S3. rewrite E. apply dset_keys; auto.
      + destruct K3 as [[? _]|(_ & z & _ & E)]; [contradiction|]. rewrite E. apply dset_keys; auto.
    - intros x Hx.
      destruct K3 as [[_ ->]|(_ & z3 & _ & ->)]; [|apply dset_keys; right];
      (destruct K2 as [[_ ->]|(_ & z2 & _ & ->)]; [|apply dset_keys; right]);
      (destruct K1 as [[_ ->]|(_ & z1 & _ & ->)]; [|apply dset_keys; right]);
      (destruct K0 as [[_ ->]|(_ & z0 & _ & ->)]; [|apply dset_keys; right]); auto.
    - intros ks Hks Z.
      assert (ST : forall i da db, In i [0; 1; 2; 3] -> 
        ((spin4 i = 0 /\ db = da) \/ (spin4 i <> 0 /\ exists z, formulate_zeta_angle i k r = Ok (zeta_symbol i k r, z) /\
        db = dset (zeta_symbol i k r) z da)) -> zdefs_ok r ks da -> zdefs_ok r ks db).
      { intros i da db Hi [[_ ->]|(Ni & z & Fz & ->)] Hz; auto. intros x e0 Hx.
        rewrite dget_dset in Hx. destruct (eq_dec x (zeta_symbol i k r)) as [->|]; auto.
        assert (z = e0) by congruence. subst. exists i, k. auto. }
      apply (ST 3 d2 defs'); [simpl; auto|auto|]. apply (ST 2 d1 d2); [simpl; auto|auto|].
      apply (ST 1 d0 d1); [simpl; auto|auto|]. apply (ST 0 defs d0); [simpl; auto|auto|auto].
    - intros ND.
      destruct K3 as [[_ ->]|(_ & z3 & _ & ->)]; [|apply dset_NoDup];
      (destruct K2 as [[_ ->]|(_ & z2 & _ & ->)]; [|apply dset_NoDup]);
      (destruct K1 as [[_ ->]|(_ & z1 & _ & ->)]; [|apply dset_NoDup]);
      (destruct K0 as [[_ ->]|(_ & z0 & _ & ->)]; [|apply dset_NoDup]); auto.
  Qed.

  Lemma aligned_terms_facts r ks : (forall k, In k ks -> In k [1; 2; 3]) -> forall defs terms defs',
    aligned_terms r spin4 lam_sym lam_prime ks defs = Ok (terms, defs') ->
    (forall ev h, helicity_tuple s (hs h) -> helicity_tuple s (hp h) ->
       ceval ev h (CAddL terms) = Csum ks (fun k => e_idx ev (amp_name k) (amp_index (hp h))
         * RtoC (alignment s (fun i => Re (e_sym ev (zeta_symbol i k r))) (hs h) (hp h)))%C) /\
    (forall h x, In x (occ h (CAddL terms)) <-> exists k, In k ks /\
       (x = OIdx (amp_name k) (amp_index (hp h)) \/
        exists i, In i [0; 1; 2; 3] /\ spin4 i <> 0 /\ x = OAngle (zeta_symbol i k r))) /\
    (forall i k, In k ks -> In i [0; 1; 2; 3] -> spin4 i <> 0 ->
       exists z, formulate_zeta_angle i k r = Ok (zeta_symbol i k r, z)) /\
    (forall i k, In k ks -> In i [0; 1; 2; 3] -> spin4 i <> 0 -> In (zeta_symbol i k r) (dkeys defs')) /\
    (forall x, In x (dkeys defs) -> In x (dkeys defs')) /\
    (forall ks', incl ks ks' -> zdefs_ok r ks' defs -> zdefs_ok r ks' defs') /\
    (NoDup (dkeys defs) -> NoDup (dkeys defs')).
  Proof.
    induction ks as [|k ks IH]; intros Hks defs terms defs' H; cbn [aligned_terms] in H.
    - ok_inj H. inversion H; subst. repeat split; auto.
      + intros ev h _ _. cbn [CAddL Csum]. unfold CNum. cbn [ceval]. rewrite Q2R_Z. reflexivity.
      + intros [].
      + intros (? & [] & _).
      + intros ? ? [].
      + intros ? ? [].
    - inv_bind H. destruct v as [e d1]. inv_bind H. destruct v as [es d2]. ok_inj H.
      assert (terms = e :: es) by congruence. assert (d2 = defs') by congruence. subst. clear H.
      destruct (aligned_term_facts _ _ _ _ _ (Hks k (or_introl eq_refl)) E) as (A1 & A2 & A3 & A4 & A5 & A6 & A7).
      destruct (IH (fun k H => Hks k (or_intror H)) _ _ _ E0) as (B1 & B2 & B3 & B4 & B5 & B6 & B7).
      split; [|split; [|split; [|split; [|split; [|split]]]]].
      + intros ev h Hs Hp. cbn [CAddL ceval Csum]. rewrite A1, B1 by auto. reflexivity.
      + intros h x. cbn [CAddL occ]. rewrite in_app_iff, A2, B2. split.
        * intros [Hx|(k' & Hk' & Hx)]; [exists k|exists k']; simpl; auto.
        * intros (k' & [<-|Hk'] & Hx); [auto|]. right. exists k'. auto.
      + intros i k' [<-|Hk'] Hi Ni; auto.
      + intros i k' [<-|Hk'] Hi Ni; auto.
      + auto.
      + intros ks' Hi Hz. apply B6; [intros x Hx; apply Hi; simpl; auto|]. apply A6; auto. apply Hi; simpl; auto.
      + auto.
  Qed.

  Lemma ids_123 ks k : sorted (get_subsystem_ids (b_decay b)) = Ok ks ->
    In k ks <-> In k (get_subsystem_ids (b_decay b)).
  Proof.
    intros H. apply sorted_perm in H.
    split; intros X; [eapply Permutation_in; [symmetry|]|eapply Permutation_in]; eauto.
  Qed.
  Lemma ids_range k : In k (get_subsystem_ids (b_decay b)) -> In k [1; 2; 3].
  Proof.
    rewrite get_subsystem_ids_In. intros (c & Hc & <-).
    apply (std_chain_state _ _ D c (ch_spectator c) Hc). simpl; auto.
  Qed.

  Lemma hel_neq i j : In i [0; 1; 2; 3] -> In j [0; 1; 2; 3] ->
    (hel_sym i = hel_sym j -> i = j) /\ (hel_prime i = hel_prime j -> i = j) /\ hel_sym i <> hel_prime j.
  Proof.
    rewrite !In_0123. intros [->|[->|[->| ->]]] [->|[->|[->| ->]]];
      (split; [|split]); intros E; auto; vm_compute in E; discriminate.
  Qed.
  (** assignment of four symbols *)
  Definition upd4 (x : Z -> symbol) (h : symbol -> Z) (l : Z * Z * Z * Z) : symbol -> Z :=
    upd (upd (upd (upd h (x 0) (at4 l 0)) (x 1) (at4 l 1)) (x 2) (at4 l 2)) (x 3) (at4 l 3).
  Lemma hp_upd4 h l : hp (upd4 hel_prime h l) = l.
  Proof. destruct l as [[[l0 l1] l2] l3]. unfold hp, upd4, upd. vm_compute. reflexivity. Qed.
  Lemma hs_upd4_prime h l : hs (upd4 hel_prime h l) = hs h.
  Proof. destruct l as [[[l0 l1] l2] l3]. reflexivity. Qed.
  Lemma hs_upd4 h l : hs (upd4 hel_sym h l) = l.
  Proof. destruct l as [[[l0 l1] l2] l3]. reflexivity. Qed.

  Lemma tuples_spin4 : tuples s =
    product4 (spin_range2 (spin4 0)) (spin_range2 (spin4 1)) (spin_range2 (spin4 2)) (spin_range2 (spin4 3)).
  Proof. rewrite tuples_product. reflexivity. Qed.

  Lemma aligned_value r ks terms defs defs' : (forall k, In k ks -> In k [1; 2; 3]) ->
    aligned_terms r spin4 lam_sym lam_prime ks defs = Ok (terms, defs') ->
    forall ev h, helicity_tuple s (hs h) ->
      ceval ev h (aligned_expr terms) =
      aligned_amplitude s ks (fun k l => e_idx ev (amp_name k) (amp_index l))
        (fun i k => Re (e_sym ev (zeta_symbol i k r))) (hs h).
  Proof.
    intros Hks H ev h Hs. destruct (aligned_terms_facts r ks Hks _ _ _ H) as (V & _).
    unfold aligned_expr. cbn [ceval map]. rewrite psum_product4, <- tuples_spin4.
    unfold aligned_amplitude. apply Csum_ext. intros l Hl. apply tuples_In in Hl.
    change (ceval ev (upd4 hel_prime h l) (CAddL terms) =
      Csum ks (fun k => (e_idx ev (amp_name k) (amp_index l)
        * RtoC (alignment s (fun i => Re (e_sym ev (zeta_symbol i k r))) (hs h) l))%C)).
    rewrite V; rewrite ?hp_upd4, ?hs_upd4_prime; auto.
  Qed.

  Lemma pools_ok : NoDup (map fst (map (fun n => (hel_prime n, spin_range2 (spin4 n))) [0; 1; 2; 3])) /\
    Forall (fun p : symbol * list Z => snd p <> []) (map (fun n => (hel_prime n, spin_range2 (spin4 n))) [0; 1; 2; 3]).
  Proof.
    split.
    - repeat constructor; simpl; intuition discriminate.
    - assert (X : forall i, In i [0; 1; 2; 3] -> spin_range2 (spin4 i) <> []).
      { intros i Hi E. rewrite spin4_eq in E by auto. pose proof (sd_spin _ _ D i Hi) as Hs.
        assert (Hin : In (- p_spin (s i)) (spin_range2 (p_spin (s i)))).
        { apply spin_range2_In. split; [lia|]. apply Z.even_spec. exists (p_spin (s i)). lia. }
        rewrite E in Hin. destruct Hin. }
      repeat constructor; simpl; apply X; simpl; auto.
  Qed.

  (** *** The intensity *)
  Theorem intensity_formula ref cl uc m : formulate b ref cl uc = Ok m -> exists r ks,
    resolve_reference (b_decay b) ref = Ok r /\ sorted (get_subsystem_ids (b_decay b)) = Ok ks /\
    forall ev, full_value ev m = RtoC (intensity_value s ks (amp_value ev m)
      (fun i k => Re (e_sym ev (zeta_symbol i k r)))).
  Proof.
    intros H. destruct (formulate_inv _ _ _ _ H)
      as (r & ks & terms & zdefs & amps & vars & params & masses & inv & Hr & Hks & Ht & Hl & Hm & Hi & E).
    exists r, ks. split; auto. split; auto. intros ev.
    assert (K : forall k, In k ks -> In k [1; 2; 3]).
    { intros k Hk. apply ids_range. apply (ids_123 ks); auto. }
    unfold full_value. rewrite E. cbn [m_intensity m_amplitudes ceval map].
    rewrite psum_product4, <- tuples_spin4.
    unfold intensity_value. rewrite <- Csum_RtoC. apply Csum_ext. intros l Hl'.
    change (upd (upd (upd (upd (fun _ => 0) (hel_sym 0) (at4 l 0)) (hel_sym 1) (at4 l 1))
              (hel_sym 2) (at4 l 2)) (hel_sym 3) (at4 l 3)) with (upd4 hel_sym (fun _ => 0) l).
    assert (AV : ceval (amp_env ev amps) (upd4 hel_sym (fun _ => 0) l)
        (if cl then cleanup (aligned_expr terms) else aligned_expr terms)
      = aligned_amplitude s ks (amp_value ev m) (fun i k => Re (e_sym ev (zeta_symbol i k r))) l).
    { assert (CV : ceval (amp_env ev amps) (upd4 hel_sym (fun _ => 0) l)
        (if cl then cleanup (aligned_expr terms) else aligned_expr terms)
        = ceval (amp_env ev amps) (upd4 hel_sym (fun _ => 0) l) (aligned_expr terms)).
      { destruct cl; auto. apply cleanup_value; apply pools_ok. }
      rewrite CV, (aligned_value r ks terms [] zdefs K Ht) by (rewrite hs_upd4; apply tuples_In; auto).
      rewrite hs_upd4. unfold aligned_amplitude. apply Csum_ext. intros l' Hl2. apply Csum_ext. intros k Hk.
      f_equal. unfold amp_env. cbn [e_idx]. unfold amp_value. rewrite E. cbn [m_amplitudes].
      destruct (dget (amp_name k, amp_index l') amps) eqn:Ed; auto.
      exfalso. apply dget_None in Ed. apply Ed.
      destruct (formulate_loop_facts _ _ _ _ _ _ _ _ Hl) as (_ & I2 & _). apply I2. right.
      exists l', k. split; auto. apply work_of_In. split; [apply tuples_In; auto|].
      destruct (b_all_subsystems b); auto. }
    rewrite AV, E. reflexivity.
  Qed.

  (** *** The amplitudes *)
  Theorem amplitude_keys ref cl uc m : formulate b ref cl uc = Ok m ->
    NoDup (dkeys (m_amplitudes m)) /\
    forall x, In x (dkeys (m_amplitudes m)) <->
      exists k l, x = (amp_name k, amp_index l) /\ helicity_tuple s l /\
        In k (if b_all_subsystems b then [1; 2; 3] else get_subsystem_ids (b_decay b)).
  Proof.
    intros H. destruct (formulate_inv _ _ _ _ H)
      as (r & ks & terms & zdefs & amps & vars & params & masses & inv & Hr & Hks & Ht & Hl & Hm & Hi & E).
    subst m. cbn [m_amplitudes].
    destruct (formulate_loop_facts _ _ _ _ _ _ _ _ Hl) as (_ & I2 & _ & _ & _ & _ & I7 & _).
    split; [apply I7; constructor|]. intros x. rewrite I2. split.
    - intros [[]|(l & k & Hw & ->)]. apply work_of_In in Hw. destruct Hw as [A B].
      exists k, l. repeat (split; auto). destruct (b_all_subsystems b); auto. apply (ids_123 ks); auto.
    - intros (k & l & -> & A & B). right. exists l, k. split; auto. apply work_of_In. split; auto.
      destruct (b_all_subsystems b); auto. apply (ids_123 ks); auto.
  Qed.

  Lemma helicity_even l i : helicity_tuple s l -> In i [0; 1; 2; 3] -> Z.even (p_spin (s i) - at4 l i) = true.
  Proof.
    destruct l as [[[l0 l1] l2] l3]. unfold helicity_tuple. rewrite !helicities_range, !spin_range2_In, In_0123.
    intros (A & B & C & E) [->|[->|[->| ->]]]; cbn [at4]; tauto.
  Qed.

  Theorem amplitude_formula dyn ref cl uc m : dynamics_of b dyn ->
    (b_prod_helicity b = false -> plain_resonances (b_decay b)) ->
    formulate b ref cl uc = Ok m ->
    forall l i j k, helicity_tuple s l -> cyclic i j k ->
      (b_all_subsystems b = true \/ In k (get_subsystem_ids (b_decay b))) ->
      (exists e, dget (amp_name k, amp_index l) (m_amplitudes m) = Some e) /\
      (exists th, formulate_scattering_angle i j = Ok (theta_name i j, th) /\
         dget (theta_name i j) (m_variables m) = Some th) /\
      forall ev, amp_value ev m k l =
        dpd_amplitude (b_prod_helicity b) (b_dec_helicity b) s (d_chains (b_decay b))
          (fun c r => (if uc then coefficient else coupling_product) ev (b_prod_helicity b) (b_dec_helicity b)
                        c r (at4 l k) (at4 l i) (at4 l j))
          (fun c => ceval ev (fun _ => 0) (de_expr (dyn c)))
          (Re (e_sym ev (theta_name i j))) (at4 l) i j k.
  Proof.
    intros Dyn PR H l i j k Hl Cy Hk. destruct (formulate_inv _ _ _ _ H)
      as (r & ks & terms & zdefs & amps & vars & params & masses & inv & Hr & Hks & Ht & HL & Hm & Hi & E).
    destruct (formulate_loop_facts _ _ _ _ _ _ _ _ HL) as (I1 & _).
    destruct (cyclic_in _ _ _ Cy) as (Ii & Ij & Ik).
    destruct (I1 l k) as (m' & Em' & Ia & Ib & _).
    { apply work_of_In. split; auto. destruct (b_all_subsystems b); auto.
      destruct Hk as [?|Hk]; [discriminate|]. apply (ids_123 ks); auto. }
    destruct (subsystem_amplitude_inv _ _ _ _ Em') as (i' & j' & th & ts & ps & Cy' & Hth & Hch & EA & EV & EP).
    destruct (cyclic_fun _ _ _ _ _ Cy Cy') as [<- <-].
    assert (GA : dget (amp_name k, amp_index l) amps = Some (CAddL ts)).
    { apply Ia. rewrite EA. apply dget_single. }
    split; [exists (CAddL ts); rewrite E; auto|]. split.
    { exists th. split; auto. rewrite E. cbn [m_variables].
      assert (N : dget (theta_name i j) zdefs = None).
      { destruct (dget (theta_name i j) zdefs) eqn:Ez; auto. exfalso.
        assert (K : forall k, In k ks -> In k [1; 2; 3]).
        { intros k' Hk'. apply ids_range. apply (ids_123 ks); auto. }
        destruct (aligned_terms_facts r ks K _ _ _ Ht) as (_ & _ & _ & _ & _ & Z & _).
        destruct (Z ks (incl_refl _) (fun x e Hx => ltac:(discriminate Hx)) _ _ Ez) as (i0 & k0 & _ & _ & _ & Eq & _).
        apply (f_equal (fun x => String.get 0 (sname x))) in Eq. discriminate Eq. }
      assert (ND : NoDup (dkeys zdefs)).
      { assert (K : forall k, In k ks -> In k [1; 2; 3]).
        { intros k' Hk'. apply ids_range. apply (ids_123 ks); auto. }
        apply (aligned_terms_facts r ks K _ _ _ Ht). constructor. }
      rewrite dget_dupdate_nodup, N by auto. apply Ib. rewrite EV. apply dget_single. }
    intros ev. unfold amp_value. rewrite E. cbn [m_amplitudes]. rewrite GA.
    rewrite (chain_terms_value b s dyn uc D Dyn PR (lam4 l) spin4 i j k Cy) with (1 := fun n Hn => spin4_eq n (or_intror Hn)) (cs := chains_of k) (params := []) (params' := ps).
    - unfold dpd_amplitude, chains_of. apply Csum_ext. intros c Hc. apply Csum_ext. intros x Hx.
      unfold chain_formula, scal_value.
      assert (DF : dec_factor (b_dec_helicity b) c (lam4 l) = dec_factor (b_dec_helicity b) c (at4 l)).
      { unfold dec_factor. destruct (b_dec_helicity b); auto. destruct (ch_outgoing_ls c); auto.
        destruct (subsystem_chains _ _ D k c Hc) as (Hc' & Hs & _).
        destruct (std_products _ _ D k i j c Hc' Hs Cy) as [P|P]; rewrite P;
          rewrite !(sd_index _ _ D), !lam4_at4 by (simpl in *; tauto); reflexivity. }
      rewrite DF, !lam4_at4 by (simpl in *; tauto).
      destruct (at4 l 0 =? x - at4 l k); [|reflexivity]. destruct uc; reflexivity.
    - rewrite lam4_at4 by (simpl in *; tauto). apply helicity_even; auto. simpl in *; tauto.
    - rewrite lam4_at4 by (simpl in *; tauto). apply helicity_even; auto. simpl in *; tauto.
    - intros c Hc. destruct (subsystem_chains _ _ D k c Hc) as (Hc' & Hs & _). auto.
    - exact Hch.
  Qed.
End Formulate.
