(** Lookups and decays of model definitions (C50, C51, C59). *)
From Coq Require Import String ZArith QArith Qcanon List Bool Lia Sorted Permutation.
From Verif Require Import Prelude Spin SpinFacts Decay DecayFacts Expr Builder BuilderFacts SpecDPD SerFormat SpecSerial.
From Verif Require QrulesConvert QrulesDecay SerDynamics.
Import ListNotations.
Local Open Scope string_scope.
Local Open Scope Z_scope.
Local Open Scope list_scope.

(** ** C50 *)
Lemma c50_function (name : string) (m : model_def) (f : func_def) :
  get_function_definition name m = Ok f <->
  exists l1 l2, md_functions m = l1 ++ f :: l2 /\ fd_name f = name /\ forall g, In g l1 -> fd_name g <> name.
Proof.
  unfold get_function_definition. split.
  - destruct (find_first _ _) as [g|] eqn:E; [|discriminate]. intros X. injection X as ->.
    apply find_first_Some in E. destruct E as (l1 & l2 & E & N & F). exists l1, l2.
    rewrite Prelude.eqb_eq in N. repeat split; auto. intros g I. specialize (F g I). apply eqb_neq in F. exact F.
  - intros (l1 & l2 & E & N & F).
    replace (find_first _ _) with (Some f); auto. symmetry. apply find_first_Some. exists l1, l2.
    rewrite Prelude.eqb_eq. repeat split; auto. intros g I. apply eqb_neq. apply F; auto.
Qed.
Lemma c50_function_missing (name : string) (m : model_def) (e : exn) :
  get_function_definition name m = Err e <-> e = KeyError /\ forall g, In g (md_functions m) -> fd_name g <> name.
Proof.
  unfold get_function_definition. destruct (find_first _ _) as [g|] eqn:E.
  - split; [discriminate|]. intros [_ X]. apply find_first_Some in E. destruct E as (l1 & l2 & E & N & _).
    rewrite Prelude.eqb_eq in N. exfalso. apply (X g); auto. rewrite E. apply in_or_app. right; left; auto.
  - rewrite find_first_None in E. split.
    + intros X. split; [congruence|]. intros g I. apply eqb_neq. apply E; auto.
    + intros [-> _]. reflexivity.
Qed.
Lemma c50_distribution (m : model_def) :
  (forall d, fst (get_distribution_def m) = Ok d <-> exists rest, md_distributions m = d :: rest) /\
  (forall e, fst (get_distribution_def m) = Err e <-> e = ValueError /\ md_distributions m = []) /\
  (snd (get_distribution_def m) = true <-> exists d1 d2 rest, md_distributions m = d1 :: d2 :: rest).
Proof.
  unfold get_distribution_def. destruct (md_distributions m) as [|d1 [|d2 rest]]; cbn.
  - split; [|split]; intros; split; try discriminate; try (intros (? & ?); discriminate).
    + intros X. split; congruence.
    + intros [-> _]. reflexivity.
    + intros (? & ? & ? & ?); discriminate.
  - split; [|split]; intros; split; try discriminate.
    + intros X. injection X as ->. eauto.
    + intros (r & X). congruence.
    + intros [_ X]; discriminate.
    + intros (? & ? & ? & ?); discriminate.
  - split; [|split]; intros; split; try discriminate.
    + intros X. injection X as ->. eauto.
    + intros (r & X). congruence.
    + intros [_ X]; discriminate.
    + eauto.
    + reflexivity.
Qed.

(** ** C59 *)
Lemma ints_of_In (t : list item) i : In i (ints_of t) <-> In (It i) t.
Proof.
  unfold ints_of. rewrite in_flat_map. split.
  - intros (x & X & I). destruct x as [n|l]; [|destruct I]. destruct I as [->|[]]. exact X.
  - intros X. exists (It i). split; auto. left; auto.
Qed.
Lemma c59_spectator (t : list item) (k : Z) :
  get_spectator_id t = Ok k <-> In (It k) t /\ forall i, In (It i) t -> i = k.
Proof.
  unfold get_spectator_id. split.
  - destruct (to_set (ints_of t)) as [|a [|b l]] eqn:E; try discriminate. intros X. injection X as ->.
    assert (G : forall x, In x [k] <-> In (It x) t) by (intros x; rewrite <- E, to_set_In; apply ints_of_In).
    split; [apply G; left; auto|]. intros i I. apply G in I. destruct I as [->|[]]; auto.
  - intros [I U]. assert (G : forall x, In x (to_set (ints_of t)) <-> x = k).
    { intros x. rewrite to_set_In, ints_of_In. split; [apply U|intros ->; auto]. }
    pose proof (to_set_NoDup (ints_of t)) as N.
    destruct (to_set (ints_of t)) as [|a [|b l]].
    + exfalso. apply (G k); auto.
    + f_equal. apply G. left; auto.
    + exfalso. inversion N as [|? ? X _]; subst. apply X. left.
      rewrite (proj1 (G a)), (proj1 (G b)); auto; [right; left; auto|left; auto].
Qed.
Lemma c59_spectator_error (t : list item) (e : exn) :
  get_spectator_id t = Err e <-> e = ValueError /\ ~ exists k, In (It k) t /\ forall i, In (It i) t -> i = k.
Proof.
  split.
  - intros X. split.
    + unfold get_spectator_id in X. destruct (to_set (ints_of t)) as [|a [|b l]]; congruence.
    + intros (k & K). apply c59_spectator in K. congruence.
  - intros [-> N]. destruct (get_spectator_id t) as [k|e] eqn:E.
    + exfalso. apply N. exists k. apply c59_spectator. exact E.
    + unfold get_spectator_id in E. destruct (to_set (ints_of t)) as [|a [|b l]]; congruence.
Qed.
Lemma c59_mass_symbol (i : Z) : SerDynamics.to_mass_symbol (It i) = Ok (Sym ("m" ++ str_of_Z i) ANonneg).
Proof. reflexivity. Qed.
Lemma perm_123 (i j k : Z) : Permutation [i; j; k] [1; 2; 3] ->
  In (i, j, k) [(1,2,3); (1,3,2); (2,1,3); (2,3,1); (3,1,2); (3,2,1)].
Proof.
  intros P.
  assert (G : forall x, In x [i; j; k] <-> In x [1; 2; 3]) by (intros x; split; apply Permutation_in; [exact P|symmetry; exact P]).
  assert (N : NoDup [i; j; k]) by (apply (Permutation_NoDup (Permutation_sym P)); repeat constructor; cbn; lia).
  inversion N as [|? ? N1 N']; subst. inversion N' as [|? ? N2 _]; subst.
  destruct (proj1 (G i)) as [<-|[<-|[<-|[]]]]; [left; auto| | |];
  (destruct (proj1 (G j)) as [<-|[<-|[<-|[]]]]; [right; left; auto| | |]);
  (destruct (proj1 (G k)) as [<-|[<-|[<-|[]]]]; [right; right; left; auto| | |]);
  cbn in N1, N2; cbn; tauto.
Qed.
Lemma c59_mandelstam (i j k : Z) : Permutation [i; j; k] [1; 2; 3] ->
  SerDynamics.to_mandelstam_symbol [It i; It j] = Ok (Sym ("sigma" ++ str_of_Z k) ANonneg).
Proof.
  intros P. apply perm_123 in P. cbn in P.
  repeat (destruct P as [E|P]; [injection E as <- <- <-; reflexivity|]). destruct P.
Qed.
Lemma c59_mass_symbol_pair (i j k : Z) : Permutation [i; j; k] [1; 2; 3] ->
  SerDynamics.to_mass_symbol (Sub [It i; It j]) = Ok (Sym ("sigma" ++ str_of_Z k) ANonneg).
Proof. exact (c59_mandelstam i j k). Qed.
Lemma c59_mandelstam_production (n : list item) : (exists l, In (Sub l) n) ->
  SerDynamics.to_mandelstam_symbol n = Ok (Sym "m0" ANonneg).
Proof.
  intros (l & I). unfold SerDynamics.to_mandelstam_symbol.
  replace (all_int n) with false; [reflexivity|]. symmetry. unfold all_int.
  apply not_true_is_false. rewrite forallb_forall. intros X. specialize (X _ I). discriminate X.
Qed.

(** ** C51 *)
Lemma half_spec z q : q = half z <-> (Qc_of_Z z = Qc_of_Z 2 * q)%Qc.
Proof.
  rewrite QrulesConvert.twice_eq. unfold half. split.
  - intros E. assert (X : (q == z # 2)%Q) by (rewrite E; apply Qred_correct).
    unfold Qeq in X. cbn [Qnum Qden] in X. lia.
  - intros E. apply Qc_is_canon. cbn [this Q2Qc]. rewrite Qred_correct.
    unfold Qeq. cbn [Qnum Qden]. lia.
Qed.
Lemma spin_value_half z : spin_value (half z) = Ok z.
Proof. apply QrulesConvert.spin_value_spec. apply half_spec. reflexivity. Qed.
Lemma to_state_ok f x s : to_state x f = Ok s <->
  exists j, sd_spin x = half j /\ s = state_of (apply_latex f) x j.
Proof.
  unfold to_state, mk_particle. split.
  - destruct (spin_value (sd_spin x)) as [j|] eqn:E; [|discriminate]. cbn [bind]. intros X.
    exists j. split; [|unfold state_of; congruence]. apply half_spec. apply QrulesConvert.spin_value_spec. exact E.
  - intros (j & E & ->). rewrite E, spin_value_half. reflexivity.
Qed.
Lemma describes_to_state f x s : describes_state (apply_latex f) x s -> to_state x f = Ok s.
Proof. intros (j & _ & E & ->). apply to_state_ok. eauto. Qed.
Lemma describes_index tl x s : describes_state tl x s -> st_index s = sd_index x.
Proof. intros (j & _ & _ & ->). reflexivity. Qed.

Lemma last_unique (vals : list state) x : NoDup (map st_index vals) ->
  (last_with_index vals x <-> In x vals /\ st_index x <> 0).
Proof.
  intros N. unfold last_with_index. split.
  - intros (X & l1 & l2 & -> & _). split; auto. apply in_or_app. right; left; auto.
  - intros [I X]. split; auto. destruct (in_split _ _ I) as (l1 & l2 & ->). exists l1, l2. split; auto.
    intros y Iy E. rewrite map_app in N. apply NoDup_remove_2 in N. apply N. apply in_or_app. right.
    rewrite <- E. apply in_map. exact Iy.
Qed.

Section States.
  Variables (f : latex_arg) (m : model_def) (d : distribution) (s : Z -> state) (r : Z).
  Hypothesis H : describes_states (apply_latex f) m d s r.
  Lemma dist_ok : fst (get_distribution_def m) = Ok d.
  Proof. destruct (ds_distribution _ _ _ _ _ H) as (rest & E). unfold get_distribution_def. rewrite E. reflexivity. Qed.
  Lemma chains_ok : get_decay_chains m = Ok (di_chains d).
  Proof. unfold get_decay_chains. rewrite dist_ok. reflexivity. Qed.
  Lemma initial_ok : get_initial_state m f = Ok (s 0).
  Proof.
    unfold get_initial_state. rewrite dist_ok. cbn [bind]. apply describes_to_state.
    apply (ds_initial _ _ _ _ _ H).
  Qed.
  Lemma std_index_s i : In i [0; 1; 2; 3] -> st_index (s i) = i.
  Proof.
    intros [<-|I].
    - destruct (ds_initial _ _ _ _ _ H) as [E D]. apply describes_index in D. congruence.
    - apply (Permutation_in _ (Permutation_sym (ds_indices _ _ _ _ _ H))) in I.
      apply in_map_iff in I. destruct I as (x & <- & I).
      apply (describes_index (apply_latex f)). apply (ds_final _ _ _ _ _ H). exact I.
  Qed.
  Lemma std_spin_s i : In i [0; 1; 2; 3] -> 0 <= p_spin (s i).
  Proof.
    intros [<-|I].
    - destruct (ds_initial _ _ _ _ _ H) as [E (j & J & _ & ->)]. exact J.
    - apply (Permutation_in _ (Permutation_sym (ds_indices _ _ _ _ _ H))) in I.
      apply in_map_iff in I. destruct I as (x & <- & I).
      destruct (ds_final _ _ _ _ _ H x I) as (j & J & _ & E). rewrite E. exact J.
  Qed.
  Lemma parity_none_s i : In i [0; 1; 2; 3] -> p_parity (st_particle (s i)) = None.
  Proof.
    intros [<-|I].
    - destruct (ds_initial _ _ _ _ _ H) as [E (j & J & _ & ->)]. reflexivity.
    - apply (Permutation_in _ (Permutation_sym (ds_indices _ _ _ _ _ H))) in I.
      apply in_map_iff in I. destruct I as (x & <- & I).
      destruct (ds_final _ _ _ _ _ H x I) as (j & J & _ & E). rewrite E. reflexivity.
  Qed.
  Definition final_dict : dict Z state := map (fun x => (sd_index x, s (sd_index x))) (di_final d).
  Lemma final_keys : dkeys final_dict = map sd_index (di_final d).
  Proof. unfold dkeys, final_dict. rewrite map_map. reflexivity. Qed.
  Lemma final_NoDup : NoDup (dkeys final_dict).
  Proof.
    rewrite final_keys. apply (Permutation_NoDup (Permutation_sym (ds_indices _ _ _ _ _ H))).
    repeat constructor; cbn; lia.
  Qed.
  Lemma dupdate_disjoint {V} (d2 : dict Z V) : forall d1 : dict Z V, NoDup (dkeys d2) ->
    (forall k, In k (dkeys d1) -> ~ In k (dkeys d2)) -> dupdate d1 d2 = d1 ++ d2.
  Proof.
    assert (A : forall (d1 : dict Z V) k v, ~ In k (dkeys d1) -> dset k v d1 = d1 ++ [(k, v)]).
    { induction d1 as [|[a b] d1 IH]; intros k v N; cbn; [reflexivity|].
      destruct (eq_dec k a) as [->|X]; [exfalso; apply N; left; auto|].
      f_equal. apply IH. intros I. apply N. right. exact I. }
    induction d2 as [|[k v] d2 IH]; intros d1 N D; cbn.
    - rewrite app_nil_r. reflexivity.
    - inversion N as [|? ? N1 N2]; subst. rewrite A.
      + change (fold_left (fun d kv => dset (fst kv) (snd kv) d) d2 (d1 ++ [(k, v)])) with (dupdate (d1 ++ [(k, v)]) d2).
        rewrite IH; auto.
        * rewrite <- app_assoc. reflexivity.
        * intros x X. unfold dkeys in X. rewrite map_app in X. apply in_app_or in X. destruct X as [X|[<-|[]]].
          -- intros Y. apply (D x); [exact X|right; exact Y].
          -- exact N1.
      + intros X. apply (D k); [exact X|left; auto].
  Qed.
  Lemma final_ok : get_final_state m f = Ok final_dict.
  Proof.
    unfold get_final_state. rewrite dist_ok. cbn [bind].
    rewrite (mapM_ok_all _ (fun x => s (sd_index x))).
    - cbn [bind]. f_equal. rewrite map_map.
      assert (E : map (fun x => (st_index (s (sd_index x)), s (sd_index x))) (di_final d) = final_dict).
      { apply map_ext_in. intros x I. f_equal. apply std_index_s.
        right. apply (Permutation_in _ (ds_indices _ _ _ _ _ H)). apply in_map. exact I. }
      rewrite E. unfold dict_of. change (dupdate [] final_dict = final_dict). rewrite dupdate_disjoint; auto.
      apply final_NoDup.
    - intros x I. apply describes_to_state. apply (ds_final _ _ _ _ _ H). exact I.
  Qed.
  Lemma final_get i : In i [1; 2; 3] -> dgetitem i final_dict = Ok (s i).
  Proof.
    intros I. apply dgetitem_ok. apply In_dget; [apply final_NoDup|].
    apply (Permutation_in _ (Permutation_sym (ds_indices _ _ _ _ _ H))) in I.
    apply in_map_iff in I. destruct I as (x & <- & I). unfold final_dict.
    apply (in_map (fun x => (sd_index x, s (sd_index x)))) in I. exact I.
  Qed.
  Lemma states_ok : get_states m f = Ok ((0, s 0) :: final_dict).
  Proof.
    unfold get_states. rewrite initial_ok, final_ok. cbn [bind]. f_equal.
    rewrite std_index_s by (left; auto). rewrite dupdate_disjoint; auto.
    - apply final_NoDup.
    - intros k [<-|[]]. rewrite final_keys. intros X.
      apply (Permutation_in _ (ds_indices _ _ _ _ _ H)) in X. cbn in X. lia.
  Qed.
  Lemma states_perm : Permutation ((0, s 0) :: final_dict) [(0, s 0); (1, s 1); (2, s 2); (3, s 3)].
  Proof.
    constructor. pose proof (Permutation_map (fun i => (i, s i)) (ds_indices _ _ _ _ _ H)) as X.
    rewrite map_map in X. exact X.
  Qed.

  Lemma with_pair_find k l n v vs : with_pair k l n -> v_node v = n ->
    find_spectator_id (v :: vs) = Ok k /\ (l = [] \/ l <> []) /\ find_decay_product_ids (v :: vs) = find_decay_product_ids vs.
  Proof.
    intros [->| ->] E; cbn; rewrite E; cbn; split; auto; split; auto; destruct l; auto; right; discriminate.
  Qed.
  Lemma described_valid c spin i j k : Permutation [i; j; k] [1; 2; 3] ->
    valid_chain (described_chain (apply_latex f) s c spin i j k).
  Proof.
    intros P.
    assert (I : forall x, In x [i; j; k] -> In x [1; 2; 3]) by (intros x; apply Permutation_in; exact P).
    apply mk_chain_ok. split; auto.
    do 11 eexists. split; [reflexivity|]. split; [left; split; reflexivity|].
    split; [reflexivity|]. split; [reflexivity|].
    rewrite !std_index_s by (try (left; reflexivity); right; apply I; cbn; auto).
    apply (Permutation_NoDup (l := [0; 1; 2; 3])).
    - constructor. symmetry. exact P.
    - repeat constructor; cbn; lia.
  Qed.
  Lemma chain_ok c spin i j k vp vd : three_body c spin i j k vp vd ->
    to_decay_chain c (s 0) final_dict f = Ok (described_chain (apply_latex f) s c spin i j k).
  Proof.
    intros T. destruct (tb_propagator _ _ _ _ _ _ _ T) as (p & a & b & Ep & Es & _).
    destruct (tb_production _ _ _ _ _ _ _ T) as (a' & b' & W & _).
    pose proof (tb_decay _ _ _ _ _ _ _ T) as D.
    unfold to_decay_chain. rewrite Ep. unfold mk_particle. rewrite Es, spin_value_half. cbn [bind].
    assert (E : find_decay_product_ids (cd_vertices c) = Ok (i, j) /\ find_spectator_id (cd_vertices c) = Ok k).
    { destruct (with_pair_find k _ _ vp [vd] W eq_refl) as (S1 & _ & S2).
      destruct (with_pair_find k _ _ vp [] W eq_refl) as (S3 & _ & _).
      destruct (tb_vertices _ _ _ _ _ _ _ T) as [->| ->].
      - rewrite S1, S2. cbn. rewrite D. auto.
      - split.
        + cbn. rewrite D. reflexivity.
        + cbn [find_spectator_id]. rewrite D. exact S3. }
    destruct E as [-> ->]. cbn [bind].
    pose proof (tb_ids _ _ _ _ _ _ _ T) as P.
    assert (I : forall x, In x [i; j; k] -> In x [1; 2; 3]) by (intros x; apply Permutation_in; exact P).
    rewrite !final_get by (apply I; cbn; auto). cbn [bind mk_node to_ls].
    apply described_valid. exact P.
  Qed.

  Lemma cmp_particle_none p q : p_parity p = None -> p_parity q = None -> is_ok (cmp p q).
  Proof.
    intros P Q. change (cmp p q) with
      (cmp_then (cmp (p_name p) (p_name q)) (cmp_then (cmp (p_latex p) (p_latex q))
        (cmp_then (cmp (p_spin p) (p_spin q)) (cmp_then (cmp (p_parity p) (p_parity q))
          (cmp_then (cmp (p_mass p) (p_mass q)) (cmp (p_width p) (p_width q))))))).
    rewrite P, Q.
    repeat apply QrulesDecay.cmp_then_ok; eexists; reflexivity.
  Qed.
  Lemma cmp_state_none a b : p_parity (st_particle a) = None -> p_parity (st_particle b) = None -> is_ok (cmp a b).
  Proof.
    intros P Q. change (cmp a b) with
      (cmp_then (cmp (st_particle a) (st_particle b)) (cmp (st_index a) (st_index b))).
    apply QrulesDecay.cmp_then_ok; [apply cmp_particle_none; auto|eexists; reflexivity].
  Qed.
  Lemma described_comparable c c' spin spin' i j k i' j' k' :
    Permutation [i; j; k] [1; 2; 3] -> Permutation [i'; j'; k'] [1; 2; 3] ->
    is_ok (cmp (described_chain (apply_latex f) s c spin i j k) (described_chain (apply_latex f) s c' spin' i' j' k')).
  Proof.
    intros P P'.
    assert (I : forall x, In x [i; j; k] -> p_parity (st_particle (s x)) = None).
    { intros x X. apply parity_none_s. right. revert X. apply Permutation_in; auto. }
    assert (I' : forall x, In x [i'; j'; k'] -> p_parity (st_particle (s x)) = None).
    { intros x X. apply parity_none_s. right. revert X. apply Permutation_in; auto. }
    unfold described_chain.
    match goal with |- is_ok (cmp ?a ?b) => change (cmp a b) with (cmp_tree a b) end. cbn [cmp_tree].
    assert (L : forall a b, p_parity (st_particle a) = None -> p_parity (st_particle b) = None ->
      is_ok (cmp (PSt a) (PSt b))) by (intros a b A B; apply (cmp_state_none a b A B)).
    apply QrulesDecay.cmp_then_ok; [apply L; apply parity_none_s; left; auto|].
    apply QrulesDecay.cmp_then_ok; [|apply QrulesDecay.cmp_then_ok].
    - apply QrulesDecay.cmp_then_ok; [|apply QrulesDecay.cmp_then_ok; [|apply QrulesDecay.cmp_then_ok]].
      + apply (cmp_particle_none (Particle _ _ _ _ _ _) (Particle _ _ _ _ _ _)); reflexivity.
      + apply L; [apply I; cbn; auto|apply I'; cbn; auto].
      + apply L; [apply I; cbn; auto|apply I'; cbn; auto].
      + eexists; reflexivity.
    - apply L; [apply I; cbn; auto|apply I'; cbn; auto].
    - eexists; reflexivity.
  Qed.
  Hypothesis T : forall c, In c (di_chains d) -> three_body_chain c.
  Lemma c51_chain_list : exists l, mapM (fun c => to_decay_chain c (s 0) final_dict f) (di_chains d) = Ok l /\
    (forall ch, In ch l <-> exists c spin i j k vp vd, In c (di_chains d) /\ three_body c spin i j k vp vd /\
       ch = described_chain (apply_latex f) s c spin i j k).
  Proof.
    destruct (mapM_is_ok (fun c => to_decay_chain c (s 0) final_dict f) (di_chains d)) as [l E].
    - intros c I. destruct (T c I) as (spin & i & j & k & vp & vd & X). rewrite (chain_ok _ _ _ _ _ _ _ X). eexists; reflexivity.
    - exists l. split; auto. intros ch. pose proof (mapM_ok_inv _ _ _ E) as F. split.
      + intros I. assert (exists c, In c (di_chains d) /\ to_decay_chain c (s 0) final_dict f = Ok ch) as (c & Ic & Ec).
        { clear -F I. induction F as [|a b l l' X _ IH]; [destruct I|].
          destruct I as [->|I]; [exists a; split; [left|]; auto|]. destruct (IH I) as (c & C1 & C2). exists c. split; [right|]; auto. }
        destruct (T c Ic) as (spin & i & j & k & vp & vd & X). exists c, spin, i, j, k, vp, vd.
        rewrite (chain_ok _ _ _ _ _ _ _ X) in Ec. split; [exact Ic|]. split; [exact X|]. congruence.
      + intros (c & spin & i & j & k & vp & vd & Ic & X & ->).
        destruct (QrulesConvert.Forall2_In_l _ _ _ _ F Ic) as (b & Ib & Eb). cbn in Eb.
        rewrite (chain_ok _ _ _ _ _ _ _ X) in Eb. congruence.
  Qed.
  Lemma c51_decay : exists D, to_decay m f = Ok D /\ std_decay D s /\
    d_states D = (0, s 0) :: final_dict /\
    StronglySorted clt (d_chains D) /\ NoDup (d_chains D) /\
    (forall ch, In ch (d_chains D) <-> exists c spin i j k vp vd, In c (di_chains d) /\ three_body c spin i j k vp vd /\
       ch = described_chain (apply_latex f) s c spin i j k).
  Proof.
    destruct c51_chain_list as (l & El & L).
    assert (Cm : comparable (to_set l)).
    { intros a b Ia Ib. rewrite to_set_In, L in Ia, Ib.
      destruct Ia as (c & spin & i & j & k & vp & vd & _ & X & ->).
      destruct Ib as (c' & spin' & i' & j' & k' & vp' & vd' & _ & X' & ->).
      apply described_comparable; [exact (tb_ids _ _ _ _ _ _ _ X)|exact (tb_ids _ _ _ _ _ _ _ X')]. }
    destruct (sorted_ok _ Cm) as [l' S].
    assert (L' : forall ch, In ch l' <-> In ch l).
    { intros ch. rewrite <- (to_set_In ch l). split; apply Permutation_in; [symmetry|]; exact (sorted_perm _ _ S). }
    set (D := Decay ((0, s 0) :: final_dict) l').
    assert (MK : mk_decay ((0, s 0) :: final_dict) l' = Ok D).
    { apply mk_decay_ok. split; auto. exists (s 0). split; [reflexivity|].
      intros ch I. rewrite L', L in I. destruct I as (c & spin & i & j & k & vp & vd & Ic & X & ->).
      pose proof (tb_ids _ _ _ _ _ _ _ X) as P.
      split; [reflexivity|]. intros x. rewrite last_unique.
      - change (In x (map s [k; i; j]) <-> In x (dvalues ((0, s 0) :: final_dict)) /\ st_index x <> 0).
        assert (Q : Permutation (dvalues ((0, s 0) :: final_dict)) (map s [0; 1; 2; 3])).
        { exact (Permutation_map snd states_perm). }
        split.
        + intros Ix. apply in_map_iff in Ix. destruct Ix as (n & <- & In').
          assert (In n [1; 2; 3]).
          { apply (Permutation_in _ P). apply (Permutation_in n (l := [k; i; j])); auto.
            change (Permutation ([k] ++ [i; j]) ([i; j] ++ [k])). apply Permutation_app_comm. }
          split.
          * apply (Permutation_in _ (Permutation_sym Q)). apply in_map. right; auto.
          * rewrite std_index_s by (right; auto). cbn in *. lia.
        + intros [Ix Nx]. apply (Permutation_in _ Q) in Ix. apply in_map_iff in Ix. destruct Ix as (n & <- & In').
          rewrite std_index_s in Nx by exact In'. destruct In' as [<-|In']; [congruence|].
          apply in_map. apply (Permutation_in n (l := [i; j; k])).
          * change (Permutation ([i; j] ++ [k]) ([k] ++ [i; j])). apply Permutation_app_comm.
          * apply (Permutation_in _ (Permutation_sym P)). exact In'.
      - apply (Permutation_NoDup (l := map st_index (map s [0; 1; 2; 3]))).
        + apply Permutation_map. symmetry. exact (Permutation_map snd states_perm).
        + rewrite map_map. rewrite (map_ext_in _ (fun i => i)) by (intros n Hn; apply std_index_s; exact Hn).
          rewrite map_id. repeat constructor; cbn; lia. }
    exists D. split.
    { unfold to_decay. rewrite initial_ok, final_ok, states_ok, chains_ok. cbn [bind]. rewrite El. cbn [bind].
      rewrite S. exact MK. }
    split.
    { constructor; [split|..].
      - apply Forall_forall. intros ch I. cbn [d_chains D] in I. rewrite L', L in I.
        destruct I as (c & spin & i & j & k & vp & vd & Ic & X & ->).
        apply described_valid. exact (tb_ids _ _ _ _ _ _ _ X).
      - exact MK.
      - exact states_perm.
      - exact std_index_s.
      - exact std_spin_s. }
    split; [reflexivity|].
    assert (ND : NoDup l') by (apply (Permutation_NoDup (sorted_perm _ _ S)); apply to_set_NoDup).
    split; [|split; [exact ND|]].
    - cbn [d_chains D]. apply sorted_NoDup_strict; auto. exact (sorted_sorted _ _ S).
    - intros ch. cbn [d_chains D]. rewrite L'. apply L.
  Qed.
End States.
