(** Proofs about the texts of warnings and errors (C107) *)
From Coq Require Import String ZArith List Bool Sorted Permutation Lia.
From Verif Require Import Prelude Decay DecayFacts Builder SpecDPD BuilderFacts QrulesFacts Latex SpecLatex LatexFacts
  Messages SpecMessages.
Import ListNotations.
Local Open Scope string_scope.
Local Open Scope Z_scope.
Local Open Scope list_scope.

Lemma dset_new {K V} `{EqDec K} (m : dict K V) k v : ~ In k (map fst m) -> dset k v m = m ++ [(k, v)].
Proof.
  induction m as [|[a b] m I]; intros N; [reflexivity|]. cbn [dset map fst app] in *.
  destruct (eq_dec k a) as [X|X]; [exfalso; apply N; left; symmetry; exact X|]. rewrite I; [reflexivity|].
  intros Y. apply N. right. exact Y.
Qed.
Lemma dupdate_new {K V} `{EqDec K} (l : list (K * V)) : forall m, NoDup (map fst (m ++ l)) -> dupdate m l = m ++ l.
Proof.
  induction l as [|[k v] l I]; intros m N; cbn [dupdate]; [symmetry; apply app_nil_r|].
  rewrite dset_new.
  - rewrite I; rewrite <- app_assoc; [reflexivity|exact N].
  - rewrite map_app in N. cbn [map fst] in N. apply NoDup_remove_2 in N. intros X. apply N. apply in_app_iff. left. exact X.
Qed.
Lemma NoDup_filter {A} (p : A -> bool) l : NoDup l -> NoDup (filter p l).
Proof.
  induction 1 as [|a l N _ I]; [constructor|]. cbn [filter]. destruct (p a); [|exact I]. constructor; [|exact I].
  intros X. apply filter_In in X. exact (N (proj1 X)).
Qed.

Section Std.
  Context (d : decay) (s : Z -> state) (D : std_decay d s).
  Lemma state_entry k x : In (k, x) (d_states d) -> x = s k /\ st_index x = k.
  Proof.
    intros X. eapply Permutation_in in X; [|exact (sd_states _ _ D)].
    assert (Y : x = s k /\ In k [0; 1; 2; 3]).
    { simpl in X. destruct X as [X|[X|[X|[X|[]]]]]; inversion X; subst; simpl; auto 6. }
    destruct Y as [-> Y]. split; [reflexivity|]. exact (sd_index _ _ D k Y).
  Qed.
  Lemma final_entries (l : list (Z * state)) : (forall k x, In (k, x) l -> x = s k /\ st_index x = k) ->
    map (fun x => (st_index x, x)) (filter (fun x => negb (st_index x =? 0)) (map snd l))
    = map (fun i => (i, s i)) (filter (fun k => negb (k =? 0)) (map fst l)).
  Proof.
    induction l as [|[k x] l I]; intros O; [reflexivity|]. cbn [map fst snd filter].
    destruct (O k x (or_introl eq_refl)) as [Ex Ei]. rewrite Ei.
    assert (I' := I (fun k' x' Y => O k' x' (or_intror Y))).
    destruct (negb (k =? 0)); [|exact I']. cbn [map]. rewrite I', Ei. rewrite Ex at 1. reflexivity.
  Qed.
  Lemma final_states_order : final_states d = map (fun i => (i, s i)) (final_order d).
  Proof.
    unfold final_states, final_order, dvalues. rewrite (final_entries _ state_entry). unfold dict_of.
    rewrite dupdate_new; [reflexivity|]. cbn [app]. rewrite map_map. cbn [fst]. rewrite map_id. apply NoDup_filter.
    eapply Permutation_NoDup; [symmetry; exact (Permutation_map fst (sd_states _ _ D))|]. cbn [map fst].
    repeat constructor; simpl; intuition discriminate.
  Qed.
  Lemma c107_description : get_decay_description d = Ok (decay_text d s).
  Proof.
    unfold get_decay_description, decay_text. rewrite (std_initial _ _ D). cbn [bind]. rewrite final_states_order, map_map.
    rewrite sjoin_comma. reflexivity.
  Qed.
  Lemma c107_order : Permutation (final_order d) [1; 2; 3].
  Proof.
    unfold final_order.
    assert (P := filter_perm (fun k => negb (k =? 0)) _ _ (Permutation_map fst (sd_states _ _ D))).
    cbn [map fst filter] in P. exact P.
  Qed.

  Lemma subsystem_range k : In k (get_subsystem_ids d) -> In k [1; 2; 3].
  Proof.
    intros X. apply (proj1 (get_subsystem_ids_In _ _)) in X. destruct X as (c & X & <-).
    refine (proj2 (proj2 (subsystem_chains d s D (st_index (ch_spectator c)) c _))).
    apply filter_In. split; [exact X|]. apply Z.eqb_refl.
  Qed.
  Lemma sorted_names (l : list Z) : NoDup l -> (forall k, In k l -> In k [1; 2; 3]) ->
    exists ks, StronglySorted Z.lt ks /\ (forall k, In k ks <-> In k l) /\ sorted (map str_of_Z l) = Ok (map str_of_Z ks).
  Proof.
    intros N R.
    assert (L : (length l <= 3)%nat) by exact (NoDup_incl_length N R).
    assert (G : forall ks, StronglySorted Z.lt ks -> (forall k, In k ks <-> In k l) ->
      sorted (map str_of_Z l) = Ok (map str_of_Z ks) ->
      exists ks, StronglySorted Z.lt ks /\ (forall k, In k ks <-> In k l) /\ sorted (map str_of_Z l) = Ok (map str_of_Z ks))
      by (intros ks A B C; exists ks; auto).
    Ltac srt := repeat constructor; lia.
    destruct l as [|a [|b [|c [|e l]]]]; [| | | |cbn [length] in L; lia].
    - apply (G []); [constructor|tauto|reflexivity].
    - assert (A := proj1 (In_123 _) (R a (or_introl eq_refl))).
      destruct A as [->|[->| ->]];
        first [apply (G [1]); [srt|simpl; tauto|vm_compute; reflexivity]
              |apply (G [2]); [srt|simpl; tauto|vm_compute; reflexivity]
              |apply (G [3]); [srt|simpl; tauto|vm_compute; reflexivity]].
    - assert (A := proj1 (In_123 _) (R a (or_introl eq_refl))).
      assert (B := proj1 (In_123 _) (R b (or_intror (or_introl eq_refl)))).
      inversion N as [|? ? N1 N2]; subst.
      assert (AB : a <> b) by (intros ->; apply N1; left; reflexivity). clear N N1 N2 R L.
      destruct A as [->|[->| ->]], B as [->|[->| ->]]; try (exfalso; apply AB; reflexivity);
        first [apply (G [1; 2]); [srt|simpl; tauto|vm_compute; reflexivity]
              |apply (G [1; 3]); [srt|simpl; tauto|vm_compute; reflexivity]
              |apply (G [2; 3]); [srt|simpl; tauto|vm_compute; reflexivity]].
    - assert (A := proj1 (In_123 _) (R a (or_introl eq_refl))).
      assert (B := proj1 (In_123 _) (R b (or_intror (or_introl eq_refl)))).
      assert (C := proj1 (In_123 _) (R c (or_intror (or_intror (or_introl eq_refl))))).
      inversion N as [|? ? N1 N2]; subst. inversion N2 as [|? ? N3 N4]; subst.
      assert (AB : a <> b) by (intros ->; apply N1; left; reflexivity).
      assert (AC : a <> c) by (intros ->; apply N1; right; left; reflexivity).
      assert (BC : b <> c) by (intros ->; apply N3; left; reflexivity). clear N N1 N2 N3 N4 R L.
      destruct A as [->|[->| ->]], B as [->|[->| ->]], C as [->|[->| ->]];
        try (exfalso; apply AB; reflexivity); try (exfalso; apply AC; reflexivity); try (exfalso; apply BC; reflexivity);
        (apply (G [1; 2; 3]); [srt|simpl; tauto|vm_compute; reflexivity]).
  Qed.
  Lemma subsystems_unique (ks ks' : list Z) : subsystems_of d ks -> subsystems_of d ks' -> ks = ks'.
  Proof.
    intros [S A] [S' B]. assert (X : forall k, In k ks <-> In k ks') by (intros k; rewrite A, B; reflexivity).
    clear A B. revert ks' S' X. induction S as [|a l S I F]; intros ks' S' X.
    - destruct ks' as [|b ks']; [reflexivity|]. destruct (proj2 (X b)); left; reflexivity.
    - destruct S' as [|b l' S' F']; [destruct (proj1 (X a)); left; reflexivity|].
      rewrite Forall_forall in F, F'.
      assert (E : a = b).
      { destruct (proj1 (X a) (or_introl eq_refl)) as [E|E]; [symmetry; exact E|].
        destruct (proj2 (X b) (or_introl eq_refl)) as [E'|E']; [exact E'|].
        specialize (F _ E'). specialize (F' _ E). lia. }
      subst b. f_equal. apply I; [exact S'|]. intros k. split; intros Y.
      + destruct (proj1 (X k) (or_intror Y)) as [E|E]; [|exact E]. specialize (F _ Y). lia.
      + destruct (proj2 (X k) (or_intror Y)) as [E|E]; [|exact E]. specialize (F' _ Y). lia.
  Qed.
  Lemma subsystems_text_eq ks : subsystems_of d ks -> subsystems_text d = Ok (comma_list (map str_of_Z ks)).
  Proof.
    intros K.
    destruct (sorted_names (get_subsystem_ids d)) as (ks' & A & B & C).
    - apply to_set_NoDup.
    - exact subsystem_range.
    - assert (K' : subsystems_of d ks') by (split; [exact A|]; intros k; rewrite B; apply get_subsystem_ids_In).
      rewrite (subsystems_unique _ _ K K'). unfold subsystems_text. rewrite C. cbn [bind]. rewrite sjoin_comma. reflexivity.
  Qed.
  Lemma c107_exists : exists ks, subsystems_of d ks.
  Proof.
    destruct (sorted_names (get_subsystem_ids d)) as (ks' & A & B & C).
    - apply to_set_NoDup.
    - exact subsystem_range.
    - exists ks'. split; [exact A|]. intros k. rewrite B. apply get_subsystem_ids_In.
  Qed.
  Lemma warns_iff ks k : subsystems_of d ks -> snd (get_subsystem d k) = true <-> ~ In k ks.
  Proof.
    intros [_ A]. rewrite A. unfold get_subsystem. cbn [snd].
    destruct (filter (fun c => st_index (ch_spectator c) =? k) (d_chains d)) as [|c l] eqn:F.
    - split; [|reflexivity]. intros _ (c & X & Y).
      assert (Z : In c (filter (fun c => st_index (ch_spectator c) =? k) (d_chains d)))
        by (apply filter_In; split; [exact X|apply Z.eqb_eq; exact Y]).
      rewrite F in Z. destruct Z.
    - split; [discriminate|]. intros N. exfalso. apply N. exists c.
      assert (Z : In c (c :: l)) by (left; reflexivity). rewrite <- F in Z. apply filter_In in Z.
      split; [exact (proj1 Z)|apply Z.eqb_eq; exact (proj2 Z)].
  Qed.
  Lemma c107_subsystem ks k : subsystems_of d ks ->
    (In k ks -> get_subsystem_warning d k = Ok None)
    /\ (~ In k ks -> get_subsystem_warning d k
          = Ok (Some ("Decay " ++ decay_text d s ++ " only has subsystems " ++ comma_list (map str_of_Z ks)
                      ++ ", not " ++ str_of_Z k)%string)).
  Proof.
    intros K. assert (W := warns_iff ks k K). unfold get_subsystem_warning. split; intros X.
    - destruct (snd (get_subsystem d k)); [|reflexivity]. exfalso. exact (proj1 W eq_refl X).
    - rewrite (proj2 W X), c107_description, (subsystems_text_eq ks K). reflexivity.
  Qed.
  Lemma c107_reference ks k : subsystems_of d ks ->
    (In k ks -> check_reference_warning d k = Ok None)
    /\ (~ In k ks -> check_reference_warning d k
          = Ok (Some ("Decay " ++ decay_text d s ++ " only has subsystems " ++ comma_list (map str_of_Z ks)
                      ++ ". Are you sure you want to use subsystem " ++ str_of_Z k ++ " as reference?")%string)).
  Proof.
    intros K.
    assert (W : check_reference_subsystem d k = true <-> ~ In k ks).
    { unfold check_reference_subsystem. rewrite negb_true_iff. destruct K as [_ K]. rewrite K, <- get_subsystem_ids_In.
      destruct (memb k (get_subsystem_ids d)) eqn:M.
      - apply memb_In in M. split; [discriminate|]. intros N. exfalso. exact (N M).
      - split; [|reflexivity]. intros _ X. apply memb_In in X. rewrite X in M. discriminate. }
    unfold check_reference_warning. split; intros X.
    - destruct (check_reference_subsystem d k); [|reflexivity]. exfalso. exact (proj1 W eq_refl X).
    - rewrite (proj2 W X), c107_description, (subsystems_text_eq ks K). reflexivity.
  Qed.
  Lemma c107_best :
    (d_chains d <> [] -> best_reference_error d = Ok None)
    /\ (d_chains d = [] -> best_reference_error d = Ok (Some ("Decay " ++ decay_text d s ++ " has no subsystems")%string)).
  Proof.
    unfold best_reference_error. split; intros X.
    - destruct (get_subsystem_ids d) as [|k l] eqn:E; [|reflexivity]. exfalso.
      destruct (d_chains d) as [|c cs] eqn:C; [exact (X eq_refl)|].
      assert (Y : In (st_index (ch_spectator c)) (get_subsystem_ids d))
        by (apply get_subsystem_ids_In; exists c; rewrite C; split; [left|]; reflexivity).
      rewrite E in Y. destruct Y.
    - unfold get_subsystem_ids. rewrite X. cbn. rewrite c107_description. reflexivity.
  Qed.
End Std.

Lemma c107_lists d s : std_decay d s ->
  Permutation (final_order d) [1; 2; 3]
  /\ exists ks, subsystems_of d ks /\ forall ks', subsystems_of d ks' -> ks' = ks.
Proof.
  intros D. split; [exact (c107_order d s D)|]. destruct (c107_exists d s D) as (ks & K). exists ks. split; [exact K|].
  intros ks' K'. exact (subsystems_unique d ks' ks K' K).
Qed.

(** When [formulate] warns *)
Lemma c107_formulate b ks ref : subsystems_of (Builder.b_decay b) ks ->
  (Builder.formulate_warns b ref = true <->
   (exists r, ref = Some r /\ ~ In r ks) \/ (Builder.b_all_subsystems b = true /\ exists k, In k [1; 2; 3] /\ ~ In k ks)).
Proof.
  intros [_ K]. unfold Builder.formulate_warns. rewrite orb_true_iff, andb_true_iff, existsb_exists.
  assert (S : forall k, snd (get_subsystem (Builder.b_decay b) k) = true <-> ~ In k ks).
  { intros k. unfold get_subsystem. cbn [snd]. rewrite K.
    destruct (filter (fun c => st_index (ch_spectator c) =? k) (d_chains (Builder.b_decay b))) as [|c l] eqn:E.
    - split; auto. intros _ (c & Hc & Hk).
      assert (I : In c (filter (fun c => st_index (ch_spectator c) =? k) (d_chains (Builder.b_decay b)))).
      { apply filter_In. rewrite Z.eqb_eq. auto. }
      rewrite E in I. destruct I.
    - split; [discriminate|]. intros N. exfalso. apply N.
      assert (I : In c (filter (fun c => st_index (ch_spectator c) =? k) (d_chains (Builder.b_decay b)))) by (rewrite E; left; auto).
      apply filter_In in I. rewrite Z.eqb_eq in I. eauto. }
  assert (R : (match ref with None => false | Some r => Builder.check_reference_subsystem (Builder.b_decay b) r end = true) <->
    exists r, ref = Some r /\ ~ In r ks).
  { destruct ref as [r|].
    - unfold Builder.check_reference_subsystem. rewrite negb_true_iff, <- not_true_iff_false, memb_In, get_subsystem_ids_In, <- K.
      split; [eauto|]. intros (r' & E & N). inversion E; subst. exact N.
    - split; [discriminate|]. intros (r & E & _). discriminate E. }
  rewrite R. split; (intros [H|[A (k & Hk & H)]]; [left; exact H|right; split; [exact A|exists k; split; [exact Hk|apply S; exact H]]]).
Qed.
