(** Proofs about [lambdify]: C62, C78, C79 *)
From Coq Require Import String ZArith QArith Qcanon List Bool Lia.
From Verif Require Import Prelude Spin Cached SpecCached.
Import ListNotations.
Local Open Scope string_scope.
Local Open Scope list_scope.

(** ** Dictionaries *)
Lemma dict_of_NoDup {K V} `{EqDec K} (l : list (K * V)) : NoDup (dkeys (dict_of l)).
Proof. apply dupdate_NoDup. constructor. Qed.
Lemma dict_of_keys {K V} `{EqDec K} (l : list (K * V)) k : In k (dkeys (dict_of l)) <-> In k (map fst l).
Proof. unfold dict_of. rewrite dupdate_keys. cbn. unfold dkeys. tauto. Qed.
Lemma dget_dict_of {K V} `{EqDec K} (l : list (K * V)) k : dget k (dict_of l) = dget k (rev l).
Proof. unfold dict_of. rewrite dget_dupdate. destruct (dget k (rev l)); reflexivity. Qed.
Lemma number_parts v : number v = (real_part v, imaginary_part v).
Proof. destruct v as [[]| | |]; reflexivity. Qed.
Lemma number_spec v w : number v = number w <-> equal_numbers v w.
Proof. rewrite !number_parts. unfold equal_numbers. split; [intros E; injection E; auto|intros [-> ->]; reflexivity]. Qed.
Lemma equal_numbers_refl v : equal_numbers v v. Proof. split; reflexivity. Qed.
Lemma same_number_refl x : same_number x x.
Proof. destruct x; cbn; auto. apply equal_numbers_refl. Qed.
Lemma same_number_sym x y : same_number x y -> same_number y x.
Proof. destruct x, y; cbn; auto. unfold equal_numbers. intuition. Qed.
Lemma same_number_trans x y z : same_number x y -> same_number y z -> same_number x z.
Proof. destruct x, y, z; cbn; try tauto. unfold equal_numbers. intuition congruence. Qed.
Lemma dict_eq_spec a b : NoDup (dkeys a) -> NoDup (dkeys b) ->
  (dict_eq a b = true <-> forall s, same_number (dget s a) (dget s b)).
Proof.
  intros Na Nb. unfold dict_eq. rewrite andb_true_iff, Nat.eqb_eq, forallb_forall. split.
  - intros [L F].
    assert (I : incl (dkeys a) (dkeys b)).
    { intros s Is. apply dget_In in Is. destruct Is as (v & Ev). apply dget_Some_In in Ev. specialize (F (s, v) Ev). cbn [fst snd] in F.
      destruct (dget s b) as [v'|] eqn:Eb; [|discriminate F]. apply dget_In. exists v'. exact Eb. }
    assert (J : incl (dkeys b) (dkeys a)).
    { apply NoDup_length_incl; [exact Na| |exact I]. unfold dkeys. rewrite !map_length. lia. }
    intros s. destruct (dget s a) as [v|] eqn:Ea.
    + apply dget_Some_In in Ea. specialize (F (s, v) Ea). cbn [fst snd] in F.
      destruct (dget s b) as [v'|]; [|discriminate F]. unfold py_eq in F. rewrite Prelude.eqb_eq in F. apply number_spec. exact F.
    + destruct (dget s b) as [v'|] eqn:Eb; [|exact Logic.I].
      exfalso. apply dget_None in Ea. apply Ea, J, dget_In. exists v'. exact Eb.
  - intros S. split.
    + assert (I : incl (dkeys a) (dkeys b)).
      { intros s Is. apply dget_In in Is. destruct Is as (v & Ev). specialize (S s). rewrite Ev in S.
        apply dget_In. destruct (dget s b) as [v'|]; [exists v'; reflexivity|destruct S]. }
      assert (J : incl (dkeys b) (dkeys a)).
      { intros s Is. apply dget_In in Is. destruct Is as (v & Ev). specialize (S s). rewrite Ev in S.
        apply dget_In. destruct (dget s a) as [v'|]; [exists v'; reflexivity|destruct S]. }
      apply NoDup_incl_length in I; [|exact Na]. apply NoDup_incl_length in J; [|exact Nb].
      unfold dkeys in I, J. rewrite !map_length in I, J. lia.
    + intros [s v] Iv. cbn [fst snd]. specialize (S s). rewrite (In_dget s v a Na Iv) in S.
      destruct (dget s b) as [v'|]; [|destruct S]. unfold py_eq. rewrite Prelude.eqb_eq. apply number_spec; exact S.
Qed.

(** Parameters by name *)
Definition by_name (d : dict symbol value) : dict string value := dict_of (map (fun sv => (sy_name (fst sv), snd sv)) d).
Lemma by_name_keys d n : In n (dkeys (by_name d)) <-> exists s, In s (dkeys d) /\ sy_name s = n.
Proof.
  unfold by_name. rewrite dict_of_keys, map_map. cbn [fst]. unfold dkeys. rewrite in_map_iff. split.
  - intros ([s v] & <- & I). exists s. split; [apply (in_map fst) in I; exact I|reflexivity].
  - intros (s & I & <-). apply in_map_iff in I. destruct I as ([s' v] & <- & I). exists (s', v). split; [reflexivity|exact I].
Qed.
Lemma by_name_get d s v : NoDup (dkeys d) -> (forall s', In s' (dkeys d) -> sy_name s' = sy_name s -> s' = s) ->
  dget s d = Some v -> dget (sy_name s) (by_name d) = Some v.
Proof.
  intros N U G. unfold by_name. rewrite dget_dict_of.
  assert (I : exists v', dget (sy_name s) (rev (map (fun sv => (sy_name (fst sv), snd sv)) d)) = Some v').
  { apply dget_In. unfold dkeys. rewrite map_rev, <- in_rev, map_map. cbn [fst]. apply in_map_iff. exists (s, v).
    split; [reflexivity|apply dget_Some_In; exact G]. }
  destruct I as (v' & E). rewrite E. f_equal. apply dget_Some_In in E. apply in_rev in E. apply in_map_iff in E.
  destruct E as ([s' w] & Q & I). cbn [fst snd] in Q. injection Q as Q <-.
  assert (s' = s) as -> by (apply U; [apply (in_map fst) in I; exact I|exact Q]).
  rewrite (In_dget s w d N I) in G. congruence.
Qed.

Section Histories.
  Context {E : Type} `{EqDec E}.
  Variables (same_file : call E -> call E -> bool) (known_backend : string -> bool).
  Hypothesis Hash : hash_of_arguments same_file.
  Notation history := (history same_file known_backend).
  Notation step := (step same_file known_backend).
  Implicit Types (w : world E) (tr : list (event E * outcome)) (k : call E).

  Definition call_of (e : E) (ps : parameters) (b : string) : call E :=
    Call e (match mapping_of ps with Some items => Some (dict_of items) | None => None end) (backend_of ps b).
  Definition good_call k : Prop := match k_params k with Some d => NoDup (dkeys d) | None => True end.
  Lemma call_of_good e ps b : good_call (call_of e ps b).
  Proof. unfold good_call, call_of. destruct ps as [|t|items]; cbn; auto. apply dict_of_NoDup. Qed.
  Definition same_call k k' : Prop :=
    k_expr k = k_expr k' /\ k_backend k = k_backend k' /\
    match k_params k, k_params k' with
    | None, None => True
    | Some d, Some d' => forall s, same_number (dget s d) (dget s d')
    | _, _ => False
    end.
  Lemma same_call_of e ps b e' ps' b' : same_call (call_of e ps b) (call_of e' ps' b') <-> same_request e ps b e' ps' b'.
  Proof. unfold same_call, same_request, call_of. cbn [k_expr k_backend k_params]. destruct (mapping_of ps), (mapping_of ps'); reflexivity. Qed.
  Lemma same_call_refl k : same_call k k.
  Proof. split; [reflexivity|]. split; [reflexivity|]. destruct (k_params k); [intros s; apply same_number_refl|exact I]. Qed.
  Lemma same_call_sym k k' : same_call k k' -> same_call k' k.
  Proof.
    intros (A & B & C). split; [auto|]. split; [auto|]. destruct (k_params k), (k_params k'); auto.
    intros s. apply same_number_sym, C.
  Qed.
  Lemma same_call_trans a b c : same_call a b -> same_call b c -> same_call a c.
  Proof.
    intros (A & B & C) (A' & B' & C'). split; [congruence|]. split; [congruence|].
    destruct (k_params a), (k_params b), (k_params c); try tauto. intros s. eapply same_number_trans; [apply C|apply C'].
  Qed.
  Lemma call_eq_spec k k' : good_call k -> good_call k' -> (call_eq k k' = true <-> same_call k k').
  Proof.
    intros G G'. unfold call_eq, same_call, good_call in *. rewrite !andb_true_iff, !Prelude.eqb_eq.
    destruct (k_params k) as [d|], (k_params k') as [d'|].
    - rewrite (dict_eq_spec d d' G G'). tauto.
    - split; [intros [_ X]; discriminate X|tauto].
    - split; [intros [_ X]; discriminate X|tauto].
    - tauto.
  Qed.
  Lemma lambdify_eq e ps b w : lambdify same_file known_backend e ps b w =
    lambdify_impl same_file known_backend (call_of e ps b)
      (if eqb (backend_of ps b) "jax" then World (w_heap w) (w_memory w) (w_disk w) true else w).
  Proof. destruct ps; reflexivity. Qed.

  (** ** What a call does *)
  Definition content k : function E :=
    Function (k_expr k) (k_backend k) (match k_params k with Some d => Some (by_name d) | None => None end).
  Lemma create_eq k : create known_backend k = if known_backend (k_backend k) then Ok (content k) else Err NotImplementedErr.
  Proof. unfold create, content. destruct (known_backend (k_backend k)); [|reflexivity]. destruct (k_params k); reflexivity. Qed.
  Definition identical k k' : Prop :=
    k_expr k = k_expr k' /\ k_backend k = k_backend k' /\
    match k_params k, k_params k' with
    | None, None => True
    | Some d, Some d' => forall s, dget s d = dget s d'
    | _, _ => False
    end.

  Lemma identical_refl k : identical k k.
  Proof. split; [reflexivity|]. split; [reflexivity|]. destruct (k_params k); [intros s; reflexivity|exact Logic.I]. Qed.

  (** ** The invariant *)
  (** The object [r] was made for the call [k], and then changed by the updates of the history *)
  Definition made_for tr w k r : Prop :=
    exists k0 f, identical k0 k /\ good_call k0 /\ object w r = Some f /\ fn_expr f = k_expr k /\ fn_backend f = k_backend k /\
      match k_params k0, fn_params f with
      | None, None => True
      | Some d0, Some d => forall n,
          (dget n d = match last_set r n tr with Some v => Some v | None => dget n (by_name d0) end) /\
          (last_set r n tr <> None -> dget n (by_name d0) <> None)
      | _, _ => False
      end.
  Record Inv tr w : Prop := {
    i_memory : forall k r, In (k, r) (w_memory w) -> good_call k /\ made_for tr w k r;
    i_distinct : forall k r k' r', In (k, r) (w_memory w) -> In (k', r') (w_memory w) -> (r = r' <-> same_call k k');
    i_disk : forall k f, In (k, f) (w_disk w) -> good_call k /\ f = content k /\ known_backend (k_backend k) = true;
    i_known : forall k r, In (k, r) (w_memory w) -> known_backend (k_backend k) = true;
    i_objects : forall r new, In (EUpdate r new, Done) tr -> (r < length (w_heap w))%nat;
    i_refs : forall k r, In (k, r) (w_memory w) -> (r < length (w_heap w))%nat;
    i_returned : forall e ps b r, In (ELambdify e ps b, Returned r) (this_process tr) ->
      exists k, In (k, r) (w_memory w) /\ same_call k (call_of e ps b);
    i_called : forall k r, In (k, r) (w_memory w) ->
      exists e ps b, In (ELambdify e ps b, Returned r) (this_process tr) /\ k = call_of e ps b;
    i_x64 : w_x64 w = true <-> exists e ps b o, In (ELambdify e ps b, o) (this_process tr) /\ backend_of ps b = "jax"
  }.
  Lemma inv_start : Inv [] start.
  Proof.
    split; cbn; try contradiction; try (intros; contradiction).
    split; [discriminate|]. intros (e & ps & b & o & [] & _).
  Qed.
  Lemma last_set_none tr w r n : Inv tr w -> (length (w_heap w) <= r)%nat -> last_set r n tr = None.
  Proof.
    intros I L. assert (X : never_updated r tr). { intros new J. apply (i_objects _ _ I) in J. lia. }
    clear I L. induction tr as [|[x o] tr IH]; [reflexivity|].
    assert (Y : never_updated r tr). { intros new J. apply (X new). right. exact J. }
    specialize (IH Y). cbn. destruct x as [e ps b|r' new|]; try exact IH. destruct o; try exact IH.
    destruct (Nat.eqb_spec r r') as [<-|_]; [|exact IH]. exfalso. apply (X new). left. reflexivity.
  Qed.
  Lemma never_last_set tr r n : never_updated r tr -> last_set r n tr = None.
  Proof.
    intros X. induction tr as [|[x o] tr IH]; [reflexivity|].
    assert (Y : never_updated r tr). { intros new J. apply (X new). right. exact J. }
    specialize (IH Y). cbn. destruct x as [e ps b|r' new|]; try exact IH. destruct o; try exact IH.
    destruct (Nat.eqb_spec r r') as [<-|_]; [|exact IH]. exfalso. apply (X new). left. reflexivity.
  Qed.
  Lemma lookup_Some {A} same k (l : list (call E * A)) a : lookup same k l = Some a ->
    exists k', In (k', a) l /\ same k' k = true.
  Proof.
    unfold lookup. destruct (find_first _ l) as [[k' a']|] eqn:F; [|discriminate]. intros Q. injection Q as <-.
    apply find_first_Some in F. destruct F as (l1 & l2 & -> & S & _). exists k'. split; [apply in_elt|exact S].
  Qed.
  Lemma lookup_None {A} same k (l : list (call E * A)) : lookup same k l = None -> forall k' a, In (k', a) l -> same k' k = false.
  Proof.
    unfold lookup. destruct (find_first _ l) as [[k' a']|] eqn:F; [discriminate|]. intros _ k' a J.
    rewrite find_first_None in F. apply (F (k', a) J).
  Qed.
  (** The three ways in which a call ends *)
  Inductive call_result tr w e ps b : outcome -> world E -> Prop :=
  | cr_memory k r : In (k, r) (w_memory w) -> same_call k (call_of e ps b) ->
      call_result tr w e ps b (Returned r)
        (World (w_heap w) (w_memory w) (w_disk w) (if eqb (backend_of ps b) "jax" then true else w_x64 w))
  | cr_new k0 disk : identical k0 (call_of e ps b) -> good_call k0 ->
      (forall k r, In (k, r) (w_memory w) -> ~ same_call k (call_of e ps b)) ->
      known_backend (backend_of ps b) = true ->
      (forall k f, In (k, f) disk -> In (k, f) (w_disk w) \/ (k = call_of e ps b /\ f = content k)) ->
      call_result tr w e ps b (Returned (length (w_heap w)))
        (World (w_heap w ++ [content k0]) ((call_of e ps b, length (w_heap w)) :: w_memory w) disk
           (if eqb (backend_of ps b) "jax" then true else w_x64 w))
  | cr_error : known_backend (backend_of ps b) = false ->
      call_result tr w e ps b (Raised NotImplementedErr)
        (World (w_heap w) (w_memory w) (w_disk w) (if eqb (backend_of ps b) "jax" then true else w_x64 w)).
  Lemma call_cases tr w e ps b o w' : Inv tr w -> step (ELambdify e ps b) w = (o, w') -> call_result tr w e ps b o w'.
  Proof.
    intros I S. unfold Cached.step in S. rewrite lambdify_eq in S.
    set (k := call_of e ps b) in *.
    set (w1 := if eqb (backend_of ps b) "jax" then World (w_heap w) (w_memory w) (w_disk w) true else w) in S.
    assert (W : w1 = World (w_heap w) (w_memory w) (w_disk w) (if eqb (backend_of ps b) "jax" then true else w_x64 w)).
    { unfold w1. destruct (eqb (backend_of ps b) "jax"); [reflexivity|]. destruct w; reflexivity. }
    rewrite W in S. clear W w1. unfold lambdify_impl in S. cbn [w_heap w_memory w_disk w_x64] in S.
    destruct (lookup call_eq k (w_memory w)) as [r|] eqn:M.
    { injection S as <- <-. apply lookup_Some in M. destruct M as (k' & J & Q). apply (cr_memory _ _ _ _ _ k' r J).
      apply call_eq_spec in Q; [exact Q|apply (i_memory _ _ I k' r J)|apply call_of_good]. }
    assert (F : forall k' r, In (k', r) (w_memory w) -> ~ same_call k' k).
    { intros k' r J Q. assert (X := lookup_None _ _ _ M k' r J).
      apply (call_eq_spec k' k) in Q; [congruence|apply (i_memory _ _ I k' r J)|apply call_of_good]. }
    destruct (lookup same_file k (w_disk w)) as [f|] eqn:D.
    - injection S as <- <-. apply lookup_Some in D. destruct D as (k' & J & Q).
      destruct (i_disk _ _ I k' f J) as (G & -> & B). destruct (Hash k' k Q) as (Q1 & Q2 & Q3).
      apply (cr_new tr w e ps b k').
      + split; [exact Q1|]. split; [exact Q2|exact Q3].
      + exact G.
      + exact F.
      + rewrite Q2 in B. exact B.
      + intros k1 f1 J1. left. exact J1.
    - rewrite create_eq in S. change (k_backend k) with (backend_of ps b) in S.
      destruct (known_backend (backend_of ps b)) eqn:B.
      + injection S as <- <-. apply (cr_new tr w e ps b k).
        * apply identical_refl.
        * apply call_of_good.
        * exact F.
        * exact B.
        * intros k1 f1 [J|J]; [injection J as <- <-; right; split; reflexivity|left; exact J].
      + injection S as <- <-. apply cr_error. exact B.
  Qed.
  Lemma replace_nth_same {A} (l : list A) n x : (n < length l)%nat -> nth_error (replace_nth l n x) n = Some x.
  Proof. revert n. induction l as [|y l IH]; intros [|n] L; cbn in *; try lia; [reflexivity|]. apply IH. lia. Qed.
  Lemma replace_nth_other {A} (l : list A) n m x : n <> m -> nth_error (replace_nth l n x) m = nth_error l m.
  Proof. revert n m. induction l as [|y l IH]; intros [|n] [|m] N; cbn; try reflexivity; [congruence|]. apply IH. congruence. Qed.
  Lemma replace_nth_length {A} (l : list A) n x : length (replace_nth l n x) = length l.
  Proof. revert n. induction l as [|y l IH]; intros [|n]; cbn; auto. Qed.
  Lemma update_cases r new w o w' : step (EUpdate r new) w = (o, w') ->
    (o <> Done /\ w' = w) \/
    exists e b d, object w r = Some (Function e b (Some d)) /\ (forall n, In n (map fst new) -> In n (dkeys d)) /\ o = Done /\
      w' = World (replace_nth (w_heap w) r (Function e b (Some (dupdate d new)))) (w_memory w) (w_disk w) (w_x64 w).
  Proof.
    unfold Cached.step, update_parameters, object. destruct (nth_error (w_heap w) r) as [[e b [d|]]|].
    - destruct (forallb (fun nv => memb (fst nv) (dkeys d)) new) eqn:F; intros S; injection S as <- <-.
      + right. exists e, b, d. split; [reflexivity|]. split; [|split; reflexivity].
        intros n J. apply in_map_iff in J. destruct J as (nv & <- & J). rewrite forallb_forall in F. apply memb_In, F, J.
      + left. split; [discriminate|reflexivity].
    - intros S. injection S as <- <-. left. split; [discriminate|reflexivity].
    - intros S. injection S as <- <-. left. split; [discriminate|reflexivity].
  Qed.
  Lemma made_for_eq tr w k r tr' w' : made_for tr w k r -> object w' r = object w r ->
    (forall n, last_set r n tr' = last_set r n tr) -> made_for tr' w' k r.
  Proof.
    intros (k0 & f & A & B & C & D & F & G) O L. exists k0, f. split; [exact A|]. split; [exact B|]. split; [rewrite O; exact C|].
    split; [exact D|]. split; [exact F|]. destruct (k_params k0), (fn_params f); try exact G. intros n. rewrite L. exact (G n).
  Qed.
  Lemma last_set_call r n e ps b o tr : last_set r n ((ELambdify e ps b, o) :: tr) = last_set r n tr.
  Proof. reflexivity. Qed.
  Lemma x64_step tr w w' e ps b o : Inv tr w -> w_x64 w' = (if eqb (backend_of ps b) "jax" then true else w_x64 w) ->
    w_x64 w' = true <-> exists e0 ps0 b0 o0, In (ELambdify e0 ps0 b0, o0) (this_process ((ELambdify e ps b, o) :: tr)) /\ backend_of ps0 b0 = "jax".
  Proof.
    intros I ->. cbn [this_process]. destruct (eqb (backend_of ps b) "jax") eqn:J.
    - split; [|reflexivity]. intros _. exists e, ps, b, o. split; [left; reflexivity|]. apply Prelude.eqb_eq. exact J.
    - rewrite (i_x64 _ _ I). split.
      + intros (e0 & ps0 & b0 & o0 & X & Y). exists e0, ps0, b0, o0. split; [right; exact X|exact Y].
      + intros (e0 & ps0 & b0 & o0 & [X|X] & Y).
        * exfalso. injection X as -> -> -> ->. apply Prelude.eqb_neq in J. contradiction.
        * exists e0, ps0, b0, o0. split; [exact X|exact Y].
  Qed.
  Lemma inv_call tr w e ps b o w' : Inv tr w -> step (ELambdify e ps b) w = (o, w') -> Inv ((ELambdify e ps b, o) :: tr) w'.
  Proof.
    intros I S. apply (call_cases tr) in S; [|exact I]. inversion S; subst o w'; clear S.
    - (* from memory *)
      split; cbn [w_heap w_memory w_disk w_x64 this_process].
      + intros k1 r1 J. destruct (i_memory _ _ I k1 r1 J) as [G M]. split; [exact G|].
        exact (made_for_eq _ _ _ _ _ _ M eq_refl (fun n => eq_refl)).
      + exact (i_distinct _ _ I).
      + exact (i_disk _ _ I).
      + exact (i_known _ _ I).
      + intros r1 new [J|J]; [discriminate J|]. exact (i_objects _ _ I r1 new J).
      + exact (i_refs _ _ I).
      + intros e1 ps1 b1 r1 [J|J].
        * injection J as -> -> -> ->. exists k. split; assumption.
        * exact (i_returned _ _ I _ _ _ _ J).
      + intros k1 r1 J. destruct (i_called _ _ I k1 r1 J) as (e1 & ps1 & b1 & X & Y). exists e1, ps1, b1. split; [right; exact X|exact Y].
      + apply (x64_step tr w (World (w_heap w) (w_memory w) (w_disk w) (if eqb (backend_of ps b) "jax" then true else w_x64 w)) e ps b (Returned r) I eq_refl).
    - (* a new object *)
      match goal with A : identical k0 _, B : good_call k0, C : known_backend _ = true |- _ => rename A into Hi; rename B into Hg; rename C into Hk end.
      match goal with A : forall k r, In (k, r) (w_memory w) -> ~ _ |- _ => rename A into Hn end.
      match goal with A : forall k f, In (k, f) disk -> _ |- _ => rename A into Hd end.
      set (k := call_of e ps b) in *. set (r := length (w_heap w)) in *.
      split; cbn [w_heap w_memory w_disk w_x64 this_process].
      + intros k1 r1 [J|J].
        * injection J as <- <-. split; [apply call_of_good|]. exists k0, (content k0).
          destruct Hi as (Hi1 & Hi2 & Hi3).
          split; [split; [exact Hi1|split; [exact Hi2|exact Hi3]]|]. split; [exact Hg|].
          split; [unfold object; cbn [w_heap]; rewrite nth_error_app2 by (unfold r; lia); unfold r; rewrite Nat.sub_diag; reflexivity|].
          split; [exact Hi1|]. split; [exact Hi2|]. unfold content. cbn [fn_params].
          destruct (k_params k0) as [d0|]; [|exact Logic.I]. intros n. cbn [last_set].
          rewrite (last_set_none tr w r n I (le_n _)). split; [reflexivity|]. intros X. contradiction X. reflexivity.
        * destruct (i_memory _ _ I k1 r1 J) as [G M]. split; [exact G|].
          refine (made_for_eq _ _ _ _ _ _ M _ (fun n => eq_refl)). unfold object. cbn [w_heap].
          apply nth_error_app1, (i_refs _ _ I _ _ J).
      + intros k1 r1 k2 r2 [J1|J1] [J2|J2].
        * injection J1 as <- <-. injection J2 as <- <-. split; [intros _; apply same_call_refl|reflexivity].
        * injection J1 as <- <-. split.
          { intros <-. exfalso. assert (X := i_refs _ _ I _ _ J2). unfold r in X. lia. }
          { intros X. exfalso. apply (Hn k2 r2 J2). apply same_call_sym. exact X. }
        * injection J2 as <- <-. split.
          { intros ->. exfalso. assert (X := i_refs _ _ I _ _ J1). unfold r in X. lia. }
          { intros X. exfalso. apply (Hn k1 r1 J1). exact X. }
        * exact (i_distinct _ _ I _ _ _ _ J1 J2).
      + intros k1 f1 J. destruct (Hd k1 f1 J) as [X|[-> ->]]; [exact (i_disk _ _ I k1 f1 X)|].
        split; [apply call_of_good|]. split; [reflexivity|exact Hk].
      + intros k1 r1 [J|J]; [injection J as <- <-; exact Hk|exact (i_known _ _ I k1 r1 J)].
      + intros r1 new [J|J]; [discriminate J|]. apply (i_objects _ _ I) in J. rewrite app_length. lia.
      + intros k1 r1 [J|J]; rewrite app_length; cbn [length].
        * injection J as <- <-. unfold r. lia.
        * apply (i_refs _ _ I) in J. lia.
      + intros e1 ps1 b1 r1 [J|J].
        * injection J as -> -> -> ->. exists k. split; [left; reflexivity|apply same_call_refl].
        * destruct (i_returned _ _ I _ _ _ _ J) as (k1 & X & Y). exists k1. split; [right; exact X|exact Y].
      + intros k1 r1 [J|J].
        * injection J as <- <-. exists e, ps, b. split; [left; reflexivity|reflexivity].
        * destruct (i_called _ _ I k1 r1 J) as (e1 & ps1 & b1 & X & Y). exists e1, ps1, b1. split; [right; exact X|exact Y].
      + apply (x64_step tr w (World (w_heap w) (w_memory w) (w_disk w) (if eqb (backend_of ps b) "jax" then true else w_x64 w)) e ps b (Returned r) I eq_refl).
    - (* unknown backend *)
      split; cbn [w_heap w_memory w_disk w_x64 this_process].
      + intros k1 r1 J. destruct (i_memory _ _ I k1 r1 J) as [G M]. split; [exact G|].
        exact (made_for_eq _ _ _ _ _ _ M eq_refl (fun n => eq_refl)).
      + exact (i_distinct _ _ I).
      + exact (i_disk _ _ I).
      + exact (i_known _ _ I).
      + intros r1 new [J|J]; [discriminate J|]. exact (i_objects _ _ I r1 new J).
      + exact (i_refs _ _ I).
      + intros e1 ps1 b1 r1 [J|J]; [discriminate J|]. exact (i_returned _ _ I _ _ _ _ J).
      + intros k1 r1 J. destruct (i_called _ _ I k1 r1 J) as (e1 & ps1 & b1 & X & Y). exists e1, ps1, b1. split; [right; exact X|exact Y].
      + apply (x64_step tr w (World (w_heap w) (w_memory w) (w_disk w) (if eqb (backend_of ps b) "jax" then true else w_x64 w)) e ps b (Raised NotImplementedErr) I eq_refl).
  Qed.
  Lemma inv_update tr w r new o w' : Inv tr w -> step (EUpdate r new) w = (o, w') -> Inv ((EUpdate r new, o) :: tr) w'.
  Proof.
    intros I S. apply update_cases in S. destruct S as [[N ->]|(e & b & d & O & K & -> & ->)].
    - assert (L : forall r1 n, last_set r1 n ((EUpdate r new, o) :: tr) = last_set r1 n tr).
      { intros r1 n. cbn. destruct o; try reflexivity. contradiction N. reflexivity. }
      assert (T : forall x, (forall r new, fst x <> EUpdate r new) -> In x (this_process ((EUpdate r new, o) :: tr)) <-> In x (this_process tr)).
      { intros x X. cbn. split; [intros [J|J]; [|exact J]|intros J; right; exact J]. rewrite <- J in X. exfalso. apply (X r new). reflexivity. }
      split.
      + intros k1 r1 J. destruct (i_memory _ _ I k1 r1 J) as [G M]. split; [exact G|].
        exact (made_for_eq _ _ _ _ _ _ M eq_refl (L r1)).
      + exact (i_distinct _ _ I).
      + exact (i_disk _ _ I).
      + exact (i_known _ _ I).
      + intros r1 new1 [J|J]; [|exact (i_objects _ _ I r1 new1 J)]. injection J as _ _ J. contradiction N.
      + exact (i_refs _ _ I).
      + intros e1 ps1 b1 r1 J. apply T in J; [|discriminate]. exact (i_returned _ _ I _ _ _ _ J).
      + intros k1 r1 J. destruct (i_called _ _ I k1 r1 J) as (e1 & ps1 & b1 & X & Y). exists e1, ps1, b1. split; [right; exact X|exact Y].
      + rewrite (i_x64 _ _ I). split; intros (e0 & ps0 & b0 & o0 & X & Y); exists e0, ps0, b0, o0; (split; [|exact Y]).
        * right. exact X.
        * apply T in X; [exact X|discriminate].
    - assert (R : (r < length (w_heap w))%nat) by (apply nth_error_Some; unfold object in O; rewrite O; discriminate).
      split; cbn [w_heap w_memory w_disk w_x64 this_process].
      + intros k1 r1 J. destruct (i_memory _ _ I k1 r1 J) as [G M]. split; [exact G|].
        destruct (Nat.eq_dec r1 r) as [->|Nr].
        * destruct M as (k0 & f & A & B & C & D & F & P). rewrite O in C. injection C as <-. cbn [fn_expr fn_backend fn_params] in D, F, P.
          exists k0, (Function e b (Some (dupdate d new))). split; [exact A|]. split; [exact B|].
          split; [unfold object; cbn [w_heap]; apply replace_nth_same; exact R|]. split; [exact D|]. split; [exact F|].
          cbn [fn_params]. destruct (k_params k0) as [d0|]; [|exact P]. intros n. destruct (P n) as [P1 P2].
          cbn [last_set]. rewrite Nat.eqb_refl. rewrite dget_dict_of, dget_dupdate. destruct (dget n (rev new)) as [v|] eqn:V.
          { split; [reflexivity|]. intros _ Z. assert (Q : In n (dkeys d)).
            { apply K. apply dget_Some_In, in_rev in V. apply (in_map fst) in V. exact V. }
            apply dget_In in Q. destruct Q as (v' & Q). rewrite P1 in Q. destruct (last_set r n tr) as [u|] eqn:U.
            - apply P2; [discriminate|exact Z].
            - congruence. }
          { split; [exact P1|exact P2]. }
        * refine (made_for_eq _ _ _ _ _ _ M _ _).
          { unfold object. cbn [w_heap]. apply replace_nth_other. congruence. }
          { intros n. cbn [last_set]. destruct (Nat.eqb_spec r1 r) as [Q|_]; [contradiction|reflexivity]. }
      + exact (i_distinct _ _ I).
      + exact (i_disk _ _ I).
      + exact (i_known _ _ I).
      + intros r1 new1 J. rewrite replace_nth_length. destruct J as [J|J]; [injection J as <- _; exact R|exact (i_objects _ _ I r1 new1 J)].
      + intros k1 r1 J. rewrite replace_nth_length. exact (i_refs _ _ I _ _ J).
      + intros e1 ps1 b1 r1 [J|J]; [discriminate J|]. exact (i_returned _ _ I _ _ _ _ J).
      + intros k1 r1 J. destruct (i_called _ _ I k1 r1 J) as (e1 & ps1 & b1 & X & Y). exists e1, ps1, b1. split; [right; exact X|exact Y].
      + rewrite (i_x64 _ _ I). split; intros (e0 & ps0 & b0 & o0 & X & Y); exists e0, ps0, b0, o0; (split; [|exact Y]).
        * right. exact X.
        * destruct X as [X|X]; [discriminate X|exact X].
  Qed.
  Lemma inv_restart tr w o w' : Inv tr w -> step ERestart w = (o, w') -> Inv ((ERestart, o) :: tr) w'.
  Proof.
    intros I S. injection S as <- <-. split; cbn [w_heap w_memory w_disk w_x64 this_process]; try (intros; contradiction).
    - exact (i_disk _ _ I).
    - intros r1 new1 [J|J]; [discriminate J|exact (i_objects _ _ I r1 new1 J)].
    - split; [discriminate|]. intros (e0 & ps0 & b0 & o0 & [] & _).
  Qed.
  Theorem history_inv tr w : history tr w -> Inv tr w.
  Proof.
    induction 1 as [|tr w x o w' Hh IH S]; [apply inv_start|]. destruct x as [e ps b|r new|].
    - exact (inv_call _ _ _ _ _ _ _ IH S).
    - exact (inv_update _ _ _ _ _ _ IH S).
    - exact (inv_restart _ _ _ _ IH S).
  Qed.

  (** ** C62 *)
  Lemma returned tr w e ps b r w' : history tr w -> step (ELambdify e ps b) w = (Returned r, w') ->
    exists k, In (k, r) (w_memory w') /\ same_call k (call_of e ps b) /\ made_for tr w' k r.
  Proof.
    intros Hh S. assert (I := history_inv _ _ Hh). assert (I' := inv_call _ _ _ _ _ _ _ I S).
    destruct (i_returned _ _ I' e ps b r) as (k & J & Q); [left; reflexivity|].
    exists k. split; [exact J|]. split; [exact Q|]. destruct (i_memory _ _ I' k r J) as [_ M].
    exact (made_for_eq _ _ _ _ _ _ M eq_refl (fun n => eq_refl)).
  Qed.
  Theorem c62_positional tr w e ps b r w' : history tr w -> step (ELambdify e ps b) w = (Returned r, w') ->
    mapping_of ps = None -> object w' r = Some (Function e (backend_of ps b) None).
  Proof.
    intros Hh S M. destruct (returned _ _ _ _ _ _ _ Hh S) as (k & _ & (Q1 & Q2 & Q3) & (k0 & f & A & _ & O & F & B & P)).
    rewrite O. unfold call_of in Q1, Q2, Q3. cbn [k_expr k_backend k_params] in Q1, Q2, Q3. rewrite M in Q3.
    destruct A as (A1 & A2 & A3). destruct (k_params k) as [d|]; [destruct Q3|]. destruct (k_params k0) as [d|]; [destruct A3|].
    destruct f as [fe fb [d|]]; cbn [fn_params] in P; [destruct P|]. cbn [fn_expr fn_backend] in F, B. congruence.
  Qed.
  Lemma parameters_of tr w e ps b r w' items : history tr w -> step (ELambdify e ps b) w = (Returned r, w') ->
    mapping_of ps = Some items -> exists d d0, object w' r = Some (Function e (backend_of ps b) (Some d)) /\
      NoDup (dkeys d0) /\ (forall s, same_number (dget s d0) (dget s (dict_of items))) /\
      forall n, (dget n d = match last_set r n tr with Some v => Some v | None => dget n (by_name d0) end) /\
        (last_set r n tr <> None -> dget n (by_name d0) <> None).
  Proof.
    intros Hh S M. destruct (returned _ _ _ _ _ _ _ Hh S) as (k & _ & (Q1 & Q2 & Q3) & (k0 & f & A & G & O & F & B & P)).
    rewrite O. unfold call_of in Q1, Q2, Q3. cbn [k_expr k_backend k_params] in Q1, Q2, Q3. rewrite M in Q3.
    destruct A as (A1 & A2 & A3). destruct (k_params k) as [d1|]; [|destruct Q3]. unfold good_call in G.
    destruct (k_params k0) as [d0|]; [|destruct A3].
    destruct f as [fe fb [d|]]; cbn [fn_params] in P; [|destruct P]. cbn [fn_expr fn_backend] in F, B.
    exists d, d0. split; [congruence|]. split; [exact G|]. split; [|exact P].
    intros s. rewrite A3. apply Q3.
  Qed.
  Lemma symbols_eq (d0 : dict symbol value) items : (forall s, same_number (dget s d0) (dget s (dict_of items))) ->
    forall s, In s (dkeys d0) <-> In s (map fst items).
  Proof.
    intros Q s. rewrite <- dict_of_keys, <- !dget_In. specialize (Q s).
    destruct (dget s d0) as [v|], (dget s (dict_of items)) as [v'|]; cbn in Q; try destruct Q.
    - split; intros _; eexists; reflexivity.
    - reflexivity.
  Qed.
  Theorem c62_parameters tr w e ps b r w' items : history tr w -> step (ELambdify e ps b) w = (Returned r, w') ->
    mapping_of ps = Some items -> distinct_names items ->
    exists d, object w' r = Some (Function e (backend_of ps b) (Some d)) /\
      (forall n, In n (dkeys d) <-> exists s, In s (map fst items) /\ sy_name s = n) /\
      (forall n v, last_set r n tr = Some v -> dget n d = Some v) /\
      (forall s v, wants items s v -> last_set r (sy_name s) tr = None ->
         exists v', dget (sy_name s) d = Some v' /\ equal_numbers v' v).
  Proof.
    intros Hh S M U. destruct (parameters_of _ _ _ _ _ _ _ _ Hh S M) as (d & d0 & O & N & Q & P).
    exists d. split; [exact O|]. assert (K := symbols_eq _ _ Q). split; [|split].
    - intros n. destruct (P n) as [P1 P2]. rewrite <- dget_In. rewrite P1.
      assert (X : (exists s, In s (map fst items) /\ sy_name s = n) <-> exists v, dget n (by_name d0) = Some v).
      { rewrite dget_In, by_name_keys. split; intros (s & I & E0); exists s; (split; [|exact E0]); apply K; exact I. }
      rewrite X. destruct (last_set r n tr) as [v|] eqn:L; [|reflexivity]. split; intros _.
      + destruct (dget n (by_name d0)) as [v'|]; [exists v'; reflexivity|]. contradiction P2; [discriminate|reflexivity].
      + exists v. reflexivity.
    - intros n v L. rewrite (proj1 (P n)), L. reflexivity.
    - intros s v W L. rewrite (proj1 (P (sy_name s))), L. specialize (Q s). unfold wants in W. rewrite W in Q.
      destruct (dget s d0) as [v0|] eqn:G; [|destruct Q]. exists v0. split; [|exact Q].
      apply by_name_get; [exact N| |exact G]. intros s' I E0. apply U; [apply K; exact I| |exact E0].
      apply K, dget_In. exists v0. exact G.
  Qed.
  Theorem c62_unmodified tr w e ps b r w' items : history tr w -> step (ELambdify e ps b) w = (Returned r, w') ->
    mapping_of ps = Some items -> distinct_names items -> never_updated r tr ->
    exists d, object w' r = Some (Function e (backend_of ps b) (Some d)) /\
      (forall n, In n (dkeys d) <-> exists s, In s (map fst items) /\ sy_name s = n) /\
      (forall s v, wants items s v -> exists v', dget (sy_name s) d = Some v' /\ equal_numbers v' v).
  Proof.
    intros Hh S M U N. destruct (c62_parameters _ _ _ _ _ _ _ _ Hh S M U) as (d & O & D & _ & P).
    exists d. split; [exact O|]. split; [exact D|]. intros s v W. apply P; [exact W|]. apply never_last_set. exact N.
  Qed.
  (** The first request of its kind in a process gets exactly what it wants *)
  Theorem c62_fresh tr w e ps b r w' items : history tr w -> step (ELambdify e ps b) w = (Returned r, w') ->
    mapping_of ps = Some items -> distinct_names items ->
    (forall e' ps' b' r', In (ELambdify e' ps' b', Returned r') (this_process tr) -> ~ same_request e' ps' b' e ps b) ->
    never_updated r tr /\
    exists d, object w' r = Some (Function e (backend_of ps b) (Some d)) /\
      (forall n, In n (dkeys d) <-> exists s, In s (map fst items) /\ sy_name s = n) /\
      (forall s v, wants items s v -> dget (sy_name s) d = Some v).
  Proof.
    intros Hh S M U F. assert (I := history_inv _ _ Hh). apply (call_cases tr) in S; [|exact I].
    inversion S as [k r0 J Q Er Ew|k0 disk Hi Hg Hn Hk Hd Er Ew|]; subst.
    - exfalso. destruct (i_called _ _ I k r J) as (e1 & ps1 & b1 & X & ->).
      apply (F _ _ _ _ X). apply same_call_of. exact Q.
    - split; [intros new X; apply (i_objects _ _ I) in X; lia|].
      destruct Hi as (A1 & A2 & A3). unfold call_of in A1, A2, A3. cbn [k_expr k_backend k_params] in A1, A2, A3. rewrite M in A3.
      unfold good_call in Hg. unfold object. cbn [w_heap]. rewrite nth_error_app2, Nat.sub_diag by lia. unfold content.
      destruct (k_params k0) as [d0|]; [|destruct A3]. cbn [nth_error]. exists (by_name d0). rewrite A1, A2. split; [reflexivity|].
      assert (K : forall s, In s (dkeys d0) <-> In s (map fst items)).
      { apply symbols_eq. intros s. rewrite A3. apply same_number_refl. }
      split.
      + intros n. rewrite by_name_keys. split; intros (s & J & E0); exists s; (split; [|exact E0]); apply K; exact J.
      + intros s v W. unfold wants in W. rewrite <- A3 in W. apply by_name_get; [exact Hg| |exact W].
        intros s' J E0. apply U; [apply K; exact J| |exact E0]. apply K, dget_In. exists v. exact W.
  Qed.

  (** ** C78 *)
  Theorem c78_shared tr w e ps b r w' e' ps' b' r' : history tr w ->
    In (ELambdify e' ps' b', Returned r') (this_process tr) -> step (ELambdify e ps b) w = (Returned r, w') ->
    (r' = r <-> same_request e' ps' b' e ps b).
  Proof.
    intros Hh J S. assert (I := history_inv _ _ Hh). assert (I' := inv_call _ _ _ _ _ _ _ I S).
    destruct (i_returned _ _ I' e ps b r) as (k & X & Q); [left; reflexivity|].
    destruct (i_returned _ _ I' e' ps' b' r') as (k' & X' & Q'); [right; exact J|].
    rewrite <- same_call_of. rewrite (i_distinct _ _ I' k' r' k r X' X). split.
    - intros Y. apply (same_call_trans _ k'); [apply same_call_sym; exact Q'|]. apply (same_call_trans _ k); assumption.
    - intros Y. apply (same_call_trans _ (call_of e' ps' b')); [exact Q'|].
      apply (same_call_trans _ (call_of e ps b)); [exact Y|apply same_call_sym; exact Q].
  Qed.
  Theorem c78_isolated tr w x o w' r f : history tr w -> step x w = (o, w') -> object w r = Some f ->
    (forall new, x <> EUpdate r new) -> object w' r = Some f.
  Proof.
    intros Hh S O N. assert (I := history_inv _ _ Hh). destruct x as [e ps b|r' new|].
    - apply (call_cases tr) in S; [|exact I]. inversion S; subst; try exact O.
      unfold object in *. cbn [w_heap]. rewrite nth_error_app1; [exact O|]. apply nth_error_Some. rewrite O. discriminate.
    - apply update_cases in S. destruct S as [[_ ->]|(e & b & d & _ & _ & _ & ->)]; [exact O|].
      unfold object in *. cbn [w_heap]. rewrite replace_nth_other; [exact O|]. intros ->. apply (N new). reflexivity.
    - injection S as _ <-. exact O.
  Qed.
  Theorem c78_update w r new o w' : step (EUpdate r new) w = (o, w') ->
    (o = Done <-> exists e b d, object w r = Some (Function e b (Some d)) /\ forall n, In n (map fst new) -> In n (dkeys d)) /\
    (o <> Done -> w' = w).
  Proof.
    intros S. assert (C := update_cases _ _ _ _ _ S). split.
    - split.
      + intros ->. destruct C as [[C _]|(e & b & d & O & K & _ & _)]; [contradiction C; reflexivity|]. exists e, b, d. split; assumption.
      + intros (e & b & d & O & K). unfold Cached.step, update_parameters in S. unfold object in O. rewrite O in S.
        replace (forallb (fun nv => memb (fst nv) (dkeys d)) new) with true in S; [injection S as <- _; reflexivity|].
        symmetry. apply forallb_forall. intros nv J. apply memb_In, K, in_map, J.
    - intros N. destruct C as [[_ C]|(e & b & d & _ & _ & C & _)]; [exact C|contradiction].
  Qed.
  Theorem c78_total tr w e ps b o w' : history tr w -> step (ELambdify e ps b) w = (o, w') ->
    if known_backend (backend_of ps b) then exists r, o = Returned r else o = Raised NotImplementedErr.
  Proof.
    intros Hh S. assert (I := history_inv _ _ Hh). apply (call_cases tr) in S; [|exact I].
    inversion S as [k r0 J Q Er Ew|k0 disk Hi Hg Hn Hk Hd Er Ew|Hk Er Ew]; subst.
    - assert (B := i_known _ _ I k r0 J). destruct Q as (_ & Q & _). rewrite Q in B. unfold call_of in B. cbn [k_backend] in B.
      rewrite B. eexists. reflexivity.
    - rewrite Hk. eexists. reflexivity.
    - rewrite Hk. reflexivity.
  Qed.

  (** ** C79 *)
  Theorem c79_text e s b w : step (ELambdify e (Text s) b) w = step (ELambdify e NoParameters s) w.
  Proof. reflexivity. Qed.
  Theorem c79_x64 tr w : history tr w ->
    (w_x64 w = true <-> exists e ps b o, In (ELambdify e ps b, o) (this_process tr) /\ backend_of ps b = "jax").
  Proof. intros Hh. exact (i_x64 _ _ (history_inv _ _ Hh)). Qed.
End Histories.

(** ** C62: counterexamples *)
Definition ca_file (k k' : call Z) : bool :=
  eqb (k_expr k) (k_expr k') && eqb (k_backend k) (k_backend k') &&
  match k_params k, k_params k' with
  | None, None => true
  | Some d, Some d' =>
      forallb (fun s => match dget s d, dget s d' with
                        | Some (VBool b), Some (VBool b') => eqb b b'
                        | Some (VInt n), Some (VInt n') => eqb n n'
                        | Some (VFloat q), Some (VFloat q') => eqb q q'
                        | Some (VComplex q i), Some (VComplex q' i') => eqb q q' && eqb i i'
                        | _, _ => false
                        end) (dkeys d ++ dkeys d')
  | _, _ => false
  end.
Lemma ca_hash : hash_of_arguments ca_file.
Proof.
  intros k k' Q. unfold ca_file in Q. rewrite !andb_true_iff, !Prelude.eqb_eq in Q. destruct Q as [[A B] C].
  split; [exact A|]. split; [exact B|]. destruct (k_params k) as [d|], (k_params k') as [d'|]; try discriminate C; [|exact I].
  intros s. rewrite forallb_forall in C. specialize (C s).
  destruct (dget s d) as [v|] eqn:D.
  - assert (J : In s (dkeys d)) by (apply dget_In; exists v; exact D). specialize (C (in_or_app _ _ _ (or_introl J))).
    cbn beta in C. destruct v, (dget s d') as [[]|]; try discriminate C;
      repeat rewrite ?andb_true_iff, ?Prelude.eqb_eq in C; try destruct C; subst; reflexivity.
  - destruct (dget s d') as [v'|] eqn:D'; [|reflexivity].
    assert (J : In s (dkeys d')) by (apply dget_In; exists v'; exact D'). specialize (C (in_or_app _ _ _ (or_intror J))).
    discriminate C.
Qed.
Definition ca_known (b : string) : bool := memb b ["jax"; "numpy"].
Definition ca_m : symbol := Symbol "m" 0.
Definition ca_items (v : value) : parameters := Parameters [(ca_m, v); (Symbol "g" 0, VInt 3)].
Definition ca_call (v : value) : event Z := ELambdify 7%Z (ca_items v) "jax".
Definition ca_update : event Z := EUpdate 0 [("m", VInt 2)].
Fixpoint run (xs : list (event Z)) (tr : list (event Z * outcome)) (w : world Z) : list (event Z * outcome) * world Z :=
  match xs with
  | [] => (tr, w)
  | x :: xs => let (o, w) := step ca_file ca_known x w in run xs ((x, o) :: tr) w
  end.
Lemma run_history xs tr w tr' w' : history ca_file ca_known tr w -> run xs tr w = (tr', w') -> history ca_file ca_known tr' w'.
Proof.
  revert tr w. induction xs as [|x xs IH]; intros tr w Hh R; cbn in R; [injection R as <- <-; exact Hh|].
  destruct (step ca_file ca_known x w) as [o w1] eqn:S. apply (IH _ _ (h_step _ _ _ _ _ _ _ Hh S) R).
Qed.
Lemma ca_names v : distinct_names [(ca_m, v); (Symbol "g" 0, VInt 3)].
Proof. intros s s' [<-|[<-|[]]] [<-|[<-|[]]]; cbn; intros X; try reflexivity; discriminate X. Qed.
Definition ca_history (xs : list (event Z)) := run xs [] start.
Lemma ca_is_history xs : history ca_file ca_known (fst (ca_history xs)) (snd (ca_history xs)).
Proof. apply (run_history xs [] start); [apply h_start|]. unfold ca_history. destruct (run xs [] start); reflexivity. Qed.
Theorem c62_refuted : ~ (forall (same_file : call Z -> call Z -> bool) known_backend tr w e ps b r w' items,
  hash_of_arguments same_file -> history same_file known_backend tr w ->
  step same_file known_backend (ELambdify e ps b) w = (Returned r, w') ->
  mapping_of ps = Some items -> distinct_names items ->
  exists d, object w' r = Some (Function e (backend_of ps b) (Some d)) /\
    forall s v, wants items s v -> exists v', dget (sy_name s) d = Some v' /\ equal_numbers v' v).
Proof.
  intros P. destruct (step ca_file ca_known (ca_call (VInt 1)) (snd (ca_history [ca_call (VInt 1); ca_update]))) as [o w'] eqn:S.
  assert (S0 := S). vm_compute in S0. injection S0 as O W.
  rewrite <- O in S.
  destruct (P ca_file ca_known _ _ 7%Z (ca_items (VInt 1)) "jax" 0%nat w' _ ca_hash (ca_is_history _) S eq_refl (ca_names _)) as (d & X & Y).
  destruct (Y ca_m (VInt 1) eq_refl) as (v' & G & V). rewrite <- W in X. vm_compute in X. injection X as <-.
  vm_compute in G. injection G as <-. destruct V as [V _]. vm_compute in V. discriminate V.
Qed.
(** Without any update, but with the requested types *)
Theorem c62_types_refuted : ~ (forall (same_file : call Z -> call Z -> bool) known_backend tr w e ps b r w' items,
  hash_of_arguments same_file -> history same_file known_backend tr w ->
  step same_file known_backend (ELambdify e ps b) w = (Returned r, w') ->
  mapping_of ps = Some items -> distinct_names items -> never_updated r tr ->
  exists d, object w' r = Some (Function e (backend_of ps b) (Some d)) /\
    forall s v, wants items s v -> dget (sy_name s) d = Some v).
Proof.
  intros P.
  destruct (step ca_file ca_known (ca_call (VFloat (Qc_of_Z 1))) (snd (ca_history [ca_call (VInt 1)]))) as [o w'] eqn:S.
  assert (S0 := S). vm_compute in S0. injection S0 as O W. rewrite <- O in S.
  destruct (P ca_file ca_known _ _ 7%Z (ca_items (VFloat (Qc_of_Z 1))) "jax" 0%nat w' _ ca_hash (ca_is_history _) S eq_refl (ca_names _)) as (d & X & Y).
  { intros new [J|[]]. discriminate J. }
  specialize (Y ca_m (VFloat (Qc_of_Z 1)) eq_refl). rewrite <- W in X. vm_compute in X. injection X as <-. vm_compute in Y. discriminate Y.
Qed.
