(** Python-level vocabulary of the model: exceptions as values, insertion-ordered
    dictionaries, sets, comparison with [TypeError], [sorted]. *)
From Coq Require Import ZArith List Bool Lia String Ascii Permutation Sorted.
Import ListNotations.
Local Open Scope list_scope.

(** ** Exceptions *)
(** The Python exceptions raised in /repo (e.g. decay.py:80-87, angles.py:19-31, adapter/qrules.py:44-46), without their messages; [OutOfFuel] is no Python exception (see the fuelled functions). *)
Inductive exn :=
| ValueError | TypeError | KeyError | AttributeError | IndexError
| NotImplementedErr | StopIteration | OverflowError | OutOfFuel.

(** Outcome of a Python call: a value or an exception. *)
Inductive res (A : Type) := Ok (a : A) | Err (e : exn).
Arguments Ok {A}. Arguments Err {A}.

(** Sequencing of Python statements: an exception ends the function. *)
Definition bind {A B} (x : res A) (f : A -> res B) : res B :=
  match x with Ok a => f a | Err e => Err e end.
Notation "'let*' x := a 'in' b" := (bind a (fun x => b))
  (at level 200, x pattern, a at level 100, b at level 200, right associativity).

(** The Python call returns. Used in statements only. *)
Definition is_ok {A} (x : res A) : Prop := exists a, x = Ok a.

(** [[f(x) for x in xs]] where [f] may raise: the first exception propagates. *)
(** Python list comprehensions, e.g. decay.py:120, __init__.py:298-300. *)
Fixpoint mapM {A B} (f : A -> res B) (l : list A) : res (list B) :=
  match l with
  | [] => Ok []
  | a :: l => let* b := f a in let* bs := mapM f l in Ok (b :: bs)
  end.

Lemma mapM_ok_inv {A B} (f : A -> res B) l bs :
  mapM f l = Ok bs -> Forall2 (fun a b => f a = Ok b) l bs.
Proof.
  revert bs; induction l as [|a l IH]; simpl; intros bs H.
  - inversion H; constructor.
  - destruct (f a) eqn:E; simpl in H; [|discriminate].
    destruct (mapM f l) eqn:E2; simpl in H; [|discriminate].
    inversion H; subst; constructor; auto.
Qed.

Lemma mapM_ok_all {A B} (f : A -> res B) (g : A -> B) l :
  (forall a, In a l -> f a = Ok (g a)) -> mapM f l = Ok (map g l).
Proof.
  induction l as [|a l IH]; simpl; intros H; [reflexivity|].
  rewrite H by auto. simpl. rewrite IH by auto. reflexivity.
Qed.

Lemma mapM_is_ok {A B} (f : A -> res B) l :
  (forall a, In a l -> is_ok (f a)) -> is_ok (mapM f l).
Proof.
  induction l as [|a l IH]; simpl; intros H; [eexists; reflexivity|].
  destruct (H a (or_introl eq_refl)) as [b Hb]. rewrite Hb. simpl.
  destruct IH as [bs Hbs]; [auto|]. rewrite Hbs. eexists; reflexivity.
Qed.

(** ** Decidable equality *)
Class EqDec (A : Type) := eq_dec : forall x y : A, {x = y} + {x <> y}.
Global Instance EqDec_Z : EqDec Z := Z.eq_dec.
Global Instance EqDec_string : EqDec string := string_dec.
Global Instance EqDec_nat : EqDec nat := Nat.eq_dec.
Global Instance EqDec_bool : EqDec bool := bool_dec.
Global Instance EqDec_option {A} `{EqDec A} : EqDec (option A).
Proof. unfold EqDec; decide equality; apply eq_dec. Defined.
Global Instance EqDec_list {A} `{EqDec A} : EqDec (list A).
Proof. unfold EqDec; decide equality; apply eq_dec. Defined.
Global Instance EqDec_prod {A B} `{EqDec A} `{EqDec B} : EqDec (A * B).
Proof. unfold EqDec; decide equality; apply eq_dec. Defined.

(** Python [==] on values compared by their fields (attrs classes: decay.py:28-58). *)
Definition eqb {A} `{EqDec A} (x y : A) : bool := if eq_dec x y then true else false.
Lemma eqb_spec {A} `{EqDec A} (x y : A) : reflect (x = y) (eqb x y).
Proof. unfold eqb; destruct (eq_dec x y); constructor; auto. Qed.
Lemma eqb_refl {A} `{EqDec A} (x : A) : eqb x x = true.
Proof. destruct (eqb_spec x x); congruence. Qed.
Lemma eqb_eq {A} `{EqDec A} (x y : A) : eqb x y = true <-> x = y.
Proof. destruct (eqb_spec x y); split; congruence. Qed.
Lemma eqb_neq {A} `{EqDec A} (x y : A) : eqb x y = false <-> x <> y.
Proof. destruct (eqb_spec x y); split; congruence. Qed.

(** [x in xs] *)
(** Python [in], e.g. __init__.py:308, 465. *)
Definition memb {A} `{EqDec A} (x : A) (l : list A) : bool := existsb (eqb x) l.
Lemma memb_In {A} `{EqDec A} (x : A) l : memb x l = true <-> In x l.
Proof.
  unfold memb; rewrite existsb_exists; split.
  - intros (y & Hy & E). rewrite eqb_eq in E; subst; auto.
  - intros Hx; exists x; split; auto. apply eqb_refl.
Qed.
Lemma memb_notIn {A} `{EqDec A} (x : A) l : memb x l = false <-> ~ In x l.
Proof. rewrite <- memb_In. destruct (memb x l); split; congruence. Qed.

(** ** Sets: a Python [set] built from an iterable, as the list of its distinct
    elements in order of first occurrence.  The iteration order of a Python set
    is not observable through this model except where a comment says so. *)
Fixpoint to_set_acc {A} `{EqDec A} (seen l : list A) : list A :=
  match l with
  | [] => []
  | a :: l => if memb a seen then to_set_acc seen l else a :: to_set_acc (a :: seen) l
  end.
(** Python [set(...)], e.g. decay.py:78, 136. *)
Definition to_set {A} `{EqDec A} (l : list A) : list A := to_set_acc [] l.

Lemma to_set_acc_In {A} `{EqDec A} l : forall seen (x : A),
  In x (to_set_acc seen l) <-> In x l /\ ~ In x seen.
Proof.
  induction l as [|a l IH]; simpl; intros seen x; [tauto|].
  destruct (memb a seen) eqn:E.
  - apply memb_In in E. rewrite IH. split; [tauto|].
    intros [[->|Hl] Hs]; tauto.
  - apply memb_notIn in E. simpl. rewrite IH. simpl.
    destruct (eq_dec a x) as [->|N]; [tauto|]. split; [|tauto].
    intros [->|[? ?]]; tauto.
Qed.
Lemma to_set_In {A} `{EqDec A} (x : A) l : In x (to_set l) <-> In x l.
Proof. unfold to_set; rewrite to_set_acc_In; simpl; tauto. Qed.
Lemma to_set_acc_NoDup {A} `{EqDec A} l : forall seen : list A, NoDup (to_set_acc seen l).
Proof.
  induction l as [|a l IH]; simpl; intros seen; [constructor|].
  destruct (memb a seen) eqn:E; auto.
  constructor; auto. rewrite to_set_acc_In; simpl; tauto.
Qed.
Lemma to_set_NoDup {A} `{EqDec A} (l : list A) : NoDup (to_set l).
Proof. apply to_set_acc_NoDup. Qed.
Lemma to_set_acc_id {A} `{EqDec A} l : forall seen : list A,
  NoDup l -> (forall x, In x l -> ~ In x seen) -> to_set_acc seen l = l.
Proof.
  induction l as [|a l IH]; simpl; intros seen Hnd Hd; [reflexivity|].
  inversion Hnd; subst.
  destruct (memb a seen) eqn:E.
  - apply memb_In in E. exfalso; eapply Hd; eauto.
  - f_equal. apply IH; auto. intros x Hx [->|Hs]; [tauto|]. eapply Hd; eauto.
Qed.
Lemma to_set_id {A} `{EqDec A} (l : list A) : NoDup l -> to_set l = l.
Proof. intros; apply to_set_acc_id; simpl; auto. Qed.

(** [s1 == s2] and [s1 <= s2] on sets *)
(** Python [<=] on sets. *)
Definition subsetb {A} `{EqDec A} (s1 s2 : list A) : bool := forallb (fun x => memb x s2) s1.
(** Python [==] on sets, e.g. decay.py:89, adapter/qrules.py:47. *)
Definition set_eqb {A} `{EqDec A} (s1 s2 : list A) : bool := subsetb s1 s2 && subsetb s2 s1.
Lemma subsetb_spec {A} `{EqDec A} (s1 s2 : list A) : subsetb s1 s2 = true <-> incl s1 s2.
Proof.
  unfold subsetb, incl; rewrite forallb_forall.
  split; intros Hx x Hin; apply memb_In; apply memb_In; auto; apply memb_In; auto.
Qed.
Lemma set_eqb_spec {A} `{EqDec A} (s1 s2 : list A) :
  set_eqb s1 s2 = true <-> (forall x, In x s1 <-> In x s2).
Proof.
  unfold set_eqb; rewrite andb_true_iff, !subsetb_spec; unfold incl; firstorder.
Qed.

(** [s1 - s2] *)
(** Python [-] on sets, e.g. angles.py:33, dynamics/builder.py:126. *)
Definition set_diff {A} `{EqDec A} (s1 s2 : list A) : list A :=
  filter (fun x => negb (memb x s2)) s1.

(** ** Dictionaries *)
(** Python [dict]: items in insertion order, e.g. decay.py:73, __init__.py:46-50. *)
Definition dict (K V : Type) := list (K * V).

Section Dict.
  Context {K V : Type} `{EqDec K}.
  Fixpoint dget (k : K) (d : dict K V) : option V :=
    match d with
    | [] => None
    | (k', v) :: d => if eq_dec k k' then Some v else dget k d
    end.
  (** [d[k] = v]: an existing key keeps its position. *)
  Fixpoint dset (k : K) (v : V) (d : dict K V) : dict K V :=
    match d with
    | [] => [(k, v)]
    | (k', v') :: d => if eq_dec k k' then (k', v) :: d else (k', v') :: dset k v d
    end.
  (** [d1.update(d2)], [{**d1, **d2}] *)
  Fixpoint dupdate (d1 d2 : dict K V) : dict K V :=
    match d2 with
    | [] => d1
    | (k, v) :: d2 => dupdate (dset k v d1) d2
    end.
  (** [d[k]] *)
  Definition dgetitem (k : K) (d : dict K V) : res V :=
    match dget k d with Some v => Ok v | None => Err KeyError end.
  Definition dkeys (d : dict K V) : list K := map fst d.
  Definition dvalues (d : dict K V) : list V := map snd d.
  (** [{k: v for k, v in l}] *)
  Definition dict_of (l : list (K * V)) : dict K V := dupdate [] l.

  Lemma dget_dset k v d k' :
    dget k' (dset k v d) = if eq_dec k' k then Some v else dget k' d.
  Proof.
    induction d as [|[k0 v0] d IH]; simpl.
    - destruct (eq_dec k' k); auto.
    - destruct (eq_dec k k0) as [->|N]; simpl.
      + destruct (eq_dec k' k0); auto.
      + rewrite IH. destruct (eq_dec k' k0) as [->|]; auto.
        destruct (eq_dec k0 k); congruence.
  Qed.
  Lemma dset_keys k v d x : In x (dkeys (dset k v d)) <-> x = k \/ In x (dkeys d).
  Proof.
    induction d as [|[k0 v0] d IH]; simpl.
    - intuition.
    - destruct (eq_dec k k0) as [->|N]; simpl.
      + intuition.
      + fold (dkeys d). rewrite IH. intuition.
  Qed.
  Lemma dset_NoDup k v d : NoDup (dkeys d) -> NoDup (dkeys (dset k v d)).
  Proof.
    induction d as [|[k0 v0] d IH]; simpl; intros Hnd.
    - constructor; auto.
    - inversion Hnd; subst. destruct (eq_dec k k0) as [->|N]; simpl.
      + constructor; auto.
      + constructor; auto. rewrite (dset_keys k v d k0). intuition.
  Qed.
  Lemma dupdate_keys d2 : forall d1 x,
    In x (dkeys (dupdate d1 d2)) <-> In x (dkeys d1) \/ In x (dkeys d2).
  Proof.
    induction d2 as [|[k v] d2 IH]; simpl; intros d1 x; [tauto|].
    rewrite IH, dset_keys. intuition.
  Qed.
  Lemma dupdate_NoDup d2 : forall d1, NoDup (dkeys d1) -> NoDup (dkeys (dupdate d1 d2)).
  Proof.
    induction d2 as [|[k v] d2 IH]; simpl; intros d1 Hd; auto.
    apply IH, dset_NoDup, Hd.
  Qed.
  Lemma dget_In k d : (exists v, dget k d = Some v) <-> In k (dkeys d).
  Proof.
    induction d as [|[k0 v0] d IH]; simpl.
    - split; [intros [v Hv]; discriminate|tauto].
    - destruct (eq_dec k k0) as [->|N]; [split; eauto|].
      fold (dkeys d). rewrite IH. intuition congruence.
  Qed.
  Lemma dget_None k d : dget k d = None <-> ~ In k (dkeys d).
  Proof.
    rewrite <- dget_In. destruct (dget k d) as [v|] eqn:E.
    - split; [discriminate|]. intros Hn; exfalso; apply Hn; eauto.
    - split; auto. intros _ [v Hv]; discriminate.
  Qed.
  Lemma dget_Some_In k v d : dget k d = Some v -> In (k, v) d.
  Proof.
    induction d as [|[k0 v0] d IH]; simpl; [discriminate|].
    destruct (eq_dec k k0) as [->|N]; intros Hd; [left; congruence|auto].
  Qed.
  Lemma In_dget k v d : NoDup (dkeys d) -> In (k, v) d -> dget k d = Some v.
  Proof.
    induction d as [|[k0 v0] d IH]; simpl; [tauto|]. intros Hnd Hin.
    inversion Hnd; subst. destruct (eq_dec k k0) as [->|N].
    - destruct Hin as [E|Hin]; [congruence|].
      exfalso. apply H2. change k0 with (fst (k0, v)). apply in_map; auto.
    - destruct Hin as [E|Hin]; [congruence|]. auto.
  Qed.
  (** The right operand wins: the last binding of [k] in [d2]. *)
  Lemma dget_dupdate d2 : forall d1 k,
    dget k (dupdate d1 d2) =
      match dget k (rev d2) with Some v => Some v | None => dget k d1 end.
  Proof.
    assert (Happ : forall a b k, dget k (a ++ b) =
              match dget k a with Some v => Some v | None => dget k b end).
    { induction a as [|[k0 v0] a IH]; simpl; intros b k; [reflexivity|].
      destruct (eq_dec k k0); auto. }
    induction d2 as [|[k0 v0] d2 IH]; simpl; intros d1 k; [reflexivity|].
    rewrite IH, Happ. simpl. rewrite dget_dset.
    destruct (dget k (rev d2)); auto. destruct (eq_dec k k0); auto.
  Qed.
  Lemma dget_rev d k : NoDup (dkeys d) -> dget k (rev d) = dget k d.
  Proof.
    intros Hnd. destruct (dget k d) as [v|] eqn:E.
    - apply In_dget.
      + unfold dkeys. rewrite map_rev. apply NoDup_rev. exact Hnd.
      + rewrite <- in_rev. apply dget_Some_In; auto.
    - apply dget_None. apply dget_None in E. intros Hin; apply E.
      unfold dkeys in *. rewrite map_rev in Hin. apply in_rev; auto.
  Qed.
  Lemma dget_dupdate_nodup d1 d2 k : NoDup (dkeys d2) ->
    dget k (dupdate d1 d2) =
      match dget k d2 with Some v => Some v | None => dget k d1 end.
  Proof. intros. rewrite dget_dupdate, dget_rev; auto. Qed.
  Lemma dgetitem_ok k d v : dgetitem k d = Ok v <-> dget k d = Some v.
  Proof. unfold dgetitem; destruct (dget k d); split; congruence. Qed.
  Lemma dgetitem_err k d e : dgetitem k d = Err e <-> dget k d = None /\ e = KeyError.
  Proof. unfold dgetitem; destruct (dget k d); split; intuition congruence. Qed.
End Dict.

(** ** Comparison that may raise [TypeError] *)
(** [Ok Eq] iff [a == b]; [Ok Lt] iff [a < b]; [Err] iff Python raises. *)
Class Cmp (A : Type) := cmp : A -> A -> res comparison.
Class CmpLaws (A : Type) `{Cmp A} := {
  cmp_eq : forall a b : A, cmp a b = Ok Eq <-> a = b;
  cmp_sym : forall (a b : A) c, cmp a b = Ok c -> cmp b a = Ok (CompOpp c);
  cmp_trans : forall a b c : A, cmp a b = Ok Lt -> cmp b c = Ok Lt -> cmp a c = Ok Lt;
}.

(** Tuples: the first unequal components decide. *)
(** Python comparison of tuples: the first differing entry decides (attrs [order=True]: decay.py:28, 38, 53, 152, 225). *)
Definition cmp_then (c k : res comparison) : res comparison :=
  match c with Ok Eq => k | r => r end.

Global Instance Cmp_Z : Cmp Z := fun a b => Ok (Z.compare a b).
Global Instance CmpLaws_Z : CmpLaws Z.
Proof.
  split; unfold cmp, Cmp_Z; intros.
  - split; intros E; [inversion E; apply Z.compare_eq; auto|subst; rewrite Z.compare_refl; auto].
  - inversion H. rewrite Z.compare_antisym. reflexivity.
  - assert (a < b)%Z by (apply Z.compare_lt_iff; congruence).
    assert (b < c)%Z by (apply Z.compare_lt_iff; congruence). f_equal.
    apply Z.compare_lt_iff. lia.
Qed.

Section CmpProd.
  Context {A B : Type} `{CmpLaws A} `{CmpLaws B}.
  Global Instance Cmp_prod : Cmp (A * B) :=
    fun p q => cmp_then (cmp (fst p) (fst q)) (cmp (snd p) (snd q)).
  Global Instance CmpLaws_prod : CmpLaws (A * B).
  Proof.
    split; unfold cmp, Cmp_prod, cmp_then.
    - intros [a b] [a' b']; simpl. destruct (cmp a a') as [[]|] eqn:E.
      + rewrite cmp_eq in E; subst. rewrite cmp_eq. split; congruence.
      + split; [discriminate|]. intros Hx; inversion Hx; subst.
        assert (X : cmp a' a' = Ok Eq) by (apply cmp_eq; auto). congruence.
      + split; [discriminate|]. intros Hx; inversion Hx; subst.
        assert (X : cmp a' a' = Ok Eq) by (apply cmp_eq; auto). congruence.
      + split; [discriminate|]. intros Hx; inversion Hx; subst.
        assert (X : cmp a' a' = Ok Eq) by (apply cmp_eq; auto). congruence.
    - intros [a b] [a' b'] c; simpl. destruct (cmp a a') as [[]|] eqn:E; try discriminate;
        rewrite (cmp_sym _ _ _ E); simpl.
      + apply cmp_sym.
      + intros X; inversion X; auto.
      + intros X; inversion X; auto.
    - intros [a b] [a' b'] [a'' b'']; simpl.
      destruct (cmp a a') as [[]|] eqn:E; try discriminate;
      destruct (cmp a' a'') as [[]|] eqn:E'; try discriminate; intros X Y.
      + rewrite cmp_eq in E, E'; subst.
        assert (Z0 : cmp a'' a'' = Ok Eq) by (apply cmp_eq; auto). rewrite Z0.
        eapply cmp_trans; eauto.
      + rewrite cmp_eq in E; subst. rewrite E'. auto.
      + rewrite cmp_eq in E'; subst. rewrite E. auto.
      + rewrite (cmp_trans _ _ _ E E'). auto.
  Qed.
End CmpProd.

(** [None] compares equal to itself only; [None < x] raises. *)
Section CmpOption.
  Context {A : Type} `{CmpLaws A}.
  Global Instance Cmp_option : Cmp (option A) := fun a b =>
    match a, b with
    | None, None => Ok Eq
    | Some a, Some b => cmp a b
    | _, _ => Err TypeError
    end.
  Global Instance CmpLaws_option : CmpLaws (option A).
  Proof.
    split; unfold cmp, Cmp_option.
    - intros [a|] [b|]; try (split; congruence). rewrite cmp_eq. split; congruence.
    - intros [a|] [b|] c; try (intros X; inversion X; auto; fail). apply cmp_sym.
    - intros [a|] [b|] [c|]; try discriminate. apply cmp_trans.
  Qed.
End CmpOption.

(** Instances of different classes: [==] is false and [<] raises. *)
Section CmpSum.
  Context {A B : Type} `{CmpLaws A} `{CmpLaws B}.
  Global Instance Cmp_sum : Cmp (A + B) := fun a b =>
    match a, b with
    | inl a, inl b => cmp a b
    | inr a, inr b => cmp a b
    | _, _ => Err TypeError
    end.
  Global Instance CmpLaws_sum : CmpLaws (A + B).
  Proof.
    split; unfold cmp, Cmp_sum.
    - intros [a|a] [b|b]; try (split; congruence); rewrite cmp_eq; split; congruence.
    - intros [a|a] [b|b] c; try discriminate; apply cmp_sym.
    - intros [a|a] [b|b] [c|c]; try discriminate; apply cmp_trans.
  Qed.
End CmpSum.

(** Transport along an injection (records as tuples of their fields). *)
(** Python comparison of attrs classes through the tuple of their fields (decay.py:28, 38, 53). *)
Definition cmp_via {A B} `{Cmp B} (f : A -> B) : Cmp A := fun a b => cmp (f a) (f b).
Lemma cmp_via_laws {A B} `{CmpLaws B} (f : A -> B) (inj : forall a b, f a = f b -> a = b) :
  @CmpLaws A (cmp_via f).
Proof.
  split; unfold cmp, cmp_via.
  - intros a b. rewrite cmp_eq. split; [apply inj|congruence].
  - intros a b c. apply cmp_sym.
  - intros a b c. apply cmp_trans.
Qed.

(** Strings: lexicographic by character code. *)
(** Python [ord]: strings are compared by code points. *)
Definition ascii_code (a : ascii) : Z := Z.of_N (N_of_ascii a).
Lemma ascii_code_inj a b : ascii_code a = ascii_code b -> a = b.
Proof.
  unfold ascii_code. intros E. apply N2Z.inj in E.
  rewrite <- (ascii_N_embedding a), <- (ascii_N_embedding b). congruence.
Qed.

(** Python [<] on [str], part of the order of particles (decay.py:30-31). *)
Fixpoint scmp (s t : string) : comparison :=
  match s, t with
  | EmptyString, EmptyString => Eq
  | EmptyString, _ => Lt
  | _, EmptyString => Gt
  | String a s, String b t =>
      match Z.compare (ascii_code a) (ascii_code b) with Eq => scmp s t | c => c end
  end.
Lemma scmp_eq s : forall t, scmp s t = Eq <-> s = t.
Proof.
  induction s as [|a s IH]; intros [|b t]; simpl; try (split; congruence).
  destruct (Z.compare_spec (ascii_code a) (ascii_code b)) as [E|E|E].
  - apply ascii_code_inj in E; subst. rewrite IH. split; congruence.
  - split; [discriminate|]. intros X; inversion X; subst. lia.
  - split; [discriminate|]. intros X; inversion X; subst. lia.
Qed.
Lemma scmp_sym s : forall t, scmp t s = CompOpp (scmp s t).
Proof.
  induction s as [|a s IH]; intros [|b t]; simpl; auto.
  rewrite (Z.compare_antisym (ascii_code a)).
  destruct (Z.compare (ascii_code a) (ascii_code b)); simpl; auto.
Qed.
Lemma scmp_trans s : forall t u, scmp s t = Lt -> scmp t u = Lt -> scmp s u = Lt.
Proof.
  induction s as [|a s IH]; intros [|b t] [|c u]; simpl; try discriminate; auto.
  destruct (Z.compare_spec (ascii_code a) (ascii_code b)) as [E1|E1|E1];
  destruct (Z.compare_spec (ascii_code b) (ascii_code c)) as [E2|E2|E2];
  destruct (Z.compare_spec (ascii_code a) (ascii_code c)) as [E3|E3|E3];
  try discriminate; try lia; auto.
  apply IH.
Qed.
Global Instance Cmp_string : Cmp string := fun a b => Ok (scmp a b).
Global Instance CmpLaws_string : CmpLaws string.
Proof.
  split; unfold cmp, Cmp_string; intros.
  - rewrite <- scmp_eq. split; congruence.
  - inversion H. rewrite scmp_sym. reflexivity.
  - f_equal. apply scmp_trans with b; congruence.
Qed.

(** ** [sorted] *)
(** Insertion sort (stable).  CPython's timsort performs a different selection of
    comparisons; the results agree whenever no comparison raises, which is the
    only case theorems are stated for. *)
Section Sort.
  Context {A : Type} `{Cmp A}.
  Fixpoint insert (a : A) (l : list A) : res (list A) :=
    match l with
    | [] => Ok [a]
    | b :: l' =>
        let* c := cmp b a in
        match c with
        | Lt | Eq => let* r := insert a l' in Ok (b :: r)
        | Gt => Ok (a :: b :: l')
        end
    end.
  Fixpoint sort_acc (acc l : list A) : res (list A) :=
    match l with
    | [] => Ok acc
    | a :: l => let* acc := insert a acc in sort_acc acc l
    end.
  Definition sorted (l : list A) : res (list A) := sort_acc [] l.

  Definition comparable (l : list A) : Prop :=
    forall a b, In a l -> In b l -> is_ok (cmp a b).
End Sort.

Section SortFacts.
  Context {A : Type} `{CmpLaws A}.
  Definition cle (a b : A) : Prop := cmp a b = Ok Lt \/ a = b.
  Definition clt (a b : A) : Prop := cmp a b = Ok Lt.

  Lemma cmp_refl (a : A) : cmp a a = Ok Eq.
  Proof. apply cmp_eq; auto. Qed.
  Lemma clt_irrefl (a : A) : ~ clt a a.
  Proof. unfold clt. rewrite cmp_refl. discriminate. Qed.
  Lemma clt_trans (a b c : A) : clt a b -> clt b c -> clt a c.
  Proof. apply cmp_trans. Qed.
  Lemma cle_trans (a b c : A) : cle a b -> cle b c -> cle a c.
  Proof.
    unfold cle. intros [X| ->] [Y| ->]; auto. left; eapply cmp_trans; eauto.
  Qed.

  Lemma insert_perm (a : A) l : forall r, insert a l = Ok r -> Permutation (a :: l) r.
  Proof.
    induction l as [|b l IH]; simpl; intros r Hr; [inversion Hr; auto|].
    destruct (cmp b a) as [c|] eqn:E; simpl in Hr; [|discriminate].
    destruct c.
    - destruct (insert a l) as [r'|] eqn:E'; simpl in Hr; inversion Hr; subst.
      rewrite <- (IH r' eq_refl). constructor.
    - destruct (insert a l) as [r'|] eqn:E'; simpl in Hr; inversion Hr; subst.
      rewrite <- (IH r' eq_refl). constructor.
    - inversion Hr; auto.
  Qed.
  Lemma sort_acc_perm l : forall acc r : list A,
    sort_acc acc l = Ok r -> Permutation (acc ++ l) r.
  Proof.
    induction l as [|a l IH]; simpl; intros acc r Hr.
    - inversion Hr; rewrite app_nil_r; auto.
    - destruct (insert a acc) as [acc'|] eqn:E; simpl in Hr; [|discriminate].
      rewrite <- (IH _ _ Hr). apply insert_perm in E. rewrite <- E.
      simpl. symmetry. apply Permutation_middle.
  Qed.
  Lemma sorted_perm (l r : list A) : sorted l = Ok r -> Permutation l r.
  Proof. intros Hr. apply sort_acc_perm in Hr. exact Hr. Qed.

  Lemma insert_ok (a : A) l : (forall b, In b l -> is_ok (cmp b a)) -> is_ok (insert a l).
  Proof.
    induction l as [|b l IH]; simpl; intros Hc; [eexists; reflexivity|].
    destruct (Hc b (or_introl eq_refl)) as [c ->]. simpl.
    destruct IH as [r Hr]; [auto|]. rewrite Hr.
    destruct c; simpl; eexists; reflexivity.
  Qed.
  Lemma sort_acc_ok l : forall acc : list A, comparable (acc ++ l) -> is_ok (sort_acc acc l).
  Proof.
    induction l as [|a l IH]; simpl; intros acc Hc; [eexists; reflexivity|].
    destruct (insert_ok a acc) as [acc' E].
    { intros b Hb. apply Hc; apply in_or_app; simpl; auto. }
    rewrite E. simpl. apply IH. apply insert_perm in E.
    intros x y Hx Hy. apply Hc.
    - apply in_app_or in Hx. destruct Hx as [Hx|Hx].
      + apply (Permutation_in x (Permutation_sym E)) in Hx. simpl in Hx.
        apply in_or_app; simpl; intuition.
      + apply in_or_app; simpl; auto.
    - apply in_app_or in Hy. destruct Hy as [Hy|Hy].
      + apply (Permutation_in y (Permutation_sym E)) in Hy. simpl in Hy.
        apply in_or_app; simpl; intuition.
      + apply in_or_app; simpl; auto.
  Qed.
  Lemma sorted_ok (l : list A) : comparable l -> is_ok (sorted l).
  Proof. intros Hc. apply sort_acc_ok. exact Hc. Qed.

  Lemma insert_sorted (a : A) l : forall r,
    StronglySorted cle l -> insert a l = Ok r -> StronglySorted cle r.
  Proof.
    induction l as [|b l IH]; simpl; intros r Hs Hr.
    - inversion Hr; subst. repeat constructor.
    - inversion Hs as [|? ? Hs' Hf]; subst.
      destruct (cmp b a) as [c|] eqn:E; simpl in Hr; [|discriminate].
      assert (G : cle b a -> forall r', insert a l = Ok r' -> StronglySorted cle (b :: r')).
      { intros Hle r' E'. constructor; [eapply IH; eauto|].
        apply insert_perm in E'. eapply Permutation_Forall; [exact E'|].
        constructor; auto. }
      destruct c.
      + destruct (insert a l) as [r'|] eqn:E'; simpl in Hr; inversion Hr; subst.
        apply G; auto. right. apply cmp_eq; auto.
      + destruct (insert a l) as [r'|] eqn:E'; simpl in Hr; inversion Hr; subst.
        apply G; auto. left; auto.
      + inversion Hr; subst. apply cmp_sym in E. simpl in E.
        constructor; auto. constructor; [left; auto|].
        eapply Forall_impl; [|exact Hf]. intros x Hx.
        eapply cle_trans; [left; exact E|exact Hx].
  Qed.
  Lemma sort_acc_sorted l : forall acc r : list A,
    StronglySorted cle acc -> sort_acc acc l = Ok r -> StronglySorted cle r.
  Proof.
    induction l as [|a l IH]; simpl; intros acc r Hs Hr; [inversion Hr; subst; auto|].
    destruct (insert a acc) as [acc'|] eqn:E; simpl in Hr; [|discriminate].
    eapply IH; [|exact Hr]. eapply insert_sorted; eauto.
  Qed.
  Lemma sorted_sorted (l r : list A) : sorted l = Ok r -> StronglySorted cle r.
  Proof. apply sort_acc_sorted. constructor. Qed.

  Lemma cle_antisym (a b : A) : cle a b -> cle b a -> a = b.
  Proof.
    unfold cle. intros [X| ->] [Y|Y]; auto.
    apply cmp_sym in X. rewrite X in Y. discriminate.
  Qed.
  Lemma StronglySorted_unique (l l' : list A) :
    StronglySorted cle l -> StronglySorted cle l' -> Permutation l l' -> l = l'.
  Proof.
    revert l'. induction l as [|a l IH]; intros l' Hs Hs' Hp.
    - apply Permutation_nil in Hp. auto.
    - destruct l' as [|b l']; [symmetry in Hp; apply Permutation_nil in Hp; discriminate|].
      inversion Hs as [|? ? Hs1 Hf]; inversion Hs' as [|? ? Hs1' Hf']; subst.
      assert (a = b).
      { apply cle_antisym.
        - assert (Hin : In b (a :: l)) by (eapply Permutation_in; [symmetry; exact Hp|left; auto]).
          destruct Hin as [->|Hin]; [right; auto|]. rewrite Forall_forall in Hf; auto.
        - assert (Hin : In a (b :: l')) by (eapply Permutation_in; [exact Hp|left; auto]).
          destruct Hin as [->|Hin]; [right; auto|]. rewrite Forall_forall in Hf'; auto. }
      subst b. f_equal. apply IH; auto. eapply Permutation_cons_inv; eauto.
  Qed.
  Lemma sorted_unique (l l' r r' : list A) :
    sorted l = Ok r -> sorted l' = Ok r' -> Permutation l l' -> r = r'.
  Proof.
    intros E E' Hp. apply StronglySorted_unique.
    - eapply sorted_sorted; eauto.
    - eapply sorted_sorted; eauto.
    - rewrite <- (sorted_perm _ _ E), <- (sorted_perm _ _ E'). auto.
  Qed.
  Lemma sorted_NoDup_strict (l : list A) :
    StronglySorted cle l -> NoDup l -> StronglySorted clt l.
  Proof.
    induction l as [|a l IH]; intros Hs Hn; [constructor|].
    inversion Hs as [|? ? Hs1 Hf]; inversion Hn; subst. constructor; auto.
    rewrite Forall_forall in *. intros x Hx. destruct (Hf x Hx) as [| ->]; auto. tauto.
  Qed.
  Lemma sorted_id (l : list A) : StronglySorted cle l -> comparable l -> sorted l = Ok l.
  Proof.
    intros Hs Hc. destruct (sorted_ok l Hc) as [r Hr]. rewrite Hr. f_equal.
    symmetry. apply StronglySorted_unique; auto.
    - eapply sorted_sorted; eauto.
    - apply sorted_perm; auto.
  Qed.
End SortFacts.

(** ** Miscellaneous *)
(** Python loop [for x in l: if p(x): return x], e.g. decay.py:113-115, 207-209. *)
Fixpoint find_first {A} (p : A -> bool) (l : list A) : option A :=
  match l with [] => None | a :: l => if p a then Some a else find_first p l end.

Lemma find_first_Some {A} (p : A -> bool) l a :
  find_first p l = Some a <->
  exists l1 l2, l = l1 ++ a :: l2 /\ p a = true /\ forall x, In x l1 -> p x = false.
Proof.
  induction l as [|b l IH]; simpl.
  - split; [discriminate|]. intros (l1 & l2 & E & _). destruct l1; discriminate.
  - destruct (p b) eqn:Eb.
    + split.
      * intros X; inversion X; subst. exists [], l. simpl. intuition.
      * intros (l1 & l2 & E & Ha & Hl). destruct l1 as [|c l1]; simpl in E; inversion E; subst; auto.
        rewrite (Hl c) in Eb; [discriminate|left; auto].
    + rewrite IH. split.
      * intros (l1 & l2 & E & Ha & Hl). exists (b :: l1), l2. subst; simpl. intuition. subst; auto.
      * intros (l1 & l2 & E & Ha & Hl). destruct l1 as [|c l1]; simpl in E; inversion E; subst.
        { congruence. }
        exists l1, l2. intuition.
Qed.
Lemma find_first_None {A} (p : A -> bool) l :
  find_first p l = None <-> forall x, In x l -> p x = false.
Proof.
  induction l as [|b l IH]; simpl; [split; [tauto|auto]|].
  destruct (p b) eqn:Eb.
  - split; [discriminate|]. intros Hx. rewrite Hx in Eb; auto; discriminate.
  - rewrite IH. split; [intros Hx x [->|Hi]; auto|intros Hx x Hi; auto].
Qed.

(** Python's [sep.join]. *)
Fixpoint sjoin (sep : string) (l : list string) : string :=
  match l with
  | [] => EmptyString
  | [s] => s
  | s :: l => (s ++ sep ++ sjoin sep l)%string
  end.

(** [str(i)] for an int. *)
From Coq Require Import DecimalString.
(** Python [str] of an int, as in the f-strings of angles.py:32-39 and __init__.py:516. *)
Definition str_of_Z (z : Z) : string := NilZero.string_of_int (Z.to_int z).
