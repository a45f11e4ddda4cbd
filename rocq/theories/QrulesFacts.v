(** Order laws, sorting and graph lemmas for the model of the QRules adapter. *)
From Coq Require Import String ZArith QArith Qcanon List Bool Lia Sorted Permutation.
From Verif Require Import Prelude Spin SpinFacts Decay DecayFacts Qrules SpecQrules.
Import ListNotations.
Local Open Scope string_scope.
Local Open Scope Z_scope.
Local Open Scope list_scope.

(** ** Order laws *)
Lemma cmp_list_eq {A} `{CmpLaws A} (l : list A) : forall l', cmp_list l l' = Ok Eq <-> l = l'.
Proof.
  induction l as [|a l IH]; intros [|b l']; simpl; try (split; congruence).
  rewrite cmp_then_eq, cmp_eq, IH. split; [intros [-> ->]; auto|intros X; inversion X; auto].
Qed.
Lemma cmp_list_sym {A} `{CmpLaws A} (l : list A) : forall l' c,
  cmp_list l l' = Ok c -> cmp_list l' l = Ok (CompOpp c).
Proof.
  induction l as [|a l IH]; intros [|b l'] c; simpl; try (intros X; inversion X; reflexivity).
  apply cmp_then_sym; intros x; [apply cmp_sym|apply IH].
Qed.
Lemma cmp_then_trans {A} `{CmpLaws A} (a b c : A) k1 k2 k3 :
  (k1 = Ok Lt -> k2 = Ok Lt -> k3 = Ok Lt) ->
  cmp_then (cmp a b) k1 = Ok Lt -> cmp_then (cmp b c) k2 = Ok Lt -> cmp_then (cmp a c) k3 = Ok Lt.
Proof.
  intros HK. rewrite !cmp_then_lt. intros [X|[X X']] [Y|[Y Y']].
  - left. eapply cmp_trans; eauto.
  - apply cmp_eq in Y. subst. auto.
  - apply cmp_eq in X. subst. auto.
  - right. apply cmp_eq in X. apply cmp_eq in Y. subst. split; [apply cmp_eq|]; auto.
Qed.
Lemma cmp_list_trans {A} `{CmpLaws A} (l : list A) : forall l' l'',
  cmp_list l l' = Ok Lt -> cmp_list l' l'' = Ok Lt -> cmp_list l l'' = Ok Lt.
Proof.
  induction l as [|a l IH]; intros [|b l'] [|c l'']; simpl; try discriminate; auto.
  apply cmp_then_trans. apply IH.
Qed.
Global Instance CmpLaws_list {A} `{CmpLaws A} : CmpLaws (list A).
Proof.
  split; unfold cmp, Cmp_list; [apply cmp_list_eq|apply cmp_list_sym|apply cmp_list_trans].
Qed.
Global Instance CmpLaws_edge : CmpLaws edge.
Proof. apply cmp_via_laws. intros [] [] X; inversion X; reflexivity. Qed.
Global Instance CmpLaws_topology : CmpLaws topology.
Proof.
  change (@CmpLaws topology (cmp_via (fun t => (t_nodes t, t_edges t)))).
  apply cmp_via_laws. intros [] [] X; inversion X; reflexivity.
Qed.
Global Instance CmpLaws_transition {E N} `{CmpLaws E} `{CmpLaws N} : CmpLaws (transition E N).
Proof.
  change (@CmpLaws (transition E N)
            (cmp_via (fun t => (tr_topology t, (tr_states t, tr_interactions t))))).
  apply cmp_via_laws. intros [] [] X; inversion X; reflexivity.
Qed.

(** ** Sorted lists of integers *)
Lemma cle_Z (a b : Z) : cle a b <-> a <= b.
Proof.
  unfold cle, cmp, Cmp_Z. split.
  - intros [X| ->]; [|lia]. assert (a < b) by (apply Z.compare_lt_iff; congruence). lia.
  - intros X. destruct (Z.eq_dec a b) as [->|N]; [right; auto|left].
    f_equal. apply Z.compare_lt_iff. lia.
Qed.
Lemma zsort_ok l : sorted l = Ok (zsort l).
Proof.
  unfold zsort. destruct (sorted_ok l) as [r Hr].
  - intros a b _ _. eexists. reflexivity.
  - rewrite Hr. reflexivity.
Qed.
Lemma zsort_perm l : Permutation l (zsort l).
Proof. apply sorted_perm, zsort_ok. Qed.
Lemma zsort_In l x : In x (zsort l) <-> In x l.
Proof.
  split; apply Permutation_in; [symmetry|]; apply zsort_perm.
Qed.
Lemma zsort_length l : length (zsort l) = length l.
Proof. symmetry. apply Permutation_length, zsort_perm. Qed.
Lemma zsort_NoDup l : NoDup l -> NoDup (zsort l).
Proof. apply Permutation_NoDup, zsort_perm. Qed.
Lemma zsort_unique l l' : Permutation l l' -> zsort l = zsort l'.
Proof. intros P. eapply sorted_unique; eauto using zsort_ok. Qed.
Lemma zsort_le l : StronglySorted Z.le (zsort l).
Proof.
  pose proof (sorted_sorted _ _ (zsort_ok l)) as S. revert S. generalize (zsort l).
  induction 1; constructor; auto.
  eapply Forall_impl; [|eassumption]. intros x. apply cle_Z.
Qed.
Lemma sorted_le_lt l : StronglySorted Z.le l -> NoDup l -> ascending l.
Proof.
  induction 1 as [|a l S IH F]; intros ND; constructor; inversion ND; subst; auto.
  - apply IH; auto.
  - rewrite Forall_forall in *. intros x Hx. specialize (F x Hx).
    assert (a <> x) by (intros ->; auto). lia.
Qed.
Lemma zsort_ascending l : NoDup l -> ascending (zsort l).
Proof. intros. apply sorted_le_lt; [apply zsort_le|apply zsort_NoDup; auto]. Qed.
Lemma ascending_NoDup l : ascending l -> NoDup l.
Proof.
  induction 1 as [|a l S IH F]; constructor; auto. rewrite Forall_forall in F.
  intros X. specialize (F _ X). lia.
Qed.
Lemma zsort_id l : ascending l -> zsort l = l.
Proof.
  intros A. pose proof (zsort_ok l) as E. rewrite sorted_id in E; [congruence| |].
  - clear E. induction A as [|a l S IH F]; constructor; auto.
    eapply Forall_impl; [|exact F]. intros x Hx. apply cle_Z. lia.
  - intros a b _ _. eexists. reflexivity.
Qed.
Lemma ascending_unique l l' : ascending l -> ascending l' -> (forall x, In x l <-> In x l') -> l = l'.
Proof.
  intros A A' I. rewrite <- (zsort_id l A), <- (zsort_id l' A'). apply zsort_unique.
  apply NoDup_Permutation; auto using ascending_NoDup.
Qed.

(** Position of an element in an ascending list *)
Fixpoint index_in (x : Z) (l : list Z) : Z :=
  match l with [] => 0 | a :: l => if x =? a then 0 else 1 + index_in x l end.
Lemma index_in_range x l : In x l -> 0 <= index_in x l < Z.of_nat (length l).
Proof.
  induction l as [|a l IH]; intros X; [destruct X|]. cbn [index_in length].
  destruct (Z.eqb_spec x a); [lia|]. destruct X as [->|X]; [congruence|].
  specialize (IH X). lia.
Qed.
Lemma index_in_mono l : ascending l -> forall x y, In x l -> In y l ->
  (x < y <-> index_in x l < index_in y l).
Proof.
  induction 1 as [|a l S IH F]; intros x y X Y; [destruct X|]. cbn [index_in].
  rewrite Forall_forall in F.
  destruct (Z.eqb_spec x a) as [->|Nx]; destruct (Z.eqb_spec y a) as [->|Ny].
  - lia.
  - destruct Y as [->|Y]; [congruence|]. specialize (F _ Y). pose proof (index_in_range _ _ Y). lia.
  - destruct X as [->|X]; [congruence|]. specialize (F _ X). pose proof (index_in_range _ _ X). lia.
  - destruct X as [->|X]; [congruence|]. destruct Y as [->|Y]; [congruence|].
    specialize (IH x y X Y). lia.
Qed.
Lemma index_in_surj l : NoDup l -> forall n, 0 <= n < Z.of_nat (length l) ->
  exists x, In x l /\ index_in x l = n.
Proof.
  induction 1 as [|a l NI ND IH]; intros n Hn; cbn [length] in Hn; [lia|].
  destruct (Z.eq_dec n 0) as [->|N].
  - exists a. split; [left; auto|]. cbn [index_in]. rewrite Z.eqb_refl. auto.
  - destruct (IH (n - 1)) as (x & X & E); [lia|]. exists x. split; [right; auto|].
    cbn [index_in]. destruct (Z.eqb_spec x a) as [->|]; [tauto|]. lia.
Qed.
Lemma renumbering_index l l' : ascending l -> Permutation l l' ->
  renumbering (fun i => index_in i l) l'.
Proof.
  intros A P. split.
  - intros i j I J. apply index_in_mono; auto; eapply Permutation_in; try (symmetry; exact P); auto.
  - intros n. rewrite <- (Permutation_length P). split.
    + intros (i & I & <-). apply index_in_range. eapply Permutation_in; [symmetry; exact P|]; auto.
    + intros Hn. destruct (index_in_surj l (ascending_NoDup _ A) n Hn) as (x & X & E).
      exists x. split; auto. eapply Permutation_in; eauto.
Qed.
Lemma renumbering_unique f g l : NoDup l -> renumbering f l -> renumbering g l ->
  forall i, In i l -> f i = g i.
Proof.
  (* both list the elements of [zsort l] in order *)
  intros ND [Mf Rf] [Mg Rg] i I.
  assert (G : forall f, (forall i j, In i l -> In j l -> (i < j <-> f i < f j)) ->
             (forall n, (exists i, In i l /\ f i = n) <-> 0 <= n < Z.of_nat (length l)) ->
             map f (zsort l) = map Z.of_nat (seq 0 (length l))).
  { clear. intros f M R. apply ascending_unique.
    - assert (ND : NoDup l).
      { apply (NoDup_map_inv f). apply NoDup_incl_NoDup with (l := map Z.of_nat (seq 0 (length l))).
        - apply FinFun.Injective_map_NoDup; [intros a b; lia|apply seq_NoDup].
        - rewrite !map_length, seq_length. lia.
        - intros n Hn. apply in_map_iff in Hn. destruct Hn as (k & <- & Hk). apply in_seq in Hk.
          apply in_map_iff. destruct (proj2 (R (Z.of_nat k))) as (i & I & E); [lia|].
          exists i; auto. }
      pose proof (zsort_ascending l ND) as A.
      assert (In' : forall x, In x (zsort l) -> In x l) by (intros x; apply zsort_In).
      revert A In'. generalize (zsort l). induction 1 as [|a z S IH F]; intros In'; constructor.
      + apply IH. intros x X. apply In'. right; auto.
      + rewrite Forall_forall in *. intros y Y. apply in_map_iff in Y. destruct Y as (x & <- & X).
        apply (M a x); [apply In'; left; auto|apply In'; right; auto|apply F; auto].
    - clear R. generalize 0%nat. induction (length l) as [|n IH]; intros k; [constructor|]. cbn [seq map]. constructor; [apply IH|].
      rewrite Forall_forall. intros x X. apply in_map_iff in X. destruct X as (y & <- & Y).
      apply in_seq in Y. lia.
    - intros n. rewrite !in_map_iff. split.
      + intros (i & <- & I). rewrite zsort_In in I. assert (B : 0 <= f i < Z.of_nat (length l)).
        { apply (R (f i)). exists i. auto. }
        exists (Z.to_nat (f i)). rewrite in_seq. lia.
      + intros (k & <- & K). apply in_seq in K. destruct (proj2 (R (Z.of_nat k))) as (i & I & E); [lia|].
        exists i. rewrite zsort_In. auto. }
  pose proof (G f Mf Rf) as Gf. pose proof (G g Mg Rg) as Gg. rewrite <- Gg in Gf.
  rewrite map_ext_in_iff in Gf. apply Gf. apply zsort_In. auto.
Qed.

(** ** Dictionaries *)
Lemma dset_app {K V} `{EqDec K} (k : K) (v : V) d : ~ In k (dkeys d) -> dset k v d = d ++ [(k, v)].
Proof.
  induction d as [|[k0 v0] d IH]; simpl; intros N; [reflexivity|].
  destruct (eq_dec k k0) as [->|]; [tauto|]. rewrite IH; tauto.
Qed.
Lemma dupdate_app {K V} `{EqDec K} (l : dict K V) : forall d,
  NoDup (dkeys (d ++ l)) -> dupdate d l = d ++ l.
Proof.
  induction l as [|[k v] l IH]; intros d ND; simpl; [rewrite app_nil_r; auto|].
  unfold dkeys in ND. rewrite map_app in ND. simpl in ND.
  pose proof (NoDup_remove_2 _ _ _ ND) as N. rewrite dset_app by (unfold dkeys; intros X; apply N, in_or_app; auto).
  rewrite IH.
  - rewrite <- app_assoc. reflexivity.
  - unfold dkeys. rewrite !map_app. simpl. rewrite <- app_assoc. exact ND.
Qed.
Lemma dict_of_nodup {K V} `{EqDec K} (l : dict K V) : NoDup (dkeys l) -> dict_of l = l.
Proof. intros ND. unfold dict_of. apply dupdate_app. exact ND. Qed.

Lemma dget_map_inj {V W} (f : Z -> Z) (g : V -> W) (d : dict Z V) i :
  (forall x, In x (dkeys d) -> f x = f i -> x = i) ->
  dget (f i) (map (fun kv => (f (fst kv), g (snd kv))) d) =
  match dget i d with Some v => Some (g v) | None => None end.
Proof.
  induction d as [|[k v] d IH]; intros Inj; [reflexivity|]. cbn [map dget fst snd].
  destruct (eq_dec (f i) (f k)) as [X|X]; destruct (eq_dec i k) as [Y|Y]; try congruence.
  - exfalso. apply Y. symmetry. apply Inj; [left; auto|auto].
  - apply IH. intros x Hx. apply Inj. right; auto.
Qed.
Lemma dget_In_keys {K V} `{EqDec K} (d : dict K V) k v : dget k d = Some v -> In k (dkeys d).
Proof. intros X. apply dget_In. eauto. Qed.
Lemma In_keys_dget {K V} `{EqDec K} (d : dict K V) k : In k (dkeys d) -> exists v, dget k d = Some v.
Proof. intros X. apply dget_In. auto. Qed.
Lemma dget_perm {V} (d d' : dict Z V) k : NoDup (dkeys d) -> Permutation d d' -> dget k d = dget k d'.
Proof.
  intros ND P. assert (ND' : NoDup (dkeys d')).
  { eapply Permutation_NoDup; [|exact ND]. apply Permutation_map. auto. }
  destruct (dget k d) as [v|] eqn:X; destruct (dget k d') as [v'|] eqn:Y; auto.
  - apply dget_Some_In in X. apply (Permutation_in _ P) in X. apply In_dget in X; auto. congruence.
  - apply dget_Some_In in X. apply (Permutation_in _ P) in X. apply In_dget in X; auto. congruence.
  - apply dget_Some_In in Y. apply (Permutation_in _ (Permutation_sym P)) in Y.
    apply In_dget in Y; auto. congruence.
Qed.
(** Dictionaries with the same ascending keys are equal if they agree pointwise. *)
Lemma dict_ext {V} (d d' : dict Z V) : NoDup (dkeys d) -> dkeys d = dkeys d' ->
  (forall k, In k (dkeys d) -> dget k d = dget k d') -> d = d'.
Proof.
  revert d'. induction d as [|[k v] d IH]; intros [|[k' v'] d'] ND K X; try discriminate; auto.
  cbn [dkeys map fst] in *. injection K as E1 E2. subst k'. inversion ND; subst.
  pose proof (X k (or_introl eq_refl)) as X0. cbn [dget] in X0.
  destruct (eq_dec k k) as [_|N]; [|congruence]. injection X0 as ->. f_equal.
  apply IH; auto. intros x Hx. specialize (X x (or_intror Hx)). cbn [dget] in X.
  destruct (eq_dec x k) as [->|_]; [tauto|]. exact X.
Qed.

(** Canonical order *)
Lemma canonical_keys {V} (d : dict Z V) : dkeys (canonical d) = zsort (dkeys d).
Proof.
  unfold canonical. assert (G : forall l, (forall x, In x l -> In x (dkeys d)) ->
    dkeys (flat_map (fun k => match dget k d with Some v => [(k, v)] | None => [] end) l) = l).
  { induction l as [|a l IH]; intros L; [reflexivity|]. cbn [flat_map].
    destruct (In_keys_dget d a) as [v ->]; [apply L; left; auto|]. cbn. f_equal. apply IH.
    intros x X. apply L. right; auto. }
  apply G. intros x. apply zsort_In.
Qed.
Lemma canonical_In {V} (d : dict Z V) k v : In (k, v) (canonical d) <-> dget k d = Some v.
Proof.
  unfold canonical. rewrite in_flat_map. split.
  - intros (x & X & Y). destruct (dget x d) as [w|] eqn:E; [|destruct Y].
    destruct Y as [Y|[]]. injection Y as -> ->. auto.
  - intros X. exists k. split; [apply zsort_In; eapply dget_In_keys; eauto|]. rewrite X. left; auto.
Qed.
Lemma canonical_get {V} (d : dict Z V) k : NoDup (dkeys d) -> dget k (canonical d) = dget k d.
Proof.
  intros ND. assert (ND' : NoDup (dkeys (canonical d))) by (rewrite canonical_keys; apply zsort_NoDup; auto).
  destruct (dget k d) as [v|] eqn:E.
  - apply In_dget; auto. apply canonical_In; auto.
  - apply dget_None. rewrite canonical_keys, zsort_In. apply dget_None. auto.
Qed.
Lemma canonical_perm {V} (d : dict Z V) : NoDup (dkeys d) -> Permutation d (canonical d).
Proof.
  intros ND. apply NoDup_Permutation.
  - eapply NoDup_map_inv. exact ND.
  - eapply (NoDup_map_inv fst). fold (dkeys (canonical d)). rewrite canonical_keys. apply zsort_NoDup; auto.
  - intros [k v]. rewrite canonical_In. split; [apply In_dget; auto|apply dget_Some_In].
Qed.
Lemma canonical_id {V} (d : dict Z V) : ascending (dkeys d) -> canonical d = d.
Proof.
  intros A. apply dict_ext.
  - rewrite canonical_keys. apply zsort_NoDup, ascending_NoDup; auto.
  - rewrite canonical_keys. apply zsort_id; auto.
  - intros k _. apply canonical_get, ascending_NoDup; auto.
Qed.

(** ** Roles of edges *)
Lemma ids_where_In p t x : NoDup (dkeys (t_edges t)) ->
  (In x (ids_where p t) <-> exists e, dget x (t_edges t) = Some e /\ p e = true).
Proof.
  intros ND. unfold ids_where. rewrite zsort_In. unfold dkeys. rewrite in_map_iff. split.
  - intros ((k & e) & <- & X). apply filter_In in X. destruct X as [X P]. exists e. split; auto.
    apply In_dget; auto.
  - intros (e & X & P). exists (x, e). split; auto. apply filter_In. split; auto.
    apply dget_Some_In; auto.
Qed.
Lemma filter_NoDup_keys {V} (p : Z * V -> bool) (d : dict Z V) : NoDup (dkeys d) -> NoDup (dkeys (filter p d)).
Proof.
  induction d as [|[k v] d IH]; simpl; intros ND; [constructor|]. inversion ND; subst.
  destruct (p (k, v)); simpl; auto. constructor; auto. intros X. apply H1.
  unfold dkeys in *. apply in_map_iff in X. destruct X as (y & <- & Y). apply filter_In in Y.
  apply in_map. tauto.
Qed.
Lemma ids_where_ascending p t : NoDup (dkeys (t_edges t)) -> ascending (ids_where p t).
Proof. intros ND. apply zsort_ascending. apply filter_NoDup_keys. auto. Qed.
Lemma filter_perm {A} (p : A -> bool) l l' : Permutation l l' -> Permutation (filter p l) (filter p l').
Proof.
  induction 1; simpl; auto.
  - destruct (p x); auto.
  - destruct (p x), (p y); auto. constructor.
  - eapply perm_trans; eauto.
Qed.
Lemma ids_where_perm p t l : Permutation (t_edges t) l ->
  ids_where p t = zsort (dkeys (filter (fun ke => p (snd ke)) l)).
Proof.
  intros P. apply zsort_unique. apply Permutation_map. apply filter_perm. auto.
Qed.
Lemma is_none_true {A} (o : option A) : is_none o = true <-> o = None.
Proof. destruct o; simpl; split; congruence. Qed.

(** States of given edges *)
Lemma filter_states_ok {E N} (ids : list Z) (t : transition E N) :
  (forall i, In i ids -> In i (dkeys (tr_states t))) ->
  exists d, filter_states ids t = Ok d /\ dkeys d = ids /\
    (forall i s, In (i, s) d <-> In i ids /\ dget i (tr_states t) = Some s).
Proof.
  induction ids as [|i ids IH]; intros K.
  - exists []. split; [reflexivity|]. split; [reflexivity|]. intros i s. split; [intros []|intros [[] _]].
  - destruct IH as (d & Ed & Kd & Sd); [intros; apply K; right; auto|].
    destruct (In_keys_dget _ _ (K i (or_introl eq_refl))) as [s Es].
    unfold filter_states in *. cbn [mapM]. unfold dgetitem at 1. rewrite Es. cbn [bind]. rewrite Ed.
    cbn [bind]. exists ((i, s) :: d). split; [reflexivity|]. split; [cbn; f_equal; auto|].
    intros j u. cbn [In]. rewrite Sd. split.
    + intros [X|[X Y]]; [injection X as -> ->; auto|auto].
    + intros [[->|X] Y]; [left; congruence|right; auto].
Qed.
