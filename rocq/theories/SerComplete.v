(** What a serialised model definition has if it can be formulated (C111). *)
From Coq Require Import String ZArith QArith Qcanon List Bool Lia Permutation.
From Verif Require Import Prelude Spin SpinFacts Decay DecayFacts Expr Angles CExpr Builder BuilderFacts ModelFacts Dynamics SpecDPD
  SerFormat SerDynamics SerAmplitude SpecSerial SpecPropagators SpecDefinition SerDecay SerPropagators SerTotal.
From Verif Require QrulesConvert AnglesProofs.
From Verif Require SerStrip.
Import ListNotations.
Local Open Scope string_scope.
Local Open Scope Z_scope.
Local Open Scope list_scope.

(** ** Weights *)
Lemma zip_strict_spec {A B} (a : list A) : forall b : list B,
  (length a = length b /\ zip_strict a b = Ok (combine a b)) \/ (length a <> length b /\ zip_strict a b = Err ValueError).
Proof.
  induction a as [|x a IH]; intros [|y b]; cbn [zip_strict length combine].
  - left. auto.
  - right. split; [discriminate|reflexivity].
  - right. split; [discriminate|reflexivity].
  - destruct (IH b) as [[L ->]|[L ->]]; cbn [bind]; [left|right]; split; auto; lia.
Qed.
Lemma first_pair_some l r : first_pair l = Some r -> exists a b h, r = ([a; b], h) /\ In (h, Sub [a; b]) l.
Proof.
  induction l as [|[h x] l IH]; [discriminate|]. cbn [first_pair]. intros E.
  assert (X : (exists a b, x = Sub [a; b] /\ r = ([a; b], h)) \/ first_pair l = Some r).
  { destruct x as [i|[|a [|b [|? ?]]]]; auto. left. injection E as <-. eauto. }
  destruct X as [(a & b & -> & ->)|X].
  - exists a, b, h. split; [reflexivity|left; reflexivity].
  - destruct (IH X) as (a & b & h' & -> & I). exists a, b, h'. split; [reflexivity|right; exact I].
Qed.
Lemma first_pair_none l : first_pair l = None -> forall h a b, ~ In (h, Sub [a; b]) l.
Proof.
  induction l as [|[h x] l IH]; intros E h' a b I; [destruct I|]. cbn [first_pair] in E.
  assert (X : first_pair l = None) by (destruct x as [i|[|? [|? [|? ?]]]]; auto; discriminate E).
  destruct I as [I|I]; [|exact (IH X _ _ _ I)]. injection I as -> ->. discriminate E.
Qed.
Lemma in_combine_pair (hs : list Z) : forall (n : list item) x, length hs = length n -> In x n -> exists h, In (h, x) (combine hs n).
Proof.
  induction hs as [|h hs IH]; intros [|y n] x L I; try discriminate L; [destruct I|].
  cbn [combine]. destruct I as [->|I]; [exists h; left; reflexivity|].
  destruct (IH n x) as (h' & I'); [cbn in L; lia|exact I|]. exists h'. right. exact I'.
Qed.
Lemma resonance_helicity_some vs r : resonance_helicity vs = Ok r ->
  exists v hs a b h, In v vs /\ all_int (v_node v) = false /\ v_helicities v = Some hs /\ In (Sub [a; b]) (v_node v) /\ r = ([a; b], h).
Proof.
  induction vs as [|v vs IH]; [discriminate|]. cbn [resonance_helicity].
  assert (G : resonance_helicity vs = Ok r -> exists v' hs a b h, In v' (v :: vs) /\ all_int (v_node v') = false /\
    v_helicities v' = Some hs /\ In (Sub [a; b]) (v_node v') /\ r = ([a; b], h)).
  { intros E. destruct (IH E) as (v' & hs & a & b & h & I & X). exists v', hs, a, b, h. split; [right; exact I|exact X]. }
  destruct (all_int (v_node v)) eqn:A; [exact G|].
  destruct (v_helicities v) as [hs|] eqn:V; [|discriminate].
  destruct (first_pair (combine hs (v_node v))) as [p|] eqn:F.
  - intros E. injection E as <-. destruct (first_pair_some _ _ F) as (a & b & h & -> & I).
    apply in_combine_r in I. exists v, hs, a, b, h. split; [left; reflexivity|]. auto.
  - intros E. apply bind_ok in E. destruct E as (z & _ & E). exact (G E).
Qed.
Lemma resonance_helicity_err vs e : resonance_helicity vs = Err e -> e = ValueError.
Proof.
  induction vs as [|v vs IH]; cbn [resonance_helicity]; [congruence|].
  destruct (all_int (v_node v)); [exact IH|]. destruct (v_helicities v) as [hs|]; [|congruence].
  destruct (first_pair _); [discriminate|].
  destruct (zip_strict_spec hs (v_node v)) as [[_ ->]|[_ ->]]; cbn [bind]; [exact IH|congruence].
Qed.
Lemma resonance_helicity_complete vs : (forall v, In v vs -> helicities_given v) -> (exists v, In v vs /\ contains_pair v) ->
  exists r, resonance_helicity vs = Ok r.
Proof.
  induction vs as [|v vs IH]; intros C (v' & I & P); [destruct I|]. cbn [resonance_helicity].
  destruct P as (a & b & P).
  destruct (all_int (v_node v)) eqn:A.
  - apply IH; [intros w J; apply C; right; exact J|]. destruct I as [->|I].
    + unfold all_int in A. rewrite forallb_forall in A. discriminate (A _ P).
    + exists v'. split; [exact I|exists a, b; exact P].
  - destruct (C v) as (hs & -> & L); [left; reflexivity|].
    destruct (first_pair (combine hs (v_node v))) as [r|] eqn:F; [eauto|].
    destruct (zip_strict_spec hs (v_node v)) as [[_ ->]|[N _]]; [|contradiction]. cbn [bind].
    apply IH; [intros w J; apply C; right; exact J|]. destruct I as [->|I].
    + destruct (in_combine_pair hs (v_node v') (Sub [a; b]) L P) as (h & J). destruct (first_pair_none _ F _ _ _ J).
    + exists v'. split; [exact I|exists a, b; exact P].
Qed.
Lemma collect_spec vs : forall acc,
  ((forall v, In v vs -> helicities_given v) /\ exists d, collect_helicities vs acc = Ok d) \/
  (~ (forall v, In v vs -> helicities_given v) /\ collect_helicities vs acc = Err ValueError).
Proof.
  induction vs as [|v vs IH]; intros acc; cbn [collect_helicities].
  - left. split; [intros v []|eauto].
  - destruct (v_helicities v) as [hs|] eqn:V.
    + destruct (zip_strict_spec hs (v_node v)) as [[L ->]|[L ->]]; cbn [bind].
      * match goal with |- context [collect_helicities vs ?a] => destruct (IH a) as [[G X]|[G X]] end.
        -- left. split; [|exact X]. intros w [<-|I]; [exists hs; auto|exact (G w I)].
        -- right. split; [|exact X]. intros H. apply G. intros w I. apply H. right. exact I.
      * right. split; [|reflexivity]. intros H. destruct (H v) as (hs' & E & L'); [left; reflexivity|]. congruence.
    + right. split; [|reflexivity]. intros H. destruct (H v) as (hs' & E & L'); [left; reflexivity|]. congruence.
Qed.
Lemma collected_total (d : dict Z Z) : exists r, (let* ids := sorted (dkeys d) in
  let* items := mapM (fun i => let* h := dgetitem i d in Ok (i, h)) ids in Ok (dict_of items)) = Ok r.
Proof.
  destruct (sorted_Z (dkeys d)) as (ids & -> & P). cbn [bind].
  destruct (mapM (fun i => let* h := dgetitem i d in Ok (i, h)) ids) as [items|e] eqn:E; cbn [bind]; [eauto|].
  exfalso. assert (G : is_ok (mapM (fun i => let* h := dgetitem i d in Ok (i, h)) ids)).
  { apply QrulesConvert.mapM_is_ok_iff. intros i I. apply (Permutation_in _ (Permutation_sym P)) in I.
    apply dget_In in I. destruct I as (h & I). apply dgetitem_ok in I. rewrite I. eexists. reflexivity. }
  destruct G as (x & G). congruence.
Qed.
Lemma final_helicities_spec c :
  ((forall v, In v (cd_vertices c) -> helicities_given v) /\ exists d, final_state_helicities c = Ok d) \/
  (~ (forall v, In v (cd_vertices c) -> helicities_given v) /\ final_state_helicities c = Err ValueError).
Proof.
  unfold final_state_helicities. destruct (collect_spec (cd_vertices c) []) as [[G (d & ->)]|[G ->]]; cbn [bind].
  - left. split; [exact G|]. apply collected_total.
  - right. auto.
Qed.
Lemma c111_weight c tl :
  ((exists w, get_weight c tl = Ok w) <->
     (forall v, In v (cd_vertices c) -> helicities_given v) /\ exists v, In v (cd_vertices c) /\ contains_pair v) /\
  (forall e, get_weight c tl = Err e -> e = ValueError).
Proof.
  unfold get_weight. split; [split|].
  - intros (w & E). apply bind_ok in E. destruct E as ([rn r] & R & E). apply bind_ok in E. destruct E as (hs & F & _).
    destruct (final_helicities_spec c) as [[G _]|[_ X]]; [|congruence]. split; [exact G|].
    destruct (resonance_helicity_some _ _ R) as (v & _ & a & b & _ & I & _ & _ & P & _). exists v. split; [exact I|exists a, b; exact P].
  - intros [G P]. destruct (resonance_helicity_complete _ G P) as ([rn r] & ->). cbn [bind].
    destruct (final_helicities_spec c) as [[_ (hs & ->)]|[X _]]; [|contradiction]. cbn [bind]. eauto.
  - intros e E. destruct (resonance_helicity (cd_vertices c)) as [[rn r]|e'] eqn:R; cbn [bind] in E.
    + destruct (final_helicities_spec c) as [[_ (hs & X)]|[_ X]]; rewrite X in E; cbn [bind] in E; congruence.
    + rewrite (resonance_helicity_err _ _ R) in E. congruence.
Qed.

(** ** Vertices *)
Lemma recoupling_inv m n q e c v : formulate_recoupling m n q = Ok e -> nth_chain m n = Ok c -> nth_vertex c q = Ok v ->
  length (v_node v) = 2%nat /\ ((exists i, In (It i) (v_node v)) -> helicity_vertex v).
Proof.
  intros E Hc Hv. pose proof (ls_no_recoupling m n q c v) as NL. unfold formulate_recoupling in E. rewrite Hc in E. cbn [bind] in E.
  destruct (negb _) in E; [discriminate E|]. destruct (negb _) in E; [discriminate E|]. rewrite Hv in E. cbn [bind] in E.
  apply bind_ok in E. destruct E as ([la lb] & U & E).
  assert (L : length (v_node v) = 2%nat).
  { destruct (v_node v) as [|x [|y [|? ?]]]; try discriminate U. reflexivity. }
  split; [exact L|]. intros (i & I).
  destruct (eqb (v_type v) "helicity" || eqb (v_type v) "parity") eqn:T.
  - apply bind_ok in E. destruct E as (hs & H & E). apply bind_ok in E. destruct E as ([a b] & U' & E).
    assert (Hh : helicities_given v).
    { exists hs. unfold opt_key in H. destruct (v_helicities v) as [hs'|]; [|discriminate H]. injection H as ->.
      split; [reflexivity|]. rewrite L. destruct hs as [|? [|? [|? ?]]]; try discriminate U'. reflexivity. }
    split; [exact L|]. split; [exact Hh|].
    destruct (eqb (v_type v) "parity") eqn:P.
    + right. rewrite Prelude.eqb_eq in P. split; [exact P|]. intros t Et. rewrite Et in E.
      apply bind_ok in E. destruct E as (f & F & _). destruct (c58_sign t) as (_ & S & _).
      apply SerStrip.padded_factor. destruct (S f F) as [[_ ->]|[[_ ->]|[_ ->]]]; cbn; auto.
    + left. rewrite orb_false_r in T. rewrite Prelude.eqb_eq in T. exact T.
  - exfalso. destruct (eqb (v_type v) "ls") eqn:P; [|discriminate E]. rewrite Prelude.eqb_eq in P.
    apply bind_ok in E. destruct E as (l & _ & E). apply bind_ok in E. destruct E as (sp & _ & E).
    apply bind_ok in E. destruct E as (spins & E' & _). exact (ls_no_child_spins _ _ _ _ _ _ Hc Hv I _ E').
Qed.
Lemma products_inv vs x : decay_product_helicities vs = Ok x ->
  exists v hs, In v vs /\ all_int (v_node v) = true /\ v_helicities v = Some hs /\ zip_strict (ints_of (v_node v)) hs = Ok x.
Proof.
  induction vs as [|v vs IH]; [discriminate|]. cbn [decay_product_helicities].
  destruct (all_int (v_node v)) eqn:A.
  - destruct (v_helicities v) as [hs|] eqn:H; [|discriminate]. intros E. exists v, hs. split; [left; reflexivity|]. auto.
  - intros E. destruct (IH E) as (w & hs & I & X). exists w, hs. split; [right; exact I|exact X].
Qed.
Lemma form_factors_inv m vs : forall e e', form_factor_loop m vs e = Ok e' -> forall v, In v vs -> complete_form_factor m v.
Proof.
  induction vs as [|v vs IH]; intros e e' E w I; [destruct I|]. cbn [form_factor_loop] in E.
  apply bind_ok in E. destruct E as (f & F & E). destruct I as [<-|I]; [|exact (IH _ _ E w I)].
  destruct (form_factor_inv _ _ _ F) as [[_ [X|X]]|(name & g & vl & vr & V & NE & Fu & T & L & R)]; [left; exact X|right; left; exact X|].
  right; right. exists name, g. split; [exact V|]. split; [exact NE|]. split; [exact Fu|]. split; [exact T|].
  intros key [<-|[<-|[]]]; eauto.
Qed.
Lemma all_int_two n : all_int n = true -> length n = 2%nat -> exists i j, n = [It i; It j].
Proof.
  intros A L. destruct n as [|x [|y [|? ?]]]; try discriminate L.
  destruct x as [i|l]; [|discriminate A]. destruct y as [j|l]; [|discriminate A]. eauto.
Qed.
(** What follows from the formulation of the amplitude of a chain *)
Lemma chain_amplitude_inv l m n tl additional a c : is_dict additional -> nth_chain m n = Ok c ->
  formulate_chain_amplitude l m n tl additional = Ok a ->
  exists i j t vp vd a b, (cd_vertices c = [vp; vd] \/ cd_vertices c = [vd; vp]) /\
    v_node vd = [It i; It j] /\ length (v_node vp) = 2%nat /\ In (Sub [a; b]) (v_node vp) /\ helicity_vertex vd /\
    ((exists x, In (It x) (v_node vp)) -> helicity_vertex vp) /\
    (exists p ps z, cd_propagators c = p :: ps /\ pr_spin p = half z) /\
    (forall p, In p (cd_propagators c) -> exists x, lineshape_of m (tl (cd_name c)) additional p x) /\
    complete_form_factor m vp /\ complete_form_factor m vd /\
    In t [1; 2; 3] /\ In (It t) (cd_topology c) /\ forall x, In (It x) (cd_topology c) -> x = t.
Proof.
  intros DI Hc E. unfold formulate_chain_amplitude in E. rewrite Hc in E. cbn [bind] in E.
  apply bind_ok in E. destruct E as (d1 & D1 & E). apply bind_ok in E. destruct E as (d2 & D2 & E).
  apply bind_ok in E. destruct E as ([w wv] & W & E). apply bind_ok in E. destruct E as (ps & PS & E).
  apply bind_ok in E. destruct E as ([[i li] [j lj]] & U & E).
  apply bind_ok in E. destruct E as ([th the] & _ & E).
  destruct (cd_propagators c) as [|p pp] eqn:EP; [discriminate E|].
  apply bind_ok in E. destruct E as (jR & JR & E). apply bind_ok in E. destruct E as ([rn rr] & RH & E).
  apply bind_ok in E. destruct E as (k & K & E). apply bind_ok in E. destruct E as (e0 & E0 & E).
  apply bind_ok in E. destruct E as (e1 & E1 & E). apply bind_ok in E. destruct E as (ab & AB & _).
  pose proof (recoupling_length _ _ _ _ _ E0 Hc) as LV.
  destruct (cd_vertices c) as [|v0 [|v1 [|? ?]]] eqn:EV; try discriminate LV.
  assert (N0 : nth_vertex c 0 = Ok v0) by (unfold nth_vertex; rewrite EV; reflexivity).
  assert (N1 : nth_vertex c 1 = Ok v1) by (unfold nth_vertex; rewrite EV; reflexivity).
  destruct (recoupling_inv _ _ _ _ _ _ E0 Hc N0) as [L0 H0]. destruct (recoupling_inv _ _ _ _ _ _ E1 Hc N1) as [L1 H1].
  destruct (products_inv _ _ PS) as (vd & hd & Id & Ad & Hd & Z).
  destruct (resonance_helicity_some _ _ RH) as (vp & hp & a' & b' & hr & Ip & Ap & Hp & Pp & _).
  pose proof (proj1 (amp_base_inv _ _ AB)) as IT.
  assert (ORD : (v0 = vp /\ v1 = vd) \/ (v0 = vd /\ v1 = vp)) by (destruct Ip as [<-|[<-|[]]], Id as [<-|[<-|[]]]; try congruence; auto).
  assert (Lp : length (v_node vp) = 2%nat) by (destruct ORD as [[<- _]|[_ <-]]; assumption).
  assert (Ld : length (v_node vd) = 2%nat) by (destruct ORD as [[_ <-]|[<- _]]; assumption).
  destruct (all_int_two _ Ad Ld) as (i' & j' & ND).
  apply c59_spectator in K.
  exists i', j', k, vp, vd, a', b'.
  split; [destruct ORD as [[-> ->]|[-> ->]]; auto|].
  split; [exact ND|]; split; [exact Lp|]; split; [exact Pp|].
  split; [destruct ORD as [[_ <-]|[<- _]]; [apply H1|apply H0]; exists i'; rewrite ND; left; reflexivity|].
  split; [destruct ORD as [[<- _]|[_ <-]]; assumption|].
  split; [exists p, pp, jR; split; [reflexivity|]; apply half_spec; apply QrulesConvert.spin_value_spec; exact JR|].
  split; [rewrite <- EP; apply (proj1 (proj1 (c82_outcome c m tl additional DI))); eauto|].
  pose proof (form_factors_inv _ _ _ _ D2) as FF.
  split; [apply FF; exact Ip|]; split; [apply FF; exact Id|]; split; [exact IT|]; exact K.
Qed.
Lemma chain_amplitude_key l m n tl additional a c : nth_chain m n = Ok c -> formulate_chain_amplitude l m n tl additional = Ok a ->
  exists t, (In (It t) (cd_topology c) /\ forall x, In (It x) (cd_topology c) -> x = t) /\ In t [1; 2; 3] /\ fst (ca_key a) = amp_name t.
Proof.
  intros Hc E. unfold formulate_chain_amplitude in E. rewrite Hc in E. cbn [bind] in E.
  apply bind_ok in E. destruct E as (d1 & D1 & E). apply bind_ok in E. destruct E as (d2 & D2 & E).
  apply bind_ok in E. destruct E as ([w wv] & W & E). apply bind_ok in E. destruct E as (ps & PS & E).
  apply bind_ok in E. destruct E as ([[i li] [j lj]] & U & E).
  apply bind_ok in E. destruct E as ([th the] & _ & E).
  destruct (cd_propagators c) as [|p pp] eqn:EP; [discriminate E|].
  apply bind_ok in E. destruct E as (jR & JR & E). apply bind_ok in E. destruct E as ([rn rr] & RH & E).
  apply bind_ok in E. destruct E as (k & K & E). apply bind_ok in E. destruct E as (e0 & E0 & E).
  apply bind_ok in E. destruct E as (e1 & E1 & E). apply bind_ok in E. destruct E as (ab & AB & E).
  injection E as <-. cbn [ca_key fst]. exists k. split; [apply c59_spectator; exact K|]. apply amp_base_inv. exact AB.
Qed.
Lemma loop_keys m tl additional work : forall amps vars params amps' vars' params' x,
  formulate_loop m tl additional work (amps, vars, params) = Ok (amps', vars', params') ->
  In x (dkeys amps') <-> In x (dkeys amps) \/
    exists l n a, In (l, n) work /\ formulate_chain_amplitude l m n tl additional = Ok a /\ ca_key a = x.
Proof.
  induction work as [|[l n] work IH]; intros amps vars params amps' vars' params' x E; cbn [formulate_loop] in E.
  - injection E as <- <- <-. split; [auto|]. intros [I|(l & n & a & [] & _)]. exact I.
  - apply bind_ok in E. destruct E as (a & A & E). rewrite (IH _ _ _ _ _ _ x E). rewrite dset_keys. split.
    + intros [[->|I]|(l' & n' & a' & W & X)].
      * right. exists l, n, a. split; [left; reflexivity|auto].
      * left. exact I.
      * right. exists l', n', a'. split; [right; exact W|exact X].
    + intros [I|(l' & n' & a' & [W|W] & A' & X)].
      * left. right. exact I.
      * injection W as <- <-. rewrite A in A'. injection A' as <-. left. left. auto.
      * right. exists l', n', a'. auto.
Qed.

(** ** States *)
Lemma dupdate_values {K V} `{EqDec K} (d2 : dict K V) : forall d1 k v, In (k, v) (dupdate d1 d2) -> In (k, v) d1 \/ In (k, v) d2.
Proof.
  assert (A : forall (d1 : dict K V) k v k' v', In (k, v) (dset k' v' d1) -> In (k, v) d1 \/ (k, v) = (k', v')).
  { induction d1 as [|[a b] d1 IH]; intros k v k' v' I; cbn in I.
    - destruct I as [I|[]]. auto.
    - destruct (eq_dec k' a) as [->|X].
      + destruct I as [I|I]; [right; auto|left; right; exact I].
      + destruct I as [I|I]; [left; left; exact I|]. destruct (IH _ _ _ _ I) as [J|J]; [left; right; exact J|right; exact J]. }
  induction d2 as [|[k' v'] d2 IH]; intros d1 k v I; [left; exact I|].
  change (dupdate d1 ((k', v') :: d2)) with (dupdate (dset k' v' d1) d2) in I.
  destruct (IH _ _ _ I) as [J|J]; [|right; right; exact J].
  destruct (A _ _ _ _ _ J) as [X|X]; [left; exact X|right; left; auto].
Qed.
Section Formulated.
  Variables (m : model_def) (d : distribution) (rest : list distribution).
  Hypothesis DM : md_distributions m = d :: rest.
  Lemma distribution_ok : fst (get_distribution_def m) = Ok d.
  Proof. unfold get_distribution_def. rewrite DM. reflexivity. Qed.
  Lemma chains_of : get_decay_chains m = Ok (di_chains d).
  Proof. unfold get_decay_chains. rewrite distribution_ok. reflexivity. Qed.
  Definition defined_state (s : state) : Prop := exists x j, In x (di_initial d :: di_final d) /\
    sd_spin x = half j /\ p_spin (st_particle s) = j.
  Lemma to_state_defined x s : In x (di_initial d :: di_final d) -> to_state x None = Ok s -> defined_state s.
  Proof. intros I E. apply to_state_ok in E. destruct E as (j & S & ->). exists x, j. auto. Qed.
  Lemma final_inv fin : get_final_state m None = Ok fin -> NoDup (dkeys fin) /\
    forall i s, In (i, s) fin -> st_index s = i /\ defined_state s.
  Proof.
    intros E. unfold get_final_state in E. rewrite distribution_ok in E. cbn [bind] in E.
    apply bind_ok in E. destruct E as (l & L & E). injection E as <-. split.
    - unfold dict_of. apply dupdate_NoDup. constructor.
    - intros i s I. apply dupdate_values in I. destruct I as [[]|I]. apply in_map_iff in I.
      destruct I as (s' & E & I). injection E as <- <-. split; [reflexivity|].
      apply mapM_ok_inv in L. destruct (QrulesConvert.Forall2_In_r _ _ _ _ L I) as (x & J & T).
      apply (to_state_defined x); [right; exact J|exact T].
  Qed.
  Lemma states_inv st : get_states m None = Ok st -> NoDup (dkeys st) /\
    forall i s, In (i, s) st -> st_index s = i /\ defined_state s.
  Proof.
    intros E. unfold get_states in E. apply bind_ok in E. destruct E as (i0 & I0 & E).
    apply bind_ok in E. destruct E as (fin & F & E). injection E as <-. destruct (final_inv fin F) as [_ G]. split.
    - apply dupdate_NoDup. repeat constructor. intros [].
    - intros i s I. apply dupdate_values in I. destruct I as [[I|[]]|I]; [|exact (G i s I)].
      injection I as <- <-. split; [reflexivity|]. unfold get_initial_state in I0. rewrite distribution_ok in I0. cbn [bind] in I0.
      apply (to_state_defined (di_initial d)); [left; reflexivity|exact I0].
  Qed.
  Lemma index_of_keys (st : dict Z state) : (forall i s, In (i, s) st -> st_index s = i) -> map st_index (dvalues st) = dkeys st.
  Proof.
    intros H. unfold dvalues, dkeys. rewrite map_map. apply map_ext_in. intros [i s] I. exact (H i s I).
  Qed.
  Lemma decay_chain_inv c s0 fin ch : to_decay_chain c s0 fin None = Ok ch ->
    exists i j k R si sj sk, find_decay_product_ids (cd_vertices c) = Ok (i, j) /\ find_spectator_id (cd_vertices c) = Ok k /\
      dget i fin = Some si /\ dget j fin = Some sj /\ dget k fin = Some sk /\
      ch = Node (PSt s0) (Node (PPart R) (Leaf (PSt si)) (Leaf (PSt sj)) None) (Leaf (PSt sk)) None.
  Proof.
    intros E. unfold to_decay_chain in E. destruct (cd_propagators c) as [|p ps]; [discriminate E|].
    apply bind_ok in E. destruct E as (R & _ & E). apply bind_ok in E. destruct E as ([i j] & IJ & E).
    apply bind_ok in E. destruct E as (k & K & E). apply bind_ok in E. destruct E as (si & Si & E).
    apply bind_ok in E. destruct E as (sj & Sj & E). apply bind_ok in E. destruct E as (inner & In1 & E).
    apply bind_ok in E. destruct E as (sk & Sk & E). apply bind_ok in E. destruct E as (outer & Out & E).
    cbn in In1, Out. injection In1 as <-. injection Out as <-. apply (proj1 (mk_chain_ok _ _)) in E. destruct E as [-> _].
    exists i, j, k, R, si, sj, sk. rewrite dgetitem_ok in Si, Sj, Sk. auto 10.
  Qed.
  Lemma to_decay_inv dd st : to_decay m None = Ok dd -> get_states m None = Ok st ->
    (forall n, In n [1; 2; 3] -> exists s, dget n st = Some s) ->
    forall c, In c (di_chains d) -> exists i j k, Permutation [i; j; k] [1; 2; 3] /\
      find_decay_product_ids (cd_vertices c) = Ok (i, j) /\ find_spectator_id (cd_vertices c) = Ok k.
  Proof.
    intros E S A c I. unfold to_decay in E. rewrite S in E. apply bind_ok in E. destruct E as (s0 & S0 & E).
    apply bind_ok in E. destruct E as (fin & F & E). cbn [bind] in E. rewrite chains_of in E. cbn [bind] in E.
    apply bind_ok in E. destruct E as (chs & CH & E). apply bind_ok in E. destruct E as (srt & SO & E).
    apply mapM_ok_inv in CH. destruct (QrulesConvert.Forall2_In_l _ _ _ _ CH I) as (ch & J & T).
    destruct (decay_chain_inv _ _ _ _ T) as (i & j & k & R & si & sj & sk & IJ & K & Si & Sj & Sk & EC).
    exists i, j, k. split; [|auto].
    apply (proj1 (mk_decay_ok _ _ _)) in E. destruct E as (_ & s0' & _ & G).
    assert (J' : In ch srt) by (apply (Permutation_in _ (sorted_perm _ _ SO)); apply to_set_In; exact J).
    destruct (G ch J') as [_ G']. rewrite EC in G'. cbn [ch_spectator ch_decay_products] in G'.
    destruct (states_inv st S) as [NS IS]. destruct (final_inv fin F) as [NF IF].
    assert (X : forall n, In n [1; 2; 3] -> In n [i; j; k]).
    { intros n Hn. destruct (A n Hn) as (s & Es). apply dget_Some_In in Es. destruct (IS n s Es) as [Ix _].
      assert (LW : last_with_index (dvalues st) s).
      { apply last_unique.
        - rewrite (index_of_keys st); [exact NS|]. intros a b Hab. apply (IS a b Hab).
        - split; [|rewrite Ix; cbn in Hn; clear -Hn; lia]. unfold dvalues. change s with (snd (n, s)). apply in_map. exact Es. }
      apply G' in LW.
      assert (Q : forall a b, dget a fin = Some b -> st_index b = a) by (intros a b Hab; apply dget_Some_In in Hab; apply (IF a b Hab)).
      assert (D3 : In s [sk; si; sj]) by exact LW.
      destruct D3 as [<-|[<-|[<-|[]]]]; [rewrite (Q _ _ Sk) in Ix|rewrite (Q _ _ Si) in Ix|rewrite (Q _ _ Sj) in Ix]; subst; cbn; auto. }
    apply Permutation_sym. apply NoDup_Permutation_bis; [repeat constructor; cbn; lia|cbn; lia|exact X].
  Qed.
  Hypothesis SP : forall x, In x (di_initial d :: di_final d) -> (Q2Qc 0 <= sd_spin x)%Qc.
  Lemma defined_spin s : defined_state s -> 0 <= p_spin (st_particle s).
  Proof.
    intros (x & j & I & E & ->). specialize (SP x I). rewrite E in SP. clear -SP.
    unfold Qcle, half in SP. cbn [this Q2Qc] in SP. rewrite !Qred_correct in SP. unfold Qle in SP. cbn [Qnum Qden] in SP. lia.
  Qed.
  Lemma in_range s : defined_state s -> In (- p_spin (st_particle s)) (spin_range2 (p_spin (st_particle s))).
  Proof.
    intros D. pose proof (defined_spin s D). apply spin_range2_In. split; [lia|].
    apply Z.even_spec. exists (p_spin (st_particle s)). lia.
  Qed.
  Theorem c111_accepted cl tl additional M : is_dict additional -> SerAmplitude.formulate m cl tl additional = Ok M ->
    forall c, In c (di_chains d) -> accepted_chain m tl additional c.
  Proof.
    intros DI E c Ic. unfold SerAmplitude.formulate in E.
    apply bind_ok in E. destruct E as (st & S & E).
    apply bind_ok in E. destruct E as (s0 & S0 & E). apply bind_ok in E. destruct E as (s1 & S1 & E).
    apply bind_ok in E. destruct E as (s2 & S2 & E). apply bind_ok in E. destruct E as (s3 & S3 & E).
    rewrite chains_of in E. cbn [bind] in E.
    apply bind_ok in E. destruct E as ([[amps vars] params] & L & E).
    apply bind_ok in E. destruct E as ([aligned zd] & _ & E). apply bind_ok in E. destruct E as (dd & DD & _).
    destruct (states_inv st S) as [_ IS].
    assert (DS : forall n s, dgetitem n st = Ok s -> defined_state s).
    { intros n s X. rewrite dgetitem_ok in X. apply dget_Some_In in X. apply (IS n s X). }
    destruct (In_nth_error _ _ Ic) as (q & Eq).
    assert (Lq : (q < length (di_chains d))%nat) by (apply nth_error_Some; congruence).
    assert (NC : nth_chain m q = Ok c) by (unfold nth_chain; rewrite chains_of; cbn [bind]; rewrite Eq; reflexivity).
    destruct (loop_elements _ _ _ _ _ _ L (- p_spin s0, - p_spin s1, - p_spin s2, - p_spin s3) q) as (a & CA).
    { apply in_flat_map. exists (- p_spin s0, - p_spin s1, - p_spin s2, - p_spin s3). split.
      - apply product4_In. cbn [lam4]. repeat split; apply in_range; eapply DS; eassumption.
      - match goal with |- In (?l, ?n) _ => apply (in_map (fun n => (l, n)) (seq 0 (length (di_chains d))) n) end. apply in_seq. lia. }
    destruct (chain_amplitude_inv _ _ _ _ _ _ _ DI NC CA)
      as (i & j & t & vp & vd & a1 & b1 & V & ND & LP & PP & HD & HP & PR & LS & FP & FD & T).
    destruct (to_decay_inv dd st DD S) with (c := c) as (i' & j' & k & P & FI & FS); [|exact Ic|].
    { intros n Hn. rewrite dgetitem_ok in S1, S2, S3. destruct Hn as [<-|[<-|[<-|[]]]]; eauto. }
    assert (SH : with_pair k [a1; b1] (v_node vp) /\ i' = i /\ j' = j).
    { destruct (v_node vp) as [|x [|y [|? ?]]] eqn:NP; try discriminate LP.
      destruct V as [V|V]; rewrite V in FI, FS; cbn [find_decay_product_ids find_spectator_id] in FI, FS; rewrite NP, ND in FI, FS; cbn in FI, FS, PP.
      - destruct PP as [->|[->|[]]].
        + destruct y as [n|l]; cbn in FI, FS; [|discriminate FS]. injection FS as <-. injection FI as <- <-. split; [left; reflexivity|auto].
        + destruct x as [n|l]; cbn in FI, FS; [|discriminate FS]. injection FS as <-. injection FI as <- <-. split; [right; reflexivity|auto].
      - injection FI as <- <-. destruct PP as [->|[->|[]]].
        + destruct y as [n|l]; cbn in FS; [|discriminate FS]. injection FS as <-. split; [left; reflexivity|auto].
        + destruct x as [n|l]; cbn in FS; [|discriminate FS]. injection FS as <-. split; [right; reflexivity|auto]. }
    destruct SH as (WP & -> & ->).
    exists i, j, k, t, vp, vd, a1, b1. split; [exact P|]. split; [exact V|]. split; [exact ND|]. split; [exact WP|].
    split; [apply HP; exists k; destruct WP as [->| ->]; cbn; auto|]. split; [exact HD|]. split; [exact PR|]. split; [exact LS|].
    split; [exact FP|]. split; [exact FD|]. exact T.
  Qed.
  (** The subsystem of an amplitude is the one in the topologies of its chains (C112). *)
  Theorem c112_topology cl tl additional M t : is_dict additional -> SerAmplitude.formulate m cl tl additional = Ok M -> In t [1; 2; 3] ->
    ((exists idx, In (amp_name t, idx) (dkeys (m_amplitudes M))) <-> exists c, In c (di_chains d) /\ In (It t) (cd_topology c)).
  Proof.
    intros DI E It. pose proof (c111_accepted cl tl additional M DI E) as ACC. unfold SerAmplitude.formulate in E.
    apply bind_ok in E. destruct E as (st & S & E).
    apply bind_ok in E. destruct E as (s0 & S0 & E). apply bind_ok in E. destruct E as (s1 & S1 & E).
    apply bind_ok in E. destruct E as (s2 & S2 & E). apply bind_ok in E. destruct E as (s3 & S3 & E).
    rewrite chains_of in E. cbn [bind] in E.
    apply bind_ok in E. destruct E as ([[amps vars] params] & L & E).
    assert (EA : m_amplitudes M = amps).
    { apply bind_ok in E. destruct E as ([aligned zd] & _ & E). apply bind_ok in E. destruct E as (dd & _ & E).
      apply bind_ok in E. destruct E as (ms & _ & E). apply bind_ok in E. destruct E as (inv & _ & E). injection E as <-. reflexivity. }
    rewrite EA. clear E. destruct (states_inv st S) as [_ IS].
    assert (DS : forall n s, dgetitem n st = Ok s -> defined_state s).
    { intros n s X. rewrite dgetitem_ok in X. apply dget_Some_In in X. apply (IS n s X). }
    split.
    - intros (idx & I). apply (loop_keys _ _ _ _ _ _ _ _ _ _ _ L) in I. destruct I as [[]|(l & q & a & W & CA & K)].
      apply in_flat_map in W. destruct W as (l' & _ & W). apply in_map_iff in W. destruct W as (q' & X & W). injection X as <- <-.
      apply in_seq in W. destruct (nth_error (di_chains d) q') as [c|] eqn:Eq; [|apply nth_error_None in Eq; lia].
      assert (NC : nth_chain m q' = Ok c) by (unfold nth_chain; rewrite chains_of; cbn [bind]; rewrite Eq; reflexivity).
      exists c. split; [exact (nth_error_In _ _ Eq)|].
      destruct (chain_amplitude_key _ _ _ _ _ _ _ NC CA) as (t' & (T1 & _) & T2 & T3). rewrite K in T3. cbn [fst] in T3.
      assert (t = t') by (revert T3 It T2; clear; cbn; intros X [<-|[<-|[<-|[]]]] [<-|[<-|[<-|[]]]]; auto; discriminate X).
      subst t'. exact T1.
    - intros (c & Ic & Tc). destruct (In_nth_error _ _ Ic) as (q & Eq).
      assert (Lq : (q < length (di_chains d))%nat) by (apply nth_error_Some; congruence).
      assert (NC : nth_chain m q = Ok c) by (unfold nth_chain; rewrite chains_of; cbn [bind]; rewrite Eq; reflexivity).
      assert (W : In ((- p_spin s0, - p_spin s1, - p_spin s2, - p_spin s3), q)
        (flat_map (fun l => map (fun n => (l, n)) (seq 0 (length (di_chains d))))
          (product4 (spin_range2 (p_spin s0)) (spin_range2 (p_spin s1)) (spin_range2 (p_spin s2)) (spin_range2 (p_spin s3))))).
      { apply in_flat_map. exists (- p_spin s0, - p_spin s1, - p_spin s2, - p_spin s3). split.
        - apply product4_In. repeat split; apply in_range; eapply DS; eassumption.
        - match goal with |- In (?l, ?n) _ => apply (in_map (fun n => (l, n)) (seq 0 (length (di_chains d))) n) end. apply in_seq. lia. }
      destruct (loop_elements _ _ _ _ _ _ L _ q W) as (a & CA).
      destruct (chain_amplitude_key _ _ _ _ _ _ _ NC CA) as (t' & (_ & T1) & T2 & T3). rewrite <- (T1 t Tc) in T3.
      exists (snd (ca_key a)). apply (loop_keys _ _ _ _ _ _ _ _ _ _ _ L). right.
      exists (- p_spin s0, - p_spin s1, - p_spin s2, - p_spin s3), q, a. split; [exact W|]. split; [exact CA|].
      rewrite <- T3. destruct (ca_key a); reflexivity.
  Qed.
  (** Definitions with another chain raise. *)
  Corollary c111_rejected cl tl additional c : is_dict additional -> In c (di_chains d) -> ~ accepted_chain m tl additional c ->
    exists e, SerAmplitude.formulate m cl tl additional = Err e.
  Proof.
    intros DI I N. destruct (SerAmplitude.formulate m cl tl additional) as [M|e] eqn:E; [|eauto].
    destruct (N (c111_accepted cl tl additional M DI E c I)).
  Qed.
  Corollary c111_helicities cl tl additional c v : is_dict additional -> In c (di_chains d) -> In v (cd_vertices c) ->
    (v_helicities v = None \/ exists hs, v_helicities v = Some hs /\ length hs <> length (v_node v)) ->
    exists e, SerAmplitude.formulate m cl tl additional = Err e.
  Proof.
    intros DI I J X. apply (c111_rejected cl tl additional c DI I).
    intros (i & j & k & t & vp & vd & a & b & _ & V & _ & _ & (_ & HP & _) & (_ & HD & _) & _).
    assert (G : helicities_given v).
    { destruct V as [V|V]; rewrite V in J; destruct J as [<-|[<-|[]]]; assumption. }
    destruct G as (hs & E & L). destruct X as [X|(hs' & X & L')]; congruence.
  Qed.
End Formulated.
