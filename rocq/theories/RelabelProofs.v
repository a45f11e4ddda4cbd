(** Change of the labels of the final state: amplitudes and intensities. *)
From Coq Require Import String ZArith QArith Qcanon Qreals List Bool Reals Lia Lra Permutation Sorted.
From Coquelicot Require Import Complex.
From Verif Require Import Prelude Spin Decay Expr Angles Sums Wigner CG CExpr SpecKin SpecDPD Builder
  SpinFacts DecayFacts KinFacts AnglesFacts WignerFacts CExprFacts BuilderFacts ModelFacts RefFacts CGFacts CGComplete LSBasis SpecLS LSProofs
  SpecParity ChainProofs ParityProofs SpecRelabel AnglesProofs RelabelFacts SpecReorder ReorderFacts.
Import ListNotations.
Local Open Scope string_scope.
Local Open Scope Z_scope.
Local Open Scope list_scope.

(** ** Chains *)
Lemma relabel_to_particle p t : to_particle (relabel p t) = relabel_pobj p (to_particle t).
Proof. destruct t; reflexivity. Qed.
Lemma relabel_chain p c : valid_chain c ->
  ch_parent (relabel p c) = relabel_state p (ch_parent c) /\ ch_resonance (relabel p c) = ch_resonance c /\
  ch_spectator (relabel p c) = relabel_state p (ch_spectator c) /\
  ch_decay_products (relabel p c) = (relabel_state p (fst (ch_decay_products c)), relabel_state p (snd (ch_decay_products c))) /\
  ch_incoming_ls (relabel p c) = ch_incoming_ls c /\ ch_outgoing_ls (relabel p c) = ch_outgoing_ls c /\
  resonance_first (relabel p c) = resonance_first c.
Proof.
  intros V. destruct (valid_chain_nodes c V) as
    (s0 & R & d1 & d2 & ii & jj & sp & s1 & s2 & Sh & T1 & T2 & PA & N & RR & SP & DP & IL & OL & NE).
  rewrite PA, RR, SP, DP, IL, OL. cbn [fst snd].
  pose proof (relabel_to_particle p d1) as U1. pose proof (relabel_to_particle p d2) as U2. rewrite T1 in U1. rewrite T2 in U2.
  assert (RP : pobj_particle (relabel_pobj p R) = pobj_particle R) by (destruct R; reflexivity).
  assert (Q : forall (t : tree), decay_products_r t = Ok (relabel_pobj p (PSt s1), relabel_pobj p (PSt s2)) ->
    ch_decay_products t = (relabel_state p s1, relabel_state p s2)).
  { intros t E. unfold ch_decay_products. rewrite E. reflexivity. }
  destruct Sh as [-> | ->]; cbn [relabel relabel_pobj]; (split; [reflexivity|]); (split; [exact RP|]); (split; [reflexivity|]);
    (split; [apply Q; unfold decay_products_r; cbn; rewrite U1, U2; reflexivity|]); repeat split; reflexivity.
Qed.

(** ** Sums *)
Lemma prod3 p (f : Z -> R) : relabelling p -> (f (p 1%Z) * f (p 2%Z) * f (p 3%Z) = f 1%Z * f 2%Z * f 3%Z)%R.
Proof.
  intros P. destruct (relabelling_cases p P) as [[K|K] _]; unfold keeps_order, exchanges, cyclic in K; cbn [In] in K;
    destruct K as [K|[K|[K|[]]]]; apply pair_equal_spec in K; destruct K as [K K3]; apply pair_equal_spec in K; destruct K as [K1 K2];
    rewrite <- K1, <- K2, <- K3; ring.
Qed.
(** the inverse of a relabelling *)
Definition unlabel (p : Z -> Z) (i : Z) : Z := if p 1 =? i then 1 else if p 2 =? i then 2 else 3.
Lemma unlabel_ok p i : relabelling p -> In i [1; 2; 3] -> In (unlabel p i) [1; 2; 3] /\ p (unlabel p i) = i.
Proof.
  intros [P0 P] Hi. apply (Permutation_in _ (Permutation_sym P)) in Hi. unfold unlabel.
  destruct (Z.eqb_spec (p 1) i) as [E|N1]; [split; [cbn [In]; auto|exact E]|].
  destruct (Z.eqb_spec (p 2) i) as [E|N2]; [split; [cbn [In]; auto|exact E]|].
  cbn [In] in Hi. split; [cbn [In]; auto|]. intuition congruence.
Qed.
Definition relabel_tuple (p : Z -> Z) (l : Z * Z * Z * Z) : Z * Z * Z * Z :=
  (at4 l 0, at4 l (unlabel p 1), at4 l (unlabel p 2), at4 l (unlabel p 3)).
Lemma relabel_tuple_ok p l : relabelling p -> relabelled_helicities p l (relabel_tuple p l).
Proof.
  intros P i [<-|Hi]; [destruct P as [-> _]; reflexivity|].
  assert (X : forall n, In n [1; 2; 3] -> at4 (relabel_tuple p l) n = at4 l (unlabel p n)).
  { intros n [<-|[<-|[<-|[]]]]; reflexivity. }
  pose proof (proj2 (proj2 (relabelling_cases p P)) i Hi) as Hp. rewrite (X (p i) Hp). f_equal.
  destruct (unlabel_ok p (p i) P Hp) as [U V]. apply (relabelling_inj p _ _ P) in V; [exact V|right; exact U|right; exact Hi].
Qed.
Lemma at4_ext l l' : (forall i, In i [0; 1; 2; 3] -> at4 l i = at4 l' i) -> l = l'.
Proof.
  destruct l as [[[a b] c] e], l' as [[[a' b'] c'] e']. intros H.
  pose proof (H 0 ltac:(cbn [In]; auto)) as H0. pose proof (H 1 ltac:(cbn [In]; auto)) as H1.
  pose proof (H 2 ltac:(cbn [In]; auto)) as H2. pose proof (H 3 ltac:(cbn [In]; auto)) as H3. cbn [at4] in *. congruence.
Qed.
Lemma relabelled_helicities_fun p l l1 l2 : relabelling p -> relabelled_helicities p l l1 -> relabelled_helicities p l l2 -> l1 = l2.
Proof.
  intros P H1 H2. apply at4_ext. intros i [<-|Hi].
  - destruct P as [P0 _]. rewrite <- P0. rewrite (H1 0), (H2 0) by (cbn [In]; auto). reflexivity.
  - destruct (unlabel_ok p i P Hi) as [U V]. rewrite <- V. rewrite (H1 _), (H2 _) by (right; exact U). reflexivity.
Qed.
Lemma relabelled_helicities_inj p l1 l2 l : relabelled_helicities p l1 l -> relabelled_helicities p l2 l -> l1 = l2.
Proof. intros H1 H2. apply at4_ext. intros i Hi. rewrite <- (H1 i Hi), <- (H2 i Hi). reflexivity. Qed.

Section Tuples.
  Variables (p : Z -> Z) (s s' : Z -> state).
  Hypothesis P : relabelling p.
  Hypothesis SP : forall i, In i [0; 1; 2; 3] -> st_particle (s' (p i)) = st_particle (s i).

  Lemma tuple_at l : helicity_tuple s l <-> forall i, In i [0; 1; 2; 3] -> In (at4 l i) (helicities (p_spin (s i))).
  Proof.
    destruct l as [[[a b] c] e]. cbn [helicity_tuple]. split.
    - intros (A & B & C & E) i Hi. apply In_0123 in Hi. destruct Hi as [->|[->|[->| ->]]]; assumption.
    - intros H. split; [apply (H 0)|split; [apply (H 1)|split; [apply (H 2)|apply (H 3)]]]; cbn [In]; auto.
  Qed.
  Lemma tuple_at' l : helicity_tuple s' l <-> forall i, In i [0; 1; 2; 3] -> In (at4 l i) (helicities (p_spin (s' i))).
  Proof.
    destruct l as [[[a b] c] e]. cbn [helicity_tuple]. split.
    - intros (A & B & C & E) i Hi. apply In_0123 in Hi. destruct Hi as [->|[->|[->| ->]]]; assumption.
    - intros H. split; [apply (H 0)|split; [apply (H 1)|split; [apply (H 2)|apply (H 3)]]]; cbn [In]; auto.
  Qed.
  Lemma tuple_relabelled l l' : relabelled_helicities p l l' -> (helicity_tuple s' l' <-> helicity_tuple s l).
  Proof.
    intros H. rewrite tuple_at, tuple_at'. split.
    - intros T i Hi. rewrite <- (H i Hi). rewrite <- (SP i Hi). apply T. apply (relabelling_cases p P). exact Hi.
    - intros T i [<-|Hi].
      + destruct P as [P0 _]. rewrite <- P0, (H 0), (SP 0) by (cbn [In]; auto). apply T. cbn [In]; auto.
      + destruct (unlabel_ok p i P Hi) as [U V]. rewrite <- V. rewrite (H _), (SP _) by (right; exact U). apply T. right; exact U.
  Qed.
  Lemma tuples_perm : Permutation (tuples s') (map (relabel_tuple p) (tuples s)).
  Proof.
    apply NoDup_Permutation.
    - apply tuples_NoDup.
    - apply map_NoDup_in; [|apply tuples_NoDup]. intros x y _ _ E.
      apply (relabelled_helicities_inj p x y (relabel_tuple p x)); [apply relabel_tuple_ok; exact P|].
      rewrite E. apply relabel_tuple_ok; exact P.
    - intros l'. rewrite in_map_iff, tuples_In. split.
      + intros H. set (l := (at4 l' 0, at4 l' (p 1), at4 l' (p 2), at4 l' (p 3))).
        assert (R : relabelled_helicities p l l').
        { intros i Hi. apply In_0123 in Hi. destruct Hi as [->|[->|[->| ->]]]; try reflexivity. destruct P as [-> _]. reflexivity. }
        exists l. split.
        * apply (relabelled_helicities_fun p l _ _ P); [apply relabel_tuple_ok; exact P|exact R].
        * apply tuples_In. apply (tuple_relabelled l l' R). exact H.
      + intros (l & <- & Hl). apply (tuple_relabelled l _ (relabel_tuple_ok p l P)). apply tuples_In. exact Hl.
  Qed.

  Lemma intensity_relabelled ks ks' A A' zeta zeta' (g : Z * Z * Z * Z -> R) e : Permutation ks' (map p ks) ->
    (forall l, g l = 1 \/ g l = -1)%R -> (e = 1 \/ e = -1)%R ->
    (forall k l l', In k ks -> helicity_tuple s l -> relabelled_helicities p l l' -> A' (p k) l' = (RtoC (e * g l) * A k l)%C) ->
    (forall k l1 l2 l1' l2', In k ks -> helicity_tuple s l1 -> helicity_tuple s l2 ->
       relabelled_helicities p l1 l1' -> relabelled_helicities p l2 l2' ->
       alignment s' (fun i => zeta' i (p k)) l1' l2' = (g l1 * g l2 * alignment s (fun i => zeta i k) l1 l2)%R) ->
    intensity_value s' ks' A' zeta' = intensity_value s ks A zeta.
  Proof.
    intros Pk G Ee HA HZ. unfold intensity_value. rewrite (Rsum_perm _ _ _ tuples_perm), Rsum_map. apply Rsum_ext. intros l Hl.
    apply tuples_In in Hl. f_equal.
    assert (X : aligned_amplitude s' ks' A' zeta' (relabel_tuple p l) = (RtoC (e * g l) * aligned_amplitude s ks A zeta l)%C).
    { unfold aligned_amplitude. rewrite (Csum_perm _ _ _ tuples_perm), Csum_map, <- Csum_scal_l. apply Csum_ext. intros l' Hl'.
      apply tuples_In in Hl'. rewrite (Csum_perm _ _ _ Pk), Csum_map, <- Csum_scal_l. apply Csum_ext. intros k Hk.
      rewrite (HA k l' _ Hk Hl' (relabel_tuple_ok p l' P)).
      rewrite (HZ k l l' _ _ Hk Hl Hl' (relabel_tuple_ok p l P) (relabel_tuple_ok p l' P)).
      replace (g l * g l' * alignment s (fun i => zeta i k) l l')%R with (g l' * (g l * alignment s (fun i => zeta i k) l l'))%R by ring.
      assert (S : (RtoC (g l') * RtoC (g l'))%C = RtoC 1).
      { rewrite <- RtoC_mult. f_equal. destruct (G l') as [-> | ->]; ring. }
      rewrite !RtoC_mult. transitivity ((RtoC (g l') * RtoC (g l')) * (RtoC e * RtoC (g l) * (A k l' * RtoC (alignment s (fun i => zeta i k) l l'))))%C; [ring|].
      rewrite S. ring. }
    rewrite X, Cmod_mult, Cmod_R. replace (Rabs (e * g l)) with 1%R; [ring|].
    destruct (G l) as [-> | ->], Ee as [-> | ->]; symmetry; first [apply Rabs_R1 | rewrite Rabs_left; lra | rewrite Rabs_right; lra].
  Qed.
End Tuples.

(** ** Models *)
Section Models.
  Variables (b b' : builder) (p : Z -> Z) (s s' : Z -> state) (dyn dyn' : chain -> defexpr) (uc flip : bool).
  Variables (ref ref' : option Z) (cl cl' : bool) (m m' : model) (r : Z) (base base' : symbol -> C) (cpl cpl' : string -> list ival -> C) (e : R).
  Variables (pr de : chain -> bool).
  (** the chains with the new labels, up to the order of the decay products *)
  Let T (c : chain) : chain := reorder (fun _ => pr c) (fun _ => de c) (relabel p c).
  Let tau (c : chain) : R := order_sign (b_prod_helicity b) (b_dec_helicity b) (fun _ => pr c) (fun _ => de c) (relabel p c).
  Hypothesis D : std_decay (b_decay b) s.
  Hypothesis D' : std_decay (b_decay b') s'.
  Hypothesis Y : dynamics_of b dyn.
  Hypothesis Y' : dynamics_of b' dyn'.
  Hypothesis PR : b_prod_helicity b = false -> plain_resonances (b_decay b).
  Hypothesis HP : b_prod_helicity b' = b_prod_helicity b.
  Hypothesis HD : b_dec_helicity b' = b_dec_helicity b.
  Hypothesis F : formulate b ref cl uc = Ok m.
  Hypothesis F' : formulate b' ref' cl' uc = Ok m'.
  Hypothesis R1 : resolve_reference (b_decay b) ref = Ok r.
  Hypothesis R2 : resolve_reference (b_decay b') ref' = Ok (p r).
  Hypothesis P : relabelling p.
  Hypothesis O : if flip then exchanges p else keeps_order p.
  Hypothesis RD : (forall i, In i [0; 1; 2; 3] -> st_particle (s' (p i)) = st_particle (s i)) /\
    Permutation (d_chains (b_decay b')) (map T (d_chains (b_decay b))).
  Hypothesis RP : relabelled_point p base base'.
  Hypothesis Ph : flip = true -> physical (fun x => Re (base x)) /\ nonsingular (fun x => Re (base x)).
  Hypothesis DV : forall c, In c (d_chains (b_decay b)) ->
    ceval (Env base' cpl') (fun _ => 0) (de_expr (dyn' (T c))) = ceval (Env base cpl) (fun _ => 0) (de_expr (dyn c)).
  Hypothesis Ee : (e = 1 \/ e = -1)%R.
  Hypothesis CV : forall c h l i j k, In c (d_chains (b_decay b)) -> ch_spectator c = s k -> cyclic i j k -> helicity_tuple s l ->
    (if uc then coefficient else coupling_product) (Env base' cpl') (b_prod_helicity b) (b_dec_helicity b) (T c) h (at4 l k)
        (at4 l (if flip then j else i)) (at4 l (if flip then i else j))
    = (RtoC (e * (if flip then exchange_sign c else 1) * tau c) *
       (if uc then coefficient else coupling_product) (Env base cpl) (b_prod_helicity b) (b_dec_helicity b) c h (at4 l k) (at4 l i) (at4 l j))%C.

  Let sgn (l : Z * Z * Z * Z) : R := if flip then orientation_sign s l else 1%R.
  Let spin_eq i : In i [0; 1; 2; 3] -> p_spin (s' (p i)) = p_spin (s i).
  Proof. intros Hi. f_equal. apply (proj1 RD i Hi). Qed.

  Lemma T_chain c : In c (d_chains (b_decay b)) ->
    ch_resonance (T c) = ch_resonance c /\ ch_spectator (T c) = relabel_state p (ch_spectator c).
  Proof.
    intros Hc. pose proof (std_valid _ _ D c Hc) as V.
    destruct (reorder_accessors (fun _ => pr c) (fun _ => de c) (relabel p c) (relabel_two_nodes p c (valid_two_nodes c V))) as (_ & A & B & _).
    destruct (relabel_chain p c V) as (_ & E2 & E3 & _). unfold T. rewrite A, B. split; assumption.
  Qed.
  Lemma relabelled_plain : b_prod_helicity b' = false -> plain_resonances (b_decay b').
  Proof.
    intros H c Hc. rewrite HP in H. apply (Permutation_in _ (proj2 RD)) in Hc. apply in_map_iff in Hc. destruct Hc as (c0 & <- & Hc0).
    destruct (PR H c0 Hc0) as [q Hq]. exists q.
    apply reorder_plain; [apply relabel_two_nodes, valid_two_nodes, (std_valid _ _ D c0 Hc0)|].
    destruct (valid_chain_nodes c0 (std_valid _ _ D c0 Hc0)) as
      (s0 & R & d1 & d2 & ii & jj & sp & s1 & s2 & Sh & T1 & T2 & PA & N & RR & SP & DP & IL & OL & NE).
    rewrite N in Hq. cbn [to_particle] in Hq. subst R. destruct Sh as [-> | ->]; reflexivity.
  Qed.
  Lemma relabelled_ids k : In k [1; 2; 3] -> (In (p k) (get_subsystem_ids (b_decay b')) <-> In k (get_subsystem_ids (b_decay b))).
  Proof.
    intros Hk. rewrite !get_subsystem_ids_In. split.
    - intros (c' & Hc & E). apply (Permutation_in _ (proj2 RD)) in Hc. apply in_map_iff in Hc. destruct Hc as (c & <- & Hc).
      exists c. split; [exact Hc|]. destruct (T_chain c Hc) as (_ & S). rewrite S in E. cbn in E.
      assert (I : In (st_index (ch_spectator c)) [1; 2; 3]).
      { apply (ids_range b s D). apply get_subsystem_ids_In. exists c. split; [exact Hc|reflexivity]. }
      apply (relabelling_inj p _ _ P) in E; [exact E|right; exact I|right; exact Hk].
    - intros (c & Hc & E). exists (T c). split.
      + apply (Permutation_in _ (Permutation_sym (proj2 RD))). apply in_map. exact Hc.
      + destruct (T_chain c Hc) as (_ & S). rewrite S. cbn. f_equal. exact E.
  Qed.

  Lemma filter_map_comm {A B} (f : A -> B) (q : B -> bool) l : filter q (map f l) = map f (filter (fun x => q (f x)) l).
  Proof. induction l as [|x l IH]; [reflexivity|]. cbn [map filter]. destruct (q (f x)); cbn [map]; rewrite IH; reflexivity. Qed.
  Lemma Permutation_filter {A} (q : A -> bool) l l' : Permutation l l' -> Permutation (filter q l) (filter q l').
  Proof.
    induction 1; cbn [filter].
    - constructor.
    - destruct (q x); [constructor|]; assumption.
    - destruct (q x), (q y); try (apply Permutation_refl); apply perm_swap.
    - eapply Permutation_trans; eassumption.
  Qed.

  Lemma kin_env : let env := fun x => Re (base x) in let env' := fun x => Re (base' x) in
    env' (Sym "m0" ANonneg) = env (Sym "m0" ANonneg) /\
    forall i, In i [1; 2; 3] ->
      env' (Sym ("m" ++ str_of_Z (p i))%string ANonneg) = env (Sym ("m" ++ str_of_Z i)%string ANonneg) /\
      env' (Sym ("sigma" ++ str_of_Z (p i))%string ANonneg) = env (Sym ("sigma" ++ str_of_Z i)%string ANonneg).
  Proof. cbv zeta. destruct RP as [A B]. rewrite A. split; [reflexivity|]. intros i Hi. destruct (B i Hi) as [-> ->]. split; reflexivity. Qed.

  Let ev := at_point (m_variables m) base cpl.
  Let ev' := at_point (m_variables m') base' cpl'.

  Lemma dynamics_kept c : In c (d_chains (b_decay b)) ->
    ceval ev' (fun _ => 0) (de_expr (dyn' (T c))) = ceval ev (fun _ => 0) (de_expr (dyn c)).
  Proof.
    intros Hc.
    assert (Hc' : In (T c) (d_chains (b_decay b'))).
    { apply (Permutation_in _ (Permutation_sym (proj2 RD))). apply in_map. exact Hc. }
    destruct (Y c Hc) as [_ L]. destruct (Y' _ Hc') as [_ L'].
    transitivity (ceval (Env base' cpl') (fun _ => 0) (de_expr (dyn' (T c)))); [|transitivity (ceval (Env base cpl) (fun _ => 0) (de_expr (dyn c)))].
    - apply lineshape_eval; [exact L'|]. intros x Hx _. unfold ev', at_point. cbn [e_sym].
      replace (dget x (m_variables m')) with (@None rexpr); [reflexivity|]. symmetry. apply dget_None. intros I. apply Hx.
      apply (variables_real b' s' D' _ _ _ _ F' x I).
    - apply DV. exact Hc.
    - apply lineshape_eval; [exact L|]. intros x Hx _. unfold ev, at_point. cbn [e_sym].
      replace (dget x (m_variables m)) with (@None rexpr); [reflexivity|]. symmetry. apply dget_None. intros I. apply Hx.
      apply (variables_real b s D _ _ _ _ F x I).
  Qed.

  Lemma cyclic_label i j k : cyclic i j k -> if flip then cyclic (p j) (p i) (p k) else cyclic (p i) (p j) (p k).
  Proof.
    intros C. destruct flip; unfold exchanges, keeps_order, cyclic in *; cbn [In] in *;
      destruct C as [C|[C|[C|[]]]]; apply pair_equal_spec in C; destruct C as [C C3]; apply pair_equal_spec in C; destruct C as [C1 C2];
      rewrite <- C1, <- C2, <- C3; destruct O as [K|[K|[K|[]]]]; apply pair_equal_spec in K; destruct K as [K K3];
      apply pair_equal_spec in K; destruct K as [K1 K2]; rewrite <- K1, <- K2, <- K3; auto.
  Qed.

  Lemma theta_relabelled i j k l l' : cyclic i j k -> helicity_tuple s l -> relabelled_helicities p l l' -> In k (get_subsystem_ids (b_decay b)) ->
    Re (e_sym ev' (if flip then theta_name (p j) (p i) else theta_name (p i) (p j)))
    = if flip then (PI - Re (e_sym ev (theta_name i j)))%R else Re (e_sym ev (theta_name i j)).
  Proof.
    intros C Hl Hl' Hk.
    assert (T' : helicity_tuple s' l') by (apply (tuple_relabelled p s s' P (proj1 RD) l l' Hl'); exact Hl).
    destruct (amplitude_formula b s D dyn _ _ _ _ Y PR F l i j k Hl C (or_intror Hk)) as (_ & (t1 & T1 & G1) & _).
    assert (Hk' : In (p k) (get_subsystem_ids (b_decay b'))).
    { apply relabelled_ids; [apply (ids_range b s D); exact Hk|exact Hk]. }
    pose proof (cyclic_label i j k C) as C'.
    destruct kin_env as [K0 KM].
    unfold ev, ev', at_point. cbn [e_sym]. rewrite G1. cbn [Re fst RtoC].
    destruct flip.
    - destruct (amplitude_formula b' s' D' dyn' _ _ _ _ Y' relabelled_plain F' l' (p j) (p i) (p k) T' C' (or_intror Hk')) as (_ & (t2 & T2 & G2) & _).
      rewrite G2. cbn [Re fst RtoC].
      pose proof (theta_exchanged p (fun x => Re (base x)) (fun x => Re (base' x)) P K0 KM i j k O C (proj1 (Ph eq_refl)) (proj2 (Ph eq_refl))) as Q.
      rewrite T1, T2 in Q. exact Q.
    - destruct (amplitude_formula b' s' D' dyn' _ _ _ _ Y' relabelled_plain F' l' (p i) (p j) (p k) T' C' (or_intror Hk')) as (_ & (t2 & T2 & G2) & _).
      rewrite G2. cbn [Re fst RtoC].
      pose proof (theta_kept p (fun x => Re (base x)) (fun x => Re (base' x)) P K0 KM i j k O C) as Q.
      rewrite T1, T2 in Q. exact Q.
  Qed.

  Lemma factors_relabelled c h l l' k : In c (d_chains (b_decay b)) -> relabelled_helicities p l l' -> ch_spectator c = s k -> In k [1; 2; 3] ->
    (prod_factor (b_prod_helicity b) (T c) h (at4 l' (p k)) * dec_factor (b_dec_helicity b) (T c) (at4 l')
     = tau c * (prod_factor (b_prod_helicity b) c h (at4 l k) * dec_factor (b_dec_helicity b) c (at4 l)))%R.
  Proof.
    intros Hc Hl Hk Ik. pose proof (relabel_two_nodes p c (valid_two_nodes c (std_valid _ _ D c Hc))) as V.
    unfold T. rewrite reorder_prod, reorder_dec by exact V.
    assert (X : prod_factor (b_prod_helicity b) (relabel p c) h (at4 l' (p k)) = prod_factor (b_prod_helicity b) c h (at4 l k) /\
      dec_factor (b_dec_helicity b) (relabel p c) (at4 l') = dec_factor (b_dec_helicity b) c (at4 l)).
    2:{ destruct X as [-> ->]. unfold tau, order_sign. ring. }
    destruct (relabel_chain p c (std_valid _ _ D c Hc)) as (E1 & E2 & E3 & E4 & E5 & E6 & E7).
    unfold prod_factor, dec_factor. rewrite E1, E2, E3, E4, E5, E6, E7. cbn [relabel_state st_particle st_index].
    rewrite (Hl k) by (right; exact Ik). split; [reflexivity|].
    destruct (b_dec_helicity b); [reflexivity|]. destruct (ch_outgoing_ls c); [|reflexivity].
    destruct (cyclic_ex k Ik) as (i & j & C). destruct (cyclic_in _ _ _ C) as (Ii & Ij & _).
    destruct (ch_decay_products c) as [s1 s2] eqn:Q. cbn [fst snd].
    destruct (std_products _ _ D k i j c Hc Hk C) as [X|X]; rewrite Q in X; apply pair_equal_spec in X; destruct X as [-> ->];
      rewrite !(sd_index _ _ D) by (right; assumption); rewrite (Hl i), (Hl j) by (right; assumption); reflexivity.
  Qed.

  Lemma exchange_identity j0 ji jj jk jR l0 li lj lk h :
    l0 = h - lk -> Z.even (j0 - l0) = true -> Z.even (ji - li) = true -> Z.even (jj - lj) = true -> Z.even (jk - lk) = true -> Z.even (jR - h) = true ->
    (parity_sign (jk - lk) * parity_sign (ji - li) * parity_sign (jR + h) * parity_sign (j0 + jR + jk)
     = parity_sign (j0 - l0) * parity_sign (ji - li) * parity_sign (jj - lj) * parity_sign (jk - lk)
       * (parity_sign (jk - lk) * parity_sign (jj - lj)))%R.
  Proof.
    intros E0 X0 Xi Xj Xk XR.
    assert (Q : (parity_sign (jR + h) * parity_sign (j0 + jR + jk) = parity_sign (j0 - l0) * parity_sign (jk - lk))%R).
    { apply even_half in X0, Xk, XR. destruct X0 as [a A], Xk as [c C], XR as [f Ef].
      rewrite <- (parity_sign_add (jR + h)), <- (parity_sign_add (j0 - l0)) by (apply Z.even_spec; first [exists a; lia|exists (f + h); lia]).
      apply (parity_sign_4 _ _ (f + h)). lia. }
    transitivity (parity_sign (jk - lk) * parity_sign (ji - li) * (parity_sign (jR + h) * parity_sign (j0 + jR + jk)))%R; [ring|]. rewrite Q.
    transitivity (parity_sign (j0 - l0) * parity_sign (ji - li) * parity_sign (jk - lk) * parity_sign (jk - lk) * 1)%R; [ring|].
    rewrite <- (parity_sign_sq (jj - lj)). ring.
  Qed.
  Lemma orientation_split l i j k : cyclic i j k -> orientation_sign s l =
    (parity_sign (p_spin (s 0%Z) - at4 l 0) * parity_sign (p_spin (s i) - at4 l i)
       * parity_sign (p_spin (s j) - at4 l j) * parity_sign (p_spin (s k) - at4 l k))%R.
  Proof.
    intros C. unfold orientation_sign. destruct C as [C|[C|[C|[]]]]; apply pair_equal_spec in C; destruct C as [C C3];
      apply pair_equal_spec in C; destruct C as [C1 C2]; rewrite <- C1, <- C2, <- C3; ring.
  Qed.

  Lemma amplitude_relabelled k l l' : In k [1; 2; 3] -> helicity_tuple s l -> relabelled_helicities p l l' ->
    amp_value ev' m' (p k) l' = (RtoC (e * sgn l) * amp_value ev m k l)%C.
  Proof.
    intros Hk Hl Hl'. destruct (cyclic_ex k Hk) as (i & j & C). destruct (cyclic_in _ _ _ C) as (Ii & Ij & _).
    assert (T' : helicity_tuple s' l') by (apply (tuple_relabelled p s s' P (proj1 RD) l l' Hl'); exact Hl).
    rewrite (amplitude_total b s dyn ref cl uc m D Y PR F l i j k ev Hl C).
    destruct (in_dec Z.eq_dec k (get_subsystem_ids (b_decay b))) as [IK|NK].
    2:{ pose proof (cyclic_label i j k C) as C'.
        assert (NK' : ~ In (p k) (get_subsystem_ids (b_decay b'))) by (rewrite relabelled_ids by exact Hk; exact NK).
        transitivity (RtoC 0).
        - destruct flip.
          + rewrite (amplitude_total b' s' dyn' ref' cl' uc m' D' Y' relabelled_plain F' l' _ _ _ ev' T' C').
            unfold dpd_amplitude. rewrite (no_subsystem _ _ NK'). reflexivity.
          + rewrite (amplitude_total b' s' dyn' ref' cl' uc m' D' Y' relabelled_plain F' l' _ _ _ ev' T' C').
            unfold dpd_amplitude. rewrite (no_subsystem _ _ NK'). reflexivity.
        - unfold dpd_amplitude. rewrite (no_subsystem _ _ NK). cbn [Csum]. ring. }
    assert (TH := theta_relabelled i j k l l' C Hl Hl' IK).
    set (i' := if flip then p j else p i). set (j' := if flip then p i else p j).
    assert (C' : cyclic i' j' (p k)) by (pose proof (cyclic_label i j k C) as Q; unfold i', j'; destruct flip; exact Q).
    rewrite (amplitude_total b' s' dyn' ref' cl' uc m' D' Y' relabelled_plain F' l' i' j' (p k) ev' T' C').
    assert (TH' : Re (e_sym ev' (theta_name i' j')) = if flip then (PI - Re (e_sym ev (theta_name i j)))%R else Re (e_sym ev (theta_name i j))).
    { rewrite <- TH. unfold i', j'. destruct flip; reflexivity. }
    rewrite TH'. clear TH TH'. unfold dpd_amplitude. rewrite HP, HD.
    rewrite (Csum_perm _ _ _ (Permutation_filter _ _ _ (proj2 RD))), filter_map_comm, Csum_map, <- Csum_scal_l, !Csum_filter.
    apply Csum_ext. intros c Hc.
    assert (I : In (st_index (ch_spectator c)) [1; 2; 3]).
    { apply (ids_range b s D). apply get_subsystem_ids_In. exists c. split; [exact Hc|reflexivity]. }
    destruct (T_chain c Hc) as (E2 & E3).
    rewrite E3. cbn [relabel_state st_index].
    destruct (Z.eqb_spec (st_index (ch_spectator c)) k) as [Ek|Nk].
    2:{ destruct (Z.eqb_spec (p (st_index (ch_spectator c))) (p k)) as [Q|_]; [|ring].
        exfalso. apply Nk. apply (relabelling_inj p _ _ P); [right; exact I|right; exact Hk|exact Q]. }
    rewrite Ek, Z.eqb_refl.
    assert (Esp : ch_spectator c = s k).
    { destruct (subsystem_chains _ _ D k c) as (_ & Q & _); [|exact Q]. apply filter_In. split; [exact Hc|]. apply Z.eqb_eq. exact Ek. }
    rewrite E2, <- Csum_scal_l. apply Csum_ext. intros h Hh.
    rewrite (factors_relabelled c h l l' k Hc Hl' Esp Hk).
    assert (QT : (RtoC (tau c) * RtoC (tau c))%C = RtoC 1).
    { rewrite <- RtoC_mult. f_equal. apply order_sign_sq. }
    rewrite (dynamics_kept c Hc).
    assert (L0 : at4 l' 0 = at4 l 0).
    { rewrite <- (Hl' 0 (or_introl eq_refl)). destruct P as [-> _]. reflexivity. }
    rewrite L0, (Hl' k (or_intror Hk)).
    destruct (Z.eqb_spec (at4 l 0) (h - at4 l k)) as [Eh|_]; [|ring].
    assert (Sk : p_spin (s' (p k)) = p_spin (s k)) by (apply spin_eq; right; exact Hk). rewrite Sk.
    assert (Si : p_spin (s' (p i)) = p_spin (s i)) by (apply spin_eq; right; exact Ii).
    assert (Sj : p_spin (s' (p j)) = p_spin (s j)) by (apply spin_eq; right; exact Ij).
    assert (Li : at4 l' (p i) = at4 l i) by (apply Hl'; right; exact Ii).
    assert (Lj : at4 l' (p j) = at4 l j) by (apply Hl'; right; exact Ij).
    assert (CV' := CV c h l i j k Hc Esp C Hl).
    assert (CE : forall c0 h0 a1 a2 a3, (if uc then coefficient else coupling_product) ev' (b_prod_helicity b) (b_dec_helicity b) c0 h0 a1 a2 a3
        = (if uc then coefficient else coupling_product) (Env base' cpl') (b_prod_helicity b) (b_dec_helicity b) c0 h0 a1 a2 a3) by (intros; destruct uc; reflexivity).
    assert (CE0 : forall c0 h0 a1 a2 a3, (if uc then coefficient else coupling_product) ev (b_prod_helicity b) (b_dec_helicity b) c0 h0 a1 a2 a3
        = (if uc then coefficient else coupling_product) (Env base cpl) (b_prod_helicity b) (b_dec_helicity b) c0 h0 a1 a2 a3) by (intros; destruct uc; reflexivity).
    rewrite CE, CE0. unfold i', j', sgn. clear i' j' C' CE CE0.
    set (X := ceval ev (fun _ => 0) (de_expr (dyn c))). set (fp := prod_factor _ _ _ _). set (fd := dec_factor _ _ _).
    destruct flip.
    - rewrite Si, Li, Lj, CV'. replace (at4 l j - at4 l i) with (- (at4 l i - at4 l j)) by lia. rewrite wigner_d_pi_minus.
      rewrite (orientation_split l i j k C). unfold exchange_sign. rewrite Esp, (std_parent _ _ D c Hc).
      pose proof (exchange_identity (p_spin (s 0)) (p_spin (s i)) (p_spin (s j)) (p_spin (s k)) (p_spin (ch_resonance c))
        (at4 l 0) (at4 l i) (at4 l j) (at4 l k) h Eh (helicity_even s l 0 Hl ltac:(cbn; auto)) (helicity_even s l i Hl (or_intror Ii))
        (helicity_even s l j Hl (or_intror Ij)) (helicity_even s l k Hl (or_intror Hk))) as SI.
      assert (Er : Z.even (p_spin (ch_resonance c) - h) = true).
      { rewrite helicities_range, spin_range2_In in Hh. apply Hh. }
      specialize (SI Er). set (w := wigner_d _ _ _ _). set (t := (if uc then coefficient else coupling_product) _ _ _ _ _ _ _ _).
      transitivity (RtoC e * RtoC (parity_sign (p_spin (s k) - at4 l k) * parity_sign (p_spin (s i) - at4 l i) * parity_sign (p_spin (ch_resonance c) + h)
         * parity_sign (p_spin (s 0%Z) + p_spin (ch_resonance c) + p_spin (s k))) * (X * RtoC w * t * RtoC (fp * fd)))%C;
        [|rewrite SI, !RtoC_mult; ring].
      rewrite !RtoC_mult. match goal with |- _ = ?rhs => transitivity ((RtoC (tau c) * RtoC (tau c)) * rhs)%C; [ring|] end.
      rewrite QT. ring.
    - rewrite Sj, Li, Lj, CV', !RtoC_mult.
      match goal with |- _ = ?rhs => transitivity ((RtoC (tau c) * RtoC (tau c)) * rhs)%C; [ring|] end.
      rewrite QT. ring.
  Qed.

  Lemma sgn_unit l : (sgn l = 1 \/ sgn l = -1)%R.
  Proof.
    unfold sgn. destruct flip; [|left; reflexivity]. unfold orientation_sign, parity_sign.
    repeat match goal with |- context [if ?x then _ else _] => destruct x end; (left; ring) || (right; ring).
  Qed.

  Lemma align_relabelled k l1 l2 l1' l2' : In k (get_subsystem_ids (b_decay b)) -> helicity_tuple s l1 -> helicity_tuple s l2 ->
    relabelled_helicities p l1 l1' -> relabelled_helicities p l2 l2' ->
    alignment s' (fun i => Re (e_sym ev' (zeta_symbol i (p k) (p r)))) l1' l2'
    = (sgn l1 * sgn l2 * alignment s (fun i => Re (e_sym ev (zeta_symbol i k r))) l1 l2)%R.
  Proof.
    intros Hk H1 H2 G1 G2.
    assert (Ik : In k [1; 2; 3]) by (apply (ids_range b s D); exact Hk).
    assert (Hk' : In (p k) (get_subsystem_ids (b_decay b'))) by (apply relabelled_ids; assumption).
    destruct kin_env as [K0 KM].
    assert (W : forall i x y, In i [0; 1; 2; 3] -> Z.even (p_spin (s i) - x) = true -> Z.even (p_spin (s i) - y) = true ->
      wigner_d (p_spin (s' (p i))) x y (Re (e_sym ev' (zeta_symbol (p i) (p k) (p r))))
      = ((if flip then parity_sign (p_spin (s i) - x) * parity_sign (p_spin (s i) - y) else 1)
         * wigner_d (p_spin (s i)) x y (Re (e_sym ev (zeta_symbol i k r))))%R).
    { intros i x y Hi Ex Ey. rewrite spin_eq by exact Hi.
      assert (Ip : In (p i) [0; 1; 2; 3]).
      { apply In_0123 in Hi. destruct P as [P0 PP]. destruct Hi as [->|Hi]; [rewrite P0; left; reflexivity|]. right.
        apply (Permutation_in _ PP). destruct Hi as [->|[->| ->]]; cbn; auto. }
      assert (PS : (parity_sign (p_spin (s i) - x) * parity_sign (p_spin (s i) - y))%R = parity_sign (x - y)).
      { rewrite <- parity_sign_add by exact Ex. apply even_half in Ex, Ey. destruct Ex as [a A], Ey as [c B].
        apply (parity_sign_4 _ _ a). lia. }
      destruct (Z.eq_dec (p_spin (s i)) 0) as [Z0|NZ].
      - destruct flip; [|rewrite Rmult_1_l; apply spin0_any; exact Z0].
        rewrite (spin0_any _ _ _ _ (- Re (e_sym ev (zeta_symbol i k r)))%R Z0). rewrite wigner_d_neg, PS. reflexivity.
      - destruct (zeta_at_point b s D ref cl uc m r base cpl F R1 i k Hi Hk NZ) as [ZI Z1].
        assert (NZ' : p_spin (s' (p i)) <> 0) by (rewrite spin_eq by exact Hi; exact NZ).
        destruct (zeta_at_point b' s' D' ref' cl' uc m' (p r) base' cpl' F' R2 (p i) (p k) Ip Hk' NZ') as [_ Z2].
        change (at_point (m_variables m) base cpl) with ev in Z1. change (at_point (m_variables m') base' cpl') with ev' in Z2.
        rewrite Z1, Z2. destruct flip.
        + unfold kin. rewrite (zeta_exchanged p (fun x => Re (base x)) (fun x => Re (base' x)) P K0 KM i k r O ZI), wigner_d_neg, PS. reflexivity.
        + unfold kin. rewrite (zeta_kept p (fun x => Re (base x)) (fun x => Re (base' x)) P K0 KM i k r O ZI), Rmult_1_l. reflexivity. }
    unfold alignment.
    set (f := fun i => wigner_d (p_spin (s' i)) (at4 l2' i) (at4 l1' i) (Re (e_sym ev' (zeta_symbol i (p k) (p r))))).
    transitivity (wigner_d (p_spin (s' (p 0))) (at4 l1' (p 0)) (at4 l2' (p 0)) (Re (e_sym ev' (zeta_symbol (p 0%Z) (p k) (p r)))) * (f (p 1%Z) * f (p 2%Z) * f (p 3%Z)))%R.
    { rewrite (prod3 p f P). destruct P as [-> _]. unfold f. ring. }
    pose proof (helicity_even s l1) as V1. pose proof (helicity_even s l2) as V2.
    unfold f. rewrite (G1 0), (G2 0), (G1 1), (G2 1), (G1 2), (G2 2), (G1 3), (G2 3) by (cbn [In]; auto).
    rewrite !W by first [solve [cbn [In]; auto]|solve [apply V1; [exact H1|cbn [In]; auto]]|solve [apply V2; [exact H2|cbn [In]; auto]]].
    unfold sgn. destruct flip; [unfold orientation_sign|]; ring.
  Qed.

  Lemma relabelled_models :
    (forall k l l', In k [1; 2; 3] -> helicity_tuple s l -> relabelled_helicities p l l' ->
       amp_value ev' m' (p k) l' = (RtoC (e * sgn l) * amp_value ev m k l)%C) /\
    full_value ev' m' = full_value ev m.
  Proof.
    split; [exact amplitude_relabelled|].
    destruct (intensity_formula b s D ref cl uc m F) as (r1 & ks1 & E1 & S1 & V1).
    destruct (intensity_formula b' s' D' ref' cl' uc m' F') as (r2 & ks2 & E2 & S2 & V2).
    rewrite V1, V2. assert (Q1 : r1 = r) by congruence. assert (Q2 : r2 = p r) by congruence. rewrite Q1, Q2. clear Q1 Q2 E1 E2. f_equal.
    assert (I1 : forall k, In k ks1 <-> In k (get_subsystem_ids (b_decay b))) by (intros; apply ids_123; exact S1).
    assert (I2 : forall k, In k ks2 <-> In k (get_subsystem_ids (b_decay b'))) by (intros; apply ids_123; exact S2).
    assert (N : forall d ks, sorted (get_subsystem_ids d) = Ok ks -> NoDup ks).
    { intros d ks X. destruct (sorted_Z (get_subsystem_ids d)) as (ks' & X' & Pm). assert (Q : ks' = ks) by congruence. rewrite <- Q.
      eapply Permutation_NoDup; [exact Pm|]. apply to_set_NoDup. }
    assert (J : forall k, In k ks1 -> In k [1; 2; 3]) by (intros k Hk; apply (ids_range b s D), I1; exact Hk).
    apply (intensity_relabelled p s s' P (proj1 RD) ks1 ks2 _ _ _ _ sgn e).
    - apply NoDup_Permutation; [apply (N _ _ S2)| |].
      + apply map_NoDup_in; [|apply (N _ _ S1)]. intros x y Hx Hy Q. apply (relabelling_inj p x y P); [right; auto|right; auto|exact Q].
      + intros k. rewrite in_map_iff. split.
        * intros Hk. assert (K : In k [1; 2; 3]) by (apply (ids_range b' s' D'), I2; exact Hk).
          destruct (unlabel_ok p k P K) as [U1 U2]. exists (unlabel p k). split; [exact U2|].
          apply I1. apply relabelled_ids; [exact U1|]. rewrite U2. apply I2. exact Hk.
        * intros (x & <- & Hx). apply I2. apply relabelled_ids; [apply J; exact Hx|apply I1; exact Hx].
    - exact sgn_unit.
    - exact Ee.
    - intros k l l' Hk. apply amplitude_relabelled. apply J. exact Hk.
    - intros k l1 l2 l1' l2' Hk. apply align_relabelled. apply I1. exact Hk.
  Qed.
End Models.

(** the couplings of a relabelled chain *)
Lemma coupling_relabelled (uc : bool) base base' cpl ph dh p c h lk li lj : valid_chain c ->
  (if uc then coefficient else coupling_product) (Env base' cpl) ph dh (relabel p c) h lk li lj
  = (if uc then coefficient else coupling_product) (Env base cpl) ph dh c h lk li lj.
Proof.
  intros V. destruct (relabel_chain p c V) as (_ & E2 & _ & _ & E5 & E6 & _).
  destruct uc; unfold coefficient, coupling_product; rewrite E2, E5, E6; reflexivity.
Qed.

(** the sign of the unchanged order *)
Lemma no_order_sign ph dh c : order_sign ph dh (fun _ => false) (fun _ => false) c = 1%R.
Proof. unfold order_sign. cbn [andb]. ring. Qed.

Lemma c86 b b' p s s' dyn dyn' uc ref cl m ref' cl' m' r base base' cpl :
  std_decay (b_decay b) s -> std_decay (b_decay b') s' -> dynamics_of b dyn -> dynamics_of b' dyn' ->
  (b_prod_helicity b = false -> plain_resonances (b_decay b)) ->
  b_prod_helicity b' = b_prod_helicity b -> b_dec_helicity b' = b_dec_helicity b ->
  formulate b ref cl uc = Ok m -> formulate b' ref' cl' uc = Ok m' ->
  resolve_reference (b_decay b) ref = Ok r -> resolve_reference (b_decay b') ref' = Ok (p r) ->
  relabelling p -> keeps_order p -> relabelled_decay p (b_decay b) s (b_decay b') s' -> relabelled_point p base base' ->
  (forall c, In c (d_chains (b_decay b)) ->
    ceval (Env base' cpl) (fun _ => 0) (de_expr (dyn' (relabel p c))) = ceval (Env base cpl) (fun _ => 0) (de_expr (dyn c))) ->
  (forall k l l', In k [1; 2; 3] -> helicity_tuple s l -> relabelled_helicities p l l' ->
     amp_value (at_point (m_variables m') base' cpl) m' (p k) l' = amp_value (at_point (m_variables m) base cpl) m k l) /\
  full_value (at_point (m_variables m') base' cpl) m' = full_value (at_point (m_variables m) base cpl) m.
Proof.
  intros D D' Y Y' PR HP HD F F' R1 R2 P O RD RP DV.
  destruct (relabelled_models b b' p s s' dyn dyn' uc false ref ref' cl cl' m m' r base base' cpl cpl 1%R (fun _ => false) (fun _ => false)
    D D' Y Y' PR HP HD F F' R1 R2 P O RD RP ltac:(discriminate) DV ltac:(left; reflexivity)) as [A I].
  { intros c h l i j k Hc _ _ _. change (reorder (fun _ => false) (fun _ => false) (relabel p c)) with (relabel p c).
    rewrite (coupling_relabelled uc base) by (apply (std_valid _ _ D); exact Hc).
    rewrite no_order_sign, !Rmult_1_l, Cmult_1_l. reflexivity. }
  split; [|exact I]. intros k l l' Hk Hl Hl'. rewrite (A k l l' Hk Hl Hl'), Rmult_1_l, Cmult_1_l. reflexivity.
Qed.

Lemma c87 b b' p s s' dyn dyn' uc ref cl m ref' cl' m' r base base' cpl cpl' e :
  std_decay (b_decay b) s -> std_decay (b_decay b') s' -> dynamics_of b dyn -> dynamics_of b' dyn' ->
  (b_prod_helicity b = false -> plain_resonances (b_decay b)) ->
  b_prod_helicity b' = b_prod_helicity b -> b_dec_helicity b' = b_dec_helicity b ->
  formulate b ref cl uc = Ok m -> formulate b' ref' cl' uc = Ok m' ->
  resolve_reference (b_decay b) ref = Ok r -> resolve_reference (b_decay b') ref' = Ok (p r) ->
  relabelling p -> exchanges p -> relabelled_decay p (b_decay b) s (b_decay b') s' -> relabelled_point p base base' ->
  physical (fun x => Re (base x)) -> nonsingular (fun x => Re (base x)) ->
  (forall c, In c (d_chains (b_decay b)) ->
    ceval (Env base' cpl') (fun _ => 0) (de_expr (dyn' (relabel p c))) = ceval (Env base cpl) (fun _ => 0) (de_expr (dyn c))) ->
  (e = 1 \/ e = -1)%R ->
  (forall c h l i j k, In c (d_chains (b_decay b)) -> ch_spectator c = s k -> cyclic i j k -> helicity_tuple s l ->
    (if uc then coefficient else coupling_product) (Env base' cpl') (b_prod_helicity b) (b_dec_helicity b)
      (relabel p c) h (at4 l k) (at4 l j) (at4 l i)
    = (RtoC (e * exchange_sign c) *
       (if uc then coefficient else coupling_product) (Env base cpl) (b_prod_helicity b) (b_dec_helicity b)
         c h (at4 l k) (at4 l i) (at4 l j))%C) ->
  (forall k l l', In k [1; 2; 3] -> helicity_tuple s l -> relabelled_helicities p l l' ->
     amp_value (at_point (m_variables m') base' cpl') m' (p k) l'
     = (RtoC (e * orientation_sign s l) * amp_value (at_point (m_variables m) base cpl) m k l)%C) /\
  full_value (at_point (m_variables m') base' cpl') m' = full_value (at_point (m_variables m) base cpl) m.
Proof.
  intros D D' Y Y' PR HP HD F F' R1 R2 P O RD RP Ph NS DV Ee CV.
  apply (relabelled_models b b' p s s' dyn dyn' uc true ref ref' cl cl' m m' r base base' cpl cpl' e (fun _ => false) (fun _ => false)
    D D' Y Y' PR HP HD F F' R1 R2 P O RD RP (fun _ => conj Ph NS) DV Ee).
  intros c h l i j k Hc Sk Cy Hl. rewrite no_order_sign, Rmult_1_r. exact (CV c h l i j k Hc Sk Cy Hl).
Qed.

Lemma c88 b p s dyn uc ref cl m r base base' cpl e :
  std_decay (b_decay b) s -> dynamics_of b dyn ->
  (b_prod_helicity b = false -> plain_resonances (b_decay b)) ->
  formulate b ref cl uc = Ok m -> resolve_reference (b_decay b) ref = Ok r -> p r = r ->
  relabelling p -> exchanges p -> relabelled_decay p (b_decay b) s (b_decay b) s -> relabelled_point p base base' ->
  physical (fun x => Re (base x)) -> nonsingular (fun x => Re (base x)) ->
  (forall c, In c (d_chains (b_decay b)) ->
    ceval (Env base' cpl) (fun _ => 0) (de_expr (dyn (relabel p c))) = ceval (Env base cpl) (fun _ => 0) (de_expr (dyn c))) ->
  (b_dec_helicity b = false \/ forall i, In i [1; 2; 3] -> p_spin (s i) = 0) ->
  (forall c, In c (d_chains (b_decay b)) -> exchange_sign c = e) ->
  (forall k l l', In k [1; 2; 3] -> helicity_tuple s l -> relabelled_helicities p l l' ->
     amp_value (at_point (m_variables m) base' cpl) m (p k) l'
     = (RtoC (e * orientation_sign s l) * amp_value (at_point (m_variables m) base cpl) m k l)%C) /\
  full_value (at_point (m_variables m) base' cpl) m = full_value (at_point (m_variables m) base cpl) m.
Proof.
  intros D Y PR F R1 Er P O RD RP Ph NS DV S X.
  assert (EX : forall c, (exchange_sign c * exchange_sign c = 1)%R) by (intros c; apply parity_sign_sq).
  assert (CV : forall e', (forall c, In c (d_chains (b_decay b)) -> exchange_sign c = e') -> (e' = 1 \/ e' = -1)%R ->
    (forall k l l', In k [1; 2; 3] -> helicity_tuple s l -> relabelled_helicities p l l' ->
     amp_value (at_point (m_variables m) base' cpl) m (p k) l'
     = (RtoC (e' * orientation_sign s l) * amp_value (at_point (m_variables m) base cpl) m k l)%C) /\
    full_value (at_point (m_variables m) base' cpl) m = full_value (at_point (m_variables m) base cpl) m).
  { intros e' Xe Ee. apply (c87 b b p s s dyn dyn uc ref cl m ref cl m r base base' cpl cpl e' D D Y Y PR eq_refl eq_refl F F R1);
      try assumption; [rewrite Er; exact R1|].
    intros c h l i j k Hc _ C Hl. rewrite (coupling_relabelled uc base) by (apply (std_valid _ _ D); exact Hc).
    rewrite Xe by exact Hc. replace (e' * e')%R with 1%R by (destruct Ee as [-> | ->]; ring). rewrite Cmult_1_l.
    destruct (cyclic_in _ _ _ C) as (Ii & Ij & _).
    destruct S as [S|S].
    - rewrite S. destruct uc; unfold coefficient, coupling_product, coupling_index; reflexivity.
    - assert (Z0 : forall n, In n [1; 2; 3] -> at4 l n = 0).
      { intros n Hn. assert (T : In (at4 l n) (helicities (p_spin (s n)))).
        { destruct l as [[[l0 l1] l2] l3]. destruct Hl as (A0 & A1 & A2 & A3). destruct Hn as [<-|[<-|[<-|[]]]]; assumption. }
        rewrite (S n Hn) in T. destruct T as [<-|[]]. reflexivity. }
      rewrite (Z0 i Ii), (Z0 j Ij). reflexivity. }
  destruct (d_chains (b_decay b)) as [|c0 cs] eqn:Ec.
  { destruct (CV 1%R ltac:(intros c []) (or_introl eq_refl)) as [A I]. split; [|exact I].
    intros k l l' Hk Hl Hl'. rewrite (A k l l' Hk Hl Hl'). destruct (cyclic_ex k Hk) as (i & j & C).
    rewrite (amplitude_total b s dyn ref cl uc m D Y PR F l i j k _ Hl C). unfold dpd_amplitude. rewrite Ec. cbn [filter Csum]. ring. }
  apply CV; [exact X|]. assert (Q : (e * e = 1)%R) by (rewrite <- (X c0 (or_introl eq_refl)); apply EX).
  destruct (Rmult_integral (e - 1) (e + 1) ltac:(rewrite <- Rminus_diag_eq with (1 := Q); ring)) as [G|G]; [left|right]; lra.
Qed.
