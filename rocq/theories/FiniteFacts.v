(** Which numbers amplitudes and intensity divide by (proofs for C96) *)
From Coq Require Import String ZArith QArith Qcanon Qreals List Bool Reals Lia Lra Permutation.
From Coquelicot Require Import Complex.
From Verif Require Import Prelude Spin Decay Expr Angles Sums Wigner CG CExpr SpecKin SpecDPD Builder SpecBuilder Dynamics
  SpecDynamics SpinFacts DecayFacts AnglesFacts WignerFacts CExprFacts BuilderFacts ModelFacts OccFacts SpecFinite.
Import ListNotations.
Local Open Scope string_scope.
Local Open Scope Z_scope.
Local Open Scope list_scope.

Lemma pool_flat_In {A} (f : (symbol -> Z) -> list A) pools x : forall h, In x (pool_flat f pools h) -> exists h', In x (f h').
Proof.
  induction pools as [|[s vals] ps IH]; cbn [pool_flat]; intros h H; eauto.
  apply in_flat_map in H. destruct H as (v & _ & H). eauto.
Qed.

Section Closed.
  Variables (ev : env) (P : C -> Prop).
  Definition only (e : cexpr) : Prop := forall h x, In x (divisors ev h e) -> P x.

  Lemma only_mul a b : only a -> only b -> only (CMul a b).
  Proof. intros A B h x H. cbn [divisors] in H. apply in_app_or in H. destruct H; eauto. Qed.
  Lemma only_add a b : only a -> only b -> only (CAdd a b).
  Proof. intros A B h x H. cbn [divisors] in H. apply in_app_or in H. destruct H; eauto. Qed.
  Lemma only_sum e pools : only e -> only (CSum e pools).
  Proof. intros A h x H. cbn [divisors] in H. apply pool_flat_In in H. destruct H as [h' H]. eauto. Qed.
  Lemma only_abs2 e : only e -> only (CAbs2 e).
  Proof. intros A h x H. cbn [divisors] in H. eauto. Qed.
  Lemma only_addl l : (forall e, In e l -> only e) -> only (CAddL l).
  Proof.
    induction l as [|e l IH]; intros H; cbn [CAddL].
    - intros h x [].
    - apply only_add; [apply H; left; auto|]. apply IH. intros e' He'. apply H. right. auto.
  Qed.
  Lemma lineshape_divisors e h : lineshape e = true -> divisors ev h e = divisors ev (fun _ => 0) e.
  Proof.
    intros L. induction e; cbn [lineshape] in L; try discriminate; cbn [divisors]; auto;
    repeat match goal with H : _ && _ = true |- _ => apply andb_prop in H; destruct H end;
    rewrite ?(lineshape_eval ev ev (fun _ => 0) h e1), ?(lineshape_eval ev ev (fun _ => 0) h e2),
      ?(lineshape_eval ev ev (fun _ => 0) h e3), ?(lineshape_eval ev ev (fun _ => 0) h e4) by auto;
    repeat match goal with IH : lineshape ?e = true -> _, H : lineshape ?e = true |- _ => rewrite (IH H); clear IH end; reflexivity.
  Qed.
  Lemma only_lineshape e : lineshape e = true -> (forall x, In x (divisors ev (fun _ => 0) e) -> P x) -> only e.
  Proof.
    intros L H h x Hx. apply H. rewrite <- (lineshape_divisors e h L). exact Hx.
  Qed.
End Closed.

Lemma scaling_divisors ev h sc : divisors ev h (scaling_product sc) = [].
Proof. destruct sc as [[n l] [n' l']|[n l]]; reflexivity. Qed.
Lemma cg_divisors isobar hel e : formulate_clebsch_gordan_factors isobar hel = Ok e -> forall ev h, divisors ev h e = [].
Proof.
  destruct isobar as [o|p c1 c2 [ls|]]; cbn [formulate_clebsch_gordan_factors]; intros H; try discriminate.
  inv_bind H. inv_bind H. ok_inj H. subst e. reflexivity.
Qed.

Section Chains.
  Variables (b : builder) (dyn : chain -> defexpr) (uc : bool) (ev : env) (P : C -> Prop).
  Hypothesis (Dyn : dynamics_of b dyn).
  Variables (lam spin : Z -> Z) (i j k : Z) (theta : symbol).

  Lemma chain_term_only c params e params' : In c (d_chains (b_decay b)) ->
    (forall x, In x (divisors ev (fun _ => 0) (de_expr (dyn c))) -> P x) ->
    chain_term b c lam spin k i j theta uc params = Ok (e, params') -> only ev P e.
  Proof.
    intros Hc HP H. unfold chain_term in H. destruct (Dyn c Hc) as [(f & F & Fc) Ls].
    rewrite F in H. cbn [bind] in H. rewrite Fc in H. cbn [bind] in H.
    inv_bind H. inv_bind H. rename E into CD, E0 into SC. rename v0 into sc, v into params2.
    set (e0 := chain_amp c lam spin k i j theta (de_expr (dyn c)) sc) in H.
    assert (O0 : only ev P e0).
    { unfold e0, chain_amp. repeat apply only_mul; try (intros ? ? []).
      - apply only_lineshape; auto.
      - intros h x Hx. rewrite scaling_divisors in Hx. destruct Hx. }
    clearbody e0. inv_bind H. rename v into a, E into EA. inv_bind H. rename v into a2, E into EB. ok_inj H.
    assert (PA : only ev P a).
    { destruct (b_dec_helicity b).
      - ok_inj EA. subst a. auto.
      - inv_bind EA. inv_bind EA. inv_bind EA. ok_inj EA. subst a. apply only_mul; auto.
        intros h x Hx. erewrite cg_divisors in Hx by eauto. destruct Hx. }
    assert (PB : only ev P a2).
    { destruct (b_prod_helicity b).
      - ok_inj EB. subst a2. auto.
      - inv_bind EB. inv_bind EB. ok_inj EB. subst a2. apply only_mul; auto.
        intros h x Hx. erewrite cg_divisors in Hx by eauto. destruct Hx. }
    inversion H; subst. apply only_sum, PB.
  Qed.
  Lemma chain_term_all c params e params' x : In c (d_chains (b_decay b)) -> 0 <= p_spin (ch_resonance c) ->
    In x (divisors ev (fun _ => 0) (de_expr (dyn c))) ->
    chain_term b c lam spin k i j theta uc params = Ok (e, params') -> forall h, In x (divisors ev h e).
  Proof.
    intros Hc Sp HP H. unfold chain_term in H. destruct (Dyn c Hc) as [(f & F & Fc) Ls].
    rewrite F in H. cbn [bind] in H. rewrite Fc in H. cbn [bind] in H.
    inv_bind H. inv_bind H. rename E into CD, E0 into SC. rename v0 into sc, v into params2.
    set (e0 := chain_amp c lam spin k i j theta (de_expr (dyn c)) sc) in H.
    assert (O0 : forall h, In x (divisors ev h e0)).
    { intros h. unfold e0, chain_amp. cbn [divisors]. rewrite (lineshape_divisors ev _ h Ls), !in_app_iff. tauto. }
    clearbody e0. inv_bind H. rename v into a, E into EA. inv_bind H. rename v into a2, E into EB. ok_inj H.
    assert (PA : forall h, In x (divisors ev h a)).
    { destruct (b_dec_helicity b).
      - ok_inj EA. subst a. auto.
      - inv_bind EA. inv_bind EA. inv_bind EA. ok_inj EA. subst a. intros h. cbn [divisors]. apply in_or_app. auto. }
    assert (PB : forall h, In x (divisors ev h a2)).
    { destruct (b_prod_helicity b).
      - ok_inj EB. subst a2. auto.
      - inv_bind EB. inv_bind EB. ok_inj EB. subst a2. intros h. cbn [divisors]. apply in_or_app. auto. }
    inversion H; subst. intros h. cbn [divisors pool_flat]. apply in_flat_map.
    exists (p_spin (ch_resonance c)). split; [|auto]. rewrite <- helicities_range. apply helicities_nonempty, Sp.
  Qed.
  Lemma chain_terms_all cs c x : (forall c, In c cs -> In c (d_chains (b_decay b))) -> In c cs -> 0 <= p_spin (ch_resonance c) ->
    In x (divisors ev (fun _ => 0) (de_expr (dyn c))) -> forall params es params',
    chain_terms b lam spin k i j theta uc cs params = Ok (es, params') -> forall h, In x (divisors ev h (CAddL es)).
  Proof.
    induction cs as [|c' cs IH]; intros Sub Hc Sp HP params es params' H h; [destruct Hc|]. cbn [chain_terms] in H.
    inv_bind H. destruct v as [e p1]. inv_bind H. destruct v as [es' p2]. ok_inj H. inversion H; subst. clear H.
    cbn [CAddL divisors]. apply in_or_app. destruct Hc as [->|Hc].
    - left. eapply chain_term_all; eauto. apply Sub. left. auto.
    - right. eapply IH; eauto. intros c'' Hc''. apply Sub. right. exact Hc''.
  Qed.
  Lemma chain_terms_only cs : (forall c, In c cs -> In c (d_chains (b_decay b)) /\
      forall x, In x (divisors ev (fun _ => 0) (de_expr (dyn c))) -> P x) -> forall params es params',
    chain_terms b lam spin k i j theta uc cs params = Ok (es, params') -> only ev P (CAddL es).
  Proof.
    induction cs as [|c cs IH]; intros Sub params es params' H; cbn [chain_terms] in H.
    - ok_inj H. inversion H; subst. intros h x [].
    - inv_bind H. destruct v as [e p1]. inv_bind H. destruct v as [es' p2]. ok_inj H. inversion H; subst. clear H.
      cbn [CAddL]. destruct (Sub c (or_introl eq_refl)) as [S1 S2]. apply only_add.
      + eapply chain_term_only; eauto.
      + eapply IH; eauto. intros c' Hc'. apply Sub. right. exact Hc'.
  Qed.
End Chains.

(** Substitution of helicities keeps the absence of divisions *)
Fixpoint plain (e : cexpr) : bool :=
  match e with
  | CRat _ | CIm | CVar _ | CIdx _ _ | CDelta _ _ | CSign _ | CWigner _ _ _ _ | CCG _ _ _ _ _ _ => true
  | CAdd a b | CSub a b | CMul a b => plain a && plain b
  | CNeg a | CSqr a | CSqrt a | CExp a | CAbs2 a | CSum a _ => plain a
  | CDiv _ _ | CFormFactor _ _ _ _ _ | CBreakup _ _ _ => false
  end.
Lemma plain_divisors ev e : plain e = true -> forall h, divisors ev h e = [].
Proof.
  induction e; cbn [plain divisors]; intros H h; auto; try discriminate;
    repeat match goal with H : _ && _ = true |- _ => apply andb_prop in H; destruct H end;
    rewrite ?IHe1, ?IHe2 by auto; auto.
  assert (X : forall x, ~ In x (pool_flat (fun h => divisors ev h e) pools h)).
  { intros x Hx. apply pool_flat_In in Hx. destruct Hx as [h' Hx]. rewrite IHe in Hx by auto. destruct Hx. }
  destruct (pool_flat _ _ _) as [|x l]; auto. destruct (X x). left. auto.
Qed.
Lemma plain_csub s z e : plain (csub s z e) = plain e.
Proof.
  induction e; cbn [csub plain]; rewrite ?IHe1, ?IHe2; auto. destruct (memb _ _); cbn [plain]; auto.
Qed.
Lemma plain_cleanup e : plain e = true -> plain (cleanup e) = true.
Proof.
  intros H. destruct e; cbn [cleanup]; auto. cbn [plain] in H.
  assert (X : plain (fst (cleanup_pools e pools)) = true).
  { induction pools as [|[s vals] ps IH]; cbn [cleanup_pools]; auto.
    destruct (cleanup_pools e ps) as [e' ps']. destruct vals as [|z [|z' vals]]; cbn [fst] in *; auto.
    rewrite plain_csub. exact IH. }
  destruct (cleanup_pools e pools) as [e' [|p ps]]; exact X.
Qed.
Lemma plain_addl l : (forall e, In e l -> plain e = true) -> plain (CAddL l) = true.
Proof.
  induction l as [|e l IH]; intros H; cbn [CAddL plain]; auto. rewrite H by (left; auto). apply IH.
  intros e' He'. apply H. right. auto.
Qed.
Lemma wigner_plain r j a c i k defs e defs' : wigner_gen r j a c i k defs = Ok (e, defs') -> plain e = true.
Proof.
  unfold wigner_gen. intros H.
  repeat match type of H with context [if ?x then _ else _] => destruct x end;
  try (ok_inj H; inversion H; reflexivity).
  all: repeat (inv_bind H; repeat match goal with v : _ * _ |- _ => destruct v end; try (ok_inj H; inversion H; reflexivity)).
Qed.
Lemma aligned_terms_plain r j a c ks : forall defs es defs',
  aligned_terms r j a c ks defs = Ok (es, defs') -> forall e, In e es -> plain e = true.
Proof.
  induction ks as [|k ks IH]; intros defs es defs' H; cbn [aligned_terms] in H.
  - ok_inj H. inversion H; subst. intros e [].
  - inv_bind H. destruct v as [e1 d1]. inv_bind H. destruct v as [es1 d2]. ok_inj H. inversion H; subst. clear H.
    intros e [<-|He]; [|eapply IH; eauto]. unfold aligned_term in E.
    inv_bind E. inv_bind E. destruct v0 as [w0 q0]. inv_bind E. destruct v0 as [w1 q1]. inv_bind E. destruct v0 as [w2 q2].
    inv_bind E. destruct v0 as [w3 q3]. ok_inj E. inversion E; subst.
    cbn [plain]. repeat match goal with H : wigner_gen _ _ _ _ _ _ _ = Ok _ |- _ => apply wigner_plain in H; rewrite H; clear H end.
    reflexivity.
Qed.

Section Model.
  Variables (b : builder) (s : Z -> state) (dyn : chain -> defexpr) (uc : bool).
  Hypothesis (D : std_decay (b_decay b) s).
  Hypothesis (Dyn : dynamics_of b dyn).
  Variables (ref : option Z) (cl : bool) (m : model).
  Hypothesis (F : formulate b ref cl uc = Ok m).

  Theorem intensity_divisors ev h : divisors ev h (m_intensity m) = [].
  Proof.
    destruct (formulate_inv b s D ref cl uc m F)
      as (r0 & ks & terms & zdefs & amps & vars & params & masses & inv & _ & Hks & T & L & _ & _ & Em).
    rewrite Em. cbn [m_intensity]. apply plain_divisors. cbn [plain].
    assert (PA : plain (aligned_expr s terms) = true).
    { unfold aligned_expr. cbn [plain]. apply plain_addl. eapply aligned_terms_plain. exact T. }
    destruct cl; [apply plain_cleanup|]; exact PA.
  Qed.
  Theorem amplitude_divisors ev key e x : dget key (m_amplitudes m) = Some e ->
    In x (divisors ev (fun _ => 0) e) -> exists k c, fst key = amp_name k /\ In c (d_chains (b_decay b)) /\
      st_index (ch_spectator c) = k /\ In x (divisors ev (fun _ => 0) (de_expr (dyn c))).
  Proof.
    destruct (formulate_inv b s D ref cl uc m F)
      as (r0 & ks & terms & zdefs & amps & vars & params & masses & inv & _ & Hks & _ & L & _ & _ & Em).
    destruct (formulate_loop_facts b s D uc _ _ _ _ _ _ _ L) as (W & KA & _).
    set (ids := if b_all_subsystems b then [1; 2; 3] else ks) in *.
    rewrite Em. cbn [m_amplitudes]. intros G Hx. assert (K : In key (dkeys amps)) by (apply dget_In; eauto).
    apply KA in K. destruct K as [[]|(l & k & I & ->)].
    destruct (W l k I) as (m1 & F1 & G1 & _).
    destruct (subsystem_amplitude_inv b s D l k uc m1 F1) as (i & j & th & ts & ps & Cy & _ & T & A & _ & _).
    rewrite A in G1. specialize (G1 _ (CAddL ts) (dget_single _ _)). rewrite G1 in G. inversion G; subst e.
    pose proof (chain_terms_only b dyn uc ev (fun x => exists c, In c (chains_of b k) /\ In x (divisors ev (fun _ => 0) (de_expr (dyn c)))) Dyn
      _ _ i j k _ (chains_of b k) (fun c Hc => conj (chains_of_In b k c Hc) (fun x Hx => ex_intro _ c (conj Hc Hx))) _ _ _ T
      (fun _ => 0) x Hx) as (c & Hc & Hd).
    exists k, c. split; [reflexivity|]. split; [eapply chains_of_In; eauto|]. split; [|exact Hd].
    unfold chains_of in Hc. rewrite filter_In, Z.eqb_eq in Hc. apply Hc.
  Qed.
  Theorem lineshape_in_amplitude ev c x l : In c (d_chains (b_decay b)) -> 0 <= p_spin (ch_resonance c) ->
    helicity_tuple s l -> In x (divisors ev (fun _ => 0) (de_expr (dyn c))) ->
    exists e, dget (amp_name (st_index (ch_spectator c)), amp_index l) (m_amplitudes m) = Some e /\
      In x (divisors ev (fun _ => 0) e).
  Proof.
    intros Hc Sp Hl Hx.
    destruct (formulate_inv b s D ref cl uc m F)
      as (r0 & ks & terms & zdefs & amps & vars & params & masses & inv & _ & Hks & _ & L & _ & _ & Em).
    destruct (formulate_loop_facts b s D uc _ _ _ _ _ _ _ L) as (W & KA & _).
    set (ids := if b_all_subsystems b then [1; 2; 3] else ks) in *. set (k := st_index (ch_spectator c)).
    assert (Hk : In c (chains_of b k)) by (unfold chains_of; rewrite filter_In, Z.eqb_eq; auto).
    assert (I : In (l, k) (work_of s ids)).
    { apply work_of_In. split; auto. pose proof (chains_of_ids b k c Hk) as K. unfold ids. destruct (b_all_subsystems b).
      - apply (ids_range b s D); auto.
      - apply (ids_123 b ks k Hks); auto. }
    destruct (W l k I) as (m1 & F1 & G1 & _).
    destruct (subsystem_amplitude_inv b s D l k uc m1 F1) as (i & j & th & ts & ps & Cy & _ & T & A & _ & _).
    rewrite A in G1. specialize (G1 _ (CAddL ts) (dget_single _ _)). exists (CAddL ts).
    split; [rewrite Em; exact G1|].
    exact (chain_terms_all b dyn uc ev (fun _ => True) Dyn _ _ i j k _ (chains_of b k) c x (chains_of_In b k) Hk Sp Hx _ _ _ T _).
  Qed.
End Model.
