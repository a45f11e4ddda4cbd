(** Facts on [doit], [xreplace] and [full_expression] *)
From Coq Require Import String ZArith QArith Qcanon Qreals List Bool Reals Lia.
From Coquelicot Require Import Complex.
From Verif Require Import Prelude Spin Decay Expr Sums Wigner CG CExpr CExprFacts Builder SpecBuilder BuilderFacts OccFacts DoIt.
Import ListNotations.
Local Open Scope Z_scope.
Local Open Scope list_scope.

Definition over (rho : dict symbol Z) (h : symbol -> Z) : symbol -> Z :=
  fun s => match dget s rho with Some z => z | None => h s end.
Lemma over_nil h s : over [] h s = h s.
Proof. reflexivity. Qed.
Lemma over_dset rho h s v t : over (dset s v rho) h t = upd (over rho h) s v t.
Proof.
  unfold over, upd. rewrite dget_dset. unfold eqb. destruct (eq_dec t s); reflexivity.
Qed.
Lemma hdoit_value rho h e : heval h (hdoit rho e) = heval (over rho h) e.
Proof.
  induction e; cbn [hdoit heval]; auto.
  - unfold over. destruct (dget s rho); reflexivity.
  - rewrite <- IHe1, <- IHe2. destruct (hdoit rho e1), (hdoit rho e2); reflexivity.
  - rewrite <- IHe. destruct (hdoit rho e); reflexivity.
Qed.
Lemma idoit_value rho h i : ieval h (idoit rho i) = ieval (over rho h) i.
Proof. destruct i; cbn [idoit ieval]; [reflexivity|]. rewrite hdoit_value. reflexivity. Qed.
Lemma is_zero_value ev h e : is_zero e = true -> ceval ev h e = RtoC 0.
Proof.
  destruct e; cbn [is_zero]; try discriminate. intros E. apply (proj1 (Prelude.eqb_eq _ _)) in E. subst q. cbn [ceval].
  rewrite Q2R_Z. reflexivity.
Qed.
Lemma num_value ev h z : ceval ev h (CNum z) = RtoC (IZR z).
Proof. unfold CNum. cbn [ceval]. rewrite Q2R_Z. reflexivity. Qed.
Lemma mul_value ev h a b : ceval ev h (mul a b) = (ceval ev h a * ceval ev h b)%C.
Proof.
  unfold mul. destruct (is_zero a) eqn:A; cbn [orb].
  - rewrite num_value, (is_zero_value ev h a A). ring.
  - destruct (is_zero b) eqn:B; [|reflexivity]. rewrite num_value, (is_zero_value ev h b B). ring.
Qed.
Lemma assignments_sum (f : (symbol -> Z) -> C) (F : forall h h', (forall s, h s = h' s) -> f h = f h') pools : forall rho h,
  Csum (assignments pools rho) (fun rho' => f (over rho' h)) = psum f pools (over rho h).
Proof.
  induction pools as [|[s vals] ps IH]; intros rho h; cbn [assignments psum]; [cbn [Csum]; ring|].
  rewrite Csum_flat_map. apply Csum_ext. intros v _. rewrite IH.
  assert (X : forall ps (h1 h2 : symbol -> Z), (forall t, h1 t = h2 t) -> psum f ps h1 = psum f ps h2).
  { clear -F. induction ps as [|[s vals] ps IH]; intros h1 h2 E; cbn [psum]; [auto|]. apply Csum_ext. intros v _. apply IH.
    apply upd_ext. exact E. }
  apply X. intros t. apply over_dset.
Qed.
Lemma doit_value ev e : forall rho h, ceval ev h (doit rho e) = ceval ev (over rho h) e.
Proof.
  induction e; intros rho h; cbn [doit ceval]; rewrite ?mul_value; cbn [ceval]; rewrite ?hdoit_value;
    repeat match goal with IH : forall rho h, ceval ev h (doit rho ?e) = _ |- context [ceval ev h (doit rho ?e)] => rewrite IH end;
    try reflexivity.
  - rewrite map_map. f_equal. apply map_ext. intros i. apply idoit_value.
  - rewrite <- !hdoit_value. destruct (hdoit rho a), (hdoit rho b); cbn [heval ceval]; try reflexivity.
    destruct (z =? z0)%Z; rewrite num_value; reflexivity.
  - rewrite ceval_CAddL, Csum_map. rewrite <- (assignments_sum (fun h => ceval ev h e)).
    + apply Csum_ext. intros rho' _. apply IHe.
    + intros h1 h2 E. apply ceval_ext. exact E.
Qed.

Lemma ceval_env_ext ev ev' e : (forall y, e_sym ev y = e_sym ev' y) -> (forall n ix, e_idx ev n ix = e_idx ev' n ix) ->
  forall h, ceval ev h e = ceval ev' h e.
Proof.
  intros S X. induction e; intros h; cbn [ceval]; rewrite ?S, ?X;
    repeat match goal with IH : forall h, ceval ev h ?e = _ |- context [ceval ev h ?e] => rewrite IH end; try reflexivity.
  apply psum_ext. exact IHe.
Qed.

(** ** Helicity variables *)
Fixpoint hbound (l : list symbol) (e : hexpr) : Prop :=
  match e with
  | HVal _ => True
  | HVar s => In s l
  | HSub a b => hbound l a /\ hbound l b
  | HNeg a => hbound l a
  end.
Definition ibound (l : list symbol) (i : iexpr) : Prop := match i with XStr _ => True | XHel e => hbound l e end.
Fixpoint bound (l : list symbol) (e : cexpr) : Prop :=
  match e with
  | CRat _ | CIm | CVar _ => True
  | CIdx _ idx => Forall (ibound l) idx
  | CAdd a b | CSub a b | CMul a b | CDiv a b => bound l a /\ bound l b
  | CNeg a | CSqr a | CSqrt a | CExp a | CAbs2 a => bound l a
  | CDelta a b => hbound l a /\ hbound l b
  | CSign a => hbound l a
  | CWigner _ m m' _ => hbound l m /\ hbound l m'
  | CCG _ m1 _ m2 _ m3 => hbound l m1 /\ hbound l m2 /\ hbound l m3
  | CSum e pools => bound (map fst pools ++ l) e
  | CFormFactor s m1 m2 _ r => bound l s /\ bound l m1 /\ bound l m2 /\ bound l r
  | CBreakup s m1 m2 => bound l s /\ bound l m1 /\ bound l m2
  end.
Lemma hbound_incl l l' e : incl l l' -> hbound l e -> hbound l' e.
Proof. intros I. induction e; cbn [hbound]; intuition. Qed.
Lemma bound_incl e : forall l l', incl l l' -> bound l e -> bound l' e.
Proof.
  induction e; intros l l' I; cbn [bound]; auto;
    try (intros B; repeat match goal with H : _ /\ _ |- _ => destruct H end; repeat split; eauto using hbound_incl; fail).
  - intros F. eapply Forall_impl; [|exact F]. intros [t|g]; cbn [ibound]; [auto|]. apply hbound_incl. exact I.
  - intros Bd. apply (IHe (map fst pools ++ l)); [|exact Bd]. apply incl_app; [apply incl_appl, incl_refl|apply incl_appr; exact I].
Qed.
Lemma hbound_hsub s z l e : hbound (s :: l) e -> hbound l (hsub s z e).
Proof.
  induction e; cbn [hbound hsub]; auto.
  - destruct (eqb s0 s) eqn:E; cbn [hbound]; [auto|]. intros [->|I]; [|exact I]. rewrite Prelude.eqb_refl in E. discriminate E.
  - tauto.
Qed.
Lemma bound_csub s z e : forall l, bound (s :: l) e -> bound l (csub s z e).
Proof.
  induction e; intros l; cbn [bound csub]; auto;
    try (intros B; repeat match goal with H : _ /\ _ |- _ => destruct H end; repeat split; eauto using hbound_hsub; fail).
  - intros F. rewrite Forall_forall in F |- *. intros i I. apply in_map_iff in I. destruct I as (g & <- & I). specialize (F g I).
    destruct g; cbn [isub ibound] in F |- *; [exact F|]. apply hbound_hsub. exact F.
  - destruct (memb s (map fst pools)) eqn:M; cbn [bound].
    + intros B. eapply bound_incl; [|exact B]. apply memb_In in M. intros t T. apply in_app_or in T.
      destruct T as [T|[<-|T]]; apply in_or_app; auto.
    + intros B. apply IHe. eapply bound_incl; [|exact B]. intros t T. apply in_app_or in T.
      destruct T as [T|[<-|T]]; [right; apply in_or_app; auto|left; reflexivity|right; apply in_or_app; auto].
Qed.
Lemma bound_cleanup_pools e pools : Forall (fun p => snd p <> []) pools -> forall l e' ps,
  bound (map fst pools ++ l) e -> cleanup_pools e pools = (e', ps) -> bound (map fst ps ++ l) e'.
Proof.
  induction pools as [|[s vals] pools IH]; intros NE l e' ps B E; cbn [cleanup_pools] in E.
  - injection E as <- <-. exact B.
  - inversion NE as [|? ? N1 N2]; subst. cbn [snd] in N1. destruct (cleanup_pools e pools) as [e1 ps1] eqn:E1.
    assert (B1 : bound (map fst ps1 ++ s :: l) e1).
    { apply (IH N2 (s :: l) e1 ps1); [|reflexivity]. eapply bound_incl; [|exact B]. cbn [map fst].
      intros t [<-|T]; apply in_or_app; [right; left; reflexivity|]. apply in_app_or in T. destruct T; [left|right; right]; assumption. }
    destruct vals as [|v [|v2 vals]].
    + contradiction.
    + injection E as <- <-. apply bound_csub. eapply bound_incl; [|exact B1]. intros t T. apply in_app_or in T.
      destruct T as [T|[<-|T]]; [right; apply in_or_app; auto|left; reflexivity|right; apply in_or_app; auto].
    + injection E as <- <-. eapply bound_incl; [|exact B1]. cbn [map fst]. intros t T. apply in_app_or in T.
      destruct T as [T|[<-|T]]; [right; apply in_or_app; auto|left; reflexivity|right; apply in_or_app; auto].
Qed.
Lemma bound_cleanup e pools l : Forall (fun p => snd p <> []) pools -> bound l (CSum e pools) -> bound l (cleanup (CSum e pools)).
Proof.
  intros NE B. cbn [bound] in B. unfold cleanup. destruct (cleanup_pools e pools) as [e' ps] eqn:E.
  pose proof (bound_cleanup_pools e pools NE l e' ps B E) as B'. destruct ps; exact B'.
Qed.
Lemma bound_CAddL l es : (forall e, In e es -> bound l e) -> bound l (CAddL es).
Proof. induction es as [|e es IH]; cbn [CAddL bound CNum]; intros H; [exact I|]. split; [apply H; left; reflexivity|apply IH; intros; apply H; right; assumption]. Qed.

(** ** Expressions without helicity variables and sums *)
Definition hconcrete (e : hexpr) : Prop := exists z, e = HVal z.
Definition iconcrete (i : iexpr) : Prop := match i with XStr _ => True | XHel e => hconcrete e end.
Fixpoint concrete (e : cexpr) : Prop :=
  match e with
  | CRat _ | CIm | CVar _ => True
  | CIdx _ idx => Forall iconcrete idx
  | CAdd a b | CSub a b | CMul a b | CDiv a b => concrete a /\ concrete b
  | CNeg a | CSqr a | CSqrt a | CExp a | CAbs2 a => concrete a
  | CDelta a b => hconcrete a /\ hconcrete b
  | CSign a => hconcrete a
  | CWigner _ m m' _ => hconcrete m /\ hconcrete m'
  | CCG _ m1 _ m2 _ m3 => hconcrete m1 /\ hconcrete m2 /\ hconcrete m3
  | CSum e pools => False
  | CFormFactor s m1 m2 _ r => concrete s /\ concrete m1 /\ concrete m2 /\ concrete r
  | CBreakup s m1 m2 => concrete s /\ concrete m1 /\ concrete m2
  end.
Lemma hdoit_concrete rho e : hbound (dkeys rho) e -> hconcrete (hdoit rho e).
Proof.
  induction e; cbn [hbound hdoit].
  - intros _. eexists; reflexivity.
  - intros I. destruct (dget s rho) as [z|] eqn:E; [eexists; reflexivity|]. apply dget_None in E. contradiction.
  - intros [A B]. destruct (IHe1 A) as (x & ->). destruct (IHe2 B) as (y & ->). eexists; reflexivity.
  - intros A. destruct (IHe A) as (x & ->). eexists; reflexivity.
Qed.
Lemma assignments_keys pools : forall rho rho', In rho' (assignments pools rho) -> forall s, In s (dkeys rho') <-> In s (map fst pools ++ dkeys rho).
Proof.
  induction pools as [|[t vals] ps IH]; intros rho rho' I s; cbn [assignments] in I.
  - destruct I as [<-|[]]. reflexivity.
  - apply in_flat_map in I. destruct I as (v & _ & I). rewrite (IH _ _ I s). cbn [map fst app]. rewrite !in_app_iff, dset_keys. cbn [In].
    rewrite in_app_iff. intuition (subst; auto).
Qed.
Lemma concrete_CAddL es : (forall e, In e es -> concrete e) -> concrete (CAddL es).
Proof. induction es as [|e es IH]; cbn [CAddL concrete CNum]; intros H; [exact I|]. split; [apply H; left; reflexivity|apply IH; intros; apply H; right; assumption]. Qed.
Lemma doit_concrete e : forall rho, bound (dkeys rho) e -> concrete (doit rho e).
Proof.
  induction e; intros rho B; cbn [bound] in B; cbn [doit concrete];
    repeat match goal with H : _ /\ _ |- _ => destruct H end; auto using hdoit_concrete.
  - rewrite Forall_forall in B |- *. intros i I. apply in_map_iff in I. destruct I as (g & <- & I). specialize (B g I).
    destruct g; cbn [idoit ibound iconcrete] in B |- *; [exact B|]. apply hdoit_concrete. exact B.
  - unfold mul. destruct (is_zero _ || is_zero _); cbn [concrete CNum]; auto.
  - destruct (hdoit_concrete rho a H) as (x & ->). destruct (hdoit_concrete rho b H0) as (y & ->). destruct (x =? y); exact I.
  - apply concrete_CAddL. intros e' I. apply in_map_iff in I. destruct I as (rho' & <- & I). apply IHe.
    eapply bound_incl; [|exact B]. intros s S. apply (assignments_keys _ _ _ I). exact S.
Qed.
Lemma hconcrete_value e h h' : hconcrete e -> heval h e = heval h' e.
Proof. intros (z & ->). reflexivity. Qed.
Lemma index_values_ok idx : Forall iconcrete idx -> exists vs, index_values idx = Some vs /\ forall h, map (ieval h) idx = vs.
Proof.
  induction 1 as [|i idx C _ (vs & E & M)]; [exists []; split; reflexivity|].
  destruct i as [t|g]; cbn [iconcrete] in C.
  - exists (IStr t :: vs). cbn [index_values index_value map ieval]. rewrite E. split; [reflexivity|]. intros h. rewrite M. reflexivity.
  - destruct C as (z & ->). exists (IHel z :: vs). cbn [index_values index_value map ieval heval]. rewrite E. split; [reflexivity|].
    intros h. rewrite M. reflexivity.
Qed.
Lemma concrete_value ev e : concrete e -> forall h h', ceval ev h e = ceval ev h' e.
Proof.
  induction e; cbn [concrete]; intros C h h'; cbn [ceval];
    repeat match goal with H : _ /\ _ |- _ => destruct H end;
    repeat match goal with IH : concrete ?e -> _, H : concrete ?e |- _ => rewrite (IH H h h'); clear IH end;
    repeat match goal with H : hconcrete ?e |- _ => rewrite (hconcrete_value e h h' H); clear H end; try reflexivity; try contradiction.
  destruct (index_values_ok idx C) as (vs & _ & M). rewrite !M. reflexivity.
Qed.
Lemma concrete_vanishes e : concrete e -> forall h h', vanishes h e = vanishes h' e.
Proof.
  induction e; cbn [concrete]; intros C h h'; cbn [vanishes]; try reflexivity; destruct C as [C1 C2].
  - rewrite (IHe1 C1 h h'), (IHe2 C2 h h'). reflexivity.
  - rewrite (hconcrete_value a h h' C1), (hconcrete_value b h h' C2). reflexivity.
Qed.
Lemma concrete_occ e : concrete e -> forall h h', occ h e = occ h' e.
Proof.
  induction e; cbn [concrete]; intros C h h'; cbn [occ];
    repeat match goal with H : _ /\ _ |- _ => destruct H end;
    repeat match goal with IH : concrete ?e -> forall h h', occ h ?e = _, H : concrete ?e |- _ => rewrite (IH H h h'); clear IH end; try reflexivity; try contradiction.
  - destruct (index_values_ok idx C) as (vs & _ & M). rewrite !M. reflexivity.
  - rewrite (concrete_vanishes e1 H h h'), (concrete_vanishes e2 H0 h h'). reflexivity.
Qed.
Lemma xreplace_value ev amps : (forall key e, dget key amps = Some e -> concrete e) -> forall e, concrete e -> forall h,
  ceval ev h (xreplace amps e) = ceval (amp_env ev amps) h e.
Proof.
  intros A. induction e; cbn [concrete]; intros C h; cbn [xreplace ceval];
    repeat match goal with H : _ /\ _ |- _ => destruct H end;
    repeat match goal with IH : concrete ?e -> _, H : concrete ?e |- _ => rewrite (IH H h); clear IH end; try reflexivity; try contradiction.
  destruct (index_values_ok idx C) as (vs & E & M). rewrite E, M. unfold amp_env. cbn [e_idx].
  destruct (dget (base, vs) amps) as [e|] eqn:G.
  - apply concrete_value. exact (A _ _ G).
  - cbn [ceval]. rewrite M. reflexivity.
Qed.
Lemma dget_map {K V W} `{EqDec K} (f : V -> W) (d : dict K V) k :
  dget k (map (fun kv => (fst kv, f (snd kv))) d) = option_map f (dget k d).
Proof. induction d as [|[k' v] d IH]; cbn [map dget fst snd option_map]; [reflexivity|]. destruct (eq_dec k k'); [reflexivity|exact IH]. Qed.

(** A model whose helicity variables are all bound *)
Definition model_bound (m : model) : Prop :=
  bound [] (m_intensity m) /\ forall key e, dget key (m_amplitudes m) = Some e -> bound [] e.
Theorem full_expression_value m : model_bound m -> forall ev h, ceval ev h (full_expression m) = full_value ev m.
Proof.
  intros [Bi Ba] ev h. unfold full_expression, full_value.
  rewrite xreplace_value.
  - rewrite (concrete_value _ _ (doit_concrete _ [] Bi) h (fun _ => 0)), doit_value. unfold over. cbn [dget].
    assert (X : forall e h, ceval (amp_env ev (map (fun kv => (fst kv, doit [] (snd kv))) (m_amplitudes m))) h e
      = ceval (amp_env ev (m_amplitudes m)) h e); [|apply X].
    intros e h'. apply ceval_env_ext; [reflexivity|]. intros base idx. unfold amp_env. cbn [e_idx]. rewrite dget_map.
    destruct (dget (base, idx) (m_amplitudes m)) as [e'|]; cbn [option_map]; [|reflexivity]. rewrite doit_value. reflexivity.
  - intros key e G. rewrite dget_map in G. destruct (dget key (m_amplitudes m)) as [e'|] eqn:E; cbn [option_map] in G; [|discriminate].
    injection G as <-. apply doit_concrete. exact (Ba _ _ E).
  - apply doit_concrete. exact Bi.
Qed.

(** ** Symbols *)
Lemma vanishes_zero rho h e : bound (dkeys rho) e -> vanishes (over rho h) e = true -> is_zero (doit rho e) = true.
Proof.
  induction e; cbn [bound vanishes doit]; try discriminate.
  - intros [B1 B2] V. apply orb_true_iff in V. unfold mul.
    assert (Z : is_zero (doit rho e1) || is_zero (doit rho e2) = true) by (apply orb_true_iff; destruct V; auto).
    rewrite Z. reflexivity.
  - intros [B1 B2] V. rewrite <- !hdoit_value in V. destruct (hdoit_concrete rho a B1) as (x & Ex). destruct (hdoit_concrete rho b B2) as (y & Ey).
    rewrite Ex, Ey in *. cbn [heval] in V. destruct (x =? y); [discriminate V|reflexivity].
Qed.
Lemma occ_CAddL h o es : In o (occ h (CAddL es)) <-> exists e, In e es /\ In o (occ h e).
Proof.
  induction es as [|e es IH]; cbn [CAddL occ CNum].
  - split; [intros []|intros (e & [] & _)].
  - rewrite in_app_iff, IH. split.
    + intros [O|(e' & I & O)]; [exists e|exists e']; cbn [In]; auto.
    + intros (e' & [<-|I] & O); [auto|right; exists e'; auto].
Qed.
Lemma assignments_flat {A} (f : (symbol -> Z) -> list A) (F : forall h h', (forall s, h s = h' s) -> f h = f h') pools : forall rho h o,
  In o (pool_flat f pools (over rho h)) <-> exists rho', In rho' (assignments pools rho) /\ In o (f (over rho' h)).
Proof.
  induction pools as [|[s vals] ps IH]; intros rho h o; cbn [assignments pool_flat].
  - split; [intros O; exists rho; cbn; auto|intros (r' & [<-|[]] & O); exact O].
  - rewrite in_flat_map. split.
    + intros (v & I & O). rewrite (pool_flat_h f ps F _ (over (dset s v rho) h)) in O by (intros t; symmetry; apply over_dset).
      apply IH in O. destruct O as (r' & R & O). exists r'. split; [|exact O]. apply in_flat_map. exists v. auto.
    + intros (r' & R & O). apply in_flat_map in R. destruct R as (v & I & R). exists v. split; [exact I|].
      rewrite (pool_flat_h f ps F _ (over (dset s v rho) h)) by (intros t; symmetry; apply over_dset). apply IH. exists r'. auto.
Qed.
Lemma doit_occ e : forall rho h o, bound (dkeys rho) e -> In o (occ h (doit rho e)) -> In o (occ (over rho h) e).
Proof.
  induction e; intros rho h o B; cbn [bound] in B; cbn [doit occ];
    repeat match goal with H : _ /\ _ |- _ => destruct H end; rewrite ?in_app_iff; auto; try (intuition; fail).
  - rewrite map_map. intros [<-|[]]. left. f_equal. apply map_ext. intros i. symmetry. apply idoit_value.
  - unfold mul. intros O. destruct (is_zero (doit rho e1) || is_zero (doit rho e2)) eqn:Z; [destruct O|].
    apply orb_false_iff in Z. destruct Z as [Z1 Z2].
    destruct (vanishes (over rho h) e1) eqn:V1; [rewrite (vanishes_zero _ _ _ H V1) in Z1; discriminate|].
    destruct (vanishes (over rho h) e2) eqn:V2; [rewrite (vanishes_zero _ _ _ H0 V2) in Z2; discriminate|].
    cbn [orb occ] in O |- *. destruct (vanishes h _ || vanishes h _); [destruct O|]. rewrite in_app_iff in O |- *. intuition.
  - destruct (hdoit_concrete rho a H) as (x & ->). destruct (hdoit_concrete rho b H0) as (y & ->). destruct (x =? y); intros [].
  - intros O. apply occ_CAddL in O. destruct O as (e' & I & O). apply in_map_iff in I. destruct I as (r' & <- & I).
    apply (assignments_flat (fun h => occ h e)); [intros h1 h2 E; apply occ_ext; exact E|]. exists r'. split; [exact I|].
    apply IHe; [|exact O]. eapply bound_incl; [|exact B]. intros s S. apply (assignments_keys _ _ _ I). exact S.
Qed.
Lemma vanishes_xreplace h amps e : vanishes h e = true -> vanishes h (xreplace amps e) = true.
Proof.
  induction e; cbn [vanishes xreplace]; try discriminate; auto.
  intros V. apply orb_true_iff in V. apply orb_true_iff. destruct V; auto.
Qed.
Lemma xreplace_occ amps e : concrete e -> forall h o, In o (occ h (xreplace amps e)) ->
  (In o (occ h e) /\ forall base idx, o = OIdx base idx -> dget (base, idx) amps = None) \/
  exists base idx e', In (OIdx base idx) (occ h e) /\ dget (base, idx) amps = Some e' /\ In o (occ h e').
Proof.
  induction e; cbn [concrete]; intros C h o; cbn [xreplace occ];
    repeat match goal with H : _ /\ _ |- _ => destruct H end; try (intros []; fail); try contradiction.
  - intros [<-|[]]. left. split; [left; reflexivity|]. discriminate.
  - destruct (index_values_ok idx C) as (vs & E & M). rewrite E, M. destruct (dget (base, vs) amps) as [e'|] eqn:G.
    + intros O. right. exists base, vs, e'. cbn; auto.
    + cbn [occ]. rewrite M. intros [<-|[]]. left. split; [left; reflexivity|]. intros b ix Eq. injection Eq as <- <-. exact G.
  - rewrite in_app_iff. intros [O|O]; [apply (IHe1 H) in O|apply (IHe2 H0) in O];
      (destruct O as [[O N]|(b & i & e' & O & O')]; [left|right; exists b, i, e']; rewrite in_app_iff; auto).
  - rewrite in_app_iff. intros [O|O]; [apply (IHe1 H) in O|apply (IHe2 H0) in O];
      (destruct O as [[O N]|(b & i & e' & O & O')]; [left|right; exists b, i, e']; rewrite in_app_iff; auto).
  - destruct (vanishes h e1) eqn:V1; [rewrite (vanishes_xreplace h amps e1 V1); intros []|].
    destruct (vanishes h e2) eqn:V2; [rewrite (vanishes_xreplace h amps e2 V2), orb_true_r; intros []|].
    destruct (vanishes h (xreplace amps e1) || vanishes h (xreplace amps e2)); [intros []|]. cbn [orb].
    rewrite in_app_iff. intros [O|O]; [apply (IHe1 H) in O|apply (IHe2 H0) in O];
      (destruct O as [[O N]|(b & i & e' & O & O')]; [left|right; exists b, i, e']; rewrite in_app_iff; auto).
  - rewrite in_app_iff. intros [O|O]; [apply (IHe1 H) in O|apply (IHe2 H0) in O];
      (destruct O as [[O N]|(b & i & e' & O & O')]; [left|right; exists b, i, e']; rewrite in_app_iff; auto).
  - apply IHe; assumption.
  - apply IHe; assumption.
  - apply IHe; assumption.
  - apply IHe; assumption.
  - apply IHe; assumption.
  - intros [<-|[]]. left. split; [left; reflexivity|]. discriminate.
  - rewrite !in_app_iff. intros [O|[O|[O|O]]]; [apply (IHe1 H) in O|apply (IHe2 H0) in O|apply (IHe3 H1) in O|apply (IHe4 H2) in O];
      (destruct O as [[O N]|(b & i & e' & O & O')]; [left|right; exists b, i, e']; rewrite ?in_app_iff; auto 6).
  - rewrite !in_app_iff. intros [O|[O|O]]; [apply (IHe1 H) in O|apply (IHe2 H0) in O|apply (IHe3 H1) in O];
      (destruct O as [[O N]|(b & i & e' & O & O')]; [left|right; exists b, i, e']; rewrite ?in_app_iff; auto 6).
Qed.
Theorem full_expression_occ m : model_bound m -> forall h o, In o (occ h (full_expression m)) ->
  (occurs_in_intensity m o /\ forall base idx, o = OIdx base idx -> dget (base, idx) (m_amplitudes m) = None) \/ occurs_in_amplitudes m o.
Proof.
  intros [Bi Ba] h o O. unfold full_expression in O. apply xreplace_occ in O; [|apply doit_concrete; exact Bi].
  assert (X : forall e, bound [] e -> In o (occ h (doit [] e)) -> In o (occ (fun _ => 0) e)).
  { intros e B I. rewrite <- (occ_ext e (over [] (fun _ => 0))) by reflexivity.
    apply doit_occ; [exact B|]. rewrite (concrete_occ _ (doit_concrete e [] B) _ h). exact I. }
  destruct O as [[O N]|(b & i & e' & _ & G & O)].
  - left. split; [apply X; assumption|]. intros base idx Eq. specialize (N base idx Eq). rewrite dget_map in N.
    destruct (dget (base, idx) (m_amplitudes m)); [discriminate N|reflexivity].
  - right. rewrite dget_map in G. destruct (dget (b, i) (m_amplitudes m)) as [e|] eqn:E; [|discriminate G]. injection G as <-.
    exists (b, i), e. split; [exact E|]. apply X; [exact (Ba _ _ E)|exact O].
Qed.
