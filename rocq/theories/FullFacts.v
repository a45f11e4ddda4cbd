(** The helicity variables of formulated models are all bound. *)
From Coq Require Import String ZArith QArith Qcanon List Bool Permutation Lia.
From Verif Require Import Prelude Spin Decay DecayFacts Expr CExpr CExprFacts Builder SpecDPD SpecBuilder BuilderFacts OccFacts ModelFacts SerFormat SerDynamics SpecSerial SerDecay SerAmpFacts SerModel DoIt DoItFacts.
From Verif Require Import SerAmplitude.
Import ListNotations.
Local Open Scope Z_scope.
Local Open Scope list_scope.

Lemma bound_lineshape l e : lineshape e = true -> bound l e.
Proof.
  induction e; cbn [lineshape bound]; try discriminate; auto; rewrite ?andb_true_iff; intuition.
Qed.
Lemma bound_coupling l hb r hel ls ty x : hbound l (fst hel) -> hbound l (snd hel) ->
  create_coupling_symbol hb r hel ls ty = Ok x -> Forall (ibound l) (snd x).
Proof.
  intros A B. unfold create_coupling_symbol. destruct hb; [|destruct ls as [c|]; [|discriminate]];
    intros E; ok_inj E; subst x; cbn [snd]; repeat constructor; cbn [ibound hbound]; auto.
Qed.
Lemma bound_scaling l c ph dh lR lk li lj uc x : hbound l lR -> hbound l lk -> hbound l li -> hbound l lj ->
  create_scaling_factors c ph lR lk dh li lj uc = Ok x -> bound l (scaling_product x).
Proof.
  intros A B C D. unfold create_scaling_factors. intros E. inv_bind E. inv_bind E.
  apply (bound_coupling l) in E0; [|assumption..]. apply (bound_coupling l) in E1; [|assumption..].
  destruct uc; ok_inj E; subst x; cbn [scaling_product bound CIndexed snd fst].
  - apply Forall_app. split; [destruct E0|destruct E1]; cbn [tl]; auto.
  - auto.
Qed.
Lemma bound_cg l t hs e : (forall p h, dget p hs = Some h -> hbound l h) -> formulate_clebsch_gordan_factors t hs = Ok e -> bound l e.
Proof.
  intros A. destruct t as [|p c1 c2 [ls|]]; cbn [formulate_clebsch_gordan_factors]; try discriminate.
  intros E. inv_bind E. inv_bind E. apply dgetitem_ok in E0, E1. apply A in E0, E1. ok_inj E. subst e.
  cbn [bound hbound]. tauto.
Qed.
Lemma bound_hels l hs p h : Forall (fun ph : pobj * hexpr => hbound l (snd ph)) hs -> dget p (dict_of hs) = Some h -> hbound l h.
Proof.
  intros F. unfold dict_of.
  assert (G : forall d : dict pobj hexpr, (forall h, dget p d = Some h -> hbound l h) -> dget p (dupdate d hs) = Some h -> hbound l h).
  { induction F as [|[q g] hs B _ IH]; intros d Hd; cbn [dupdate]; [apply Hd|]. apply IH. intros h'. rewrite dget_dset.
    destruct (eq_dec p q); [intros X; injection X as <-; exact B|apply Hd]. }
  apply G. discriminate.
Qed.
Section Bound.
  Variables (b : builder) (s : Z -> state) (dyn : chain -> defexpr).
  Hypotheses (D : std_decay (b_decay b) s) (Y : dynamics_of b dyn).

  Lemma bound_chain_term c lam spin k i j th uc ps e ps' : In c (d_chains (b_decay b)) ->
    chain_term b c lam spin k i j th uc ps = Ok (e, ps') -> bound [] e.
  Proof.
    intros Ic E. destruct (Y c Ic) as ((f & G & Fc) & LS). unfold chain_term in E. rewrite G in E. cbn [bind] in E.
    rewrite Fc in E. cbn [bind] in E. inv_bind E. inv_bind E. inv_bind E. inv_bind E. ok_inj E. 
    assert (X : e = CSum v2 [(lambda_R, spin_range2 (p_spin (ch_resonance c)))]) by congruence. subst e. cbn [bound map fst app].
    assert (R : In lambda_R [lambda_R]) by (left; reflexivity).
    assert (S0 : bound [lambda_R] (Builder.chain_amp c lam spin k i j th (de_expr (dyn c)) v0)).
    { unfold Builder.chain_amp. cbn [bound hbound]. apply (bound_scaling [lambda_R]) in E1; cbn [hbound]; auto.
      pose proof (bound_lineshape [lambda_R] _ LS). tauto. }
    assert (S1 : bound [lambda_R] v1).
    { destruct (b_dec_helicity b); [ok_inj E2; subst; exact S0|]. inv_bind E2. inv_bind E2. inv_bind E2. ok_inj E2. subst v1.
      cbn [bound]. split; [exact S0|]. eapply bound_cg; [|eassumption]. intros p h. apply bound_hels. repeat constructor. }
    destruct (b_prod_helicity b); [ok_inj E3; subst; exact S1|]. inv_bind E3. inv_bind E3. ok_inj E3. subst v2.
    cbn [bound]. split; [exact S1|]. eapply bound_cg; [|eassumption]. intros p h. apply bound_hels. repeat constructor; exact R.
  Qed.
  Lemma bound_chain_terms lam spin k i j th uc cs : (forall c, In c cs -> In c (d_chains (b_decay b))) -> forall ps es ps',
    chain_terms b lam spin k i j th uc cs ps = Ok (es, ps') -> forall e, In e es -> bound [] e.
  Proof.
    induction cs as [|c cs IH]; intros Ic ps es ps' E; cbn [chain_terms] in E.
    - ok_inj E. injection E as <- _. intros e [].
    - inv_bind E. destruct v as [e0 ps0]. inv_bind E. destruct v as [es0 ps1]. ok_inj E. injection E as <- _.
      intros e [<-|I].
      + eapply bound_chain_term; [apply Ic; left; reflexivity|eassumption].
      + eapply IH; [intros c' I'; apply Ic; right; exact I'|eassumption|exact I].
  Qed.
End Bound.
Lemma bound_wigner_gen l r j m m' i k defs e defs' : hbound l m -> hbound l m' -> wigner_gen r j m m' i k defs = Ok (e, defs') -> bound l e.
Proof.
  intros A B. unfold wigner_gen. destruct (j =? 0); intros E; [|inv_bind E; destruct v]; ok_inj E; injection E as <- _; cbn [bound]; auto. exact I.
Qed.
Definition all_helicities : list symbol := map hel_prime [0; 1; 2; 3] ++ map hel_sym [0; 1; 2; 3].
Lemma bound_aligned_terms r j ks : forall defs terms defs', aligned_terms r j lam_sym lam_prime ks defs = Ok (terms, defs') ->
  bound all_helicities (CAddL terms).
Proof.
  induction ks as [|k ks IH]; intros defs terms defs' E; cbn [aligned_terms] in E.
  - ok_inj E. injection E as <- _. exact I.
  - inv_bind E. destruct v as [e0 d0]. inv_bind E. destruct v as [es0 d1]. ok_inj E. injection E as <- _.
    cbn [CAddL bound]. split; [|eapply IH; eassumption]. unfold aligned_term in E0.
    inv_bind E0. inv_bind E0. destruct v0 as [w0 ?]. inv_bind E0. destruct v0 as [w1 ?]. inv_bind E0. destruct v0 as [w2 ?].
    inv_bind E0. destruct v0 as [w3 ?]. ok_inj E0. injection E0 as <- _. cbn [bound].
    assert (P : forall n, In n [0; 1; 2; 3] -> hbound all_helicities (lam_prime n) /\ hbound all_helicities (lam_sym n)).
    { intros n I. unfold lam_prime, lam_sym, all_helicities. cbn [hbound]. rewrite !in_app_iff. split; [left|right]; apply in_map; exact I. }
    split; [split; [split; [split|]|]|]; try (eapply bound_wigner_gen; [| |eassumption]; apply P; cbn; auto).
    repeat constructor; apply P; cbn; auto.
Qed.
Section Build.
  Variables (b : builder) (s : Z -> state) (dyn : chain -> defexpr).
  Hypotheses (D : std_decay (b_decay b) s) (Y : dynamics_of b dyn).
  Theorem formulate_bound ref cl uc m : Builder.formulate b ref cl uc = Ok m -> model_bound m.
  Proof.
    intros F. destruct (formulate_inv b s D ref cl uc m F) as (r & ks & terms & zdefs & amps & vars & ps & masses & inv & E1 & E2 & E3 & E4 & E5 & E6 & ->).
    split; cbn [m_intensity m_amplitudes].
    - pose proof (bound_aligned_terms _ _ _ _ _ _ E3) as B.
      assert (A : bound (map hel_sym [0; 1; 2; 3]) (aligned_expr s terms)) by exact B.
      destruct cl; [|exact A]. cbn [bound]. change (bound (map hel_sym [0; 1; 2; 3]) (cleanup (aligned_expr s terms))).
      apply bound_cleanup; [apply (pools_ok b s D)|exact A].
    - intros key e G. destruct (formulate_loop_facts b s D _ _ _ _ _ _ _ _ E4) as (L1 & L2 & _).
      assert (K : In key (dkeys amps)) by (apply dget_In; eauto).
      apply L2 in K. destruct K as [[]|(l & k & W & ->)]. destruct (L1 l k W) as (m' & M' & A & _).
      destruct (subsystem_amplitude_inv b s D _ _ _ _ M') as (i & j & th & ts & ps' & Cy & _ & CT & EA & _).
      rewrite EA in A. specialize (A _ _ (dget_single _ _)). rewrite A in G. injection G as <-.
      apply bound_CAddL. eapply (bound_chain_terms b dyn Y); [|exact CT]. intros c I. apply filter_In in I. apply I.
  Qed.
End Build.

(** ** Serialised models *)
Lemma bound_recoupling m n c v vi e l : nth_chain m n = Ok c -> nth_vertex c vi = Ok v ->
  In lambda_R l -> (forall i, In (It i) (v_node v) -> In (hel_sym i) l) -> formulate_recoupling m n vi = Ok e -> bound l e.
Proof.
  intros NC NV R I E. unfold formulate_recoupling in E. rewrite NC in E. cbn [bind] in E.
  destruct (negb _); [discriminate|]. destruct (negb _); [discriminate|]. rewrite NV in E. cbn [bind] in E.
  inv_bind E. destruct v0 as [la lb].
  assert (B : In la l /\ In lb l).
  { assert (G : forall it, In it (v_node v) -> In (helicity_symbol it) l) by (intros [i|p] J; cbn [helicity_symbol]; auto).
    destruct (v_node v) as [|x [|y [|z zs]]]; cbn [map unpack2] in E0; try discriminate. ok_inj E0. injection E0 as <- <-.
    split; apply G; cbn; auto. }
  destruct B as [B1 B2].
  destruct (_ || _).
  - inv_bind E. inv_bind E. destruct v1 as [a0 b0].
    match type of E with (if ?c then _ else _) = _ => destruct c end; [inv_bind E|]; ok_inj E; subst e;
      unfold parity_recoupling, helicity_recoupling; cbn [bound hbound CNum]; tauto.
  - match type of E with (if ?c then _ else _) = _ => destruct c end; [|discriminate].
    inv_bind E. inv_bind E. inv_bind E. inv_bind E. destruct v3 as [ja jb]. inv_bind E. ok_inj E. subst e.
    unfold ls_recoupling. cbn [bound hbound]. tauto.
Qed.
Lemma bound_subs l e : bound (map hel_sym [0; 1; 2; 3]) e -> bound [] (subs_helicities l e).
Proof. intros B. unfold subs_helicities. cbn [fold_left map] in *. repeat apply bound_csub. exact B. Qed.
Section Serial.
  Variables (m : model_def) (d : distribution) (s : Z -> state) (r : Z)
    (tl : string -> string) (additional : option (dict string prop_builder))
    (x : chain_def -> content) (w : chain_def -> symbol) (dyn : chain_def -> defexpr).
  Hypothesis H : helicity_definition m d s r tl additional x w dyn.

  Lemma bound_chain_amplitude n c l a : nth_error (di_chains d) n = Some c ->
    formulate_chain_amplitude l m n tl additional = Ok a -> bound [] (subs_helicities l (ca_expr a)).
  Proof.
    intros Hn E. assert (Ic : In c (di_chains d)) by (eapply nth_error_In; eauto).
    destruct (hd_content _ _ _ _ _ _ _ _ _ H c Ic) as (vp & vd & T & _).
    destruct (hd_dynamics _ _ _ _ _ _ _ _ _ H c Ic) as (y & Y1 & Y2).
    pose proof (hd_lineshape _ _ _ _ _ _ _ _ _ H c Ic) as LS.
    pose proof (tb_ids _ _ _ _ _ _ _ T) as P. pose proof (tb_decay _ _ _ _ _ _ _ T) as N.
    pose proof (tb_vertices _ _ _ _ _ _ _ T) as V.
    destruct (tb_production _ _ _ _ _ _ _ T) as (a0 & b0 & W & _).
    assert (NC : nth_chain m n = Ok c) by (unfold nth_chain; rewrite (hd_chains _ _ _ _ _ _ _ _ _ H); cbn [bind]; rewrite Hn; reflexivity).
    set (hs := lambda_R :: map hel_sym [0; 1; 2; 3]).
    assert (I3 : forall i, In i [ct_i (x c); ct_j (x c); ct_k (x c)] -> In (hel_sym i) hs).
    { intros i J. apply (Permutation_in _ P) in J. right. apply in_map. cbn in J |- *. tauto. }
    assert (VI : forall vi v i, nth_vertex c vi = Ok v -> In (It i) (v_node v) -> In (hel_sym i) hs).
    { intros vi v i NV J. assert (X : v = vp \/ v = vd).
      { unfold nth_vertex in NV. destruct V as [E'|E']; rewrite E' in NV; destruct vi as [|[|[|vi]]]; cbn in NV; try discriminate; injection NV as <-; auto. }
      apply I3. destruct X as [->| ->].
      - destruct W as [E'|E']; rewrite E' in J; cbn in J |- *; destruct J as [J|[J|[]]]; try discriminate; injection J as <-; auto.
      - rewrite N in J. cbn in J |- *. destruct J as [J|[J|[]]]; injection J as <-; auto. }
    assert (NV : forall vi e, formulate_recoupling m n vi = Ok e -> bound hs e).
    { intros vi e F. assert (X : exists v, nth_vertex c vi = Ok v).
      { unfold formulate_recoupling in F. rewrite NC in F. cbn [bind] in F. destruct (negb _); [discriminate|].
        destruct (negb _); [discriminate|]. inv_bind F. eauto. }
      destruct X as (v & X). eapply bound_recoupling; [exact NC|exact X|left; reflexivity|intros i; exact (VI vi v i X)|exact F]. }
    unfold formulate_chain_amplitude in E. rewrite NC in E. cbn [bind] in E. rewrite Y1 in E. cbn [bind] in E. rewrite Y2 in E. cbn [bind] in E.
    inv_bind E. destruct v as [wc wv]. inv_bind E. inv_bind E. destruct v0 as [[i li] [j lj]]. inv_bind E. destruct v0 as [th the].
    destruct (cd_propagators c) as [|p ps]; [discriminate|]. inv_bind E. inv_bind E. destruct v1 as [rn rr]. inv_bind E.
    inv_bind E. inv_bind E. inv_bind E. ok_inj E. subst a. cbn [ca_expr]. apply bound_subs.
    cbn [helicity_symbol]. apply bound_csub. fold hs. repeat match goal with E : formulate_recoupling _ _ _ = Ok _ |- _ => apply NV in E end. cbn [bound hbound].
    pose proof (bound_lineshape hs _ LS). assert (In lambda_R hs) by (left; reflexivity). tauto.
  Qed.
  Lemma bound_loop work : (forall ln, In ln work -> (snd ln < length (di_chains d))%nat) -> forall amps vars ps amps' vars' ps',
    (forall key e, dget key amps = Some e -> bound [] e) ->
    SerAmplitude.formulate_loop m tl additional work (amps, vars, ps) = Ok (amps', vars', ps') ->
    forall key e, dget key amps' = Some e -> bound [] e.
  Proof.
    induction work as [|[l n] work IH]; intros L amps vars ps amps' vars' ps' B E; cbn [SerAmplitude.formulate_loop] in E.
    - ok_inj E. injection E as <- _ _. exact B.
    - inv_bind E. eapply IH; [intros ln I; apply L; right; exact I| |exact E]. clear E.
      intros key e. rewrite dget_dset. destruct (eq_dec key (ca_key v)); [|apply B].
      intros X. injection X as <-. cbn [bound]. split.
      + destruct (dget (ca_key v) amps) eqn:G; [exact (B _ _ G)|exact I].
      + assert (Ln : (n < length (di_chains d))%nat) by (apply (L (l, n)); left; reflexivity).
        destruct (nth_error (di_chains d) n) as [c|] eqn:Hn; [|apply nth_error_None in Hn; lia].
        exact (bound_chain_amplitude n c l v Hn E0).
  Qed.
  Theorem serial_bound cl M : SerAmplitude.formulate m cl tl additional = Ok M -> model_bound M.
  Proof.
    intros F. destruct (serial_model m d s r tl additional x w dyn H cl) as
      (M' & ks & terms & zdefs & amps & vars & F' & _ & AT & L & _ & SD & EA & _ & EI & _).
    rewrite F in F'. ok_inj F'. subst M'. split.
    - rewrite EI. pose proof (bound_aligned_terms _ _ _ _ _ _ AT) as B. unfold serial_intensity.
      assert (A : bound (map hel_sym [0; 1; 2; 3]) (aligned_expr s terms)) by exact B.
      destruct cl; [|exact A]. apply bound_cleanup.
      + apply (serial_pools_ok m d s r tl additional x w dyn H).
      + cbn [bound]. change (bound (map hel_sym [0; 1; 2; 3]) (cleanup (aligned_expr s terms))).
        apply bound_cleanup; [apply (serial_pools_ok m d s r tl additional x w dyn H)|exact A].
    - rewrite EA. eapply bound_loop; [| |exact L]; [|discriminate].
      intros [l n] I. apply (work_In d s) in I. apply I.
  Qed.
End Serial.
