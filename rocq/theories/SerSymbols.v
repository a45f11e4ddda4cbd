(** The symbols of the lineshapes and form factors of serialised models are non-negative: masses, widths, radii, Mandelstam variables.
    Weights are none of them. *)
From Coq Require Import String ZArith QArith Qcanon List Bool Lia.
From Verif Require Import Prelude Spin Decay Expr CExpr Builder SpecDPD SpecBuilder Dynamics SerFormat SerDynamics SerAmplitude SpecSerial SerDyn
  SpecWeights SerWeights.
Import ListNotations.
Local Open Scope string_scope.
Local Open Scope Z_scope.
Local Open Scope list_scope.

Definition nonneg (e : cexpr) : Prop := forall y, In y (symbols_of e) -> sassume y = ANonneg.

Lemma mass_symbol_nonneg n y : to_mass_symbol n = Ok y -> sassume y = ANonneg.
Proof.
  destruct n as [i|[|[i|] [|[j|] [|]]]]; cbn; try discriminate.
  - intros E. injection E as <-. reflexivity.
  - match goal with |- context [match ?q with [] => _ | _ :: _ => _ end] => destruct q end; intros E; [discriminate E|].
    injection E as <-. reflexivity.
Qed.
Lemma mandelstam_nonneg n y : to_mandelstam_symbol n = Ok y -> sassume y = ANonneg.
Proof. unfold to_mandelstam_symbol. destruct (all_int n); apply mass_symbol_nonneg. Qed.

Ltac step := match goal with |- bind ?q _ = Ok _ -> _ => let E := fresh "E" in destruct q eqn:E; cbn [bind]; [|discriminate] end.
Tactic Notation "stepn" ident(a) ident(E) := match goal with |- bind ?q _ = Ok _ -> _ => destruct q as [a|] eqn:E; cbn [bind]; [|discriminate] end.
Ltac pr := match goal with X : (_ * _)%type |- _ => destruct X as [? ?] end.

Lemma breit_wigner_nonneg s mass w m1 m2 d L : sassume s = ANonneg -> sassume mass = ANonneg -> sassume w = ANonneg ->
  sassume m1 = ANonneg -> sassume m2 = ANonneg -> sassume d = ANonneg ->
  nonneg (breit_wigner (CVar s) (CVar mass) (CVar w) (CVar m1) (CVar m2) L (CVar d) phase_space_factor).
Proof.
  intros A1 A2 A3 A4 A5 A6 y. unfold breit_wigner, breit_wigner_width. cbn [is_zero]. rewrite andb_false_r. cbn [andb].
  unfold simple_breit_wigner, energy_dependent_width, phase_space_factor, CNum. cbn [symbols_of app]. cbn [In]. clear -A1 A2 A3 A4 A5 A6.
  intros I. repeat (destruct I as [<-|I]; [assumption|]). destruct I.
Qed.
Lemma formulate_breit_wigner_nonneg p name m e : formulate_breit_wigner p name m = Ok e -> nonneg (de_expr e).
Proof.
  unfold formulate_breit_wigner. step. step. pr. step. step. step. do 6 step. intros E'. injection E' as <-.
  cbn [de_expr]. apply breit_wigner_nonneg; try reflexivity; eauto using mandelstam_nonneg, mass_symbol_nonneg.
Qed.
Lemma further_nonneg s mass name d : sassume s = ANonneg -> sassume mass = ANonneg -> sassume d = ANonneg ->
  forall defs n ps cs ps', further_channels s mass name d n defs ps = Ok (cs, ps') ->
  forall c, In c cs -> nonneg (channel_width c).
Proof.
  intros A1 A2 A3. induction defs as [|c0 defs IH]; intros n ps cs ps'; cbn [further_channels].
  { intros E. injection E as <- _. intros c []. }
  do 4 step. step. pr. intros E'. injection E' as <- _. intros c [<-|I]; [|eapply IH; eauto].
  intros y Iy. eapply channel_symbols in Iy; [|reflexivity]. cbn [In] in Iy.
  repeat (destruct Iy as [<-|Iy]; [first [assumption|reflexivity]|]). destruct Iy.
Qed.
Lemma multichannel_nonneg p name m e : formulate_multichannel_breit_wigner p name m = Ok e -> nonneg (de_expr e).
Proof.
  unfold formulate_multichannel_breit_wigner. stepn f Ef. destruct (fd_channels f) as [[|c0 [|c1 cs]]|]; try discriminate.
  step. pr. stepn a Ea. do 8 step. step. pr. intros E'. injection E' as <-. cbn [de_expr].
  intros y Iy. apply multi_symbols in Iy. 
  assert (As : sassume a = ANonneg) by eauto using mandelstam_nonneg.
  destruct Iy as [->|[->|(c & Ic & Iy)]]; [assumption|reflexivity|].
  destruct Ic as [<-|Ic].
  - eapply channel_symbols in Iy; [|reflexivity]. cbn [In] in Iy.
    repeat (destruct Iy as [<-|Iy]; [first [assumption|reflexivity|eauto using mass_symbol_nonneg]|]). destruct Iy.
  - match goal with X : further_channels _ _ _ _ _ _ _ = _ |- _ =>
      exact (further_nonneg a (in_braces "m" name) name (in_braces "R" name) As eq_refl eq_refl _ _ _ _ _ X c Ic y Iy) end.
Qed.
Lemma product_nonneg a b : nonneg (de_expr a) -> nonneg (de_expr b) -> nonneg (de_expr (de_mul a (MulDef b))).
Proof. intros A B y I. cbn in I. apply in_app_or in I. destruct I; auto. Qed.
Lemma unit_nonneg : nonneg (de_expr de_unit).
Proof. intros y []. Qed.
Lemma dynamics_nonneg m name ps : forall e e', nonneg (de_expr e) -> dynamics_loop (builder_table None) name m ps e = Ok e' -> nonneg (de_expr e').
Proof.
  induction ps as [|p ps IH]; intros e e' A; cbn [dynamics_loop]; [intros E; injection E as <-; exact A|].
  stepn f Ef. destruct (dget (fd_type f) (builder_table None)) as [b|] eqn:B; [|discriminate]. stepn d E0.
  assert (N : nonneg (de_expr d)).
  { unfold builder_table in B. cbn [dget] in B. destruct (eq_dec _ _); [injection B as <-; exact (formulate_breit_wigner_nonneg _ _ _ _ E0)|].
    destruct (eq_dec _ _); [injection B as <-; exact (multichannel_nonneg _ _ _ _ E0)|discriminate]. }
  intros E'. eapply IH; [|exact E']. apply product_nonneg; assumption.
Qed.
Lemma form_factor_nonneg v m e : formulate_form_factor v m = Ok e -> nonneg (de_expr e).
Proof.
  unfold formulate_form_factor.
  assert (U : Ok de_unit = Ok e -> nonneg (de_expr e)) by (intros Q; injection Q as <-; exact unit_nonneg).
  destruct (v_formfactor v) as [[|ch name]|]; [exact U| |exact U]. clear U.
  step. destruct (eqb _ _); [|discriminate]. stepn s Es. stepn ms E1. stepn mm E2. destruct mm as [m1 m2]. stepn r E3. step. step. intros Q. injection Q as <-.
  cbn [de_expr symbols_of]. intros y I. cbn [symbols_of app In] in I.
  assert (Ms : sassume m1 = ANonneg /\ sassume m2 = ANonneg).
  { destruct ms as [|x1 [|x2 [|]]]; cbn in E2; try discriminate. injection E2 as <- <-.
    destruct (v_node v) as [|n1 [|n2 [|]]]; cbn in E1; try discriminate;
      destruct (to_mass_symbol n1) eqn:Q1; cbn in E1; try discriminate.
    - destruct (to_mass_symbol n2) eqn:Q2; cbn in E1; try discriminate. injection E1 as <- <-.
      eauto using mass_symbol_nonneg.
    - destruct (to_mass_symbol n2) eqn:Q2; cbn in E1; try discriminate.
      destruct (to_mass_symbol i) eqn:Q3; cbn in E1; try discriminate.
      destruct (mapM to_mass_symbol l); discriminate E1. }
  destruct Ms as [M1 M2].
  assert (Mr : sassume r = ANonneg).
  { destruct (all_int _); [injection E3 as <-; reflexivity|].
    destruct (get_initial_state m None); cbn in E3; [injection E3 as <-; reflexivity|discriminate]. }
  repeat (destruct I as [<-|I]; [eauto using mandelstam_nonneg|]). destruct I.
Qed.
Lemma form_factors_nonneg m vs : forall e e', nonneg (de_expr e) -> form_factor_loop m vs e = Ok e' -> nonneg (de_expr e').
Proof.
  induction vs as [|v vs IH]; intros e e' A; cbn [form_factor_loop]; [intros E; injection E as <-; exact A|].
  step. intros E'. eapply IH; [|exact E']. apply product_nonneg; [exact A|]. eapply form_factor_nonneg; eauto.
Qed.
Lemma builtin_nonneg m tl c e : dynamics_of_chain m tl None c e -> nonneg (de_expr e).
Proof.
  intros (y & E1 & E2). eapply form_factors_nonneg; [|exact E2]. eapply dynamics_nonneg; [exact unit_nonneg|exact E1].
Qed.
Lemma builtin_weights m d s r tl x w dyn : helicity_definition m d s r tl None x w dyn -> weights_only w dyn (di_chains d).
Proof.
  intros H c y I W S. pose proof (weight_none m d s r tl None x w dyn H y W) as N.
  pose proof (builtin_nonneg _ _ _ _ (hd_dynamics _ _ _ _ _ _ _ _ _ H c I) y S). congruence.
Qed.
