(** Lineshapes of the propagators of a serialised chain. *)
From Coq Require Import String ZArith QArith Qcanon List Bool Reals.
From Coquelicot Require Import Complex.
From Verif Require Import Prelude Expr CExpr CExprFacts Builder SerFormat SpecSerial SerDynamics SerDecay SerDyn SerAmplitude SpecPropagators.
Import ListNotations.
Local Open Scope string_scope.
Local Open Scope list_scope.

Section D.
  Variables (m : model_def) (name : string) (additional : option (dict string prop_builder)).
  Hypothesis Dc : is_dict additional.
  Lemma table_spec type b : dget type (builder_table additional) = Some b <-> builder_for additional type b.
  Proof.
    assert (B : forall b, dget type [("BreitWigner", formulate_breit_wigner : prop_builder);
               ("MultichannelBreitWigner", formulate_multichannel_breit_wigner)] = Some b <->
      (type = "BreitWigner" /\ b = formulate_breit_wigner \/
       type = "MultichannelBreitWigner" /\ b = formulate_multichannel_breit_wigner)).
    { intros b'. cbn [dget]. destruct (eq_dec type "BreitWigner") as [->|N1].
      - split; [intros E; left; split; [reflexivity|congruence]|]. intros [[_ ->]|[X _]]; [reflexivity|discriminate X].
      - destruct (eq_dec type "MultichannelBreitWigner") as [->|N2].
        + split; [intros E; right; split; [reflexivity|congruence]|]. intros [[X _]|[_ ->]]; [discriminate X|reflexivity].
        + split; [discriminate|]. intros [[X _]|[X _]]; contradiction. }
    unfold builder_table, builder_for. destruct additional as [a|] eqn:E.
    - pose proof (Dc a eq_refl) as N. rewrite dget_dupdate_nodup by exact N.
      destruct (dget type a) as [b'|] eqn:G.
      + split.
        * intros X. injection X as <-. left. exists a. split; [reflexivity|]. apply dget_Some_In. exact G.
        * intros [(a' & X & I)|[X _]].
          -- injection X as <-. apply In_dget in I; [|exact N]. congruence.
          -- exfalso. apply (X a eq_refl). apply dget_Some_In in G. apply (in_map fst) in G. exact G.
      + rewrite B. apply dget_None in G. split.
        * intros X. right. split; [|exact X]. intros a' Y. injection Y as <-. exact G.
        * intros [(a' & X & I)|[_ X]]; [|exact X]. injection X as <-. exfalso. apply G. apply (in_map fst) in I. exact I.
    - rewrite B. split.
      + intros X. right. split; [intros a Y; discriminate Y|exact X].
      + intros [(a & X & _)|[_ X]]; [discriminate X|exact X].
  Qed.
  Lemma builder_for_fun type b b' : builder_for additional type b -> builder_for additional type b' -> b = b'.
  Proof. rewrite <- !table_spec. congruence. Qed.

  Lemma loop_split ps : forall e0 r, dynamics_loop (builder_table additional) name m ps e0 = r ->
    match r with
    | Ok e => exists xs, Forall2 (lineshape_of m name additional) ps xs /\ e = fold_left (fun e x => de_mul e (MulDef x)) xs e0
    | Err x => exists ps1 p ps2, ps = ps1 ++ p :: ps2 /\ (forall q, In q ps1 -> exists x, lineshape_of m name additional q x) /\
                 no_lineshape m name additional p x
    end.
  Proof.
    induction ps as [|p ps IH]; intros e0 r <-; cbn [dynamics_loop].
    - exists []. split; [constructor|reflexivity].
    - destruct (get_function_definition (pr_parametrization p) m) as [f|x] eqn:F; cbn [bind].
      2:{ exists [], p, ps. split; [reflexivity|]. split; [intros q []|]. left. apply c50_function_missing in F. exact F. }
      apply c50_function in F. change (function_of m (pr_parametrization p) f) in F.
      destruct (dget (fd_type f) (builder_table additional)) as [b|] eqn:T.
      2:{ exists [], p, ps. split; [reflexivity|]. split; [intros q []|]. right; left. split; [reflexivity|].
          exists f. split; [exact F|]. intros b X. apply table_spec in X. congruence. }
      apply table_spec in T. destruct (b p name m) as [x|x] eqn:X; cbn [bind].
      2:{ exists [], p, ps. split; [reflexivity|]. split; [intros q []|]. right; right. exists f, b. auto. }
      assert (L : lineshape_of m name additional p x) by (exists f, b; auto).
      specialize (IH (de_mul e0 (MulDef x)) _ eq_refl). destruct (dynamics_loop _ _ _ ps _) as [e|y].
      + destruct IH as (xs & A & ->). exists (x :: xs). split; [constructor; auto|reflexivity].
      + destruct IH as (ps1 & q & ps2 & -> & A & B). exists (p :: ps1), q, ps2. split; [reflexivity|]. split; [|exact B].
        intros q' [<-|I]; [exists x; exact L|apply A; exact I].
  Qed.
  Lemma lineshape_fun p x x' : lineshape_of m name additional p x -> lineshape_of m name additional p x' -> x = x'.
  Proof.
    intros (f & b & F & B & E) (f' & b' & F' & B' & E').
    apply c50_function in F, F'. rewrite F in F'. injection F' as <-.
    rewrite (builder_for_fun _ _ _ B B') in E. congruence.
  Qed.
  Lemma lineshape_no p x e : lineshape_of m name additional p x -> no_lineshape m name additional p e -> False.
  Proof.
    intros (f & b & F & B & E) [[_ N]|[(_ & f' & F' & N)|(f' & b' & F' & B' & E')]].
    - destruct F as (l1 & l2 & G & Q & _). apply (N f); [|exact Q]. rewrite G. apply in_or_app. right; left; reflexivity.
    - apply c50_function in F, F'. rewrite F in F'. injection F' as <-. exact (N b B).
    - apply c50_function in F, F'. rewrite F in F'. injection F' as <-.
      rewrite (builder_for_fun _ _ _ B B') in E. congruence.
  Qed.
  Lemma fold_value xs : forall e0 ev h, ceval ev h (de_expr (fold_left (fun e x => de_mul e (MulDef x)) xs e0))
    = (ceval ev h (de_expr e0) * product (map (fun x => ceval ev h (de_expr x)) xs))%C.
  Proof.
    induction xs as [|x xs IH]; intros e0 ev h; cbn [fold_left map product].
    - ring.
    - rewrite IH. cbn [de_mul de_expr ceval]. ring.
  Qed.
  Lemma fold_params xs : (forall x, In x xs -> NoDup (map fst (de_params x))) -> forall e0 y v,
    dget y (de_params (fold_left (fun e x => de_mul e (MulDef x)) xs e0)) = Some v <->
    last_value y xs v \/ (forall x, In x xs -> ~ In y (map fst (de_params x))) /\ dget y (de_params e0) = Some v.
  Proof.
    induction xs as [|x xs IH]; intros N e0 y v; cbn [fold_left].
    - split; [intros E; right; split; [intros x []|exact E]|]. intros [(a & b & c & X & _)|[_ X]]; [destruct a; discriminate X|exact X].
    - rewrite IH by (intros x' I; apply N; right; exact I). cbn [de_mul de_params].
      rewrite dget_dupdate_nodup by (apply N; left; reflexivity).
      split.
      + intros [(a & b & c & -> & A & B)|[A B]].
        * left. exists (x :: a), b, c. split; [reflexivity|]. auto.
        * destruct (dget y (de_params x)) as [v'|] eqn:D.
          -- left. exists [], x, xs. split; [reflexivity|]. split; [|exact A]. injection B as <-. apply dget_Some_In. exact D.
          -- right. apply dget_None in D. split; [|exact B]. intros x' [<-|I]; [exact D|apply A; exact I].
      + intros [(a & b & c & X & A & B)|[A B]].
        * destruct a as [|a0 a]; cbn [app] in X; injection X as X1 X2; subst.
          -- right. split; [exact B|]. apply In_dget in A; [|apply N; left; reflexivity]. rewrite A. reflexivity.
          -- left. exists a, b, c. auto.
        * right. split; [intros x' I; apply A; right; exact I|].
          destruct (dget y (de_params x)) as [v'|] eqn:D; [|exact B].
          exfalso. apply (A x (or_introl eq_refl)). apply dget_Some_In in D. apply (in_map fst) in D. exact D.
  Qed.
End D.

Lemma c82_value c m tl additional e : is_dict additional -> formulate_dynamics c m tl additional = Ok e ->
  exists xs, Forall2 (lineshape_of m (tl (cd_name c)) additional) (cd_propagators c) xs /\
    (forall ev h, ceval ev h (de_expr e) = product (map (fun x => ceval ev h (de_expr x)) xs)) /\
    ((forall x, In x xs -> NoDup (map fst (de_params x))) ->
     forall y v, dget y (de_params e) = Some v <-> last_value y xs v).
Proof.
  intros Dc F. apply (loop_split m (tl (cd_name c)) additional Dc) in F. destruct F as (xs & A & ->).
  exists xs. split; [exact A|]. split.
  - intros ev h. rewrite fold_value. cbn [de_unit de_expr]. unfold CNum; cbn [ceval]; rewrite Q2R_Z. ring.
  - intros N y v. rewrite fold_params by exact N. cbn. split; [intros [X|[_ X]]; [exact X|discriminate X]|auto].
Qed.
Lemma c82_outcome c m tl additional : is_dict additional ->
  ((exists e, formulate_dynamics c m tl additional = Ok e) <->
     forall p, In p (cd_propagators c) -> exists x, lineshape_of m (tl (cd_name c)) additional p x) /\
  (forall x, formulate_dynamics c m tl additional = Err x ->
     exists ps1 p ps2, cd_propagators c = ps1 ++ p :: ps2 /\
       (forall q, In q ps1 -> exists x, lineshape_of m (tl (cd_name c)) additional q x) /\
       no_lineshape m (tl (cd_name c)) additional p x).
Proof.
  intros Dc. split; [split|].
  - intros (e & F) p I. apply (loop_split m (tl (cd_name c)) additional Dc) in F. destruct F as (xs & A & _).
    clear -A I. induction A as [|p' x ps xs H A IH]; [destruct I|]. destruct I as [<-|I]; [exists x; exact H|auto].
  - intros H. destruct (formulate_dynamics c m tl additional) as [e|x] eqn:F; [eexists; reflexivity|exfalso].
    apply (loop_split m (tl (cd_name c)) additional Dc) in F. destruct F as (ps1 & p & ps2 & E & _ & N).
    destruct (H p) as [y L]; [rewrite E; apply in_or_app; right; left; reflexivity|].
    exact (lineshape_no m (tl (cd_name c)) additional Dc p y x L N).
  - intros x F. apply (loop_split m (tl (cd_name c)) additional Dc) in F. exact F.
Qed.

(** Form factors of the vertices *)
Lemma form_factors_split m vs : forall e0 x, form_factor_loop m vs e0 = Ok x ->
  exists fs, Forall2 (fun v f => formulate_form_factor v m = Ok f) vs fs /\ x = fold_left (fun e f => de_mul e (MulDef f)) fs e0.
Proof.
  induction vs as [|v vs IH]; intros e0 x X; cbn [form_factor_loop] in X.
  - exists []. split; [constructor|]. cbn [fold_left]. congruence.
  - destruct (formulate_form_factor v m) as [f|] eqn:E; cbn [bind] in X; [|discriminate X].
    destruct (IH _ _ X) as (fs & A & ->). exists (f :: fs). split; [constructor; assumption|reflexivity].
Qed.
Lemma c70_dynamics m tl additional c x : is_dict additional -> dynamics_of_chain m tl additional c x ->
  exists ls fs, Forall2 (lineshape_of m (tl (cd_name c)) additional) (cd_propagators c) ls /\
    Forall2 (fun v f => formulate_form_factor v m = Ok f) (cd_vertices c) fs /\
    (forall ev h, ceval ev h (de_expr x) = product (map (fun y => ceval ev h (de_expr y)) (ls ++ fs))) /\
    ((forall y, In y (ls ++ fs) -> NoDup (map fst (de_params y))) ->
     forall y v, dget y (de_params x) = Some v <-> last_value y (ls ++ fs) v).
Proof.
  intros Dc (e & F & G). apply (loop_split m (tl (cd_name c)) additional Dc) in F. destruct F as (ls & A & ->).
  destruct (form_factors_split m _ _ _ G) as (fs & B & ->). exists ls, fs. do 2 (split; [assumption|]).
  rewrite <- fold_left_app. split.
  - intros ev h. rewrite fold_value. cbn [de_unit de_expr]. unfold CNum; cbn [ceval]; rewrite Q2R_Z. ring.
  - intros N y v. rewrite fold_params by exact N. cbn. split; [intros [X|[_ X]]; [exact X|discriminate X]|auto].
Qed.
