(** C124: parts of serialised models *)
From Coq Require Import String ZArith QArith Qcanon Qreals List Bool Reals Lia Lra Permutation Sorted.
From Coquelicot Require Import Complex.
From Verif Require Import Prelude Spin Decay Expr Angles Sums Wigner CG CExpr SpecKin SpecDPD Builder
  SpinFacts DecayFacts CExprFacts BuilderFacts ModelFacts FormProofs SpecFractions FractionProofs Dynamics SerFormat SerDynamics
  SerAmplitude SpecSerial SerDecay SerModel SerProofs SerDyn SerTotal SerFormal SpecWeights SerWeights SpecParts.
Import ListNotations.
Local Open Scope string_scope.
Local Open Scope Z_scope.
Local Open Scope list_scope.

Section Chains.
  Variables (m : model_def) (cs : list chain_def) (tl : string -> string) (additional : option (dict string prop_builder)).
  Hypothesis FO : chains_unused additional.
  Let m' := with_chains m cs.
  Lemma same_functions : md_functions m' = md_functions m.
  Proof. unfold m', with_chains. destruct (md_distributions m) eqn:E; rewrite ?E; reflexivity. Qed.
  Lemma same_function name : get_function_definition name m = get_function_definition name m'.
  Proof. unfold get_function_definition. rewrite same_functions. reflexivity. Qed.
  Lemma same_initial k : get_initial_state m k = get_initial_state m' k.
  Proof. unfold get_initial_state, get_distribution_def, m', with_chains. destruct (md_distributions m) eqn:E; rewrite ?E; reflexivity. Qed.
  Lemma same_breit_wigner p n : formulate_breit_wigner p n m = formulate_breit_wigner p n m'.
  Proof. unfold formulate_breit_wigner. rewrite same_function. reflexivity. Qed.
  Lemma same_multichannel p n : formulate_multichannel_breit_wigner p n m = formulate_multichannel_breit_wigner p n m'.
  Proof. unfold formulate_multichannel_breit_wigner. rewrite same_function. reflexivity. Qed.
  Lemma table_In_dupdate (l : dict string prop_builder) : forall defs type b,
    dget type (dupdate defs l) = Some b -> dget type defs = Some b \/ In (type, b) l.
  Proof.
    induction l as [|[t a] l IH]; intros defs type b G; cbn [dupdate fold_left] in G; [auto|].
    apply (IH (dset t a defs)) in G. destruct G as [G|G]; [|right; right; exact G].
    rewrite dget_dset in G. destruct (eq_dec type t) as [->|]; [|auto]. injection G as ->. right. left. reflexivity.
  Qed.
  Lemma same_builder type b p n : dget type (builder_table additional) = Some b -> b p n m = b p n m'.
  Proof.
    unfold builder_table. set (defs := [("BreitWigner", _); (_, _)]).
    assert (B : dget type defs = Some b -> b p n m = b p n m').
    { unfold defs. cbn [dget]. intros G. repeat match goal with H : context [if ?c then _ else _] |- _ => destruct c | H : context [match ?c with left _ => _ | right _ => _ end] |- _ => destruct c end; try discriminate; injection G as <-.
      - exact (same_breit_wigner p n).
      - exact (same_multichannel p n). }
    destruct additional as [table|] eqn:A; [|exact B]. intros G. apply table_In_dupdate in G. destruct G as [G|G]; [auto|].
    symmetry. exact (FO table type b eq_refl G p n m cs).
  Qed.
  Lemma same_loop n ps : forall e, dynamics_loop (builder_table additional) n m ps e = dynamics_loop (builder_table additional) n m' ps e.
  Proof.
    induction ps as [|p ps IH]; intros e; cbn [dynamics_loop]; [reflexivity|]. rewrite same_function.
    destruct (get_function_definition (pr_parametrization p) m') as [f|]; cbn [bind]; [|reflexivity].
    destruct (dget (fd_type f) (builder_table additional)) as [b|] eqn:G; [|reflexivity].
    rewrite (same_builder _ _ p n G). destruct (b p n m'); cbn [bind]; [apply IH|reflexivity].
  Qed.
  Lemma same_form_factors vs : forall e, form_factor_loop m vs e = form_factor_loop m' vs e.
  Proof.
    induction vs as [|v vs IH]; intros e; cbn [form_factor_loop]; [reflexivity|].
    assert (Q : formulate_form_factor v m = formulate_form_factor v m').
    { unfold formulate_form_factor. rewrite ?same_function. destruct (v_formfactor v) as [name|]; [|reflexivity].
      destruct name as [|a name]; [reflexivity|]. rewrite same_function. rewrite (same_initial None). reflexivity. }
    rewrite Q. destruct (formulate_form_factor v m'); cbn [bind]; [apply IH|reflexivity].
  Qed.
  Lemma same_dynamics c e : dynamics_of_chain m tl additional c e -> dynamics_of_chain m' tl additional c e.
  Proof.
    intros (y & P & Q). exists y. unfold formulate_dynamics in *. rewrite <- same_loop, <- same_form_factors. auto.
  Qed.
End Chains.

Section Parts.
  Variables (m : model_def) (d : distribution) (s : Z -> state) (r : Z)
    (tl : string -> string) (additional : option (dict string prop_builder))
    (x : chain_def -> content) (w : chain_def -> symbol) (dyn : chain_def -> defexpr).
  Hypothesis H : helicity_definition m d s r tl additional x w dyn.
  Hypothesis FO : chains_unused additional.
  Definition other_chains (cs : list chain_def) : distribution := Distribution (di_initial d) (di_final d) (di_reference d) cs.

  Lemma part_definition cs : incl cs (di_chains d) ->
    helicity_definition (with_chains m cs) (other_chains cs) s r tl additional x w dyn.
  Proof.
    intros I. destruct H as [S Ct W Dy Ls]. destruct S as [(rest & Ed) S1 S2 S3 S4].
    constructor.
    - constructor; try assumption. unfold with_chains. rewrite Ed. exists rest. reflexivity.
    - intros c Hc. apply Ct, I, Hc.
    - intros c Hc. apply W, I, Hc.
    - intros c Hc. apply (same_dynamics m _ tl additional FO). apply Dy, I, Hc.
    - intros c Hc. apply Ls, I, Hc.
  Qed.
  Lemma part_model cs cl : incl cs (di_chains d) -> exists M, SerAmplitude.formulate (with_chains m cs) cl tl additional = Ok M.
  Proof.
    intros I. destruct (serial_model _ _ _ _ _ _ _ _ _ (part_definition cs I) cl) as (M & _ & _ & _ & _ & _ & F & _). eauto.
  Qed.
End Parts.

(** The intensity as a sum over all three subsystems *)
Section All.
  Variables (m : model_def) (d : distribution) (s : Z -> state) (r : Z)
    (tl : string -> string) (additional : option (dict string prop_builder))
    (x : chain_def -> content) (w : chain_def -> symbol) (dyn : chain_def -> defexpr).
  Hypothesis H : helicity_definition m d s r tl additional x w dyn.
  Variables (cl : bool) (M : model).
  Hypothesis F : SerAmplitude.formulate m cl tl additional = Ok M.

  Lemma serial_all ev :
    full_value ev M = RtoC (intensity_value s [1; 2; 3] (amp_value ev M) (fun i k => Re (e_sym ev (zeta_symbol i k r)))).
  Proof.
    destruct (serial_intensity_value m d s r tl additional x w dyn H cl M F) as (ks & N & So & K & V).
    rewrite V. f_equal. unfold intensity_value. apply Rsum_ext. intros l _. do 2 f_equal.
    unfold aligned_amplitude. apply Csum_ext. intros l' Hl'. apply tuples_In in Hl'.
    set (f := fun k => (amp_value ev M k l' * RtoC (alignment s (fun i => Re (e_sym ev (zeta_symbol i k r))) l l'))%C).
    change (Csum ks f = Csum [1; 2; 3] f).
    assert (Z : forall k, In k [1; 2; 3] -> ~ In k ks -> f k = RtoC 0).
    { intros k Hk Nk. unfold f. rewrite (serial_amplitude_value m d s r tl additional x w dyn H cl M F ev k l' Hl' Hk).
      replace (chains_in x d k) with (@nil chain_def); [cbn [Csum]; ring|].
      symmetry. destruct (chains_in x d k) as [|c cs] eqn:Ec; [reflexivity|]. exfalso. apply Nk, K.
      assert (I : In c (chains_in x d k)) by (rewrite Ec; left; reflexivity). apply in_chains_in in I. exists c. exact I. }
    assert (Fi : Csum ks f = Csum (filter (fun k => existsb (Z.eqb k) ks) [1; 2; 3]) f).
    { apply Csum_perm. apply NoDup_Permutation; [exact N|apply NoDup_filter; repeat constructor; cbn; lia|].
      intros k. rewrite filter_In, existsb_exists. split.
      - intros I. split; [exact (subsystem_range m d s r tl additional x w dyn H ks K k I)|]. exists k. split; [exact I|apply Z.eqb_refl].
      - intros (_ & q & I & Eq). apply Z.eqb_eq in Eq. subst q. exact I. }
    rewrite Fi, Csum_filter. apply Csum_ext. intros k Hk. destruct (existsb (Z.eqb k) ks) eqn:Ex; [reflexivity|].
    symmetry. apply Z; [exact Hk|]. intros I. assert (T : existsb (Z.eqb k) ks = true); [|congruence].
    apply existsb_exists. exists k. split; [exact I|apply Z.eqb_refl].
  Qed.
End All.

(** ** C124: parts *)
Section C124.
  Variables (m : model_def) (d : distribution) (s : Z -> state) (r : Z)
    (tl : string -> string) (additional : option (dict string prop_builder))
    (x : chain_def -> content) (w : chain_def -> symbol) (dyn : chain_def -> defexpr).
  Hypothesis H : helicity_definition m d s r tl additional x w dyn.
  Variables (cl : bool) (M : model).
  Hypothesis F : SerAmplitude.formulate m cl tl additional = Ok M.

  Section Parts.
    Hypothesis FO : chains_unused additional.
    Variable ps : list (list chain_def * model).
    Hypothesis Pm : Permutation (di_chains d) (flat_map fst ps).
    Hypothesis Ps : forall p, In p ps -> exists cl', SerAmplitude.formulate (with_chains m (fst p)) cl' tl additional = Ok (snd p).
    Lemma part_incl p : In p ps -> incl (fst p) (di_chains d).
    Proof. intros Hp c Hc. apply (Permutation_in _ (Permutation_sym Pm)), in_flat_map. exists p. auto. Qed.
    Lemma serial_parts ev k l : In k [1; 2; 3] -> helicity_tuple s l -> amp_value ev M k l = Csum ps (fun p => amp_value ev (snd p) k l).
    Proof.
      intros Hk Hl. rewrite (serial_amplitude_value m d s r tl additional x w dyn H cl M F ev k l Hl Hk). unfold chains_in.
      rewrite Csum_filter, (Csum_perm _ _ _ Pm), Csum_flat_map. apply Csum_ext. intros p Hp.
      destruct (Ps p Hp) as (cl' & Fp).
      rewrite (serial_amplitude_value _ _ s r tl additional x w dyn (part_definition m d s r tl additional x w dyn H FO (fst p) (part_incl p Hp)) cl' (snd p) Fp ev k l Hl Hk).
      unfold chains_in. cbn [other_chains di_chains]. rewrite Csum_filter. reflexivity.
    Qed.
    Lemma c124_parts ev : exists G : (list chain_def * model) -> (list chain_def * model) -> C,
      (forall p, In p ps -> G p p = full_value ev (snd p)) /\
      (forall p q, G q p = Cconj (G p q)) /\
      (forall p q, In p ps -> In q ps ->
         (Cmod (G p q) ^ 2 <= Re (full_value ev (snd p)) * Re (full_value ev (snd q)))%R) /\
      full_value ev M = (Csum ps (fun p => full_value ev (snd p)) + Csum (pairs ps) (fun pq => RtoC (2 * Re (G (fst pq) (snd pq)))))%C /\
      (Re (full_value ev M) <= INR (length ps) * Rsum ps (fun p => Re (full_value ev (snd p))))%R.
    Proof.
      set (z := fun i k => Re (e_sym ev (zeta_symbol i k r))).
      set (A := fun p : list chain_def * model => aligned_amplitude s [1; 2; 3] (amp_value ev (snd p)) z).
      assert (V : forall p, In p ps -> full_value ev (snd p) = RtoC (Rsum (tuples s) (fun l => Cmod (A p l) ^ 2)%R)).
      { intros p Hp. destruct (Ps p Hp) as (cl' & Fp).
        exact (serial_all _ _ s r tl additional x w dyn (part_definition m d s r tl additional x w dyn H FO (fst p) (part_incl p Hp)) cl' (snd p) Fp ev). }
      pose proof (gram_interference (tuples s) A) as Gr. set (v := fun p => RtoC (Rsum (tuples s) (fun l => (Cmod (A p l) ^ 2)%R))) in Gr.
      assert (T : full_value ev M = Csum ps (fun p => Csum ps (fun q => gram (tuples s) A p q))).
      { rewrite (serial_all m d s r tl additional x w dyn H cl M F ev).
        transitivity (Csum (map (fun p => (RtoC 1, p)) ps) (fun x => Csum (map (fun p => (RtoC 1, p)) ps)
          (fun y => fst x * Cconj (fst y) * gram (tuples s) A (snd x) (snd y))%C)).
        - unfold intensity_value. fold z. apply gram_sum. intros l _. unfold A.
          rewrite (aligned_list s [1; 2; 3] z (map (fun p => (RtoC 1, p)) ps) (amp_value ev M) (fun p => amp_value ev (snd p)) l).
          + reflexivity.
          + intros k l' Hk Hl'. rewrite Csum_map. cbn [fst snd]. rewrite (serial_parts ev k l' Hk Hl'). apply Csum_ext. intros p _. ring.
        - rewrite Csum_map. apply Csum_ext. intros p _. rewrite Csum_map. apply Csum_ext. intros q _. cbn [fst snd].
          destruct (gram (tuples s) A p q). apply injective_projections; cbn; ring. }
      exists (gram (tuples s) A). split; [|split; [exact (if_hermitian _ _ Gr)|split; [|split]]].
      - intros p Hp. rewrite (V p Hp). apply (if_diagonal _ _ Gr).
      - intros p q Hp Hq. rewrite (V p Hp), (V q Hq). apply (if_bound _ _ Gr).
      - rewrite T, (Csum_pairs ps v _ Gr). f_equal. apply Csum_ext. intros p Hp. symmetry. apply V. exact Hp.
      - rewrite T. eapply Rle_trans; [apply (pairs_bound ps v _ Gr)|].
        + intros p. unfold v. cbn [Re fst RtoC]. apply Rsum_nonneg. intros l _. apply pow2_ge_0.
        + apply Req_le. f_equal. clear T. unfold v. rewrite Csum_RtoC. cbn [Re fst RtoC]. apply Rsum_ext. intros p Hp. rewrite (V p Hp). reflexivity.
    Qed.
  End Parts.

  (** Chains with weight 0 can be left out. *)
  Lemma c124_switched_off cs off cl' M' v idx : chains_unused additional -> Permutation (di_chains d) (cs ++ off) ->
    SerAmplitude.formulate (with_chains m cs) cl' tl additional = Ok M' ->
    (forall c, In c off -> v (w c) = RtoC 0) -> full_value (Env v idx) M = full_value (Env v idx) M'.
  Proof.
    intros FO Pm F' Z.
    assert (I : incl cs (di_chains d)) by (intros c Hc; apply (Permutation_in _ (Permutation_sym Pm)), in_or_app; auto).
    pose proof (part_definition m d s r tl additional x w dyn H FO cs I) as H'.
    rewrite (serial_all m d s r tl additional x w dyn H cl M F), (serial_all _ _ s r tl additional x w dyn H' cl' M' F').
    f_equal. unfold intensity_value. apply Rsum_ext. intros l _. do 2 f_equal. unfold aligned_amplitude.
    apply Csum_ext. intros l' Hl'. apply tuples_In in Hl'. apply Csum_ext. intros k Hk. f_equal.
    rewrite (serial_amplitude_value m d s r tl additional x w dyn H cl M F _ k l' Hl' Hk).
    rewrite (serial_amplitude_value _ _ s r tl additional x w dyn H' cl' M' F' _ k l' Hl' Hk).
    unfold chains_in. cbn [other_chains di_chains]. rewrite !Csum_filter, (Csum_perm _ _ _ Pm), Csum_app.
    rewrite (Csum_zero off); [ring|]. intros c Hc.
    match goal with |- context [if ?b then _ else _] => destruct b end; [|reflexivity].
    unfold chain_contribution, serial_term. cbn [e_sym]. rewrite (Z c Hc). ring.
  Qed.

  (** ** Superpositions of weights *)
  Section Weights.
    Hypothesis W : weights_only w dyn (di_chains d).
    Variables (base : symbol -> C) (idx : string -> list ival -> C).
    Lemma contribution_superposed xs v c l : In c (di_chains d) -> same_but_weights w (di_chains d) v base ->
      (forall u, In u xs -> same_but_weights w (di_chains d) (snd u) base) ->
      v (w c) = Csum xs (fun u => fst u * snd u (w c))%C ->
      chain_contribution x w dyn (Env v idx) l c = Csum xs (fun u => fst u * chain_contribution x w dyn (Env (snd u) idx) l c)%C.
    Proof.
      intros Ic Sv Sx E.
      assert (Q : forall v', same_but_weights w (di_chains d) v' base ->
        chain_contribution x w dyn (Env v' idx) l c = (v' (w c) * chain_contribution x (fun _ => w c) dyn (Env (fun y => if eq_dec y (w c) then RtoC 1 else base y) idx) l c)%C).
      { intros v' S'. unfold chain_contribution, serial_term. cbn [e_sym].
        destruct (eq_dec (w c) (w c)) as [_|N]; [|destruct N; reflexivity].
        destruct (eq_dec (theta_name _ _) (w c)) as [Et|_].
        { exfalso. apply (theta_no_weight m d s r tl additional x w dyn H (ct_i (x c)) (ct_j (x c))). exists c. auto. }
        rewrite (S' (theta_name _ _)) by (apply (theta_no_weight m d s r tl additional x w dyn H)).
        match goal with |- context [ceval (Env ?f idx) (fun _ => 0) (de_expr (dyn c))] =>
          match f with v' => fail 1 | _ => set (g := f) end end.
        rewrite (lineshape_eval (Env v' idx) (Env g idx) (fun _ => 0) (fun _ => 0) _ (hd_lineshape _ _ _ _ _ _ _ _ _ H c Ic)).
        - ring.
        - intros y _ Iy. cbn [e_sym]. unfold g. destruct (eq_dec y (w c)) as [->|_].
          + exfalso. apply (W c (w c) Ic); [exists c; auto|exact Iy].
          + apply S'. intros Wy. exact (W c y Ic Wy Iy). }
      rewrite (Q v Sv), E, <- Csum_scal_r. apply Csum_ext. intros u Hu. rewrite (Q (snd u) (Sx u Hu)). ring.
    Qed.
    Lemma c124_weights : exists G : (symbol -> C) -> (symbol -> C) -> C,
      (forall v, same_but_weights w (di_chains d) v base -> G v v = full_value (Env v idx) M) /\
      (forall v v', G v' v = Cconj (G v v')) /\
      (forall v v', same_but_weights w (di_chains d) v base -> same_but_weights w (di_chains d) v' base ->
         (Cmod (G v v') ^ 2 <= Re (full_value (Env v idx) M) * Re (full_value (Env v' idx) M))%R) /\
      (forall xs v, same_but_weights w (di_chains d) v base -> weights_superposed w (di_chains d) xs v ->
         full_value (Env v idx) M = Csum xs (fun u => Csum xs (fun u' => fst u * Cconj (fst u') * G (snd u) (snd u'))%C)).
    Proof.
      set (z := fun i k => Re (base (zeta_symbol i k r))).
      set (A := fun v : symbol -> C => aligned_amplitude s [1; 2; 3] (amp_value (Env v idx) M) z).
      assert (V : forall v, same_but_weights w (di_chains d) v base ->
        full_value (Env v idx) M = RtoC (Rsum (tuples s) (fun l => Cmod (A v l) ^ 2)%R)).
      { intros v Sv. rewrite (serial_all m d s r tl additional x w dyn H cl M F (Env v idx)). f_equal. unfold intensity_value.
        apply Rsum_ext. intros l _. do 2 f_equal. unfold A, aligned_amplitude. apply Csum_ext. intros l' _. apply Csum_ext.
        intros k _. unfold alignment. cbn [e_sym]. unfold z.
        rewrite !Sv by apply (zeta_no_weight m d s r tl additional x w dyn H). reflexivity. }
      pose proof (gram_interference (tuples s) A) as Gr.
      exists (gram (tuples s) A). split; [|split; [exact (if_hermitian _ _ Gr)|split]].
      - intros v Sv. rewrite (V v Sv). apply (if_diagonal _ _ Gr).
      - intros v v' Sv Sv'. rewrite (V v Sv), (V v' Sv'). apply (if_bound _ _ Gr).
      - intros xs v Sv Su. rewrite (V v Sv). apply gram_sum. intros l _. unfold A.
        rewrite (aligned_list s [1; 2; 3] z xs (amp_value (Env v idx) M) (fun v => amp_value (Env v idx) M) l); [reflexivity|].
        intros k l' Hk Hl'.
        rewrite (serial_amplitude_value m d s r tl additional x w dyn H cl M F _ k l' Hl' Hk).
        transitivity (Csum xs (fun u => Csum (chains_in x d k) (fun c => fst u * chain_contribution x w dyn (Env (snd u) idx) l' c)%C)).
        + rewrite Csum_swap. apply Csum_ext. intros c I. apply in_chains_in in I. apply contribution_superposed; [apply I|exact Sv| |].
          * intros u Hu y Ny. destruct (Su y) as [_ Q]. rewrite (Q Ny u Hu). apply Sv. exact Ny.
          * destruct (Su (w c)) as [Q _]. apply Q. exists c. split; [apply I|reflexivity].
        + apply Csum_ext. intros u _. rewrite (serial_amplitude_value m d s r tl additional x w dyn H cl M F _ k l' Hl' Hk). apply Csum_scal_l.
    Qed.
  End Weights.
End C124.
