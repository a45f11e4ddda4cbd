(** /repo/docs/Lc2ppiK.json with the lineshape of /repo/docs/serialization.ipynb *)
From Coq Require Import String ZArith QArith Qcanon List Bool Reals Lia Lra Permutation.
From Coquelicot Require Import Complex.
From Verif Require Import Prelude Spin SpinFacts Decay Expr Angles Sums Wigner WignerFacts CExpr CExprFacts SpecDPD Builder BuilderFacts Dynamics
  SerFormat SerDynamics SerAmplitude SpecSerial SerDecay SerAmpFacts SerModel SerProofs SerTotal SerExamples LcModel.
Import ListNotations.
Local Open Scope string_scope.
Local Open Scope Z_scope.
Local Open Scope list_scope.

(** docs/serialization.ipynb: [formulate_bugg_breit_wigner]; [i, j = node] are state IDs *)
Definition formulate_bugg_breit_wigner (p : propagator) (resonance : string) (m : model_def) : res defexpr :=
  let* f := get_function_definition (pr_parametrization p) m in
  let* (i, j) := unpack2 (pr_node p) in
  let* s := to_mandelstam_symbol (pr_node p) in
  let mass := in_braces "m" resonance in
  let width := in_braces "\Gamma" resonance in
  let g := in_braces "\gamma" resonance in
  let* m1 := to_mass_symbol i in
  let* m2 := to_mass_symbol j in
  let* final := get_final_state m None in
  let* v_mass := dgetitem "mass" (fd_numbers f) in
  let* v_width := dgetitem "width" (fd_numbers f) in
  match i, j with
  | It i, It j =>
      let* si := dgetitem i final in
      let* sj := dgetitem j final in
      let* v_slope := dgetitem "slope" (fd_numbers f) in
      Ok (DefExpr (bugg_breit_wigner (CVar s) (CVar mass) (CVar width) (CVar m1) (CVar m2) (CVar g))
            (dict_of [(KSym mass, real_val v_mass); (KSym width, real_val v_width);
                      (KSym m1, real_val (p_mass si)); (KSym m2, real_val (p_mass sj)); (KSym g, real_val v_slope)]))
  | _, _ => Err TypeError
  end.
Definition lc_builders : option (dict string prop_builder) :=
  Some [("BreitWignerWidthExpLikeBugg", formulate_bugg_breit_wigner)].

(** The content of a chain of this file: the production vertex first, the pair first in it *)
Definition lc_x (c : chain_def) : content :=
  match cd_propagators c, cd_vertices c with
  | [p], [Vertex _ [Sub _; It k] _ (Some [r; lk]) _ _ _; Vertex _ [It i; It j] _ (Some [li; lj]) f _ _] =>
      Content (match pr_spin p with {| this := n # d |} => (if (d =? 1)%positive then 2 * n else n) end) i j k r lk li lj 0
        (match f with Some "-" => -1 | _ => 1 end)
  | _, _ => Content 0 0 0 0 0 0 0 0 0 0
  end.
Definition lc_tl (n : string) : string := n.
Definition lc_w (c : chain_def) : symbol := weight_sym lc_tl c (lc_x c).
Definition lc_dyn (c : chain_def) : defexpr :=
  match (let* y := formulate_dynamics c lc_model lc_tl lc_builders in form_factor_loop lc_model (cd_vertices c) y) with
  | Ok e => e | Err _ => de_unit end.
Definition lc_s (n : Z) : state :=
  state_of (fun n => n) (if n =? 0 then lc_initial else nth (Z.to_nat (n - 1)) lc_final lc_initial) (if n <=? 1 then 1 else 0).
Lemma lc_describes : describes_states (fun n => n) lc_model lc_dist lc_s 2.
Proof.
  constructor.
  - exists []. reflexivity.
  - split; [reflexivity|]. exists 1. split; [lia|]. split; reflexivity.
  - reflexivity.
  - intros x I. destruct I as [<-|[<-|[<-|[]]]]; [exists 1|exists 0|exists 0]; (split; [lia|]); (split; [apply Qc_is_canon; reflexivity|reflexivity]).
  - split; [cbn; auto|]. exists [It 3; It 1]. left. reflexivity.
Qed.
Lemma lc_content c : In c lc_chains -> has_content c (lc_x c).
Proof.
  intros I. cbn in I.
  repeat (destruct I as [<-|I]; [
    eexists _, _; split; [constructor; [cbn; perm
      | eexists _, _, _; split; [reflexivity|]; split; [apply Qc_is_canon; reflexivity|]; split; reflexivity
      | left; reflexivity | reflexivity | eexists _, _; split; [left; reflexivity|reflexivity] | eexists; left; reflexivity]|];
    split; [reflexivity|]; split; [eexists; left; split; reflexivity|]; split; [left; split; reflexivity|right; split; [reflexivity|cbn; tauto]] |]).
  destruct I.
Qed.
Lemma lc_dynamics c : In c lc_chains -> dynamics_of_chain lc_model lc_tl lc_builders c (lc_dyn c).
Proof.
  assert (B : forallb (fun c => match (let* y := formulate_dynamics c lc_model lc_tl lc_builders in form_factor_loop lc_model (cd_vertices c) y)
    with Ok _ => true | Err _ => false end) lc_chains = true) by (vm_compute; reflexivity).
  intros I. rewrite forallb_forall in B. specialize (B c I). unfold lc_dyn, dynamics_of_chain.
  destruct (formulate_dynamics c lc_model lc_tl lc_builders) as [y|e]; cbn [bind] in B |- *; [|discriminate B].
  destruct (form_factor_loop lc_model (cd_vertices c) y) as [z|e] eqn:F; [|discriminate B]. exists y. auto.
Qed.
Lemma lc_lineshape c : In c lc_chains -> lineshape (de_expr (lc_dyn c)) = true.
Proof.
  assert (B : forallb (fun c => lineshape (de_expr (lc_dyn c))) lc_chains = true) by (vm_compute; reflexivity).
  intros I. rewrite forallb_forall in B. exact (B c I).
Qed.
Lemma lc_definition : helicity_definition lc_model lc_dist lc_s 2 lc_tl lc_builders lc_x lc_w lc_dyn.
Proof.
  constructor.
  - exact lc_describes.
  - exact lc_content.
  - intros c I. exists (cd_weight c). apply weight_ok. apply lc_content. exact I.
  - exact lc_dynamics.
  - exact lc_lineshape.
Qed.
Lemma lc_formulate cl : exists M, SerAmplitude.formulate lc_model cl lc_tl lc_builders = Ok M.
Proof. destruct (serial_model _ _ _ _ _ _ _ _ _ lc_definition cl) as (M & _ & _ & _ & _ & _ & E & _). eauto. Qed.
(** Every symbol of the propagators has a default value *)
Lemma lc_closed c : In c lc_chains -> closed_expression (lc_dyn c).
Proof.
  assert (B : forallb (fun c => forallb (fun y =>
      memb (KSym y) (dkeys (de_params (lc_dyn c))) || memb y (map mass_sym [0; 1; 2; 3]) || memb y (map SpecSerial.sigma_sym [1; 2; 3]))
    (symbols_of (de_expr (lc_dyn c)))) lc_chains = true) by (vm_compute; reflexivity).
  intros I y Y. rewrite forallb_forall in B. specialize (B c I). rewrite forallb_forall in B. specialize (B y Y).
  apply orb_true_iff in B. destruct B as [B|B].
  - apply orb_true_iff in B. destruct B as [B|B]; apply memb_In in B.
    + left. exact B.
    + right. left. apply in_map_iff in B. destruct B as (n & E & J). exists n. auto.
  - apply memb_In in B. right. right. apply in_map_iff in B. destruct B as (n & E & J). exists n. auto.
Qed.
