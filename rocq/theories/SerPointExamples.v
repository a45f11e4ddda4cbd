(** A serialised decay Lc -> p pi K with a production form factor in an S wave, at several points *)
From Coq Require Import String Ascii ZArith QArith Qcanon Qreals List Bool Reals Lia Lra Permutation.
From Coquelicot Require Import Complex.
From Verif Require Import Prelude Spin Decay Expr SpecKin SpecDPD CExpr Builder AnglesProofs SerFormat SerDynamics SerAmplitude
  SpecSerial SerTotal SerExamples SerPoints SpecSerPoints.
Import ListNotations.
Local Open Scope string_scope.
Local Open Scope Z_scope.
Local Open Scope list_scope.

Definition px_A : chain_def := sx_chain "D" "D_BW" 3 1 2 3 1 0 1 0
  (sx_vertex "helicity" None (Some "Lc_FF")) (sx_vertex "parity" (Some "-") (Some "D_FF")) 2.
Definition px_functions : list func_def :=
  [sx_bw "D_BW" 1 2 1 1 0 3; sx_multi "L_MC" 3 [sx_channel 0 1 1 2 3; sx_channel 1 1 2 4 5; sx_channel 0 2 2 6 7];
   sx_bw "K_BW" 1 2 1 0 1 3; sx_ff "Lc_FF" 0 5; sx_ff "D_FF" 1 3].
Definition px_chains : list chain_def := [px_A; sx_B; sx_C].
Definition px_model : model_def := sx_def px_chains px_functions.
Lemma px_hyp c : In c px_chains -> has_content c (sx_x c) /\ complete_chain px_model c.
Proof.
  intros I. split; [apply sx_contents; exact I|]. revert I.
  intros [<-|[<-|[<-|[]]]]; (split; [intros p [<-|[]]|intros v [<-|[<-|[]]]]).
  - exists (sx_bw "D_BW" 1 2 1 1 0 3). split; [fn (@nil func_def) (tl px_functions)|].
    left. split; [reflexivity|]. numbers.
  - right; right. exists "Lc_FF", (sx_ff "Lc_FF" 0 5). split; [reflexivity|]. split; [discriminate|].
    split; [fn (firstn 3 px_functions) (skipn 4 px_functions)|]. split; [reflexivity|numbers].
  - right; right. exists "D_FF", (sx_ff "D_FF" 1 3). split; [reflexivity|]. split; [discriminate|].
    split; [fn (firstn 4 px_functions) (@nil func_def)|]. split; [reflexivity|numbers].
  - eexists. split; [fn (firstn 1 px_functions) (skipn 2 px_functions)|].
    right. split; [reflexivity|]. split; [numbers|]. do 3 eexists. split; [reflexivity|]. split; [numbers|].
    intros c [<-|[<-|[<-|[]]]]; numbers.
  - left. reflexivity.
  - left. reflexivity.
  - eexists. split; [fn (firstn 2 px_functions) (skipn 3 px_functions)|]. left. split; [reflexivity|]. numbers.
  - right; left. reflexivity.
  - left. reflexivity.
Qed.
Definition px_w (c : chain_def) : symbol := weight_sym sx_tl c (sx_x c).
Definition px_dyn : chain_def -> defexpr := dynamics_value px_model sx_tl.
Lemma px_definition : helicity_definition px_model (sx_dist px_chains) sx_s 1 sx_tl None sx_x px_w px_dyn.
Proof. exact (proj1 (complete_helicity px_model (sx_dist px_chains) sx_s 1 sx_tl (sx_describes _ _) sx_x px_hyp)). Qed.
Lemma px_formulate cl : exists M, SerAmplitude.formulate px_model cl sx_tl None = Ok M.
Proof. exact (serial_total px_model (sx_dist px_chains) sx_s 1 sx_tl (sx_describes _ _) sx_x cl px_hyp). Qed.
Lemma px_barrier c : In c px_chains -> no_production_barrier px_model c.
Proof.
  intros [<-|[<-|[<-|[]]]] v k pair [<-|[<-|[]]] [E|E]; try discriminate E; auto.
  all: right; right; exists "Lc_FF", (sx_ff "Lc_FF" 0 5); (split; [reflexivity|]);
    (split; [fn (firstn 3 px_functions) (skipn 4 px_functions)|]); reflexivity.
Qed.

(** The point: weights (start with c), Mandelstam variables and masses of the states, masses of resonances and channels (m_), widths, radii *)
Definition px_base (y : symbol) : C :=
  match sname y with
  | String "c" _ => (2, 1)%R
  | String "m" (String "_" _) => RtoC 20
  | String "\" _ => RtoC 5
  | String "R" _ => RtoC 1
  | _ => RtoC (ex_env y)
  end.
(** The same in other units *)
Definition px_units (t : R) (y : symbol) : C :=
  match sname y with
  | String "c" _ => (2, 1)%R
  | String "s" _ => (RtoC (t * t) * px_base y)%C
  | String "R" _ => (RtoC (/ t) * px_base y)%C
  | _ => (RtoC t * px_base y)%C
  end.
(** The same with opposite widths *)
Definition px_opposite (y : symbol) : C :=
  match sname y with
  | String "c" _ => (2, -1)%R
  | String "\" _ => RtoC (-5)
  | _ => px_base y
  end.
Lemma px_physical : physical (fun y => Re (px_base y)) /\ nonsingular (fun y => Re (px_base y)).
Proof. split; [|exact ex_nonsingular]. exists ex_p1, ex_p2, ex_p3. exact ex_momenta. Qed.
Lemma px_is_units t : serial_units sx_tl px_w px_chains t px_base (px_units t).
Proof.
  split; [split|].
  - intros n [<-|[<-|[<-|[<-|[]]]]]; reflexivity.
  - intros k [<-|[<-|[<-|[]]]]; reflexivity.
  - intros c [<-|[<-|[<-|[]]]]; (split; [reflexivity|]); (split; [intros y [[->|(n & [->| ->])]|[->|(n & ->)]]; reflexivity|intros y [->| ->]; reflexivity]).
Qed.
Lemma px_is_opposite : opposite_serial_widths sx_tl px_w px_chains px_base px_opposite.
Proof.
  assert (one : forall z, z = (RtoC 1 * z)%C) by (intros; ring).
  split; [split|split; [|split]].
  - intros n [<-|[<-|[<-|[<-|[]]]]]; apply one.
  - intros k [<-|[<-|[<-|[]]]]; rewrite Rmult_1_r; apply one.
  - intros n [<-|[<-|[<-|[<-|[]]]]]; reflexivity.
  - intros k [<-|[<-|[<-|[]]]]; reflexivity.
  - intros c [<-|[<-|[<-|[]]]]; (split; [reflexivity|]);
    (split; [intros y [[->|(n & [->| ->])]|[->| ->]]; split; reflexivity|
      intros y [->|(n & ->)]; (split; [apply injective_projections; cbn; ring|reflexivity])]).
Qed.
Lemma px_threshold c : In c px_chains -> above_threshold px_model sx_tl sx_x px_base c.
Proof.
  intros [<-|[<-|[<-|[]]]] _; cbn; lra.
Qed.
