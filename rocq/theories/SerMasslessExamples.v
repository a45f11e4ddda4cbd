(** J/psi -> gamma pi eta in a model file (C154) *)
From Coq Require Import String ZArith QArith Qcanon List Bool Reals Lia Lra Permutation.
From Coquelicot Require Import Complex.
From Verif Require Import Prelude Spin Decay Expr Sums CExpr SpecSpin SpecKin SpecDPD SpecWigner Builder MasslessExamples SerFormat SerDynamics SpecSerial SpecWeights SerSymbols SerTotal
  SerExamples SpecSerMassless SerMassless.
From Verif Require SerAmplitude.
Import ListNotations.
Local Open Scope string_scope.
Local Open Scope Z_scope.
Local Open Scope list_scope.

Definition gx_initial : state_def := StateDef 0 "J/psi" (half 2) (sx_z 22).
Definition gx_final : list state_def :=
  [StateDef 1 "gamma" (half 2) (sx_z 0); StateDef 2 "pi" (half 0) (sx_z 12); StateDef 3 "eta" (half 0) (sx_z 4)].
Definition gx_s (n : Z) : state :=
  state_of (fun n => n) (if n =? 0 then gx_initial else nth (Z.to_nat (n - 1)) gx_final gx_initial) (if n <=? 1 then 2 else 0).
(** a2 -> pi eta with photons of helicity 1 (first chain) and 0 (second chain), omega -> gamma pi with photons of helicity 1 and -1 *)
Definition gx_A : chain_def := sx_chain "a2" "a_BW" 4 2 3 1 2 2 0 0 (sx_vertex "helicity" None None) (sx_vertex "helicity" None None) 2.
Definition gx_Z : chain_def := sx_chain "b2" "a_BW" 4 2 3 1 0 0 0 0 (sx_vertex "helicity" None None) (sx_vertex "helicity" None None) 3.
Definition gx_O : chain_def := sx_chain "omega" "o_BW" 2 1 2 3 2 0 2 0 (sx_vertex "helicity" None None) (sx_vertex "parity" (Some "-") None) 5.
Definition gx_chains : list chain_def := [gx_A; gx_Z; gx_O].
Definition gx_dist : distribution := Distribution gx_initial gx_final [Sub [It 2; It 3]; It 1] gx_chains.
Definition gx_functions : list func_def := [sx_bw "a_BW" 2 18 1 12 4 3; sx_bw "o_BW" 1 16 1 0 12 3].
Definition gx_model : model_def := ModelDef [gx_dist] gx_functions.
Definition gx_x (c : chain_def) : content :=
  if eqb (cd_name c) "a2" then Content 4 2 3 1 2 2 0 0 0 0
  else if eqb (cd_name c) "b2" then Content 4 2 3 1 0 0 0 0 0 0
  else Content 2 1 2 3 2 0 2 0 0 (-1).
Definition gx_w (c : chain_def) : symbol := weight_sym sx_tl c (gx_x c).
Definition gx_dyn : chain_def -> defexpr := dynamics_value gx_model sx_tl.
Lemma gx_describes : describes_states (fun n => n) gx_model gx_dist gx_s 1.
Proof.
  constructor.
  - exists []. reflexivity.
  - split; [reflexivity|]. exists 2. split; [lia|]. split; reflexivity.
  - reflexivity.
  - intros x I. destruct I as [<-|[<-|[<-|[]]]]; [exists 2|exists 0|exists 0]; (split; [lia|]); split; reflexivity.
  - split; [cbn; auto|]. exists [It 2; It 3]. left. reflexivity.
Qed.
Lemma gx_good c : In c gx_chains -> has_content c (gx_x c) /\ complete_chain gx_model c.
Proof.
  intros [<-|[<-|[<-|[]]]].
  - split; [apply sx_content; [perm|left; auto|left; auto]|]. split; [intros p [<-|[]]|intros v [<-|[<-|[]]]; left; reflexivity].
    eexists. split; [fn (@nil func_def) (skipn 1 gx_functions)|left; split; [reflexivity|numbers]].
  - split; [apply sx_content; [perm|left; auto|left; auto]|]. split; [intros p [<-|[]]|intros v [<-|[<-|[]]]; left; reflexivity].
    eexists. split; [fn (@nil func_def) (skipn 1 gx_functions)|left; split; [reflexivity|numbers]].
  - split; [apply sx_content; [perm|left; auto|right; cbn; auto]|]. split; [intros p [<-|[]]|intros v [<-|[<-|[]]]; left; reflexivity].
    eexists. split; [fn (firstn 1 gx_functions) (@nil func_def)|left; split; [reflexivity|numbers]].
Qed.
Lemma gx_definition : helicity_definition gx_model gx_dist gx_s 1 sx_tl None gx_x gx_w gx_dyn.
Proof. exact (proj1 (complete_helicity gx_model gx_dist gx_s 1 sx_tl gx_describes gx_x gx_good)). Qed.
Lemma gx_weights : weights_only gx_w gx_dyn gx_chains.
Proof. exact (builtin_weights gx_model gx_dist gx_s 1 sx_tl gx_x gx_w gx_dyn gx_definition). Qed.
Lemma gx_formulate : exists M, SerAmplitude.formulate gx_model true sx_tl None = Ok M.
Proof. exact (serial_total gx_model gx_dist gx_s 1 sx_tl gx_describes gx_x true gx_good). Qed.
(** Without the second chain *)
Definition gx_keep (c : chain_def) : bool := negb (eqb (cd_name c) "b2").
Lemma gx_separated : separated gx_x gx_chains 1 gx_keep [-2; 2].
Proof.
  intros c h [<-|[<-|[<-|[]]]]; unfold gives; cbn; intros [->|[-> N]]; cbn; auto; try contradiction; intros [Q|[Q|[]]]; discriminate Q.
Qed.
Definition gx_base (off : bool) (y : symbol) : C := if off && eqb y (gx_w gx_Z) then RtoC 0 else if eqb (sassume y) ANonneg then ga_base y else RtoC 1.
Lemma gx_scaled : weights_scaled gx_w gx_chains (kept gx_keep) (gx_base false) (gx_base true).
Proof.
  split.
  - intros c [<-|[<-|[<-|[]]]]; unfold kept, gx_base; cbn -[RtoC Cmult]; ring.
  - intros y N. unfold gx_base. cbn [andb]. destruct (eqb y (gx_w gx_Z)) eqn:E; [|reflexivity].
    exfalso. apply N. exists gx_Z. split; [right; left; reflexivity|exact (proj1 (Prelude.eqb_eq _ _) E)].
Qed.
Lemma gx_point off : physical (fun y => Re (gx_base off y)) /\ nonsingular (fun y => Re (gx_base off y)) /\ mass_at (fun y => Re (gx_base off y)) 1 = 0%R.
Proof.
  pose proof ga_physical as P. pose proof ga_nonsingular as N. split; [|split]; [| |destruct off; reflexivity].
  - destruct P as (p1 & p2 & p3 & P). exists p1, p2, p3. destruct off; exact P.
  - destruct off; exact N.
Qed.
Lemma gx_example : helicity_definition gx_model gx_dist gx_s 1 sx_tl None gx_x gx_w gx_dyn /\ weights_only gx_w gx_dyn gx_chains /\
  physical (fun y => Re (gx_base false y)) /\ nonsingular (fun y => Re (gx_base false y)) /\ mass_at (fun y => Re (gx_base false y)) 1 = 0%R /\
  weights_scaled gx_w gx_chains (kept gx_keep) (gx_base false) (gx_base true) /\ separated gx_x gx_chains 1 gx_keep [-2; 2] /\
  exists M, SerAmplitude.formulate gx_model true sx_tl None = Ok M /\ forall cpl, exists I : Z -> R,
    full_value (at_point (m_variables M) (gx_base false) cpl) M = RtoC (I (-2)%Z + I 0%Z + I 2%Z)%R /\
    full_value (at_point (m_variables M) (gx_base true) cpl) M = RtoC (I (-2)%Z + I 2%Z)%R.
Proof.
  destruct (gx_point false) as (P & N & M0). destruct gx_formulate as (M & F).
  split; [exact gx_definition|]. split; [exact gx_weights|]. split; [exact P|]. split; [exact N|]. split; [exact M0|]. split; [exact gx_scaled|].
  split; [exact gx_separated|]. exists M. split; [exact F|]. intros cpl.
  destruct (massless_parts gx_model gx_dist gx_s 1 sx_tl None gx_x gx_w gx_dyn gx_definition true M F gx_weights (gx_base false) cpl 1 P N ltac:(lia) M0) as (I & _ & Q).
  exists I. split.
  - rewrite (Q (gx_base false) (fun _ => true) [-2; 0; 2]).
    + f_equal. change (helicities (p_spin (gx_s 1))) with [-2; 0; 2]. cbn -[Rplus]. ring.
    + split; [intros c _; unfold kept; ring|reflexivity].
    + intros c h [<-|[<-|[<-|[]]]]; unfold gives; cbn; intros [->|[-> K]]; cbn; auto; contradiction.
  - rewrite (Q (gx_base true) gx_keep [-2; 2] gx_scaled gx_separated).
    f_equal. change (helicities (p_spin (gx_s 1))) with [-2; 0; 2]. cbn -[Rplus]. ring.
Qed.
