(** A narrow resonance of a model file (example for C159) *)
From Coq Require Import String ZArith QArith Qcanon List Bool Reals Lra Permutation.
From Coquelicot Require Import Complex.
From Verif Require Import Prelude Spin Decay Expr SpecKin CExpr Builder AnglesProofs RefRefuted SpecDPD SpecFinite SpecObs ObsKin ObsProofs SpecNormal NormalKin NormalProofs SpecBounded
  SerFormat SerDynamics SpecSerial SerTotal SpecWeights SerWeights SerExamples SpecSerPoints SerPointExamples SerFiniteExamples
  SpecSerEffect SpecSerChain SerWavesExamples SpecSerNarrow.
From Verif Require SerAmplitude.
Import ListNotations.
Local Open Scope R_scope.

(** A spin 0 resonance and one with spin 1 that has a form factor in its decay *)
Definition na_c : chain_def := sx_chain "B" "K_BW" 2 2 3 1 0 1 0 0 (sx_vertex "helicity" None None) (sx_vertex "helicity" None (Some "K_FF"%string)) 1.
Definition na_chains : list chain_def := [wv_K "A" 0; na_c].
Definition na_functions : list func_def := [sx_bw "K_BW" 1 2 1 0 1 3; sx_ff "K_FF" 1 5].
Definition na_model : model_def := sx_def na_chains na_functions.
Definition na_w (c : chain_def) : symbol := weight_sym sx_tl c (wv_x c).
Definition na_dyn : chain_def -> defexpr := dynamics_value na_model sx_tl.
Lemma na_bw c : In c na_chains -> forall p, In p (cd_propagators c) -> exists f, function_of na_model (pr_parametrization p) f /\ complete_breit_wigner f.
Proof. intros [<-|[<-|[]]] p [<-|[]]; exists (sx_bw "K_BW" 1 2 1 0 1 3); (split; [fn (@nil func_def) (tl na_functions)|split; [reflexivity|numbers]]). Qed.
Lemma na_ff : function_of na_model "K_FF" (sx_ff "K_FF" 1 5).
Proof. fn (firstn 1 na_functions) (@nil func_def). Qed.
Lemma na_good c : In c na_chains -> has_content c (wv_x c) /\ complete_chain na_model c.
Proof.
  intros I. split.
  - destruct I as [<-|[<-|[]]]; (apply sx_content; [perm|left; auto|left; auto]).
  - split; [intros p Ip; destruct (na_bw c I p Ip) as (f & A & B); exists f; auto|].
    destruct I as [<-|[<-|[]]]; intros v [<-|[<-|[]]]; try (left; reflexivity).
    right; right. exists "K_FF"%string, (sx_ff "K_FF" 1 5). split; [reflexivity|]. split; [discriminate|]. split; [exact na_ff|]. split; [reflexivity|numbers].
Qed.
Lemma na_definition : helicity_definition na_model (sx_dist na_chains) sx_s 1 sx_tl None wv_x na_w na_dyn.
Proof. exact (proj1 (complete_helicity na_model (sx_dist na_chains) sx_s 1 sx_tl (sx_describes _ _) wv_x na_good)). Qed.
Lemma na_formulate : exists M, SerAmplitude.formulate na_model true sx_tl None = Ok M.
Proof. exact (serial_total na_model (sx_dist na_chains) sx_s 1 sx_tl (sx_describes _ _) wv_x true na_good). Qed.
(** Weights 0 and 1, and a resonance of mass 17 in the decay of a particle of mass 23 to particles of masses 4, 3 and 12 *)
Definition na_base : symbol -> C :=
  with_value (with_value (with_value nx_base (na_w (wv_K "A" 0)) (RtoC 0)) (na_w na_c) (RtoC 1)) (chain_mass sx_tl na_c) (RtoC 17).
Lemma na_example : NoDup na_chains /\ In na_c na_chains /\ breit_wigner_chain na_model na_c 1 /\ resonance_possible (wv_x na_c) /\ final_possible sx_s (wv_x na_c) /\
  cyclic 2 3 (ct_k (wv_x na_c)) /\ open_phase_space na_base /\ only_chain na_w na_chains na_base na_c /\ na_base (chain_mass sx_tl na_c) = RtoC 17 /\
  lower_limit na_base 1 < 17 * 17 < upper_limit na_base 1 /\
  (exists lo hi, lo < hi /\ dalitz_range (with_sigma na_base 1 (17 * 17)) 2 3 1 lo hi) /\
  (real_at na_base (mass_at 2) /\ real_at na_base (mass_at 3) /\ real_at na_base radius_sym) /\ 0 < Re (na_base radius_sym) /\ 0 < lower_limit na_base 1 /\
  Cmod (na_base (na_w na_c)) = 1.
Proof.
  assert (Cy : cyclic 2 3 1) by (cbn; auto).
  assert (Op : open_phase_space na_base) by exact (open_of_physical _ (proj1 nx_physical) (proj2 nx_physical)).
  assert (Lm : lower_limit na_base 1 < 17 * 17 < upper_limit na_base 1) by (cbn; lra).
  split. { repeat constructor; cbn; try tauto. intros [E|[]]. apply (f_equal cd_name) in E. discriminate E. }
  split; [right; left; reflexivity|].
  split.
  { split; [exact (na_bw na_c (or_intror (or_introl eq_refl)))|]. split.
    - intros v k pair [<-|[<-|[]]] [E|E]; try discriminate E; left; reflexivity.
    - intros v a b [<-|[<-|[]]] E; [discriminate E|]. right. exists "K_FF"%string, (sx_ff "K_FF" 1 5). split; [reflexivity|]. split; [discriminate|].
      split; [exact na_ff|]. split; [reflexivity|]. split; [numbers|reflexivity]. }
  split; [split; apply memb_In; reflexivity|].
  split. { repeat split; try (apply memb_In; reflexivity); intros (A & B & C); discriminate. }
  split; [exact Cy|]. split; [exact Op|].
  split; [intros c' [<-|[<-|[]]] N; [reflexivity|contradiction]|]. split; [reflexivity|]. split; [exact Lm|].
  split. { destruct (line_ends_at na_base 2 3 1 Cy Op (17 * 17) Lm) as [L Rg]. eexists. eexists. split; [exact L|exact Rg]. }
  split; [repeat split; reflexivity|]. split; [cbn; lra|]. split; [cbn; lra|].
  change (na_base (na_w na_c)) with (RtoC 1). rewrite Cmod_R. apply Rabs_pos_eq. lra.
Qed.
