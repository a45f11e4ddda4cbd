(** Concrete cases for the properties of the Breit-Wigner builder. *)
From Coq Require Import String ZArith QArith Qcanon List Bool Reals Permutation Lia Lra.
From Coquelicot Require Import Complex.
From Verif Require Import DecayProofs.
From Verif Require Import Prelude Spin Decay Expr CExpr Builder SpecDPD SpecBuilder Dynamics SpecDynamics Sums CExprFacts
  BuilderFacts BuilderProofs BuilderExamples LineshapeFacts DynamicsProofs LineshapeProofs.
Import ListNotations.
Local Open Scope string_scope.
Local Open Scope Z_scope.
Local Open Scope list_scope.

(** all eight settings for a P-wave resonance *)
Lemma ff_all w : bw_phsp_factor w = phase_space_factor -> exists e, bw_call w ff_chain = Ok e.
Proof.
  intros _. apply (proj1 (c36_total w _ _ _ _ _ _ _ _ ff_iso)). split; discriminate.
Qed.
(** a model with an energy-dependent width and form factors for the L(1405) and no dynamics for the D(1232) *)
Definition bx_w : bw_builder := BWBuilder true true true phase_space_factor.
Definition bx_builder : builder :=
  match mk_builder ex_decay (MinBool false) false with
  | Ok b => match builder_register b (IdName "L(1405)") (bw_call bx_w) with Ok b => b | Err _ => b end
  | Err _ => Builder ex_decay (mk_configurator ex_decay) false false false
  end.
Definition bx_dyn (c : chain) : defexpr :=
  if eqb c ex_chain then match bw_call bx_w c with Ok e => e | Err _ => de_unit end else de_unit.
Lemma bx_dynamics : dynamics_of bx_builder bx_dyn.
Proof.
  intros c H. destruct H as [<-|[<-|[]]]; (split; [|vm_compute; reflexivity]);
    eexists; (split; [vm_compute; reflexivity|vm_compute; reflexivity]).
Qed.
Lemma bx_bw : breit_wigner_dynamics ex_decay bx_dyn.
Proof.
  intros c H. destruct H as [<-|[<-|[]]].
  - right. exists bx_w. split; [exact phase_space_factor_closed|vm_compute; reflexivity].
  - left. vm_compute. reflexivity.
Qed.
Lemma bx_two_body : two_body_resonances ex_decay.
Proof. intros c H. destruct H as [<-|[<-|[]]]; vm_compute; eauto 10. Qed.
Lemma bx_latex : latex_determines ex_decay.
Proof. intros c c' H H'. destruct H as [<-|[<-|[]]], H' as [<-|[<-|[]]]; vm_compute; congruence. Qed.
Lemma bx_formulate : exists m, formulate bx_builder None false false = Ok m.
Proof.
  apply (c63 bx_builder ex_st bx_dyn).
  - exact ex_std.
  - exact bx_dynamics.
  - intros c Hc. apply ex_ls. exact Hc.
  - left. split; auto. vm_compute. discriminate.
Qed.
(** the values for C38: m = 1, G = 1/2, massless P-wave decay products, radius 1 *)
Definition lx_env (s m G : R) : env :=
  Env (fun x => if String.eqb (sname x) "s" then RtoC s
                else if String.eqb (sname x) "m" then RtoC m
                else if String.eqb (sname x) "G" then RtoC G
                else RtoC 0) (fun _ _ => RtoC 0).
Definition lx (n : string) : cexpr := CVar (Sym n ANonneg).
Lemma lx_form_factor : form_factor 1 (RtoC 1 * RtoC 1)%C (RtoC 0) (RtoC 0) (RtoC 1) <> RtoC 0.
Proof.
  rewrite <- RtoC_mult. rewrite (form_factor_1 (/ 4)); [|lra|rewrite breakup_massless, <- !RtoC_mult; f_equal; field].
  apply RtoC_neq. apply Rgt_not_eq. apply sqrt_lt_R0. lra.
Qed.
Lemma lx_phsp : two_body_phsp (RtoC 1 * RtoC 1)%C (RtoC 0) (RtoC 0) <> RtoC 0.
Proof.
  rewrite <- RtoC_mult. unfold two_body_phsp. rewrite breakup_massless, !csqrt_nonneg by lra.
  replace (1 * 1)%R with 1%R by ring. rewrite sqrt_1. unfold Cdiv. rewrite <- !RtoC_mult, Cinv_RtoC, <- RtoC_mult.
  apply RtoC_neq. apply Rgt_not_eq. rewrite Rinv_1. assert (0 < sqrt (1 / 4))%R by (apply sqrt_lt_R0; lra). lra.
Qed.
