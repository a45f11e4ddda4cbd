(** A decay with Breit-Wigner lineshapes, in different units of mass (C98) *)
From Coq Require Import String ZArith QArith Qcanon List Bool Reals Lia Lra Permutation.
From Coquelicot Require Import Complex.
From Verif Require Import Prelude Spin Decay Expr CExpr SpecKin SpecDPD Builder SpecBuilder Dynamics SpecDynamics SpecRelabel
  BuilderProofs DynamicsProofs LineshapeProofs LineshapeFacts BuilderExamples RelabelExamples RelabelShapeExamples SpecObs ObsExamples
  SpecFinite FiniteExamples SpecUnits.
Import ListNotations.
Local Open Scope string_scope.
Local Open Scope Z_scope.
Local Open Scope list_scope.

Definition ux_w (ed : bool) : bw_builder := BWBuilder ed false true phase_space_factor.
Definition ux_dyn (ed : bool) (c : chain) : defexpr := match bw_call (ux_w ed) c with Ok e => e | Err _ => de_unit end.
Definition ux_b (ed : bool) : builder := dl_b ob_decay (map (fun c => (IdChain c, bw_call (ux_w ed))) (d_chains ob_decay)) false.
Lemma ux_call ed c : In c (d_chains ob_decay) -> bw_call (ux_w ed) c = Ok (ux_dyn ed c).
Proof. destruct ed; intros [<-|[<-|[]]]; lazy; reflexivity. Qed.
Lemma ux_dynamics ed : dynamics_of (ux_b ed) (ux_dyn ed).
Proof.
  intros c Hc. split.
  - exists (bw_call (ux_w ed)). split; [exact (ob_get _ c Hc)|exact (ux_call ed c Hc)].
  - destruct (ob_isobar c Hc) as (p0 & r & a & b & k & i & j & Iso).
    exact (proj1 (c36_symbols (ux_w ed) _ _ _ _ _ _ _ _ _ phase_space_factor_closed Iso (ux_call ed c Hc))).
Qed.
Lemma ux_formulate ed : exists m, formulate (ux_b ed) None false false = Ok m.
Proof.
  apply (c63 (ux_b ed) id_st (ux_dyn ed)).
  - exact ob_std.
  - exact (ux_dynamics ed).
  - intros c [<-|[<-|[]]]; split; intros _; vm_compute; discriminate.
  - left. split; auto. vm_compute. discriminate.
Qed.
Lemma ux_uniform ed : uniform_dynamics ob_decay (ux_dyn ed) ed.
Proof.
  intros c Hc. right. destruct (ob_chain c Hc) as (i & j & Iso). exists (ux_w ed). do 7 eexists. split; [reflexivity|].
  split; [exact (ux_call ed c Hc)|]. split; [exact Iso|]. split; [reflexivity|]. left. reflexivity.
Qed.
(** the values of fe_base in MeV instead of GeV *)
Definition ux_base (x : symbol) : C :=
  if existsb (String.eqb (sname x)) ["m0"; "m1"; "m2"; "m3"] then (RtoC 1000 * fe_base x)%C
  else if existsb (String.eqb (sname x)) ["sigma1"; "sigma2"; "sigma3"] then (RtoC (1000 * 1000) * fe_base x)%C
  else if String.eqb (String.substring 0 1 (sname x)) "R" then (RtoC (/ 1000) * fe_base x)%C
  else (RtoC 1000 * fe_base x)%C.
Lemma ux_units : in_units ob_decay 1000 fe_base ux_base.
Proof.
  split; [|split].
  - intros i [<-|[<-|[<-|[<-|[]]]]]; reflexivity.
  - intros i [<-|[<-|[<-|[]]]]; reflexivity.
  - intros. repeat split; reflexivity.
Qed.
