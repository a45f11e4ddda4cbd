(** An example for C132 *)
From Coq Require Import String ZArith QArith Qcanon List Bool Reals Lia Lra Permutation.
From Coquelicot Require Import Complex.
From Verif Require Import DecayProofs.
From Verif Require Import Prelude Spin Decay Expr Angles Sums Wigner CExpr SpecKin SpecDPD Builder AnglesFacts AnglesProofs ModelFacts RefFacts
  RefRefuted BuilderExamples SpecWigner WignerProofs WignerUnique SpecCovariant CovariantProofs.
Import ListNotations.
Local Open Scope R_scope.

Lemma ex_masses : forall i, (1 <= i <= 3)%Z -> 0 < mass_at (fun x => Re (rx_base x)) i.
Proof. exact (proj1 (proj2 (proj2 ex_frames))). Qed.
Definition ex_th (k : Z) : R := rv (fun x => Re (rx_base x)) (formulate_scattering_angle (next_label k) (next_label (next_label k))).
Definition ex_hat (r k : Z) : R := rv (fun x => Re (rx_base x)) (formulate_theta_hat_angle k r).
Lemma ex_covariant cpl : exists m T, formulate ex_b (Some 3%Z) false false = Ok m /\ resolve_reference (b_decay ex_b) (Some 3%Z) = Ok 3%Z /\
  std_decay (b_decay ex_b) ex_st /\ physical (fun x => Re (rx_base x)) /\ nonsingular (fun x => Re (rx_base x)) /\
  (forall i, (1 <= i <= 3)%Z -> 0 < mass_at (fun x => Re (rx_base x)) i) /\
  (forall k, (1 <= k <= 3)%Z -> scattering_angle (fun x => Re (rx_base x)) k (ex_th k)) /\
  (forall k, (1 <= k <= 3)%Z -> exists x e, formulate_theta_hat_angle k 3 = Ok (x, e) /\ ex_hat 3 k = reval (fun x => Re (rx_base x)) e) /\
  (forall k l, In k (get_subsystem_ids (b_decay ex_b)) -> helicity_tuple ex_st l ->
     amp_value (at_point (m_variables m) rx_base cpl) m k l = in_frames ex_st (chain_frames (fun x => Re (rx_base x)) k (ex_th k)) (T k) l).
Proof.
  assert (PH : physical (fun x => Re (rx_base x))) by (eexists _, _, _; exact ex_momenta).
  destruct (formulate ex_b (Some 3%Z) false false) as [m|] eqn:F; [|exfalso; vm_compute in F; discriminate F].
  destruct (proj1 (c132_exists (fun x => Re (rx_base x)) ex_st ex_th
    (amp_value (at_point (m_variables m) rx_base cpl) m) PH ex_masses)) as [T HT].
  assert (SD : std_decay (b_decay ex_b) ex_st) by exact ex_std.
  exists m, T. repeat (split; [first [reflexivity|exact SD|exact PH|exact ex_nonsingular|exact ex_masses]|]). split; [|split].
  - intros k Hk. unfold scattering_angle, ex_th. destruct (in123 k Hk) as [-> | [-> | ->]]; eexists _, _; split; reflexivity.
  - intros k Hk. unfold ex_hat. destruct (in123 k Hk) as [-> | [-> | ->]]; eexists _, _; split; reflexivity.
  - intros k l Hk Hl. apply HT; [|exact Hl]. pose proof (ids_range ex_b ex_st SD k Hk) as I. simpl in I. lia.
Qed.
