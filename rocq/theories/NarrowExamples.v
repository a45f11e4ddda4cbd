(** Concrete decay for C148: one resonance of spin 1/2 with an S wave and a P wave *)
From Coq Require Import String ZArith QArith Qcanon List Bool Reals Lra Lia Permutation.
From Coquelicot Require Import Complex.
From Verif Require Import BoundedProofs Prelude Spin Decay Expr CExpr SpecKin SpecDPD Builder SpecBuilder Dynamics SpecDynamics SpecFinite DynamicsProofs
  BuilderExamples ChainExamples RelabelShapeExamples SpecObs SpecBounded SpecNormal NormalKin ObsKin SpecProjection ProjectionExamples NormalExamples SpecNarrow.
From Verif Require LineshapeFacts.
Import ListNotations.
Local Open Scope R_scope.

Definition nw_w (ed : bool) : bw_builder := BWBuilder ed false true phase_space_factor.
Definition nw_dyn (ed : bool) (c : chain) : defexpr := match bw_call (nw_w ed) c with Ok e => e | Err _ => de_unit end.
Definition nw_b (ed : bool) : builder := dl_b dl_decay (map (fun c => (IdChain c, bw_call (nw_w ed))) (d_chains dl_decay)) false.
Definition nw_r : particle := ch_resonance (dl_chain 0).
Lemma nw_isobar c : In c (d_chains dl_decay) -> exists p0 a b k i j, isobar_chain c p0 nw_r a b k i j.
Proof.
  intros [<-|[<-|[]]]; do 6 eexists;
    (split; [cbn; first [left; reflexivity|right; reflexivity]|split; [reflexivity|]]);
    apply NoDup_Permutation; try (cbn; repeat constructor; cbn; intuition discriminate); cbn; tauto.
Qed.
Lemma nw_call ed c : In c (d_chains dl_decay) -> bw_call (nw_w ed) c = Ok (nw_dyn ed c).
Proof. intros [<-|[<-|[]]]; unfold nw_dyn; destruct ed; lazy; reflexivity. Qed.
Lemma nw_dynamics ed : dynamics_of (nw_b ed) (nw_dyn ed).
Proof.
  intros c Hc. split.
  - exists (bw_call (nw_w ed)). split; [exact (rb_get dl_decay _ c (or_introl eq_refl) Hc)|exact (nw_call ed c Hc)].
  - destruct (nw_isobar c Hc) as (p0 & a & b & k & i & j & Iso).
    exact (proj1 (c36_symbols (nw_w ed) _ _ _ _ _ _ _ _ _ LineshapeFacts.phase_space_factor_closed Iso (nw_call ed c Hc))).
Qed.
Lemma nw_formulate ed : exists m, formulate (nw_b ed) (Some 2%Z) false true = Ok m.
Proof. destruct ed; eexists; lazy; reflexivity. Qed.
Lemma nw_example (ed : bool) : exists m lo hi, std_decay (b_decay (nw_b ed)) ex_st /\ dynamics_of (nw_b ed) (nw_dyn ed) /\ plain_resonances (b_decay (nw_b ed)) /\
  formulate (nw_b ed) (Some 2%Z) false true = Ok m /\ b_prod_helicity (nw_b ed) = false /\ b_dec_helicity (nw_b ed) = false /\
  (forall c, In c (d_chains (b_decay (nw_b ed))) -> allowed_chain c) /\ one_subsystem (b_decay (nw_b ed)) 2 /\ cyclic 3 1 2 /\
  NoDup (map wave_of (d_chains (b_decay (nw_b ed)))) /\ one_breit_wigner (b_decay (nw_b ed)) (nw_w ed) nw_r (nw_dyn ed) /\
  open_phase_space bo_base /\ bo_base (resonance_mass nw_r) = RtoC 3 /\ lower_limit bo_base 2 < 3 * 3 < upper_limit bo_base 2 /\
  dalitz_range (with_sigma bo_base 2 (3 * 3)) 3 1 2 lo hi /\ lo < hi /\
  real_at bo_base (mass_at 3) /\ real_at bo_base (mass_at 1) /\ real_at bo_base resonance_radius /\ 0 < Re (bo_base resonance_radius) /\ 0 < lower_limit bo_base 2.
Proof.
  destruct pj_couplings as (m' & D & _ & PR & _ & Al & One & Cy & ND & _). destruct (nw_formulate ed) as (m & F).
  assert (Rg : lower_limit bo_base 2 < 3 * 3 < upper_limit bo_base 2).
  { unfold lower_limit, upper_limit, particle_mass. change (Re (bo_base (Sym "m0" ANonneg))) with 6. cbn. lra. }
  destruct (line_range_ex _ 3 1 2 Cy (line_between bo_base 3 1 2 Cy bo_open (3 * 3) Rg)) as (lo & hi & L & Dr).
  exists m, lo, hi. split; [exact D|]. split; [apply nw_dynamics|]. split; [exact PR|]. split; [exact F|]. do 2 (split; [reflexivity|]).
  split; [exact Al|]. split; [exact One|]. split; [exact Cy|]. split; [exact ND|]. split.
  { split; [reflexivity|]. split; [reflexivity|]. intros c Hc. split; [exact (nw_isobar c Hc)|exact (nw_call ed c Hc)]. }
  split; [exact bo_open|]. split; [reflexivity|]. split; [exact Rg|]. split; [exact Dr|]. split; [exact L|].
  do 3 (split; [reflexivity|]). split; [change (Re (bo_base resonance_radius)) with 3; lra|].
  unfold lower_limit, particle_mass. cbn. lra.
Qed.
