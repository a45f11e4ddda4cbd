(** Examples for C147 *)
From Coq Require Import Ascii String ZArith QArith Qcanon List Bool Reals Lra Lia Permutation.
From Coquelicot Require Import Coquelicot.
From Verif Require Import Prelude Spin Decay Expr CExpr SpecKin SpecDPD Builder SpecBuilder Dynamics SpecDynamics SpecUnits SpecRelabel SpecFinite
  BoundedProofs SpecContinuity ContinuityFacts SpecObs SpecBounded SpecNormal NormalProofs NormalExamples AnglesProofs RefRefuted BuilderExamples ChainExamples RelabelExamples RelabelShapeExamples
  ObsExamples FiniteExamples UnitExamples SpecTransfer.
From Verif Require Import SerFormat SpecSerial SerExamples SpecSerPoints SpecSerRelabel SerPointExamples SpecSerFinite SerFiniteExamples SpecSerBounded SerBoundedExamples SerRelabelExamples SerWeightExamples.
From Verif Require SerAmplitude.
Import ListNotations.
Local Open Scope R_scope.

(** ** Units *)
Definition tx_base (t : R) (x : symbol) : C :=
  if existsb (String.eqb (sname x)) ["m0"; "m1"; "m2"; "m3"]%string then (RtoC t * bo_base x)%C
  else if existsb (String.eqb (sname x)) ["sigma1"; "sigma2"; "sigma3"]%string then (RtoC (t * t) * bo_base x)%C
  else if String.eqb (String.substring 0 1 (sname x)) "R" then (RtoC (/ t) * bo_base x)%C
  else (RtoC t * bo_base x)%C.
Lemma tx_units t : in_units ob_decay t bo_base (tx_base t).
Proof.
  split; [|split].
  - intros i [<-|[<-|[<-|[<-|[]]]]]; reflexivity.
  - intros i [<-|[<-|[<-|[]]]]; reflexivity.
  - intros. repeat split; reflexivity.
Qed.
Lemma tx_regular ed : regular_dynamics ob_decay (ux_dyn ed) bo_base.
Proof.
  intros c Hc. right. exists (ux_w ed). split; [reflexivity|]. split; [exact (ux_call ed c Hc)|].
  destruct (ob_chain c Hc) as (i & j & Iso). do 7 eexists. split; [exact Iso|].
  split; [intros x _; reflexivity|]. unfold between_masses.
  assert (M : bo_base (resonance_mass (ch_resonance c)) = RtoC 3) by (destruct Hc as [<-|[<-|[]]]; reflexivity).
  assert (G : bo_base (resonance_width (ch_resonance c)) = RtoC 3) by (destruct Hc as [<-|[<-|[]]]; reflexivity).
  rewrite M, G. change (bo_base resonance_radius) with (RtoC 3).
  change (bo_base (outer_mass (id_st 0))) with (RtoC 6). change (bo_base (outer_mass (id_st 1))) with (RtoC 1).
  change (bo_base (outer_mass (id_st 2))) with (RtoC 1). change (bo_base (outer_mass (id_st 3))) with (RtoC 1).
  cbn [Re RtoC fst]. lra.
Qed.
Lemma tx_threshold ed : threshold_regular ob_decay (ux_dyn ed) bo_base.
Proof.
  intros c w Hc _ p0 r a b k i j (_ & _ & P).
  assert (Z0 : forall s : state, In (st_index s) [1; 2; 3]%Z -> Re (bo_base (outer_mass s)) = 1).
  { intros s Hs. unfold outer_mass. destruct Hs as [<-|[<-|[<-|[]]]]; reflexivity. }
  rewrite !Z0 by (apply (Permutation_in _ P); cbn; tauto). split; [lra|]. intros _. right. lra.
Qed.
Lemma tx_rate ed m cpl i j k : Builder.formulate (ux_b ed) None false false = Ok m -> cyclic i j k ->
  exists N, integrates_to bo_base (intensity_at m cpl) i j k N.
Proof.
  intros F Cy. destruct (c142_bw (ux_b ed) id_st (ux_dyn ed) None false false m bo_base cpl i j k ob_std (ux_dynamics ed) (fun _ => ob_plain) F Cy
    (proj1 bo_physical) (proj2 bo_physical) (tx_regular ed) (tx_threshold ed)) as (N & HN & _). exists N. exact HN.
Qed.

(** ** Labels: models without dynamics *)
Lemma constant_rate b s ref cl uc m base cpl i j k : std_decay (b_decay b) s -> dynamics_of b (fun _ => de_unit) ->
  (b_prod_helicity b = false -> plain_resonances (b_decay b)) -> Builder.formulate b ref cl uc = Ok m -> cyclic i j k -> open_phase_space base ->
  exists N, integrates_to base (intensity_at m cpl) i j k N.
Proof.
  intros D Y P F Cy Op. destruct (c142 b s (fun _ => de_unit) ref cl uc m base cpl i j k D Y P F Cy Op) as (N & HN & _); [|exists N; exact HN].
  intros c _. split; [intros s1 s2 s3; reflexivity|]. intros t0 _. split; cbn -[IZR]; apply filterlim_const.
Qed.
Lemma tx_open : open_phase_space rx_base.
Proof. apply open_of_physical; [eexists _, _, _; exact AnglesProofs.ex_momenta|exact AnglesProofs.ex_nonsingular]. Qed.
Lemma tx_open_id : open_phase_space (id_base 72 24).
Proof. exact (open_of_physical (id_base 72 24) (proj1 id_physical) (proj2 id_physical)). Qed.
Lemma tx_cyclic : exists m m', Builder.formulate (dl_b dl_decay [] false) (Some 2%Z) false false = Ok m /\
  Builder.formulate (dl_b rl_decay [] false) (Some 3%Z) false false = Ok m' /\
  relabelled_point rl_turn rx_base (fun x => RtoC (rl_env x)) /\ open_phase_space rx_base /\
  forall cpl, exists N, integrates_to rx_base (intensity_at m cpl) 1 2 3 N.
Proof.
  assert (F : exists m, Builder.formulate (dl_b dl_decay [] false) (Some 2%Z) false false = Ok m) by (vm_compute; eexists; reflexivity).
  assert (F' : exists m, Builder.formulate (dl_b rl_decay [] false) (Some 3%Z) false false = Ok m) by (vm_compute; eexists; reflexivity).
  destruct F as [m F], F' as [m' F']. exists m, m'. repeat (split; [assumption|]). split; [exact RelabelExamples.rl_point|]. split; [exact tx_open|].
  intros cpl. apply (constant_rate (dl_b dl_decay [] false) ex_st (Some 2%Z) false false m rx_base cpl 1 2 3).
  - apply dl_std.
  - apply be_dynamics; simpl; auto.
  - intros _. apply be_plain; simpl; auto.
  - exact F.
  - cbn; tauto.
  - exact tx_open.
Qed.
Lemma tx_exchanged : exists m, Builder.formulate (dl_b id_two [] true) (Some 3%Z) false false = Ok m /\
  relabelled_point id_swap (id_base 72 24) (id_base 24 72) /\ open_phase_space (id_base 72 24) /\
  forall cpl, exists N, integrates_to (id_base 72 24) (intensity_at m cpl) 1 2 3 N.
Proof.
  assert (F : exists m, Builder.formulate (dl_b id_two [] true) (Some 3%Z) false false = Ok m) by (vm_compute; eexists; reflexivity).
  destruct F as [m F]. exists m. split; [exact F|]. split; [exact id_point|]. split; [exact tx_open_id|].
  intros cpl. apply (constant_rate (dl_b id_two [] true) id_st (Some 3%Z) false false m (id_base 72 24) cpl 1 2 3).
  - apply id_std.
  - apply id_dynamics.
  - intros X. discriminate X.
  - exact F.
  - cbn; tauto.
  - exact tx_open_id.
Qed.
Lemma tx_identical : exists m, Builder.formulate (dl_b id_one [] false) (Some 3%Z) false false = Ok m /\
  two_body_resonances id_one /\ same_lineshapes id_swap id_one (fun _ => de_unit) (fun _ => de_unit) /\
  (forall n, In n [1; 2; 3]%Z -> id_base 72 24 (mass_at (id_swap n)) = id_base 72 24 (mass_at n)) /\ open_phase_space (id_base 72 24) /\
  forall cpl, exists N, integrates_to (id_base 72 24) (intensity_at m cpl) 1 2 3 N.
Proof.
  assert (F : exists m, Builder.formulate (dl_b id_one [] false) (Some 3%Z) false false = Ok m) by (vm_compute; eexists; reflexivity).
  destruct F as [m F]. exists m. split; [exact F|]. split; [apply rb_two_body; cbn; auto|]. split; [intros c _; left; split; reflexivity|].
  split; [intros n [<-|[<-|[<-|[]]]]; reflexivity|]. split; [exact tx_open_id|].
  intros cpl. apply (constant_rate (dl_b id_one [] false) id_st (Some 3%Z) false false m (id_base 72 24) cpl 1 2 3).
  - apply id_std.
  - apply id_dynamics.
  - intros _. exact id_plain.
  - exact F.
  - cbn; tauto.
  - exact tx_open_id.
Qed.

(** ** Serialised models *)
Definition tx_serial (t : R) (y : symbol) : C :=
  match sname y with
  | String "c" _ => nx_base y
  | String "s" _ => (RtoC (t * t) * nx_base y)%C
  | String "R" _ => (RtoC (/ t) * nx_base y)%C
  | _ => (RtoC t * nx_base y)%C
  end.
Lemma tx_serial_units t : serial_units sx_tl px_w px_chains t nx_base (tx_serial t).
Proof.
  split; [split|].
  - intros n [<-|[<-|[<-|[<-|[]]]]]; reflexivity.
  - intros k [<-|[<-|[<-|[]]]]; reflexivity.
  - intros c [<-|[<-|[<-|[]]]]; (split; [reflexivity|]); (split; [intros y [[->|(n & [->| ->])]|[->|(n & ->)]]; reflexivity|intros y [->| ->]; reflexivity]).
Qed.
Lemma tx_open_serial : open_phase_space nx_base.
Proof. exact (open_of_physical _ (proj1 nx_physical) (proj2 nx_physical)). Qed.
Lemma tx_serial_rate M cl cpl i j k : SerAmplitude.formulate px_model cl sx_tl None = Ok M -> cyclic i j k ->
  exists N, integrates_to nx_base (intensity_at M cpl) i j k N.
Proof.
  intros F Cy. destruct (c142_serial_lineshapes px_model _ sx_s 1 sx_tl sx_x px_w px_dyn cl M nx_base cpl i j k px_definition F Cy
    (proj1 nx_physical) (proj2 nx_physical) nx_threshold) as (N & HN & _). exists N. exact HN.
Qed.
Lemma tx_open_labels : open_phase_space px_base.
Proof. exact (open_of_physical _ (proj1 px_physical) (proj2 px_physical)). Qed.
