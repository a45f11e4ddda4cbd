(** Rates of models with other conventions (proofs for C147) *)
From Coq Require Import String ZArith QArith Qcanon List Bool Reals Lra Lia Permutation.
From Coquelicot Require Import Complex.
From Verif Require Import Prelude Decay Expr CExpr SpecKin SpecDPD Builder SpecBuilder Dynamics SpecDynamics SpecUnits SpecRelabel
  SpecTurn RefFacts BuilderProofs UnitFacts RelabelProofs RelabelShapes SpecObs SpecBounded SpecSmooth SpecNormal NormalKin NormalFacts SpecTransfer TransferFacts.
From Verif Require Import SerFormat SpecSerial SpecRename SpecSerPoints SpecSerRelabel SerPoints SerRelabelDef SpecWeights SerWeights SerSymbols.
From Verif Require SerAmplitude.
Import ListNotations.
Local Open Scope R_scope.

Lemma transferred (base base' : symbol -> C) (I I' : (symbol -> C) -> R) (p : Z -> Z) (t q : R) (i j k i' j' k' : Z) (turn : bool) :
  0 < t -> relabelling p -> ordered turn p -> cyclic i j k -> open_phase_space base ->
  (forall n, In n [0; 1; 2; 3]%Z -> Re (base' (SpecObs.mass_at (p n))) = t * Re (base (SpecObs.mass_at n))) ->
  (i', j', k') = (if turn then (p j, p i, p k) else (p i, p j, p k)) ->
  (forall s1 s2 s3 s1' s2' s3', on_dalitz_plot base s1 s2 s3 -> same_place t p s1 s2 s3 s1' s2' s3' ->
     I' (at_sigmas base' s1' s2' s3') = q * I (at_sigmas base s1 s2 s3)) ->
  same_rates t q base I i j k base' I' i' j' k'.
Proof.
  intros Ht Hp Ho Cy Op HM Hl HI. split.
  - exact (projection_transfer base base' I I' p t q i j k i' j' k' turn Ht Hp Ho Cy Op HM Hl HI).
  - exact (rate_transfer base base' I I' p t q i j k i' j' k' turn Ht Hp Ho Cy Op HM Hl HI).
Qed.
Lemma identity_relabelling : relabelling (fun n => n) /\ ordered false (fun n => n).
Proof. split; [split; [reflexivity|apply Permutation_refl]|cbn; tauto]. Qed.

Lemma sigmas_mass base s1 s2 s3 n : In n [0; 1; 2; 3]%Z -> at_sigmas base s1 s2 s3 (SpecObs.mass_at n) = base (SpecObs.mass_at n).
Proof. intros [<-|[<-|[<-|[<-|[]]]]]; reflexivity. Qed.
Lemma sigmas_sigma base s1 s2 s3 n : In n [1; 2; 3]%Z -> at_sigmas base s1 s2 s3 (SpecObs.sigma_at n) = RtoC (sigma_value s1 s2 s3 n).
Proof. intros [<-|[<-|[<-|[]]]]; reflexivity. Qed.
Lemma sigmas_other base s1 s2 s3 y : ~ In (sname y) ["sigma1"; "sigma2"; "sigma3"]%string -> at_sigmas base s1 s2 s3 y = base y.
Proof.
  intros N. unfold at_sigmas.
  destruct (eqb y (Sym "sigma1" ANonneg)) eqn:E1; [apply (proj1 (eqb_eq _ _)) in E1; exfalso; apply N; rewrite E1; cbn; tauto|].
  destruct (eqb y (Sym "sigma2" ANonneg)) eqn:E2; [apply (proj1 (eqb_eq _ _)) in E2; exfalso; apply N; rewrite E2; cbn; tauto|].
  destruct (eqb y (Sym "sigma3" ANonneg)) eqn:E3; [apply (proj1 (eqb_eq _ _)) in E3; exfalso; apply N; rewrite E3; cbn; tauto|]. reflexivity.
Qed.
Ltac not_sigma := rewrite !sigmas_other by (cbn; intros [E|[E|[E|[]]]]; discriminate E).

(** ** Builders *)
Lemma units_point d t base base' s1 s2 s3 s1' s2' s3' : in_units d t base base' -> same_place t (fun n => n) s1 s2 s3 s1' s2' s3' ->
  in_units d t (at_sigmas base s1 s2 s3) (at_sigmas base' s1' s2' s3').
Proof.
  intros (M & S0 & P) Sp. split; [|split].
  - intros i Hi. rewrite !sigmas_mass by exact Hi. exact (M i Hi).
  - intros i Hi. rewrite !sigmas_sigma by exact Hi. rewrite (Sp i Hi). rewrite RtoC_mult. reflexivity.
  - intros c p0 r a b k i j Hc Iso. destruct (P c p0 r a b k i j Hc Iso) as (P1 & P2 & P3 & P4). unfold resonance_mass, resonance_width, resonance_radius, parent_radius in *.
    repeat split; not_sigma; assumption.
Qed.
Lemma re_real q (z : C) : Re (RtoC q * z)%C = q * Re z.
Proof. destruct z as [x y]. unfold Re, RtoC, Cmult. cbn [fst snd]. ring. Qed.
Theorem c147_units b s dyn ref cl uc m t base base' ed cpl i j k : std_decay (b_decay b) s -> dynamics_of b dyn ->
  (b_prod_helicity b = false -> plain_resonances (b_decay b)) -> Builder.formulate b ref cl uc = Ok m ->
  0 < t -> in_units (b_decay b) t base base' -> uniform_dynamics (b_decay b) dyn ed -> cyclic i j k -> open_phase_space base ->
  same_rates t (if ed then 1 else / t ^ 4) base (intensity_at m cpl) i j k base' (intensity_at m cpl) i j k.
Proof.
  intros D Y Pl F Ht Un Ud Cy Op.
  apply (transferred base base' _ _ (fun n => n) t _ i j k i j k false Ht (proj1 identity_relabelling) (proj2 identity_relabelling) Cy Op); [|reflexivity|].
  - intros n Hn. rewrite (proj1 Un n Hn). apply re_real.
  - intros s1 s2 s3 s1' s2' s3' _ Sp. unfold intensity_at.
    rewrite (c98 b s dyn ref cl uc m t (at_sigmas base s1 s2 s3) (at_sigmas base' s1' s2' s3') ed cpl D Y Pl F Ht (units_point _ t base base' _ _ _ _ _ _ Un Sp) Ud).
    rewrite re_real. f_equal. destruct ed; [reflexivity|]. f_equal. ring.
Qed.

Lemma relabelled_sigmas p base base' s1 s2 s3 s1' s2' s3' : relabelling p -> same_place 1 p s1 s2 s3 s1' s2' s3' ->
  relabelled_point p base base' -> relabelled_point p (at_sigmas base s1 s2 s3) (at_sigmas base' s1' s2' s3').
Proof.
  intros Hp Sp [M0 M]. split; [exact M0|]. intros n Hn.
  assert (Hpn : In (p n) [1; 2; 3]%Z). { destruct Hp as [_ Pm]. apply (Permutation_in _ Pm). cbn in Hn |- *. intuition congruence. }
  split.
  - change (at_sigmas base' s1' s2' s3' (SpecObs.mass_at (p n)) = at_sigmas base s1 s2 s3 (SpecObs.mass_at n)).
    rewrite !sigmas_mass by (cbn in *; tauto). exact (proj1 (M n Hn)).
  - change (at_sigmas base' s1' s2' s3' (SpecObs.sigma_at (p n)) = at_sigmas base s1 s2 s3 (SpecObs.sigma_at n)).
    rewrite !sigmas_sigma by assumption. rewrite (Sp n Hn). f_equal. ring.
Qed.
Lemma relabelled_values_sigmas p base base' s1 s2 s3 s1' s2' s3' : relabelling p -> same_place 1 p s1 s2 s3 s1' s2' s3' ->
  relabelled_values p base base' -> relabelled_values p (at_sigmas base s1 s2 s3) (at_sigmas base' s1' s2' s3').
Proof.
  intros Hp Sp [A B]. split; [exact (relabelled_sigmas p base base' _ _ _ _ _ _ Hp Sp A)|]. intros x Nx.
  rewrite !sigmas_other by (intros X; apply Nx; cbn in *; tauto). exact (B x Nx).
Qed.
Lemma relabelled_masses p base base' : relabelling p -> relabelled_point p base base' ->
  forall n, In n [0; 1; 2; 3]%Z -> Re (base' (SpecObs.mass_at (p n))) = 1 * Re (base (SpecObs.mass_at n)).
Proof.
  intros Hp [M0 M] n Hn. rewrite Rmult_1_l. f_equal. destruct Hn as [<-|Hn]; [rewrite (proj1 Hp); exact M0|exact (proj1 (M n Hn))].
Qed.

Theorem c147_cyclic b b' p s s' dyn dyn' uc ref cl m ref' cl' m' r base base' cpl i j k :
  std_decay (b_decay b) s -> std_decay (b_decay b') s' -> dynamics_of b dyn -> dynamics_of b' dyn' ->
  (b_prod_helicity b = false -> plain_resonances (b_decay b)) ->
  b_prod_helicity b' = b_prod_helicity b -> b_dec_helicity b' = b_dec_helicity b ->
  Builder.formulate b ref cl uc = Ok m -> Builder.formulate b' ref' cl' uc = Ok m' ->
  resolve_reference (b_decay b) ref = Ok r -> resolve_reference (b_decay b') ref' = Ok (p r) ->
  relabelling p -> keeps_order p -> relabelled_decay p (b_decay b) s (b_decay b') s' -> relabelled_point p base base' ->
  (forall c s1 s2 s3 s1' s2' s3', In c (d_chains (b_decay b)) -> on_dalitz_plot base s1 s2 s3 -> same_place 1 p s1 s2 s3 s1' s2' s3' ->
    ceval (Env (at_sigmas base' s1' s2' s3') cpl) (fun _ => 0%Z) (de_expr (dyn' (relabel p c)))
    = ceval (Env (at_sigmas base s1 s2 s3) cpl) (fun _ => 0%Z) (de_expr (dyn c))) ->
  cyclic i j k -> open_phase_space base ->
  same_rates 1 1 base (intensity_at m cpl) i j k base' (intensity_at m' cpl) (p i) (p j) (p k).
Proof.
  intros D D' Y Y' Pl HP HD F F' R1 R2 Rl Ko RD Rp Sh Cy Op.
  apply (transferred base base' _ _ p 1 1 i j k _ _ _ false Rlt_0_1 Rl Ko Cy Op (relabelled_masses p base base' Rl Rp) eq_refl).
  intros s1 s2 s3 s1' s2' s3' On Sp. unfold intensity_at. rewrite Rmult_1_l. f_equal.
  apply (c86 b b' p s s' dyn dyn' uc ref cl m ref' cl' m' r (at_sigmas base s1 s2 s3) (at_sigmas base' s1' s2' s3') cpl); auto.
  exact (relabelled_sigmas p base base' _ _ _ _ _ _ Rl Sp Rp).
Qed.
Theorem c147_exchanged b b' p s s' dyn dyn' uc ref cl m ref' cl' m' r base base' cpl cpl' e i j k :
  std_decay (b_decay b) s -> std_decay (b_decay b') s' -> dynamics_of b dyn -> dynamics_of b' dyn' ->
  (b_prod_helicity b = false -> plain_resonances (b_decay b)) ->
  b_prod_helicity b' = b_prod_helicity b -> b_dec_helicity b' = b_dec_helicity b ->
  Builder.formulate b ref cl uc = Ok m -> Builder.formulate b' ref' cl' uc = Ok m' ->
  resolve_reference (b_decay b) ref = Ok r -> resolve_reference (b_decay b') ref' = Ok (p r) ->
  relabelling p -> exchanges p -> relabelled_decay p (b_decay b) s (b_decay b') s' -> relabelled_point p base base' ->
  (forall c s1 s2 s3 s1' s2' s3', In c (d_chains (b_decay b)) -> on_dalitz_plot base s1 s2 s3 -> same_place 1 p s1 s2 s3 s1' s2' s3' ->
    ceval (Env (at_sigmas base' s1' s2' s3') cpl') (fun _ => 0%Z) (de_expr (dyn' (relabel p c)))
    = ceval (Env (at_sigmas base s1 s2 s3) cpl) (fun _ => 0%Z) (de_expr (dyn c))) ->
  (e = 1 \/ e = -1)%R ->
  (forall c h l i j k, In c (d_chains (b_decay b)) -> ch_spectator c = s k -> cyclic i j k -> helicity_tuple s l ->
    (if uc then coefficient else coupling_product) (Env base' cpl') (b_prod_helicity b) (b_dec_helicity b)
      (relabel p c) h (at4 l k) (at4 l j) (at4 l i)
    = (RtoC (e * exchange_sign c) *
       (if uc then coefficient else coupling_product) (Env base cpl) (b_prod_helicity b) (b_dec_helicity b)
         c h (at4 l k) (at4 l i) (at4 l j))%C) ->
  cyclic i j k -> open_phase_space base ->
  same_rates 1 1 base (intensity_at m cpl) i j k base' (intensity_at m' cpl') (p j) (p i) (p k).
Proof.
  intros D D' Y Y' Pl HP HD F F' R1 R2 Rl Ex RD Rp Sh He Sg Cy Op.
  apply (transferred base base' _ _ p 1 1 i j k _ _ _ true Rlt_0_1 Rl Ex Cy Op (relabelled_masses p base base' Rl Rp) eq_refl).
  intros s1 s2 s3 s1' s2' s3' On Sp. unfold intensity_at. rewrite Rmult_1_l. f_equal.
  apply (c87 b b' p s s' dyn dyn' uc ref cl m ref' cl' m' r (at_sigmas base s1 s2 s3) (at_sigmas base' s1' s2' s3') cpl cpl' e); auto.
  - exact (relabelled_sigmas p base base' _ _ _ _ _ _ Rl Sp Rp).
  - exact (proj1 On).
  - exact (proj2 On).
  - intros c h l i0 j0 k0 Hc Hk Cy0 Hl. pose proof (Sg c h l i0 j0 k0 Hc Hk Cy0 Hl) as X. destruct uc; exact X.
Qed.
(** Breit-Wigners *)
Lemma relabelled_shapes p d s dyn dyn' base base' cpl cpl' : std_decay d s -> two_body_resonances d -> relabelling p ->
  same_lineshapes p d dyn dyn' -> relabelled_values p base base' ->
  forall c s1 s2 s3 s1' s2' s3', In c (d_chains d) -> on_dalitz_plot base s1 s2 s3 -> same_place 1 p s1 s2 s3 s1' s2' s3' ->
    ceval (Env (at_sigmas base' s1' s2' s3') cpl') (fun _ => 0%Z) (de_expr (dyn' (relabel p c)))
    = ceval (Env (at_sigmas base s1 s2 s3) cpl) (fun _ => 0%Z) (de_expr (dyn c)).
Proof.
  intros D Tb Rl Sh Rv c s1 s2 s3 s1' s2' s3' Hc _ Sp.
  exact (shapes_relabelled p d s dyn dyn' _ _ cpl cpl' D Tb Rl Sh (relabelled_values_sigmas p base base' _ _ _ _ _ _ Rl Sp Rv) c Hc).
Qed.
(** Identical particles *)
Theorem c147_identical b p s dyn uc ref cl m r base cpl e i j k :
  std_decay (b_decay b) s -> dynamics_of b dyn ->
  two_body_resonances (b_decay b) -> same_lineshapes p (b_decay b) dyn dyn ->
  Builder.formulate b ref cl uc = Ok m -> resolve_reference (b_decay b) ref = Ok r -> p r = r ->
  relabelling p -> exchanges p -> relabelled_decay p (b_decay b) s (b_decay b) s ->
  (b_dec_helicity b = false \/ forall i, In i [1; 2; 3]%Z -> p_spin (s i) = 0%Z) ->
  (forall c, In c (d_chains (b_decay b)) -> exchange_sign c = e) ->
  (forall n, In n [1; 2; 3]%Z -> base (SpecObs.mass_at (p n)) = base (SpecObs.mass_at n)) ->
  cyclic i j k -> open_phase_space base ->
  same_rates 1 1 base (intensity_at m cpl) i j k base (intensity_at m cpl) (p j) (p i) (p k).
Proof.
  intros D Y Tb Sh F R1 Pr Rl Ex RD Hl Sg Ms Cy Op.
  apply (transferred base base _ _ p 1 1 i j k _ _ _ true Rlt_0_1 Rl Ex Cy Op); [|reflexivity|].
  - intros n Hn. rewrite Rmult_1_l. f_equal. destruct Hn as [<-|Hn]; [rewrite (proj1 Rl); reflexivity|exact (Ms n Hn)].
  - intros s1 s2 s3 s1' s2' s3' On Sp. unfold intensity_at. rewrite Rmult_1_l. f_equal.
    apply (c89_identical b p s dyn uc ref cl m r (at_sigmas base s1 s2 s3) (at_sigmas base s1' s2' s3') cpl e); auto; [|exact (proj1 On)|exact (proj2 On)].
    split.
    + split; [reflexivity|]. intros n Hn.
      assert (Hpn : In (p n) [1; 2; 3]%Z). { destruct Rl as [_ Pm]. apply (Permutation_in _ Pm). cbn in Hn |- *. intuition congruence. }
      split.
      * change (at_sigmas base s1' s2' s3' (SpecObs.mass_at (p n)) = at_sigmas base s1 s2 s3 (SpecObs.mass_at n)).
        rewrite !sigmas_mass by (cbn in *; tauto). exact (Ms n Hn).
      * change (at_sigmas base s1' s2' s3' (SpecObs.sigma_at (p n)) = at_sigmas base s1 s2 s3 (SpecObs.sigma_at n)).
        rewrite !sigmas_sigma by assumption. rewrite (Sp n Hn). f_equal. ring.
    + intros x Nx. rewrite !sigmas_other by (intros X; apply Nx; cbn in *; tauto). reflexivity.
Qed.
(** Reference subsystem *)
Lemma same_place_id s1 s2 s3 s1' s2' s3' : same_place 1 (fun n => n) s1 s2 s3 s1' s2' s3' -> s1' = s1 /\ s2' = s2 /\ s3' = s3.
Proof.
  intros Sp. pose proof (Sp 1%Z ltac:(cbn; tauto)) as A. pose proof (Sp 2%Z ltac:(cbn; tauto)) as B. pose proof (Sp 3%Z ltac:(cbn; tauto)) as D.
  unfold sigma_value in A, B, D. cbn [Z.eqb Pos.eqb] in A, B, D. lra.
Qed.
Lemma same_distribution base I I' i j k : cyclic i j k -> open_phase_space base ->
  (forall s1 s2 s3, on_dalitz_plot base s1 s2 s3 -> I' (at_sigmas base s1 s2 s3) = I (at_sigmas base s1 s2 s3)) ->
  same_rates 1 1 base I i j k base I' i j k.
Proof.
  intros Cy Op E. apply (transferred base base I I' (fun n => n) 1 1 i j k i j k false Rlt_0_1 (proj1 identity_relabelling) (proj2 identity_relabelling) Cy Op); [|reflexivity|].
  - intros n _. ring.
  - intros s1 s2 s3 s1' s2' s3' On Sp. destruct (same_place_id _ _ _ _ _ _ Sp) as (-> & -> & ->). rewrite (E _ _ _ On). ring.
Qed.
Theorem c147_reference b s dyn uc ref1 cl1 m1 r1 ref2 cl2 m2 r2 base cpl i j k :
  std_decay (b_decay b) s -> dynamics_of b dyn -> (b_prod_helicity b = false -> plain_resonances (b_decay b)) ->
  Builder.formulate b ref1 cl1 uc = Ok m1 -> Builder.formulate b ref2 cl2 uc = Ok m2 ->
  resolve_reference (b_decay b) ref1 = Ok r1 -> resolve_reference (b_decay b) ref2 = Ok r2 ->
  turn_safe s r1 r2 (get_subsystem_ids (b_decay b)) -> cyclic i j k -> open_phase_space base ->
  same_rates 1 1 base (intensity_at m1 cpl) i j k base (intensity_at m2 cpl) i j k.
Proof.
  intros D Y Pl F1 F2 R1 R2 Ts Cy Op. apply (same_distribution base _ _ i j k Cy Op). intros s1 s2 s3 On. unfold intensity_at. f_equal. symmetry.
  exact (reference_independence b s D dyn uc ref1 cl1 m1 r1 ref2 cl2 m2 r2 (at_sigmas base s1 s2 s3) cpl Y Pl F1 F2 R1 R2 Ts (proj1 On) (proj2 On)).
Qed.

(** ** Serialised models *)
Lemma sigmas_weight base s1 s2 s3 y : (forall n, y <> SpecSerial.sigma_sym n) -> at_sigmas base s1 s2 s3 y = base y.
Proof.
  intros N. unfold at_sigmas.
  destruct (eqb y (Sym "sigma1" ANonneg)) eqn:E1; [apply (proj1 (eqb_eq _ _)) in E1; exfalso; exact (N 1%Z E1)|].
  destruct (eqb y (Sym "sigma2" ANonneg)) eqn:E2; [apply (proj1 (eqb_eq _ _)) in E2; exfalso; exact (N 2%Z E2)|].
  destruct (eqb y (Sym "sigma3" ANonneg)) eqn:E3; [apply (proj1 (eqb_eq _ _)) in E3; exfalso; exact (N 3%Z E3)|]. reflexivity.
Qed.

Lemma weight_not_sigma m d s r tl additional x w dyn c n : helicity_definition m d s r tl additional x w dyn -> In c (di_chains d) ->
  w c <> SpecSerial.sigma_sym n.
Proof.
  intros H Hc E. destruct (hd_weight _ _ _ _ _ _ _ _ _ H c Hc) as (v & Hw). apply weight_shape in Hw. rewrite E in Hw. discriminate Hw.
Qed.
Lemma similar_sigmas t base base' s1 s2 s3 s1' s2' s3' : similar_points t base base' -> same_place t (fun n => n) s1 s2 s3 s1' s2' s3' ->
  similar_points t (at_sigmas base s1 s2 s3) (at_sigmas base' s1' s2' s3').
Proof.
  intros [M S0] Sp. split.
  - intros n Hn. change (at_sigmas base' s1' s2' s3' (SpecObs.mass_at n) = (RtoC t * at_sigmas base s1 s2 s3 (SpecObs.mass_at n))%C).
    rewrite !sigmas_mass by exact Hn. exact (M n Hn).
  - intros n Hn. change (at_sigmas base' s1' s2' s3' (SpecObs.sigma_at n) = (RtoC (t * t) * at_sigmas base s1 s2 s3 (SpecObs.sigma_at n))%C).
    rewrite !sigmas_sigma by exact Hn. rewrite (Sp n Hn), RtoC_mult. reflexivity.
Qed.
Lemma parameter_not_sigma name y n : resonance_masses name y \/ resonance_widths name y \/ resonance_radii name y -> y <> SpecSerial.sigma_sym n.
Proof.
  intros [[->|(q & [->| ->])]|[[->|(q & ->)]|[->| ->]]] E; discriminate E.
Qed.
Theorem c147_serial_units m d s r tl x w dyn cl M t base base' cpl i j k :
  helicity_definition m d s r tl None x w dyn ->
  (forall c, In c (di_chains d) -> complete_chain m c /\ no_production_barrier m c) ->
  SerAmplitude.formulate m cl tl None = Ok M ->
  0 < t -> serial_units tl w (di_chains d) t base base' -> cyclic i j k -> open_phase_space base ->
  same_rates t (/ t ^ 4) base (intensity_at M cpl) i j k base' (intensity_at M cpl) i j k.
Proof.
  intros H Cm F Ht [Su Sp0] Cy Op.
  apply (transferred base base' _ _ (fun n => n) t _ i j k i j k false Ht (proj1 identity_relabelling) (proj2 identity_relabelling) Cy Op); [|reflexivity|].
  - intros n Hn. pose proof (proj1 Su n Hn) as E. change (base' (SpecObs.mass_at n) = (RtoC t * base (SpecObs.mass_at n))%C) in E. rewrite E. apply re_real.
  - intros s1 s2 s3 s1' s2' s3' _ Sp. unfold intensity_at.
    rewrite (serial_units_intensity m d s r tl x w dyn H Cm cl M t (at_sigmas base s1 s2 s3) (at_sigmas base' s1' s2' s3') cpl cpl F Ht); [apply re_real|].
    split; [exact (similar_sigmas t base base' _ _ _ _ _ _ Su Sp)|]. intros c Hc. destruct (Sp0 c Hc) as (W & A & B).
    split; [|split].
    + rewrite !sigmas_weight by (intros n; exact (weight_not_sigma m d s r tl None x w dyn c n H Hc)). exact W.
    + intros y Hy. rewrite !sigmas_weight by (intros n; apply (parameter_not_sigma (tl (cd_name c))); tauto). exact (A y Hy).
    + intros y Hy. rewrite !sigmas_weight by (intros n; apply (parameter_not_sigma (tl (cd_name c))); tauto). exact (B y Hy).
Qed.
Theorem c147_serial_labels p (turn : bool) swap m m' d d' s s' r tl x x' w w' dyn dyn' cl cl' M M' base base' cpl i j k i' j' k' :
  relabelling p -> ordered turn p -> relabelled_definition p turn swap m d m' d' ->
  helicity_definition m d s r tl None x w dyn -> helicity_definition m' d' s' (p r) tl None x' w' dyn' ->
  (forall c, In c (di_chains d) -> complete_chain m c) ->
  SerAmplitude.formulate m cl tl None = Ok M -> SerAmplitude.formulate m' cl' tl None = Ok M' ->
  relabelled_point p base base' ->
  same_parameters tl s (di_chains d) (fun c => relabel_chain_def p turn (swap c) c) w w'
    (fun c => label_sign s turn (swap c) (x c)) base base' ->
  cyclic i j k -> open_phase_space base -> (i', j', k') = (if turn then (p j, p i, p k) else (p i, p j, p k)) ->
  same_rates 1 1 base (intensity_at M cpl) i j k base' (intensity_at M' cpl) i' j' k'.
Proof.
  intros Rl Or RD H H' Cm F F' Rp Sm Cy Op Hl.
  apply (transferred base base' _ _ p 1 1 i j k i' j' k' turn Rlt_0_1 Rl Or Cy Op (relabelled_masses p base base' Rl Rp) Hl).
  intros s1 s2 s3 s1' s2' s3' On Sp. unfold intensity_at. rewrite Rmult_1_l. f_equal.
  apply (new_labels_builtin p turn swap m m' d d' s s' r tl x x' w w' dyn dyn' cl cl' M M' (at_sigmas base s1 s2 s3) (at_sigmas base' s1' s2' s3') cpl cpl); auto.
  - exact (relabelled_sigmas p base base' _ _ _ _ _ _ Rl Sp Rp).
  - destruct Sm as [A B]. split.
    + rewrite !sigmas_weight by (intros n E; discriminate E). exact A.
    + intros c Hc. destruct (B c Hc) as [W Pm]. split.
      * rewrite (sigmas_weight base) by (intros n; exact (weight_not_sigma m d s r tl None x w dyn c n H Hc)).
        rewrite (sigmas_weight base'); [exact W|]. intros n.
        apply (weight_not_sigma m' d' s' (p r) tl None x' w' dyn' _ n H').
        destruct (new_definition p turn swap m m' d d' s r (fun n => n) Rl RD (hd_states _ _ _ _ _ _ _ _ _ H)) as (_ & X & _).
        exact (proj1 (X c (x c) Hc (hd_content _ _ _ _ _ _ _ _ _ H c Hc))).
      * intros y Hy. rewrite !sigmas_weight by (intros n; exact (parameter_not_sigma (tl (cd_name c)) y n Hy)). exact (Pm y Hy).
Qed.
Theorem c147_serial_reference (m1 m2 : model_def) (d1 d2 : distribution) (s : Z -> state) (r1 r2 : Z) (tl : string -> string)
  additional (x : chain_def -> content) (w : chain_def -> symbol) (dyn : chain_def -> defexpr) (cl1 cl2 : bool) (M1 M2 : model) base cpl i j k :
  helicity_definition m1 d1 s r1 tl additional x w dyn -> helicity_definition m2 d2 s r2 tl additional x w dyn ->
  Permutation (di_chains d1) (di_chains d2) ->
  SerAmplitude.formulate m1 cl1 tl additional = Ok M1 -> SerAmplitude.formulate m2 cl2 tl additional = Ok M2 ->
  turn_safe s r1 r2 (map (fun c => ct_k (x c)) (di_chains d1)) -> weights_only w dyn (di_chains d1) ->
  cyclic i j k -> open_phase_space base ->
  same_rates 1 1 base (intensity_at M1 cpl) i j k base (intensity_at M2 cpl) i j k.
Proof.
  intros H1 H2 P F1 F2 Ts Wo Cy Op. apply (same_distribution base _ _ i j k Cy Op). intros s1 s2 s3 On. unfold intensity_at. f_equal.
  exact (c118_independence m1 m2 d1 d2 s r1 r2 tl additional x w dyn H1 H2 P cl1 cl2 M1 M2 F1 F2 (at_sigmas base s1 s2 s3) cpl Ts Wo (proj1 On) (proj2 On)).
Qed.

(** ** Fit fractions *)
Lemma c147_fractions t q base I J i j k base' I' J' i' j' k' N n N' n' : 0 < t -> q <> 0 -> cyclic i' j' k' -> open_phase_space base' ->
  same_rates t q base I i j k base' I' i' j' k' -> same_rates t q base J i j k base' J' i' j' k' ->
  integrates_to base I i j k N -> integrates_to base J i j k n ->
  integrates_to base' I' i' j' k' N' -> integrates_to base' J' i' j' k' n' -> N <> 0 -> n' / N' = n / N.
Proof.
  intros Ht Hq Cy Op SI SJ HN Hn HN' Hn' NZ.
  rewrite (rate_unique base' I' i' j' k' _ _ Cy Op HN' (proj2 SI N HN)), (rate_unique base' J' i' j' k' _ _ Cy Op Hn' (proj2 SJ n Hn)).
  assert (t ^ 4 <> 0) by (apply pow_nonzero; lra). field. repeat split; try assumption. lra.
Qed.
