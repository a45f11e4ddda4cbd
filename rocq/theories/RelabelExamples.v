(** Concrete decays for the properties of PropsRelabel.v *)
From Coq Require Import String ZArith QArith Qcanon List Bool Reals Lia Lra Permutation.
From Coquelicot Require Import Complex.
From Verif Require Import DecayProofs.
From Verif Require Import Prelude Spin Decay Expr CExpr Angles Sums Wigner SpecKin SpecDPD Builder SpecBuilder SpecRelabel
  KinFacts AnglesFacts AnglesProofs WignerFacts BuilderFacts ModelFacts RefFacts RefRefuted BuilderExamples ChainProofs ChainExamples
  RelabelFacts RelabelProofs.
Import ListNotations.
Local Open Scope string_scope.
Local Open Scope Z_scope.
Local Open Scope list_scope.

(** *** Cyclic labels: Lc -> pi K p instead of Lc -> p pi K *)
Definition rl_turn (i : Z) : Z := match i with 0 => 0 | 1 => 2 | 2 => 3 | _ => 1 end.
Definition rl_st (i : Z) : state :=
  match i with 0 => ex_s "Lc" 1 0 | 1 => ex_s "K" 0 1 | 2 => ex_s "p" 1 2 | _ => ex_s "pi" 0 3 end.
Definition rl_decay : decay :=
  Decay [(0, rl_st 0); (1, rl_st 1); (2, rl_st 2); (3, rl_st 3)] [relabel rl_turn (dl_chain 1); relabel rl_turn (dl_chain 0)].
Lemma rl_std : std_decay rl_decay rl_st.
Proof.
  constructor.
  - split; [repeat constructor|vm_compute; reflexivity].
  - apply Permutation_refl.
  - intros i H. apply In_0123 in H. destruct H as [->|[->|[->| ->]]]; reflexivity.
  - intros i H. apply In_0123 in H. destruct H as [->|[->|[->| ->]]]; vm_compute; discriminate.
Qed.
Lemma rl_relabelled : relabelling rl_turn /\ keeps_order rl_turn /\ relabelled_decay rl_turn dl_decay ex_st rl_decay rl_st.
Proof.
  split; [split; [reflexivity|]|split].
  - cbn. apply Permutation_sym, (Permutation_cons_append [2; 3] 1).
  - right; left. reflexivity.
  - split.
    + intros i H. apply In_0123 in H. destruct H as [->|[->|[->| ->]]]; reflexivity.
    + apply perm_swap.
Qed.
Lemma rl_dynamics : dynamics_of (dl_b rl_decay [] false) (fun _ => de_unit).
Proof.
  intros c Hc. split; [|reflexivity]. exists default_builder. split; [|reflexivity].
  cbn [dl_b b_decay] in Hc; vm_compute in Hc; repeat destruct Hc as [<-|Hc]; try destruct Hc; vm_compute; reflexivity.
Qed.
(** the phase-space point of [ex_env] with the new labels *)
Definition rl_env (x : symbol) : R :=
  if eqb x (Sym "m0" ANonneg) then 23 else if eqb x (Sym "m2" ANonneg) then 4
  else if eqb x (Sym "m3" ANonneg) then 3 else if eqb x (Sym "m1" ANonneg) then 12
  else if eqb x (Sym "sigma2" ANonneg) then 315 else if eqb x (Sym "sigma3" ANonneg) then 308
  else if eqb x (Sym "sigma1" ANonneg) then 75 else 0%R.
Lemma rl_point : relabelled_point rl_turn rx_base (fun x => RtoC (rl_env x)).
Proof. split; [reflexivity|]. intros i [<-|[<-|[<-|[]]]]; split; reflexivity. Qed.

(** *** Two identical particles: D -> pi pi K with a resonance in both pi K subsystems *)
Definition id_swap (i : Z) : Z := match i with 0 => 0 | 1 => 2 | 2 => 1 | _ => 3 end.
Definition id_p (name : string) (spin : Z) (mass : Z) : particle := Particle name name spin (Some 1) (Qc_of_Z mass) (Qc_of_Z 0).
Definition id_st (i : Z) : state :=
  match i with
  | 0 => State (id_p "D" 0 12) 0
  | 1 => State (id_p "pi" 0 0) 1
  | 2 => State (id_p "pi" 0 0) 2
  | _ => State (id_p "K" 0 0) 3
  end.
Definition id_chain (name : string) (spin : Z) : chain :=
  Node (PSt (id_st 0)) (Node (PPart (id_p name spin 1)) (Leaf (PSt (id_st 2))) (Leaf (PSt (id_st 3))) (Some (LS (spin / 2) 0)))
    (Leaf (PSt (id_st 1))) (Some (LS (spin / 2) spin)).
Definition id_decay (cs : list chain) : decay :=
  Decay [(0, id_st 0); (1, id_st 1); (2, id_st 2); (3, id_st 3)] (flat_map (fun c => [c; relabel id_swap c]) cs).
(** one spin, or two different spins *)
Definition id_one : decay := id_decay [id_chain "K*" 2; id_chain "K*'" 2].
Definition id_two : decay := id_decay [id_chain "K*" 2; id_chain "K0*" 0].
Lemma id_std : std_decay id_one id_st /\ std_decay id_two id_st.
Proof.
  split; constructor.
  1,5: (split; [repeat constructor|vm_compute; reflexivity]).
  1,4: apply Permutation_refl.
  all: intros i H; apply In_0123 in H; destruct H as [->|[->|[->| ->]]]; try reflexivity; vm_compute; discriminate.
Qed.
Lemma id_relabelled : relabelling id_swap /\ exchanges id_swap /\
  relabelled_decay id_swap id_one id_st id_one id_st /\ relabelled_decay id_swap id_two id_st id_two id_st.
Proof.
  split; [split; [reflexivity|apply perm_swap]|]. split; [left; reflexivity|].
  assert (S : forall i, In i [0; 1; 2; 3] -> st_particle (id_st (id_swap i)) = st_particle (id_st i)).
  { intros i H. apply In_0123 in H. destruct H as [->|[->|[->| ->]]]; reflexivity. }
  split; (split; [exact S|]); cbn; (eapply Permutation_trans; [apply perm_swap|]; do 2 apply perm_skip; apply perm_swap).
Qed.
Lemma id_dynamics hel : dynamics_of (dl_b id_one [] hel) (fun _ => de_unit) /\ dynamics_of (dl_b id_two [] hel) (fun _ => de_unit).
Proof.
  split; intros c Hc; (split; [|reflexivity]; exists default_builder; split; [|reflexivity]);
    (cbn [dl_b b_decay] in Hc; vm_compute in Hc; repeat destruct Hc as [<-|Hc]; try destruct Hc; vm_compute; reflexivity).
Qed.
(** a point with momenta (3,0,0), (-3,-4,0), (0,4,0) in the rest frame; only the masses of the final state vanish *)
Definition id_env (s1 s2 : R) (x : symbol) : R :=
  if eqb x (Sym "m0" ANonneg) then 12
  else if eqb x (Sym "sigma1" ANonneg) then s1 else if eqb x (Sym "sigma2" ANonneg) then s2
  else if eqb x (Sym "sigma3" ANonneg) then 48 else 0%R.
Definition id_base (s1 s2 : R) (x : symbol) : C := RtoC (id_env s1 s2 x).
Lemma id_vals s1 s2 : at_m0 (id_env s1 s2) = 12%R /\ at_m1 (id_env s1 s2) = 0%R /\ at_m2 (id_env s1 s2) = 0%R /\
  at_m3 (id_env s1 s2) = 0%R /\ at_s1 (id_env s1 s2) = s1 /\ at_s2 (id_env s1 s2) = s2 /\ at_s3 (id_env s1 s2) = 48%R.
Proof. repeat split. Qed.
Lemma id_physical : physical (id_env 72 24) /\ nonsingular (id_env 72 24).
Proof.
  split.
  - exists (V4 3 (V3 3 0 0)), (V4 5 (V3 (-3) (-4) 0)), (V4 4 (V3 0 4 0)).
    unfold momenta_of, on_shell. destruct (id_vals 72 24) as (-> & -> & -> & -> & -> & -> & ->).
    unfold msq, add4, add3, dot; simpl. repeat split; lra.
  - unfold nonsingular. destruct (id_vals 72 24) as (-> & -> & -> & -> & -> & -> & ->). unfold kallen. repeat split; lra.
Qed.
Lemma id_point : relabelled_point id_swap (id_base 72 24) (id_base 24 72).
Proof. split; [reflexivity|]. intros i [<-|[<-|[<-|[]]]]; split; reflexivity. Qed.
Definition id_cpl (f : string) (ix : list ival) : C := RtoC 1.

(** the angles at the two points *)
Lemma id_angles :
  cos (rv (id_env 72 24) (formulate_scattering_angle 2 3)) = (1 / 3)%R /\
  cos (rv (id_env 72 24) (formulate_scattering_angle 3 1)) = (1 / 5)%R.
Proof.
  rewrite th_23, th_31. unfold th_. destruct (id_vals 72 24) as (-> & -> & -> & -> & -> & -> & ->). unfold n_theta, kallen.
  split.
  - match goal with |- cos (acos (?n / (sqrt ?a * sqrt ?b))) = _ =>
      replace (sqrt a) with 72%R; [replace (sqrt b) with 72%R|] end.
    2:{ symmetry. transitivity (sqrt (72 * 72)%R); [f_equal; ring|apply sqrt_square; lra]. }
    2:{ symmetry. transitivity (sqrt (72 * 72)%R); [f_equal; ring|apply sqrt_square; lra]. }
    rewrite cos_acos; lra.
  - match goal with |- cos (acos (?n / (sqrt ?a * sqrt ?b))) = _ =>
      replace (sqrt a) with 120%R; [replace (sqrt b) with 24%R|] end.
    2:{ symmetry. transitivity (sqrt (24 * 24)%R); [f_equal; ring|apply sqrt_square; lra]. }
    2:{ symmetry. transitivity (sqrt (120 * 120)%R); [f_equal; ring|apply sqrt_square; lra]. }
    rewrite cos_acos; lra.
Qed.

Definition id_b : builder := dl_b id_two [] true.
Lemma id_tuples : tuples id_st = [(0, 0, 0, 0)].
Proof. reflexivity. Qed.
Lemma id_amp m s1 s2 i j k : formulate id_b (Some 3) false false = Ok m ->
  (i, j, k) = (2, 3, 1) \/ (i, j, k) = (3, 1, 2) ->
  amp_value (at_point (m_variables m) (id_base s1 s2) id_cpl) m k (0, 0, 0, 0)
  = RtoC (1 + cos (rv (id_env s1 s2) (formulate_scattering_angle i j))).
Proof.
  intros F E. set (ev := at_point _ _ _).
  assert (Cy : cyclic i j k) by (unfold cyclic; cbn [In]; destruct E as [-> | ->]; auto).
  assert (Hl : helicity_tuple id_st (0, 0, 0, 0)) by (apply tuples_In; rewrite id_tuples; left; reflexivity).
  destruct (amplitude_formula id_b id_st (proj2 id_std) (fun _ => de_unit) (Some 3) false false m (proj2 (id_dynamics true)) ltac:(discriminate) F
    (0, 0, 0, 0) i j k Hl Cy) as (_ & (th & T & G) & A).
  { right. destruct E as [E|E]; inversion E; vm_compute; auto. }
  rewrite A. clear A.
  assert (ET : e_sym ev (theta_name i j) = RtoC (rv (id_env s1 s2) (formulate_scattering_angle i j))).
  { unfold ev, at_point. cbn [e_sym]. rewrite G, T. reflexivity. }
  rewrite ET. clear ET G T th.
  set (X := rv (id_env s1 s2) (formulate_scattering_angle i j)).
  unfold dpd_amplitude. change (d_chains (b_decay id_b)) with
    [id_chain "K*" 2; relabel id_swap (id_chain "K*" 2); id_chain "K0*" 0; relabel id_swap (id_chain "K0*" 0)].
  unfold coupling_product. cbn [b_prod_helicity b_dec_helicity id_b dl_b coupling_index prod_factor dec_factor].
  change (e_idx ev) with id_cpl. unfold id_cpl. cbn [Re RtoC fst].
  destruct E as [E|E]; inversion E; subst i j k.
  - change (filter _ _) with [id_chain "K*" 2; id_chain "K0*" 0]. cbn [Csum].
    change (helicities (p_spin (ch_resonance (id_chain "K*" 2)))) with [-2; 0; 2].
    change (helicities (p_spin (ch_resonance (id_chain "K0*" 0)))) with [0]. cbn [Csum]. rewrite ?de_unit_eval.
    change (p_spin (ch_resonance (id_chain "K*" 2))) with 2. change (p_spin (ch_resonance (id_chain "K0*" 0))) with 0.
    cbn [at4]. change (0 =? -2 - 0) with false. change (0 =? 2 - 0) with false. change (0 =? 0 - 0) with true. cbv iota.
    change (0 - 0) with 0. change (p_spin (id_st 1) - 0) with 0. change (p_spin (id_st 3) - 0) with 0.
    change (parity_sign 0) with 1%R. rewrite wigner_d_1_00, wigner_d_spin0. fold X. 
    rewrite ?Rmult_1_l, ?Cmult_1_l, ?Cmult_1_r, ?Cplus_0_l, ?Cplus_0_r, <- RtoC_plus. f_equal. ring.
  - change (filter _ _) with [relabel id_swap (id_chain "K*" 2); relabel id_swap (id_chain "K0*" 0)]. cbn [Csum].
    change (helicities (p_spin (ch_resonance (relabel id_swap (id_chain "K*" 2))))) with [-2; 0; 2].
    change (helicities (p_spin (ch_resonance (relabel id_swap (id_chain "K0*" 0))))) with [0]. cbn [Csum]. rewrite ?de_unit_eval.
    change (p_spin (ch_resonance (relabel id_swap (id_chain "K*" 2)))) with 2. change (p_spin (ch_resonance (relabel id_swap (id_chain "K0*" 0)))) with 0.
    cbn [at4]. change (0 =? -2 - 0) with false. change (0 =? 2 - 0) with false. change (0 =? 0 - 0) with true. cbv iota.
    change (0 - 0) with 0. change (p_spin (id_st 1) - 0) with 0. change (p_spin (id_st 2) - 0) with 0.
    change (parity_sign 0) with 1%R. rewrite wigner_d_1_00, wigner_d_spin0. fold X. 
    rewrite ?Rmult_1_l, ?Cmult_1_l, ?Cmult_1_r, ?Cplus_0_l, ?Cplus_0_r, <- RtoC_plus. f_equal. ring.
Qed.
Lemma id_intensity m s1 s2 : formulate id_b (Some 3) false false = Ok m ->
  full_value (at_point (m_variables m) (id_base s1 s2) id_cpl) m
  = RtoC ((2 + cos (rv (id_env s1 s2) (formulate_scattering_angle 2 3)) + cos (rv (id_env s1 s2) (formulate_scattering_angle 3 1))) ^ 2).
Proof.
  intros F. destruct (intensity_formula id_b id_st (proj2 id_std) (Some 3) false false m F) as (r & ks & _ & S & V).
  rewrite V. f_equal. assert (Q : ks = [1; 2]) by (vm_compute in S; injection S; auto). rewrite Q.
  unfold intensity_value. rewrite id_tuples. cbn [Rsum]. unfold aligned_amplitude. rewrite id_tuples. cbn [Csum].
  unfold alignment. cbn [at4]. change (p_spin (id_st 0)) with 0. change (p_spin (id_st 1)) with 0.
  change (p_spin (id_st 2)) with 0. change (p_spin (id_st 3)) with 0. rewrite !wigner_d_spin0.
  rewrite (id_amp m s1 s2 2 3 1 F (or_introl eq_refl)), (id_amp m s1 s2 3 1 2 F (or_intror eq_refl)).
  rewrite Rplus_0_r, !Rmult_1_l, !Cmult_1_r, !Cplus_0_r, <- RtoC_plus, Cmod_R, pow2_abs. f_equal. ring.
Qed.

(** C88 *)
Lemma c88_refuted : exists b p s dyn m base base' cpl,
  std_decay (b_decay b) s /\ dynamics_of b dyn /\
  formulate b (Some 3) false false = Ok m /\ p 3 = 3 /\
  relabelling p /\ exchanges p /\ relabelled_decay p (b_decay b) s (b_decay b) s /\ relabelled_point p base base' /\
  physical (fun x => Re (base x)) /\ nonsingular (fun x => Re (base x)) /\
  (forall c, In c (d_chains (b_decay b)) -> de_expr (dyn c) = CNum 1) /\
  (forall i, In i [0; 1; 2; 3] -> p_spin (s i) = 0) /\
  full_value (at_point (m_variables m) base' cpl) m <> full_value (at_point (m_variables m) base cpl) m.
Proof.
  destruct (formulate id_b (Some 3) false false) as [m|] eqn:F; [|vm_compute in F; discriminate].
  exists id_b, id_swap, id_st, (fun _ => de_unit), m, (id_base 72 24), (id_base 24 72), id_cpl.
  split; [apply id_std|]. split; [apply id_dynamics|]. split; [exact F|]. split; [reflexivity|].
  destruct id_relabelled as (P & O & _ & RD). split; [exact P|]. split; [exact O|]. split; [exact RD|]. split; [exact id_point|].
  split; [apply id_physical|]. split; [apply id_physical|]. split; [reflexivity|]. split.
  { intros i H. apply In_0123 in H. destruct H as [->|[->|[->| ->]]]; reflexivity. }
  rewrite !(id_intensity m _ _ F).
  assert (K : forall i, In i [1; 2; 3] ->
      id_env 24 72 (Sym ("m" ++ str_of_Z (id_swap i))%string ANonneg) = id_env 72 24 (Sym ("m" ++ str_of_Z i)%string ANonneg) /\
      id_env 24 72 (Sym ("sigma" ++ str_of_Z (id_swap i))%string ANonneg) = id_env 72 24 (Sym ("sigma" ++ str_of_Z i)%string ANonneg)).
  { intros i [<-|[<-|[<-|[]]]]; split; reflexivity. }
  pose proof (theta_exchanged id_swap (id_env 72 24) (id_env 24 72) P eq_refl K 2 3 1 O ltac:(unfold cyclic; cbn; auto) (proj1 id_physical) (proj2 id_physical)) as T1.
  pose proof (theta_exchanged id_swap (id_env 72 24) (id_env 24 72) P eq_refl K 3 1 2 O ltac:(unfold cyclic; cbn; auto) (proj1 id_physical) (proj2 id_physical)) as T2.
  cbn [id_swap] in T1, T2. rewrite T1, T2. destruct id_angles as [A1 A2].
  rewrite !Rtrigo_facts.cos_pi_minus, A1, A2. intros E. apply RtoC_inj in E. lra.
Qed.

(** the couplings of K* with the opposite sign *)
Definition id_cpl' (f : string) (ix : list ival) : C :=
  if String.eqb f (production_name true) then match ix with IStr "K*" :: _ => RtoC (-1) | _ => RtoC 1 end else RtoC 1.
Lemma id_signs c h l i j k : In c (d_chains id_two) -> ch_spectator c = id_st k -> cyclic i j k -> helicity_tuple id_st l ->
  coupling_product (Env (id_base 24 72) id_cpl') true true (relabel id_swap c) h (at4 l k) (at4 l j) (at4 l i)
  = (RtoC (1 * exchange_sign c) * coupling_product (Env (id_base 72 24) id_cpl) true true c h (at4 l k) (at4 l i) (at4 l j))%C.
Proof.
  intros H _ _ _. destruct H as [<-|[<-|[<-|[<-|[]]]]].
  1,2: (transitivity (RtoC (-1) * RtoC 1)%C; [reflexivity|transitivity (RtoC (1 * -1) * (RtoC 1 * RtoC 1))%C; [|reflexivity]]).
  3,4: (transitivity (RtoC 1 * RtoC 1)%C; [reflexivity|transitivity (RtoC (1 * 1) * (RtoC 1 * RtoC 1))%C; [|reflexivity]]).
  all: rewrite Rmult_1_l, !Cmult_1_r; reflexivity.
Qed.
Lemma id_minus c : In c (d_chains id_one) -> exchange_sign c = (-1)%R.
Proof. intros [<-|[<-|[<-|[<-|[]]]]]; reflexivity. Qed.
Lemma id_plain : plain_resonances id_one.
Proof. intros c [<-|[<-|[<-|[<-|[]]]]]; eexists; vm_compute; reflexivity. Qed.
