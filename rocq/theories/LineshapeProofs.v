(** Values of the lineshapes of BreitWignerBuilder: C36 (value), C37 and C38. *)
From Coq Require Import String ZArith QArith Qcanon List Bool Reals Permutation Lia Lra.
From Coquelicot Require Import Complex.
From Verif Require Import DecayProofs.
From Verif Require Import Prelude Spin Decay Expr CExpr Builder SpecDPD Dynamics SpecDynamics Sums CExprFacts LineshapeFacts DynamicsProofs.
Import ListNotations.
Local Open Scope C_scope.

Lemma c36_value w c p0 r a b k i j e f ev h : phsp_value (bw_phsp_factor w) f ->
  isobar_chain c p0 r a b k i j -> bw_call w c = Ok e ->
  ceval ev h (de_expr e) =
  chain_lineshape w f (orbital i) (orbital j) (e_sym ev (sigma_of k) * e_sym ev (sigma_of k)) (e_sym ev) p0 r a b k.
Proof.
  intros Ph H E. destruct (bw_ok_inv _ _ _ _ _ _ _ _ _ _ H E) as [H1 H2]. destruct H as (Hc & I0 & P).
  destruct (bw_call_spec w p0 r a b k i j I0 P c Hc) as [_ B]. destruct (B H1 H2) as (x & fp & E' & _ & Hp & Ex).
  rewrite E in E'. inversion E'; subst x. cbv zeta in Ex. rewrite Ex. clear Ex.
  assert (Fp : ceval ev h fp = form_factor (orbital i) (e_sym ev (outer_mass p0) * e_sym ev (outer_mass p0))
            (e_sym ev (resonance_mass r)) (e_sym ev (outer_mass k)) (e_sym ev (parent_radius p0))).
  { destruct Hp as [[_ ->]|[_ ->]]; rewrite eval_ff; cbn [ceval]; [reflexivity|apply form_factor_sym]. }
  assert (Bw : ceval ev h (if bw_energy_dependent_width w then bw_expr r a b (sigma_of k) (orbital j) (bw_phsp_factor w)
       else simple_breit_wigner (CVar (sigma_of k)) (CVar (resonance_mass r)) (CVar (resonance_width r))) =
     if bw_energy_dependent_width w then
       e_sym ev (resonance_mass r) * e_sym ev (resonance_width r) * bw_simple (e_sym ev (sigma_of k)) (e_sym ev (resonance_mass r))
         (running_width f (orbital j) (e_sym ev (sigma_of k)) (e_sym ev (resonance_mass r)) (e_sym ev (resonance_width r))
            (e_sym ev (outer_mass a)) (e_sym ev (outer_mass b)) (e_sym ev resonance_radius))
     else bw_simple (e_sym ev (sigma_of k)) (e_sym ev (resonance_mass r)) (e_sym ev (resonance_width r))).
  { destruct (bw_energy_dependent_width w).
    - unfold bw_expr. rewrite (eval_relativistic _ _ _ _ _ _ _ _ _ _ _ Ph). reflexivity.
    - apply eval_simple. }
  set (e0 := if bw_energy_dependent_width w then bw_expr _ _ _ _ _ _ else _) in *. clearbody e0.
  unfold chain_lineshape. cbv zeta.
  destruct (bw_decay_form_factor w), (bw_production_form_factor w); cbn [ceval]; fold (ceval ev h);
    rewrite ?Fp, Bw, ?eval_ff; cbn [ceval]; try reflexivity; unfold form_factor; ring.
Qed.

(** *** C37 *)
Lemma c37_scaling w c p0 r a b k i j e f ev ev' h t : (0 < t)%R ->
  phsp_value (bw_phsp_factor w) f ->
  (forall s m1 m2, f (RtoC (t * t) * s) (RtoC t * m1) (RtoC t * m2) = f s m1 m2) ->
  isobar_chain c p0 r a b k i j -> bw_call w c = Ok e ->
  bw_decay_form_factor w = false \/ orbital j = 0%Z ->
  rescaled t (e_sym ev) (e_sym ev') p0 r a b k ->
  ceval ev' h (de_expr e) =
    RtoC (if bw_energy_dependent_width w then 1 else / (t * t)) * ceval ev h (de_expr e).
Proof.
  intros Ht Ph Sc Iso E Dff (Rs & Rm & Rr).
  rewrite !(c36_value w c p0 r a b k i j e f _ h Ph Iso E).
  unfold chain_lineshape. cbv zeta. rewrite Rs, (Rm (resonance_mass r)), (Rm (resonance_width r)), (Rm (outer_mass a)), (Rm (outer_mass b)),
    (Rm (outer_mass p0)), (Rm (outer_mass k)), (Rr resonance_radius), (Rr (parent_radius p0)) by (cbn; tauto).
  assert (Dec : (if bw_decay_form_factor w then form_factor (orbital j) (RtoC (t * t) * e_sym ev (sigma_of k) * (RtoC (t * t) * e_sym ev (sigma_of k)))
       (RtoC t * e_sym ev (outer_mass a)) (RtoC t * e_sym ev (outer_mass b)) (RtoC (/ t) * e_sym ev resonance_radius) else RtoC 1) =
     (if bw_decay_form_factor w then form_factor (orbital j) (e_sym ev (sigma_of k) * e_sym ev (sigma_of k))
       (e_sym ev (outer_mass a)) (e_sym ev (outer_mass b)) (e_sym ev resonance_radius) else RtoC 1)).
  { destruct Dff as [-> | ->]; [reflexivity|]. destruct (bw_decay_form_factor w); [rewrite !form_factor_zero|]; reflexivity. }
  rewrite Dec. clear Dec. set (dec := if bw_decay_form_factor w then _ else _). clearbody dec.
  replace (RtoC t * e_sym ev (outer_mass p0) * (RtoC t * e_sym ev (outer_mass p0)))
    with (RtoC (t * t) * (e_sym ev (outer_mass p0) * e_sym ev (outer_mass p0))) by (rewrite RtoC_mult; ring).
  rewrite form_factor_scale by auto. set (prod := if bw_production_form_factor w then _ else _). clearbody prod.
  destruct (bw_energy_dependent_width w).
  - assert (Rw : running_width f (orbital j) (RtoC (t * t) * e_sym ev (sigma_of k)) (RtoC t * e_sym ev (resonance_mass r))
         (RtoC t * e_sym ev (resonance_width r)) (RtoC t * e_sym ev (outer_mass a)) (RtoC t * e_sym ev (outer_mass b))
         (RtoC (/ t) * e_sym ev resonance_radius) = RtoC t * running_width f (orbital j) (e_sym ev (sigma_of k)) (e_sym ev (resonance_mass r))
         (e_sym ev (resonance_width r)) (e_sym ev (outer_mass a)) (e_sym ev (outer_mass b)) (e_sym ev resonance_radius)).
    { unfold running_width.
      replace (RtoC t * e_sym ev (resonance_mass r) * (RtoC t * e_sym ev (resonance_mass r)))
        with (RtoC (t * t) * (e_sym ev (resonance_mass r) * e_sym ev (resonance_mass r))) by (rewrite RtoC_mult; ring).
      rewrite !form_factor_scale, !Sc by auto. ring. }
    rewrite Rw, bw_scale by auto. pose proof (RtoC_inv_r (t * t)) as Inv. rewrite RtoC_mult in Inv at 1.
    set (bws := bw_simple _ _ _). clearbody bws.
    transitivity ((RtoC t * RtoC t * RtoC (/ (t * t))) * (e_sym ev (resonance_mass r) * e_sym ev (resonance_width r) * bws * dec * prod)); [ring|].
    rewrite Inv by nra. ring.
  - rewrite bw_scale by auto. ring.
Qed.

(** The counterexample: a P-wave decay of a resonance to massless particles *)
Definition ff_s name i : state := State (Particle name name 0 (Some (-1)%Z) (Qc_of_Z 0) (Qc_of_Z 0)) i.
Definition ff_r : particle := Particle "rho" "\rho" 2 (Some (-1)%Z) (Qc_of_Z 1) (Qc_of_Z 1).
Definition ff_chain : chain :=
  Node (PSt (ff_s "D" 0))
    (Node (PPart ff_r) (Leaf (PSt (ff_s "pi+" 1))) (Leaf (PSt (ff_s "pi-" 2))) (Some (LS 1 0)))
    (Leaf (PSt (ff_s "K" 3))) (Some (LS 1 2)).
Definition ff_env (sig m ra : R) : env :=
  Env (fun x => if String.eqb (sname x) "sigma3" then RtoC sig
                else if String.eqb (sname x) "m_{\rho}" then RtoC m
                else if String.eqb (sname x) "\Gamma_{\rho}" then RtoC m
                else if String.eqb (sname x) "R_\mathrm{res}" then RtoC ra
                else if String.eqb (sname x) "R_{D}" then RtoC ra
                else RtoC 0) (fun _ _ => RtoC 0).
Definition ff_w (dff : bool) : bw_builder := BWBuilder false dff false phase_space_factor.
Definition ff_e (dff : bool) : defexpr := match bw_call (ff_w dff) ff_chain with Ok e => e | Err _ => de_unit end.
Lemma ff_iso : isobar_chain ff_chain (ff_s "D" 0) ff_r (ff_s "pi+" 1) (ff_s "pi-" 2) (ff_s "K" 3) (Some (LS 1 2)) (Some (LS 1 0)).
Proof. split; [left; reflexivity|]. split; [reflexivity|apply Permutation_refl]. Qed.
Lemma ff_ok dff : bw_call (ff_w dff) ff_chain = Ok (ff_e dff).
Proof. destruct dff; vm_compute; reflexivity. Qed.
Lemma bw_poly_1 z : bw_poly 1 z = RtoC 1 + z.
Proof.
  unfold bw_poly, Csum. cbn [seq map fold_right cpow]. unfold bw_coeff. cbn.
  replace ((1 + 1) * (1 + 1) / (1 * 1 * 1 * (4 * 1)))%R with 1%R by field.
  replace (1 * 1 / (1 * 1 * 1 * 1))%R with 1%R by field. ring.
Qed.
Lemma form_factor_1 (z s m1 m2 r : R) :
  (0 <= z)%R -> breakup_squared (RtoC s) (RtoC m1) (RtoC m2) * (RtoC r * RtoC r) = RtoC z ->
  form_factor 1 (RtoC s) (RtoC m1) (RtoC m2) (RtoC r) = RtoC (sqrt (z * 2 / (1 + z))).
Proof.
  intros Hz E. unfold form_factor. rewrite E. unfold blatt_weisskopf_squared.
  change (Z.to_nat 1) with 1%nat. cbn [cpow]. rewrite !bw_poly_1.
  replace (RtoC z * RtoC 1 * (RtoC 1 + RtoC 1) / (RtoC 1 + RtoC z))%C with (RtoC (z * 2 / (1 + z))).
  - apply csqrt_nonneg. apply Rmult_le_pos; [lra|left; apply Rinv_0_lt_compat; lra].
  - unfold Rdiv. rewrite !RtoC_mult. unfold Cdiv. rewrite <- !RtoC_plus, Cinv_RtoC.
    replace (1 + 1)%R with 2%R by ring. ring.
Qed.
Lemma breakup_massless (s : R) : breakup_squared (RtoC s) (RtoC 0) (RtoC 0) = RtoC (s / 4).
Proof.
  unfold breakup_squared. destruct (Req_dec s 0) as [->|N].
  - unfold Cdiv. rewrite Cmult_0_r, Cinv_zero, Cmult_0_r. f_equal. field.
  - unfold Cdiv. rewrite <- !RtoC_plus, <- !RtoC_minus, <- !RtoC_mult, <- !RtoC_minus, Cinv_RtoC, <- !RtoC_mult. f_equal. field. auto.
Qed.
Lemma ff_value dff sig m ra : (0 <= sig)%R ->
  ceval (ff_env sig m ra) (fun _ => 0%Z) (de_expr (ff_e dff)) =
  bw_simple (RtoC sig) (RtoC m) (RtoC m) *
  (if dff then RtoC (sqrt (sig * sig / 4 * (ra * ra) * 2 / (1 + sig * sig / 4 * (ra * ra)))) else RtoC 1).
Proof.
  intros Hs. rewrite (c36_value (ff_w dff) _ _ _ _ _ _ _ _ _ _ (ff_env sig m ra) _ phase_space_factor_value ff_iso (ff_ok dff)).
  unfold chain_lineshape. cbn [ff_w bw_energy_dependent_width bw_decay_form_factor bw_production_form_factor orbital ls_L].
  rewrite Cmult_1_r.
  change (e_sym (ff_env sig m ra) (sigma_of (ff_s "K" 3))) with (RtoC sig).
  change (e_sym (ff_env sig m ra) (resonance_mass ff_r)) with (RtoC m).
  change (e_sym (ff_env sig m ra) (resonance_width ff_r)) with (RtoC m).
  change (e_sym (ff_env sig m ra) (outer_mass (ff_s "pi+" 1))) with (RtoC 0).
  change (e_sym (ff_env sig m ra) (outer_mass (ff_s "pi-" 2))) with (RtoC 0).
  change (e_sym (ff_env sig m ra) resonance_radius) with (RtoC ra).
  destruct dff; [|reflexivity]. f_equal. rewrite <- RtoC_mult. apply form_factor_1.
  - assert (0 <= ra * ra)%R by (apply Rle_0_sqr). apply Rmult_le_pos; [nra|auto].
  - rewrite breakup_massless, <- !RtoC_mult. reflexivity.
Qed.
Lemma ff_bw_nonzero sig m : (0 < m)%R -> bw_simple (RtoC sig) (RtoC m) (RtoC m) <> RtoC 0.
Proof.
  intros Hm E. pose proof (bw_mod sig m m (proj2 (bw_d_pos sig m m Hm Hm))) as M. rewrite E, Cmod_0 in M.
  pose proof (Rinv_0_lt_compat _ (proj2 (bw_d_pos sig m m Hm Hm))). simpl in M. lra.
Qed.
Lemma ff_ratio sig m ra : (0 <= sig)%R -> (0 < m)%R ->
  ceval (ff_env sig m ra) (fun _ => 0%Z) (de_expr (ff_e true)) / ceval (ff_env sig m ra) (fun _ => 0%Z) (de_expr (ff_e false)) =
  RtoC (sqrt (sig * sig / 4 * (ra * ra) * 2 / (1 + sig * sig / 4 * (ra * ra)))).
Proof.
  intros Hs Hm. rewrite !ff_value by auto. field. apply ff_bw_nonzero. auto.
Qed.

(** Not evaluated at the squared mass, and dependent on the unit of mass *)
Lemma c37_refuted : exists c p0 r a b k i j e0 e1 ev ev' t,
  isobar_chain c p0 r a b k i j /\
  bw_call (BWBuilder false false false phase_space_factor) c = Ok e0 /\
  bw_call (BWBuilder false true false phase_space_factor) c = Ok e1 /\
  (0 < t)%R /\ rescaled t (e_sym ev) (e_sym ev') p0 r a b k /\
  let ff := fun ev => ceval ev (fun _ => 0%Z) (de_expr e1) / ceval ev (fun _ => 0%Z) (de_expr e0) in
  ff ev <> ff ev' /\
  ff ev <> form_factor (orbital j) (e_sym ev (sigma_of k)) (e_sym ev (outer_mass a)) (e_sym ev (outer_mass b))
             (e_sym ev resonance_radius).
Proof.
  exists ff_chain, (ff_s "D" 0), ff_r, (ff_s "pi+" 1), (ff_s "pi-" 2), (ff_s "K" 3), (Some (LS 1 2)), (Some (LS 1 0)),
    (ff_e false), (ff_e true), (ff_env 2 1 1), (ff_env 8 2 (/ 2)), 2%R.
  split; [exact ff_iso|]. split; [exact (ff_ok false)|]. split; [exact (ff_ok true)|]. split; [lra|]. split.
  { split; [|split].
    - change (RtoC 8 = RtoC (2 * 2) * RtoC 2). rewrite <- RtoC_mult. f_equal. ring.
    - assert (M : RtoC 2 = RtoC 2 * RtoC 1) by ring. assert (Z : RtoC 0 = RtoC 2 * RtoC 0) by ring.
      intros x Hx. cbn [In] in Hx. destruct Hx as [<-|[<-|[<-|[<-|[<-|[<-|[]]]]]]]; first [exact M|exact Z].
    - assert (M : RtoC (/ 2) = RtoC (/ 2) * RtoC 1) by ring.
      intros x Hx. cbn [In] in Hx. destruct Hx as [<-|[<-|[]]]; exact M. }
  cbv zeta beta. rewrite !ff_ratio by lra.
  replace (2 * 2 / 4 * (1 * 1) * 2 / (1 + 2 * 2 / 4 * (1 * 1)))%R with 1%R by field. rewrite sqrt_1.
  split.
  - replace (8 * 8 / 4 * (/ 2 * / 2) * 2 / (1 + 8 * 8 / 4 * (/ 2 * / 2)))%R with (8 / 5)%R by field.
    intros E. injection E as E. apply (f_equal (fun x => x * x)%R) in E. rewrite sqrt_sqrt in E by lra. lra.
  - cbn [orbital ls_L].
    change (e_sym (ff_env 2 1 1) (sigma_of (ff_s "K" 3))) with (RtoC 2).
    change (e_sym (ff_env 2 1 1) (outer_mass (ff_s "pi+" 1))) with (RtoC 0).
    change (e_sym (ff_env 2 1 1) (outer_mass (ff_s "pi-" 2))) with (RtoC 0).
    change (e_sym (ff_env 2 1 1) resonance_radius) with (RtoC 1).
    rewrite (form_factor_1 (/ 2)); [|lra|rewrite breakup_massless, <- !RtoC_mult; f_equal; field].
    intros E. injection E as E. apply (f_equal (fun x => x * x)%R) in E. rewrite sqrt_sqrt in E by lra. lra.
Qed.

(** *** C38 *)
Lemma Csum_eq_cons {A} (x : A) l f : Csum (x :: l) f = f x + Csum l f.
Proof. reflexivity. Qed.
Section C38.
  Context (ev : env) (h : symbol -> Z).
  Notation V := (ceval ev h).
  Lemma c38_simple s m G (xs xm xG : R) : V s = RtoC xs -> V m = RtoC xm -> V G = RtoC xG ->
    (0 < xm)%R -> (0 < xG)%R ->
    let bw := V (simple_breit_wigner s m G) in
    bw = RtoC 1 / (RtoC (xm * xm - xs) - Ci * RtoC (xm * xG)) /\
    Im bw = (xm * xG * Cmod bw ^ 2)%R /\
    (Cmod bw <= / (xm * xG))%R /\
    (Cmod bw = / (xm * xG) <-> xs = xm * xm)%R /\
    (xs = (xm * xm)%R -> bw = Ci * RtoC (/ (xm * xG))).
  Proof.
    intros Es Em EG Hm HG. cbv zeta. rewrite eval_simple, Es, Em, EG.
    pose proof (bw_d_pos xs xm xG Hm HG) as [Hp Hd].
    assert (Pk : xs = (xm * xm)%R -> bw_simple (RtoC xs) (RtoC xm) (RtoC xG) = Ci * RtoC (/ (xm * xG))).
    { intros ->. rewrite RtoC_mult. rewrite bw_peak by (apply RtoC_neq; lra).
      unfold Cdiv. rewrite <- RtoC_mult, Cinv_RtoC. reflexivity. }
    split; [|split; [|split; [|split]]].
    - unfold bw_simple. f_equal. rewrite RtoC_minus, !RtoC_mult. ring.
    - apply bw_im. auto.
    - apply bw_max; auto.
    - split; [apply bw_max_eq; auto|]. intros E. rewrite (Pk E). rewrite Cmod_mult, Cmod_R.
      rewrite Rabs_pos_eq by (left; apply Rinv_0_lt_compat; auto).
      replace (Cmod Ci) with 1%R; [ring|]. unfold Cmod, Ci. cbn [fst snd].
      replace (0 ^ 2 + 1 ^ 2)%R with 1%R by ring. rewrite sqrt_1. reflexivity.
    - exact Pk.
  Qed.

  Lemma c38_reduces s m G d rho : V (breit_wigner s m G (CNum 0) (CNum 0) 0 d rho) = V (simple_breit_wigner s m G).
  Proof. reflexivity. Qed.
  Lemma c38_running s m G m1 m2 L d rho f : phsp_value rho f ->
    L <> 0%Z \/ is_zero m1 = false \/ is_zero m2 = false ->
    V (breit_wigner s m G m1 m2 L d rho) =
    bw_simple (V s) (V m) (running_width f L (V s) (V m) (V G) (V m1) (V m2) (V d)).
  Proof.
    intros Ph N. unfold breit_wigner, breit_wigner_width. rewrite eval_simple.
    assert ((L =? 0)%Z && is_zero m1 && is_zero m2 = false) as ->.
    { destruct N as [N|[-> | ->]]; [|rewrite andb_false_r; reflexivity|apply andb_false_r].
      apply Z.eqb_neq in N. rewrite N. reflexivity. }
    rewrite (eval_width _ _ _ _ _ _ _ _ _ _ _ Ph). reflexivity.
  Qed.
  Lemma c38_multichannel s m cs :
    V (multichannel_breit_wigner s m cs) = bw_simple (V s) (V m) (Csum cs (channel_value ev h)).
  Proof.
    unfold multichannel_breit_wigner. rewrite c38_reduces, eval_simple. f_equal. rewrite ceval_CAddL.
    induction cs as [|c cs IH]; [reflexivity|]. rewrite map_cons, !Csum_eq_cons, IH. reflexivity.
  Qed.
  Lemma c38_channels_simple s m cs : (forall c, In c cs -> exists w, c = default_channel s m w) ->
    V (multichannel_breit_wigner s m cs) =
    bw_simple (V s) (V m) (Csum cs (fun c => V (cn_width c)) * V m / csqrt (V s)).
  Proof.
    intros H. rewrite c38_multichannel. f_equal. induction cs as [|c cs IH].
    - cbn. unfold Cdiv. ring.
    - rewrite !Csum_eq_cons, IH by (intros; apply H; right; auto). destruct (H c) as [w ->]; [left; auto|].
      unfold channel_value, default_channel. cbn [cn_width cn_m0 cn_s cn_m1 cn_m2 cn_L cn_radius].
      rewrite form_factor_zero. unfold Cdiv. ring.
  Qed.

  (** The values on resonance *)
  Lemma c38_on_resonance s m G m1 m2 L r rho f : phsp_value rho f ->
    V s = V m * V m -> V m <> RtoC 0 -> V G <> RtoC 0 ->
    form_factor L (V m * V m) (V m1) (V m2) (V r) <> RtoC 0 -> f (V m * V m) (V m1) (V m2) <> RtoC 0 ->
    V (relativistic_breit_wigner s m G m1 m2 L r rho) = Ci /\
    V (breit_wigner s m G m1 m2 L r rho) = Ci / (V m * V G).
  Proof.
    intros Ph Es Nm NG Nf Nr. split.
    - rewrite (eval_relativistic _ _ _ _ _ _ _ _ _ _ _ Ph), Es, running_width_at_pole, bw_peak by auto. field. auto.
    - unfold breit_wigner, breit_wigner_width. rewrite eval_simple.
      destruct ((L =? 0)%Z && is_zero m1 && is_zero m2); rewrite ?(eval_width _ _ _ _ _ _ _ _ _ _ _ Ph), Es, ?running_width_at_pole, bw_peak by auto;
        reflexivity.
  Qed.
  Lemma c38_min_l s mt ms m G m1 m2 ld lp rd rp rho f (xm : R) : phsp_value rho f ->
    V m = RtoC xm -> (0 < xm)%R ->
    V (breit_wigner_min_l s mt ms m G m1 m2 ld lp rd rp rho) =
      form_factor lp (V mt * V mt) (csqrt (V s)) (V ms) (V rp) / form_factor lp (V mt * V mt) (V m) (V ms) (V rp)
      * bw_simple (V s) (V m) (running_width f ld (V s) (V m) (V G) (V m1) (V m2) (V rd))
      * (form_factor ld (V s) (V m1) (V m2) (V rd) / form_factor ld (V m * V m) (V m1) (V m2) (V rd))
    /\ (V s = V m * V m -> V G <> RtoC 0 -> form_factor lp (V mt * V mt) (V m) (V ms) (V rp) <> RtoC 0 ->
        form_factor ld (V m * V m) (V m1) (V m2) (V rd) <> RtoC 0 -> f (V m * V m) (V m1) (V m2) <> RtoC 0 ->
        V (breit_wigner_min_l s mt ms m G m1 m2 ld lp rd rp rho) = Ci / (V m * V G)).
  Proof.
    intros Ph Em Hm.
    assert (Fm : V (breit_wigner_min_l s mt ms m G m1 m2 ld lp rd rp rho) =
      form_factor lp (V mt * V mt) (csqrt (V s)) (V ms) (V rp) / form_factor lp (V mt * V mt) (V m) (V ms) (V rp)
      * bw_simple (V s) (V m) (running_width f ld (V s) (V m) (V G) (V m1) (V m2) (V rd))
      * (form_factor ld (V s) (V m1) (V m2) (V rd) / form_factor ld (V m * V m) (V m1) (V m2) (V rd))).
    { unfold breit_wigner_min_l. cbv zeta. cbn [ceval]. rewrite (eval_width _ _ _ _ _ _ _ _ _ _ _ Ph), CNum_value. reflexivity. }
    split; [exact Fm|]. intros Es NG Np Nd Nr. rewrite Fm, Es.
    assert (Cs : csqrt (V m * V m) = V m).
    { rewrite Em, <- RtoC_mult, csqrt_nonneg by nra. rewrite sqrt_square by lra. reflexivity. }
    assert (Nm : V m <> RtoC 0) by (rewrite Em; apply RtoC_neq; lra).
    rewrite Cs, running_width_at_pole, bw_peak by auto. field. auto.
  Qed.
  Lemma c38_bugg s m G m1 m2 g : let sA := V m1 * V m1 - V m2 * V m2 / RtoC 2 in
    V (bugg_breit_wigner s m G m1 m2 g) =
      RtoC 1 / (V m * V m - V s - Ci * ((V s - sA) / (V m * V m - sA) * (V m * V G * cexp (- V g * V s))))
    /\ (V s = sA -> V (bugg_breit_wigner s m G m1 m2 g) = RtoC 1 / (V m * V m - sA))
    /\ (V s = V m * V m -> V m * V m <> sA ->
        V (bugg_breit_wigner s m G m1 m2 g) = bw_simple (V m * V m) (V m) (V G * cexp (- V g * (V m * V m)))).
  Proof.
    cbv zeta. set (sA := V m1 * V m1 - V m2 * V m2 / RtoC 2).
    assert (Fm : V (bugg_breit_wigner s m G m1 m2 g) =
      RtoC 1 / (V m * V m - V s - Ci * ((V s - sA) / (V m * V m - sA) * (V m * V G * cexp (- V g * V s))))).
    { unfold bugg_breit_wigner, bugg_g_squared, bugg_adler_zero. cbn [ceval]. rewrite !CNum_value. reflexivity. }
    split; [exact Fm|]. split.
    - intros Es. rewrite Fm, Es. f_equal. unfold Cdiv. ring.
    - intros Es N. rewrite Fm, Es. unfold bw_simple. f_equal.
      assert ((V m * V m - sA) / (V m * V m - sA) = RtoC 1) as ->.
      { field. intros E. apply N. transitivity (V m * V m - sA + sA); [ring|]. rewrite E. ring. }
      ring.
  Qed.
  Lemma c38_flatte s m w1 w2 a1 b1 a2 b2 :
    let q s m1 m2 := csqrt (breakup_squared s m1 m2) in
    V (flatte_s_wave s m w1 w2 a1 b1 a2 b2) =
      bw_simple (V s) (V m)
        ((V w1 * (q (V s) (V a1) (V b1) / q (V m * V m) (V a2) (V b2))
          + V w2 * (q (V s) (V a2) (V b2) / q (V m * V m) (V a2) (V b2))) * (V m / csqrt (V s)))
    /\ (forall xm : R, V m = RtoC xm -> (0 < xm)%R -> V s = V m * V m -> V a1 = V a2 -> V b1 = V b2 ->
        q (V m * V m) (V a2) (V b2) <> RtoC 0 ->
        V (flatte_s_wave s m w1 w2 a1 b1 a2 b2) = bw_simple (V m * V m) (V m) (V w1 + V w2)).
  Proof.
    cbv zeta.
    assert (Fm : V (flatte_s_wave s m w1 w2 a1 b1 a2 b2) = bw_simple (V s) (V m)
        ((V w1 * (csqrt (breakup_squared (V s) (V a1) (V b1)) / csqrt (breakup_squared (V m * V m) (V a2) (V b2)))
          + V w2 * (csqrt (breakup_squared (V s) (V a2) (V b2)) / csqrt (breakup_squared (V m * V m) (V a2) (V b2)))) * (V m / csqrt (V s)))).
    { unfold flatte_s_wave, flatte_width. cbn [ceval]. rewrite CNum_value. unfold bw_simple. f_equal.
      unfold Cdiv. ring. }
    split; [exact Fm|]. intros xm Em Hm Es Ea Eb N. rewrite Fm, Es, Ea, Eb. f_equal.
    assert (Cs : csqrt (V m * V m) = V m).
    { rewrite Em, <- RtoC_mult, csqrt_nonneg by nra. rewrite sqrt_square by lra. reflexivity. }
    rewrite Cs. field. split; auto. rewrite Em. apply RtoC_neq. lra.
  Qed.
End C38.
