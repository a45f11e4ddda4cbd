(** Narrow resonances of model files (proofs for C159) *)
From Coq Require Import String ZArith QArith Qcanon List Bool Reals Lra Lia Psatz Permutation.
From Coquelicot Require Import Coquelicot.
From Verif Require Import BoundedProofs Prelude Spin Decay Expr Sums CExpr SpecKin SpecDPD Builder SpecBuilder Dynamics SpecDynamics CExprFacts LineshapeFacts LineshapeProofs
  SpecFinite FiniteShapes SpecHankel HankelFacts SpecUnitary UnitaryProofs PhaseProofs
  SpecObs SpecBounded SpecNormal ObsKin NormalKin NormalFacts NormalProofs SpecProjection ProjectionFacts RateFacts NarrowFacts NarrowProofs.
From Verif Require Import SerFormat SerDynamics SpecSerial SpecWeights SerWeights SerSymbols SerDyn SerShapes SerRelabelDef SpecSerEffect SpecSerChain SerChain SerChainExamples SpecSerNarrow.
From Verif Require SerAmplitude.
Import ListNotations.
Local Open Scope R_scope.

(** ** One peak *)
Section Peak.
  Context (base : symbol -> C) (bG : R -> symbol -> C) (I : (symbol -> C) -> R) (i j k : Z) (M lo hi K B : R) (g h : R -> R).
  Context (Cy : cyclic i j k) (Op : open_phase_space base) (M0 : 0 < M) (Rg : lower_limit base k < M * M < upper_limit base k)
    (Dr : dalitz_range (with_sigma base k (M * M)) i j k lo hi)
    (Same : forall G, open_phase_space (bG G) /\ lower_limit (bG G) k = lower_limit base k /\ upper_limit (bG G) k = upper_limit base k /\
       forall s, line_half (bG G) i j k s = line_half base i j k s)
    (Gc : forall s, lower_limit base k < s < upper_limit base k -> continuous g s /\ 0 < g s) (Gm : g (M * M) = 1)
    (Hh : forall s, lower_limit base k < s < upper_limit base k -> continuous h s /\ Rabs (h s) <= B)
    (Sl : forall G s a b, 0 < G -> lower_limit base k < s < upper_limit base k -> between_thresholds (with_sigma (bG G) k s) i j k ->
       dalitz_range (with_sigma (bG G) k s) i j k a b ->
       is_RInt (fun t => I (dalitz_line (with_sigma (bG G) k s) i j k t)) a b
         ((b - a) * (K * h s / ((s - M * M) * (s - M * M) + M * G * (M * G) * (g s * g s))))).
  Let f (s : R) : R := 2 * line_half base i j k s * K * h s.
  Let fc s : lower_limit base k < s < upper_limit base k -> continuous f s.
  Proof.
    intros H. unfold f. apply (continuous_mult (fun s => 2 * line_half base i j k s * K) h); [|exact (proj1 (Hh s H))].
    apply (continuous_mult (fun s => 2 * line_half base i j k s) (fun _ => K)); [|apply continuous_const].
    apply (continuous_mult (fun _ => 2) (line_half base i j k)); [apply continuous_const|exact (half_continuous base i j k (fun _ => 0) 0 Cy Op s H)].
  Qed.
  Let fb s : lower_limit base k < s < upper_limit base k -> Rabs (f s) <= 2 * (upper_limit base j - lower_limit base j) * Rabs K * B.
  Proof.
    intros H. unfold f. rewrite !(Rabs_mult _ (h s)). apply Rmult_le_compat; [apply Rabs_pos|apply Rabs_pos| |exact (proj2 (Hh s H))].
    rewrite Rabs_mult. apply Rmult_le_compat_r; [apply Rabs_pos|].
    pose proof (line_half_pos base i j k Cy Op s H). pose proof (line_half_bound base i j k Cy Op s H). rewrite Rabs_pos_eq; lra.
  Qed.
  Theorem one_peak : exists N, (forall G, 0 < G -> integrates_to (bG G) I i j k (N G)) /\
    filterlim (fun G => M * G * N G) (at_right 0) (locally (PI * (hi - lo) * (K * h (M * M)))).
  Proof.
    assert (MG : forall G, 0 < G -> 0 < M * G) by (intros G HG; apply Rmult_lt_0_compat; assumption).
    exists (fun G => / (M * G) * RInt (peak (M * M) f g (M * G)) (lower_limit base k) (upper_limit base k)). split.
    - intros G HG. destruct (Same G) as (Op' & El & Eu & Eh). exists (fun s => / (M * G) * peak (M * M) f g (M * G) s). split.
      + intros s Hs. assert (Hs' := Hs). rewrite El, Eu in Hs.
        destruct (line_ends_at (bG G) i j k Cy Op' s Hs') as [E Rg']. exists (line_at (bG G) i j k s (-1)), (line_at (bG G) i j k s 1).
        split; [exact E|]. split; [exact Rg'|]. pose proof (Sl G s _ _ HG Hs (line_between (bG G) i j k Cy Op' s Hs') Rg') as Q.
        match type of Q with is_RInt _ _ _ ?v => match goal with |- is_RInt _ _ _ ?v' => replace v' with v; [exact Q|] end end.
        unfold line_at, peak, f. rewrite Eh. pose proof (MG G HG). pose proof (proj2 (Gc s Hs)) as Gp.
        assert (0 < M * G * (M * G) * (g s * g s)) by (apply Rmult_lt_0_compat; apply Rmult_lt_0_compat; assumption).
        pose proof (Rle_0_sqr (s - M * M)) as Q0. unfold Rsqr in Q0. field. repeat split; try lra; nra.
      + rewrite El, Eu. apply (is_RInt_scal (V := R_NormedModule)). apply (RInt_correct (V := R_CompleteNormedModule)).
        exact (peak_integrable _ _ (M * M) _ f g Rg fb fc (fun s H => proj1 (Gc s H)) Gm (fun s H => proj2 (Gc s H)) (M * G) (MG G HG)).
    - apply (filterlim_ext_loc (fun G => RInt (peak (M * M) f g (M * G)) (lower_limit base k) (upper_limit base k))).
      { exists (mkposreal 1 Rlt_0_1). intros G _ HG. pose proof (MG G HG). rewrite <- Rmult_assoc, Rinv_r by lra. rewrite Rmult_1_l. reflexivity. }
      replace (PI * (hi - lo) * (K * h (M * M))) with (PI * f (M * M)).
      2:{ unfold f. destruct (line_range_unique _ i j k Cy (line_between base i j k Cy Op (M * M) Rg) lo hi Dr) as [-> ->].
          rewrite !(line_end_at base i j k Cy (M * M)) by exact Rg. unfold line_at. ring. }
      apply (filterlim_comp _ _ _ (fun G => M * G) (fun e => RInt (peak (M * M) f g e) (lower_limit base k) (upper_limit base k)) (at_right 0) (at_right 0)).
      + intros P [d HP']. assert (d0 : 0 < d / M) by (apply Rdiv_lt_0_compat; [apply cond_pos|exact M0]). exists (mkposreal _ d0). intros G BG HG. apply HP'.
        * change (Rabs (M * G - 0) < d). change (Rabs (G - 0) < d / M) in BG. rewrite Rminus_0_r, Rabs_pos_eq in BG by lra.
          rewrite Rminus_0_r, Rabs_pos_eq by (apply Rmult_le_pos; lra). apply (Rmult_lt_compat_l M) in BG; [|exact M0]. replace (M * (d / M)) with (pos d) in BG by (field; lra). exact BG.
        * apply MG. exact HG.
      + exact (narrow_limit _ _ (M * M) _ f g Rg fb fc (fun s H => proj1 (Gc s H)) Gm (fun s H => proj2 (Gc s H))).
  Qed.
End Peak.

Lemma ff2_continuous L a b r s : 0 <= a -> 0 <= b -> 0 < a + b -> (a + b) * (a + b) < s -> continuous (fun s => ff2 L s a b r) s.
Proof.
  intros Ha Hb Hab Hs. assert (T : 0 < (a + b) * (a + b)) by (apply Rmult_lt_0_compat; exact Hab). assert (S0 : 0 < s) by lra.
  pose proof (proj2 (rbreakup_sign s a b Ha Hb S0) Hs) as Q.
  assert (Qc : continuous (fun s => rbreakup s a b) s) by (apply (ex_derive_continuous (fun s => rbreakup s a b)); unfold rbreakup; auto_derive; lra).
  apply (continuous_ext (fun s => bsq (Z.to_nat L) (rbreakup s a b * (r * r)))); [intros t; symmetry; apply ff2_bsq|]. unfold bsq.
  assert (Zc : continuous (fun s => rbreakup s a b * (r * r)) s) by (apply (continuous_mult (fun s => rbreakup s a b) (fun _ => r * r)); [exact Qc|apply continuous_const]).
  set (n := Z.to_nat L). unfold Rdiv. apply (continuous_mult (fun s => (rbreakup s a b * (r * r)) ^ n * pa 1 n (S n)) (fun s => / pa (rbreakup s a b * (r * r)) n (S n))).
  - apply (continuous_mult (fun s => (rbreakup s a b * (r * r)) ^ n) (fun _ => pa 1 n (S n))); [|apply continuous_const].
    apply (continuous_comp (fun s => rbreakup s a b * (r * r)) (fun y => y ^ n)); [exact Zc|]. apply (ex_derive_continuous (fun y => y ^ n)). auto_derive. trivial.
  - apply (continuous_comp (fun s => pa (rbreakup s a b * (r * r)) n (S n)) Rinv).
    + apply (continuous_comp (fun s => rbreakup s a b * (r * r)) (fun y => pa y n (S n))); [exact Zc|apply pa_continuous].
    + apply continuous_Rinv. apply Rgt_not_eq. apply pa_pos. apply Rmult_le_pos; [lra|apply Rle_0_sqr].
Qed.

(** ** A chain with a Breit-Wigner function *)
Section Chain.
  Variables (m : model_def) (d : distribution) (s : Z -> state) (r : Z) (tl : string -> string)
    (x : chain_def -> content) (w : chain_def -> symbol) (dyn : chain_def -> defexpr).
  Hypothesis H : helicity_definition m d s r tl None x w dyn.
  Variables (cl : bool) (Md : model).
  Hypothesis F : SerAmplitude.formulate m cl tl None = Ok Md.
  Hypothesis ND : NoDup (di_chains d).
  Variable c : chain_def.
  Hypothesis Hc : In c (di_chains d).
  Variable Lf : Z.
  Hypothesis Bw : breit_wigner_chain m c Lf.
  Hypothesis Rp : resonance_possible (x c).
  Hypothesis Fp : final_possible s (x c).

  Lemma bw_chain_complete : complete_chain m c.
  Proof.
    destruct Bw as (B1 & B2 & B3). destruct (hd_content _ _ _ _ _ _ _ _ _ H c Hc) as (vp & vd & T & _). split.
    - intros p Ip. destruct (B1 p Ip) as (f & Ff & Cf). exists f. auto.
    - intros v Iv. assert (V : v = vp \/ v = vd) by (destruct (tb_vertices _ _ _ _ _ _ _ T) as [Ev|Ev]; rewrite Ev in Iv; destruct Iv as [<-|[<-|[]]]; auto).
      destruct V as [-> | ->].
      + destruct (tb_production _ _ _ _ _ _ _ T) as (a' & b' & Np & _). destruct (B2 vp _ _ Iv Np) as [E|E]; [left|right; left]; exact E.
      + destruct (B3 vd _ _ Iv (tb_decay _ _ _ _ _ _ _ T)) as [[[E|E] _]|(nm & f & E1 & E2 & E3 & E4 & E5 & E6)]; [left; exact E|right; left; exact E|].
        right; right. exists nm, f. repeat split; auto. intros y [<-|[<-|[]]]; [eexists; exact E6|apply E5; left; reflexivity].
  Qed.
  Lemma bw_chain_value : exists L a b, Permutation [a; b; ct_k (x c)] [1; 2; 3]%Z /\ Permutation [ct_i (x c); ct_j (x c); ct_k (x c)] [1; 2; 3]%Z /\ forall ev h, ceval ev h (de_expr (dyn c)) =
    (bw_simple (e_sym ev (sigma_sym (ct_k (x c)))) (e_sym ev (chain_mass tl c))
      (running_width two_body_phsp L (e_sym ev (sigma_sym (ct_k (x c)))) (e_sym ev (chain_mass tl c)) (e_sym ev (chain_width tl c))
         (e_sym ev (mass_sym a)) (e_sym ev (mass_sym b)) (e_sym ev radius_sym))
     * form_factor Lf (e_sym ev (sigma_sym (ct_k (x c)))) (e_sym ev (mass_sym (ct_i (x c)))) (e_sym ev (mass_sym (ct_j (x c)))) (e_sym ev radius_sym))%C.
  Proof.
    destruct (hd_content _ _ _ _ _ _ _ _ _ H c Hc) as (vp & vd & T & _).
    destruct (tb_propagator _ _ _ _ _ _ _ T) as (q & a & b & Ep & _ & N & Pab).
    destruct (proj1 Bw q) as (f & Ff & Cf); [rewrite Ep; left; reflexivity|].
    exists (wave_of (fd_numbers f)), a, b. split.
    { apply (Permutation_trans (l' := [ct_i (x c); ct_j (x c); ct_k (x c)])); [exact (Permutation_app_tail [ct_k (x c)] Pab)|exact (tb_ids _ _ _ _ _ _ _ T)]. }
    split; [exact (tb_ids _ _ _ _ _ _ _ T)|]. intros ev h. rewrite (builtin_value m d s r tl c (dyn c) _ _ _ _ vp vd q a b f (hd_states _ _ _ _ _ _ _ _ _ H) (hd_dynamics _ _ _ _ _ _ _ _ _ H c Hc) bw_chain_complete T Ep N Ff).
    assert (Iv : In vp (cd_vertices c) /\ In vd (cd_vertices c)) by (destruct (tb_vertices _ _ _ _ _ _ _ T) as [Ev|Ev]; rewrite Ev; cbn; auto).
    destruct Iv as [Ivp Ivd].
    assert (V1 : vertex_wave m vp = 0%Z).
    { destruct (tb_production _ _ _ _ _ _ _ T) as (a' & b' & Np & _). unfold vertex_wave. destruct (proj1 (proj2 Bw) vp _ _ Ivp Np) as [-> | ->]; reflexivity. }
    assert (V2 : vertex_wave m vd = Lf).
    { unfold vertex_wave. destruct (proj2 (proj2 Bw) vd _ _ Ivd (tb_decay _ _ _ _ _ _ _ T)) as [[[-> | ->] ->]|(nm & f' & -> & E2 & E3 & _ & _ & E6)]; [reflexivity|reflexivity|].
      destruct (eqb nm ""%string) eqn:Q; [apply (proj1 (Prelude.eqb_eq _ _)) in Q; contradiction|]. rewrite (function_ok _ _ _ E3). unfold wave_of. rewrite E6. apply int_of_Z. }
    rewrite V1, V2, form_factor_zero, Cmult_1_l. unfold width_value. rewrite (proj1 Cf).
    replace (eqb "BreitWigner"%string "BreitWigner"%string) with true by reflexivity. reflexivity.
  Qed.

  Variables (i j : Z) (base : symbol -> C) (cpl : string -> list ival -> C) (M lo hi : R).
  Let k := ct_k (x c).
  Hypothesis Cy : cyclic i j k.
  Hypothesis Op : open_phase_space base.
  Hypothesis On : only_chain w (di_chains d) base c.
  Hypothesis Bm : base (chain_mass tl c) = RtoC M.
  Hypothesis M0 : 0 < M.
  Hypothesis Rg : lower_limit base k < M * M < upper_limit base k.
  Hypothesis Dr : dalitz_range (with_sigma base k (M * M)) i j k lo hi.
  Hypothesis Rl : real_at base (mass_at i) /\ real_at base (mass_at j) /\ real_at base radius_sym.
  Hypothesis R0 : 0 < Re (base radius_sym).
  Hypothesis L0 : 0 < lower_limit base k.

  Theorem serial_narrow : exists N,
    (forall G, 0 < G -> integrates_to (with_value base (chain_width tl c) (RtoC G)) (intensity_at Md cpl) i j k (N G)) /\
    filterlim (fun G => M * G * N G) (at_right 0) (locally (PI * (hi - lo) *
      (IZR (p_spin (s 0%Z) + 1) / IZR (ct_spin (x c) + 1) * (production_count (x c) * decay_count (x c)) * Cmod (base (w c)) ^ 2
        * Cmod (form_factor Lf (RtoC (M * M)) (base (mass_at i)) (base (mass_at j)) (base radius_sym)) ^ 2))).
  Proof.
    destruct Rl as (Ri & Rj & Rr). set (R' := Re (base radius_sym)) in *.
    set (mi := Re (base (mass_at i))). set (mj := Re (base (mass_at j))).
    assert (Lk : lower_limit base k = (mi + mj) * (mi + mj) /\ 0 <= mi /\ 0 <= mj).
    { destruct Op as (O1 & O2 & O3 & _). unfold lower_limit, particle_mass in *. unfold mi, mj, SpecObs.mass_at.
      destruct (cyclic_values i j k Cy) as [(-> & -> & ->)|[(-> & -> & ->)|(-> & -> & ->)]]; unfold next_label; cbn [Z.eqb Pos.eqb Z.add Pos.add Pos.succ]; repeat split; try assumption; ring. }
    destruct Lk as (Lk & Hi & Hj).
    assert (Hij : 0 < mi + mj) by (rewrite Lk in L0; destruct (Req_dec (mi + mj) 0) as [Z|]; [rewrite Z in L0; lra|lra]).
    assert (Hm : mi + mj < M) by (rewrite Lk in Rg; nra).
    destruct bw_chain_value as (L & a' & b' & P & Pi & Sh). fold k in P, Sh.
    assert (Pair : forall a1 b1, Permutation [a1; b1; k] [1; 2; 3]%Z -> (mass_sym a1 = mass_at i /\ mass_sym b1 = mass_at j) \/ (mass_sym a1 = mass_at j /\ mass_sym b1 = mass_at i)).
    { intros a1 b1 P1. destruct (perm_in _ _ _ P1) as (Ia & Ib & Ik & Nab).
      assert (Nk : a1 <> k /\ b1 <> k).
      { assert (Nd : NoDup [a1; b1; k]) by (apply (Permutation_NoDup (Permutation_sym P1)); repeat constructor; cbn; lia).
        inversion Nd as [|? ? X1 X2]; subst. inversion X2 as [|? ? X3 X4]; subst. cbn in X1, X3. split; intros Z; [apply X1|apply X3]; rewrite Z; auto. }
      destruct (cyclic_values i j k Cy) as [(-> & -> & Ck)|[(-> & -> & Ck)|(-> & -> & Ck)]]; rewrite Ck in Nk; destruct Nk as [N1 N2];
        destruct Ia as [<-|[<-|[<-|[]]]]; destruct Ib as [<-|[<-|[<-|[]]]]; try (exfalso; lia); auto. }
    assert (E : forall y, rbreakup y mj mi = rbreakup y mi mj) by (intros y; unfold rbreakup; f_equal; ring).
    assert (E2 : forall l y, ff2 l y mj mi R' = ff2 l y mi mj R') by (intros l y; unfold ff2; rewrite E; reflexivity).
    assert (Fv : forall t a1 b1, (mi + mj) * (mi + mj) < t -> Permutation [a1; b1; k] [1; 2; 3]%Z ->
      Cmod (form_factor Lf (RtoC t) (base (mass_sym a1)) (base (mass_sym b1)) (base radius_sym)) ^ 2 = ff2 Lf t mi mj R').
    { intros t a1 b1 Ht P1. assert (T0 : 0 < t) by nra.
      assert (V : forall u v, 0 <= u -> 0 <= v -> (u + v) * (u + v) < t -> Cmod (form_factor Lf (RtoC t) (RtoC u) (RtoC v) (RtoC R')) ^ 2 = ff2 Lf t u v R').
      { intros u v Hu Hv Huv. destruct (ff2_value Lf t u v R' Hu Hv T0 (or_intror (Rlt_le _ _ Huv))) as [X1 X2].
        replace (Cmod (form_factor Lf (RtoC t) (RtoC u) (RtoC v) (RtoC R')) ^ 2) with
          (Cmod (form_factor Lf (RtoC t) (RtoC u) (RtoC v) (RtoC R') * form_factor Lf (RtoC t) (RtoC u) (RtoC v) (RtoC R'))%C) by (rewrite Cmod_mult; ring).
        rewrite X1, Cmod_R. apply Rabs_pos_eq. exact X2. }
      rewrite Rr. fold R'. destruct (Pair a1 b1 P1) as [[-> ->]|[-> ->]]; rewrite Ri, Rj; fold mi mj.
      - apply V; assumption.
      - rewrite V by (try assumption; rewrite (Rplus_comm mj mi); assumption). apply E2. }
    assert (Sw : forall G t, 0 < G -> (mi + mj) * (mi + mj) < t ->
      running_width two_body_phsp L (RtoC t) (RtoC M) (RtoC G) (base (mass_sym a')) (base (mass_sym b')) (base radius_sym) = RtoC (G * width_at L M 1 mi mj R' t)).
    { intros G t HG Ht. rewrite <- width_scale.
      rewrite Rr. fold R'. destruct (Pair a' b' P) as [[-> ->]|[-> ->]]; rewrite Ri, Rj; fold mi mj.
      - apply UnitaryProofs.width_value; try assumption; lra.
      - rewrite (UnitaryProofs.width_value L M G mj mi R') by (try assumption; lra). f_equal. unfold width_at. rewrite !E2, !E. reflexivity. }
    assert (Nw : forall c' y, In c' (di_chains d) -> sassume y = ANonneg -> eqb (w c') y = false).
    { intros c' y I A. pose proof (weight_none m d s r tl None x w dyn H (w c') (ex_intro _ c' (conj I eq_refl))) as B.
      destruct (eqb (w c') y) eqn:Ew; [|reflexivity]. apply (proj1 (Prelude.eqb_eq _ _)) in Ew. rewrite Ew in B. congruence. }
    assert (Ih : Permutation [i; j; k] [1; 2; 3]%Z).
    { destruct (cyclic_values i j k Cy) as [(-> & -> & ->)|[(-> & -> & ->)|(-> & -> & ->)]]; [apply Permutation_refl| |].
      - apply Permutation_sym, (Permutation_cons_append [2; 3]%Z 1%Z).
      - apply (Permutation_cons_append [1; 2]%Z 3%Z). }
    change (mass_at i) with (mass_sym i). change (mass_at j) with (mass_sym j).
    rewrite (Fv (M * M) i j) by (rewrite ?Lk in Rg; tauto || exact Ih).
    apply (one_peak base (fun G => with_value base (chain_width tl c) (RtoC G)) (intensity_at Md cpl) i j k M lo hi _ (pa 1 (Z.to_nat Lf) (S (Z.to_nat Lf)) / bw_coeff (Z.to_nat Lf) (Z.to_nat Lf))
      (width_at L M 1 mi mj R') (fun t => ff2 Lf t mi mj R') Cy Op M0 Rg Dr).
    - intros G. split; [exact Op|]. repeat split; reflexivity.
    - intros t Ht. rewrite Lk in Ht. split; [apply width_continuous; lra|]. apply (width_pos L M 1 mi mj R'); lra.
    - apply width_at_mass; lra.
    - intros t Ht. rewrite Lk in Ht. assert (T0 : 0 < t) by nra. pose proof (proj2 (rbreakup_sign t mi mj Hi Hj T0) (proj1 Ht)) as Q.
      assert (Z0 : 0 <= rbreakup t mi mj * (R' * R')) by (apply Rmult_le_pos; [lra|apply Rle_0_sqr]). split.
      + apply ff2_continuous; try assumption; lra.
      + rewrite ff2_bsq, Rabs_pos_eq by (apply bsq_nonneg; exact Z0). exact (bsq_bounded Lf _ _ Z0).
    - intros G t a b HG Ht Bt Rt. rewrite Lk in Ht. set (bw := with_value base (chain_width tl c) (RtoC G)) in *.
      pose proof (complete_projection m d s r tl x w dyn H cl Md F ND c Hc bw_chain_complete Rp Fp i j (with_sigma bw k t) cpl a b Cy Bt Rt) as Q.
      assert (Wt : forall c', In c' (di_chains d) -> with_sigma bw k t (w c') = base (w c')).
      { intros c' I. unfold with_sigma. rewrite Nw by (exact I || reflexivity). unfold bw, with_value. rewrite Nw by (exact I || reflexivity). reflexivity. }
      assert (On' : only_chain w (di_chains d) (with_sigma bw k t) c) by (intros c' I N; rewrite Wt by exact I; exact (On c' I N)).
      specialize (Q On').
      match type of Q with is_RInt _ _ _ ?v => match goal with |- is_RInt _ _ _ ?v' => replace v' with v; [exact Q|] end end.
      rewrite Wt by exact Hc. rewrite Sh. cbn [e_sym].
      assert (V1 : with_sigma bw k t (sigma_sym k) = RtoC t) by (unfold with_sigma; change (sigma_sym k) with (sigma_at k); rewrite (proj2 (Prelude.eqb_eq _ _) eq_refl); reflexivity).
      assert (V2 : with_sigma bw k t (chain_width tl c) = RtoC G).
      { unfold with_sigma. assert (Ew : eqb (chain_width tl c) (sigma_at k) = false) by reflexivity. rewrite Ew. unfold bw, with_value. rewrite (proj2 (Prelude.eqb_eq _ _) eq_refl). reflexivity. }
      assert (V3 : with_sigma bw k t (chain_mass tl c) = RtoC M) by exact Bm.
      rewrite V1, V2, V3.
      change (with_sigma bw k t (mass_sym a')) with (base (mass_sym a')). change (with_sigma bw k t (mass_sym b')) with (base (mass_sym b')).
      change (with_sigma bw k t radius_sym) with (base radius_sym). rewrite (Sw G t HG (proj1 Ht)).
      rewrite Cmod_mult, Rpow_mult_distr. change (with_sigma bw k t (mass_sym (ct_i (x c)))) with (base (mass_sym (ct_i (x c)))). change (with_sigma bw k t (mass_sym (ct_j (x c)))) with (base (mass_sym (ct_j (x c)))).
      rewrite (Fv t _ _ (proj1 Ht) Pi).
      assert (Wp : 0 < width_at L M 1 mi mj R' t) by (apply (width_pos L M 1 mi mj R'); lra).
      generalize dependent (width_at L M 1 mi mj R' t). intros y Wp.
      rewrite mod_peak by (apply Rmult_lt_0_compat; [|apply Rmult_lt_0_compat]; assumption).
      replace (M * (G * y) * (M * (G * y))) with (M * G * (M * G) * (y * y)) by ring. unfold Rdiv. ring.
  Qed.
End Chain.
