(** Integrals of bounded functions that are continuous on an open interval (for C142) *)
From Coq Require Import Reals Lra Lia List FunctionalExtensionality.
From Coquelicot Require Import Coquelicot.
Import ListNotations.
Local Open Scope R_scope.

(** ** The step function that is M near both ends of the interval and 0 in between *)
Section ends.
  Variables (a b d M : R).
  Hypothesis (Hd : 0 < d) (Hw : a + d < b - d) (HM : 0 <= M).
  Let chi (t : R) : R := if Rle_dec t (a + d) then M else if Rle_dec (b - d) t then M else 0.
  Lemma chi_couple : adapted_couple chi a b [a; a + d; b - d; b] [M; 0; M].
  Proof using Hd Hw HM.
    assert (Hab : a <= b) by lra.
    repeat split.
    - intros [|[|[|i]]] Hi; cbn in Hi |- *; try lra; lia.
    - cbn. rewrite Rmin_left; lra.
    - cbn. rewrite Rmax_right; lra.
    - intros [|[|[|i]]] Hi; cbn [length pred] in Hi; cbn [RList.pos_Rl]; intros t [H1 H2]; try lia; unfold chi.
      + destruct (Rle_dec t (a + d)); [reflexivity|lra].
      + destruct (Rle_dec t (a + d)); [lra|]. destruct (Rle_dec (b - d) t); [lra|reflexivity].
      + destruct (Rle_dec t (a + d)); [lra|]. destruct (Rle_dec (b - d) t); [reflexivity|lra].
  Qed.
  Definition chi_step : StepFun a b :=
    mkStepFun (existT (fun l => is_subdivision chi a b l) [a; a + d; b - d; b]
      (existT (fun l0 => adapted_couple chi a b [a; a + d; b - d; b] l0) [M; 0; M] chi_couple)).
  Lemma chi_int : RiemannInt_SF chi_step = 2 * d * M.
  Proof using Hd Hw HM.
    assert (Hab : a <= b) by lra. unfold RiemannInt_SF. destruct (Rle_dec a b); [|contradiction].
    unfold subdivision_val, subdivision, chi_step. cbn. ring.
  Qed.
  Lemma chi_val t : chi_step t = if Rle_dec t (a + d) then M else if Rle_dec (b - d) t then M else 0.
  Proof. reflexivity. Qed.
End ends.

(** ** Integrability *)
Lemma open_ex_RInt (f : R -> R) (a b M : R) : a < b -> (forall x, a < x < b -> Rabs (f x) <= M) ->
  (forall x, a < x < b -> continuous f x) -> ex_RInt f a b.
Proof.
  intros Hab HB HC.
  assert (HM : 0 <= M). { pose proof (HB ((a + b) / 2) ltac:(lra)). pose proof (Rabs_pos (f ((a + b) / 2))). lra. }
  set (g := fun x => if Rle_dec x a then 0 else if Rle_dec b x then 0 else f x).
  assert (Hgf : forall x, a < x < b -> g x = f x).
  { intros x Hx. unfold g. destruct (Rle_dec x a); [lra|]. destruct (Rle_dec b x); [lra|reflexivity]. }
  apply (ex_RInt_ext g). { intros x. rewrite Rmin_left, Rmax_right by lra. apply Hgf. }
  apply ex_RInt_Reals_1. intros eps.
  set (d := Rmin ((b - a) / 4) (eps / (8 * (M + 1)))).
  assert (Hpos : 0 < eps / (8 * (M + 1))). { apply Rdiv_lt_0_compat; [apply cond_pos|lra]. }
  assert (Hd : 0 < d). { unfold d. apply Rmin_glb_lt; lra. }
  assert (Hd1 : d <= (b - a) / 4) by apply Rmin_l.
  assert (Hd2 : d <= eps / (8 * (M + 1))) by apply Rmin_r.
  assert (Hw : a + d < b - d) by lra.
  assert (HdM : 2 * d * M <= eps / 4).
  { apply Rle_trans with (2 * d * (M + 1)); [nra|].
    apply Rle_trans with (2 * (eps / (8 * (M + 1))) * (M + 1)); [nra|]. right. field. lra. }
  set (h := fun x => if Rle_dec x (a + d) then 0 else if Rle_dec (b - d) x then 0 else f x).
  assert (Ih : ex_RInt h a b).
  { apply (ex_RInt_Chasles h a (a + d) b); [|apply (ex_RInt_Chasles h (a + d) (b - d) b)].
    - apply (ex_RInt_ext (fun _ => 0)); [|apply ex_RInt_const]. intros x. rewrite Rmin_left, Rmax_right by lra. intros Hx. unfold h.
      destruct (Rle_dec x (a + d)); [reflexivity|lra].
    - apply (ex_RInt_ext f).
      + intros x. rewrite Rmin_left, Rmax_right by lra. intros Hx. unfold h. destruct (Rle_dec x (a + d)); [lra|].
        destruct (Rle_dec (b - d) x); [lra|reflexivity].
      + apply (ex_RInt_continuous f). intros x. rewrite Rmin_left, Rmax_right by lra. intros Hx. apply HC. lra.
    - apply (ex_RInt_ext (fun _ => 0)); [|apply ex_RInt_const]. intros x. rewrite Rmin_left, Rmax_right by lra. intros Hx. unfold h.
      destruct (Rle_dec x (a + d)); [lra|]. destruct (Rle_dec (b - d) x); [reflexivity|lra]. }
  destruct (ex_RInt_Reals_0 _ _ _ Ih (pos_div_2 eps)) as (phi & psi & Hphi & Hpsi).
  exists phi. exists (mkStepFun (StepFun_P28 1 psi (chi_step a b d M Hd Hw HM))). split.
  - intros t Ht. cbn [fe]. specialize (Hphi t Ht). rewrite chi_val.
    assert (E : Rabs (g t - h t) <= (if Rle_dec t (a + d) then M else if Rle_dec (b - d) t then M else 0)).
    { unfold g, h. rewrite Rmin_left, Rmax_right in Ht by lra.
      destruct (Rle_dec t (a + d)), (Rle_dec (b - d) t); try lra.
      - destruct (Rle_dec t a); [rewrite Rminus_0_r, Rabs_R0; exact HM|]. destruct (Rle_dec b t); [rewrite Rminus_0_r, Rabs_R0; exact HM|].
        rewrite Rminus_0_r. apply HB. lra.
      - destruct (Rle_dec t a); [rewrite Rminus_0_r, Rabs_R0; exact HM|]. destruct (Rle_dec b t); [rewrite Rminus_0_r, Rabs_R0; exact HM|].
        rewrite Rminus_0_r. apply HB. lra.
      - destruct (Rle_dec t a); [lra|]. destruct (Rle_dec b t); [lra|]. rewrite Rminus_diag_eq by reflexivity. rewrite Rabs_R0. lra. }
    replace (g t - phi t) with ((g t - h t) + (h t - phi t)) by ring.
    apply Rle_trans with (1 := Rabs_triang _ _). revert E Hphi. generalize (if Rle_dec t (a + d) then M else if Rle_dec (b - d) t then M else 0).
    intros r E Hphi. lra.
  - rewrite StepFun_P30, chi_int. apply Rle_lt_trans with (1 := Rabs_triang _ _).
    rewrite Rmult_1_l. rewrite (Rabs_pos_eq (2 * d * M)) by nra. cbn [pos pos_div_2] in Hpsi. pose proof (cond_pos eps). lra.
Qed.

(** ** Estimates that only look at the inside of the interval *)
Lemma open_RInt_bound (f : R -> R) (a b M : R) : a <= b -> ex_RInt f a b -> (forall x, a < x < b -> Rabs (f x) <= M) ->
  Rabs (RInt f a b) <= (b - a) * M.
Proof.
  intros Hab If HB.
  assert (U : RInt f a b <= RInt (fun _ => M) a b).
  { apply RInt_le; [exact Hab|exact If|apply ex_RInt_const|]. intros x Hx. pose proof (HB x Hx). pose proof (Rle_abs (f x)). lra. }
  assert (Lo : RInt (fun _ => - M) a b <= RInt f a b).
  { apply RInt_le; [exact Hab|apply ex_RInt_const|exact If|]. intros x Hx. pose proof (HB x Hx) as E. apply Rabs_le_between in E. lra. }
  rewrite RInt_const in U, Lo. change (scal (b - a) M) with ((b - a) * M) in U. change (scal (b - a) (- M)) with ((b - a) * - M) in Lo.
  apply Rabs_le. lra.
Qed.

Lemma open_RInt_positive (f : R -> R) (a b c : R) : a < c < b -> ex_RInt f a b -> (forall x, a < x < b -> 0 <= f x) ->
  continuous f c -> 0 < f c -> 0 < RInt f a b.
Proof.
  intros Hc If Hp Cf Hf.
  destruct (Cf (fun y => Rabs (y - f c) < f c / 2)) as [e He].
  { exists (mkposreal (f c / 2) ltac:(lra)). intros y Hy. exact Hy. }
  set (r := Rmin (e / 2) (Rmin ((c - a) / 2) ((b - c) / 2))).
  assert (Hr : 0 < r). { unfold r. pose proof (cond_pos e). repeat apply Rmin_glb_lt; lra. }
  assert (H1 : r <= e / 2) by apply Rmin_l.
  assert (H2 : r <= (c - a) / 2) by (unfold r; apply Rle_trans with (1 := Rmin_r _ _), Rmin_l).
  assert (H3 : r <= (b - c) / 2) by (unfold r; apply Rle_trans with (1 := Rmin_r _ _), Rmin_r).
  assert (I1 : ex_RInt f a (c - r)) by (apply (ex_RInt_Chasles_1 f a (c - r) b); [lra|exact If]).
  assert (I23 : ex_RInt f (c - r) b) by (apply (ex_RInt_Chasles_2 f a (c - r) b); [lra|exact If]).
  assert (I2 : ex_RInt f (c - r) (c + r)) by (apply (ex_RInt_Chasles_1 f (c - r) (c + r) b); [lra|exact I23]).
  assert (I3 : ex_RInt f (c + r) b) by (apply (ex_RInt_Chasles_2 f (c - r) (c + r) b); [lra|exact I23]).
  rewrite <- (RInt_Chasles f a (c - r) b I1 I23), <- (RInt_Chasles f (c - r) (c + r) b I2 I3).
  change (0 < RInt f a (c - r) + (RInt f (c - r) (c + r) + RInt f (c + r) b)).
  assert (P1 : 0 <= RInt f a (c - r)) by (apply RInt_ge_0; [lra|exact I1|intros x Hx; apply Hp; lra]).
  assert (P3 : 0 <= RInt f (c + r) b) by (apply RInt_ge_0; [lra|exact I3|intros x Hx; apply Hp; lra]).
  assert (P2 : RInt (fun _ => f c / 2) (c - r) (c + r) <= RInt f (c - r) (c + r)).
  { apply RInt_le; [lra|apply ex_RInt_const|exact I2|]. intros x Hx.
    assert (B : Rabs (f x - f c) < f c / 2).
    { apply He. unfold ball; cbn. unfold AbsRing_ball, abs, minus, plus, opp; cbn. apply Rabs_def1; pose proof (cond_pos e); lra. }
    apply Rabs_def2 in B. lra. }
  rewrite RInt_const in P2. change (scal (c + r - (c - r)) (f c / 2)) with ((c + r - (c - r)) * (f c / 2)) in P2.
  assert (0 < (c + r - (c - r)) * (f c / 2)) by (apply Rmult_lt_0_compat; lra). lra.
Qed.

(** ** Integrals that depend on a parameter *)
Section parameter.
  Variables (F : R -> R -> R) (L U M : R).
  Hypothesis (HC : forall s z, L < s < U -> -1 < z < 1 -> continuity_2d_pt F s z).
  Hypothesis (HB : forall s z, L < s < U -> -1 < z < 1 -> Rabs (F s z) <= M).
  Lemma slice_continuous s z : L < s < U -> -1 < z < 1 -> continuous (F s) z.
  Proof using HC.
    intros Hs Hz P [e HP]. destruct (HC s z Hs Hz e) as [d Hd]. exists d. intros y Hy. apply HP.
    unfold ball in *; cbn in *. unfold AbsRing_ball, abs, minus, plus, opp in *; cbn in *.
    apply Hd; [|exact Hy]. rewrite Rminus_diag_eq by reflexivity. rewrite Rabs_R0. apply cond_pos.
  Qed.
  Lemma slice_integrable s : L < s < U -> ex_RInt (F s) (-1) 1.
  Proof using HC HB.
    intros Hs. apply (open_ex_RInt (F s) (-1) 1 M); [lra| |]; intros z Hz; [apply HB; assumption|apply slice_continuous; assumption].
  Qed.
  Lemma slice_bound s : L < s < U -> Rabs (RInt (F s) (-1) 1) <= 2 * M.
  Proof using HC HB.
    intros Hs. replace 2 with (1 - -1) by ring. apply open_RInt_bound; [lra|exact (slice_integrable s Hs)|]. intros z Hz. apply HB; assumption.
  Qed.
  Lemma parameter_continuous s0 : L < s0 < U -> continuous (fun s => RInt (F s) (-1) 1) s0.
  Proof using HC HB.
    intros Hs0 P [eps HP].
    assert (HM : 0 <= M). { pose proof (HB s0 0 Hs0 ltac:(lra)). pose proof (Rabs_pos (F s0 0)). lra. }
    pose proof (cond_pos eps) as Heps.
    set (d := Rmin (1 / 2) (eps / (16 * (M + 1)))).
    assert (Hpos : 0 < eps / (16 * (M + 1))). { apply Rdiv_lt_0_compat; lra. }
    assert (Hd : 0 < d). { unfold d. apply Rmin_glb_lt; lra. }
    assert (Hd1 : d <= 1 / 2) by apply Rmin_l.
    assert (HdM : d * (2 * M) <= eps / 8).
    { apply Rle_trans with (eps / (16 * (M + 1)) * (2 * (M + 1))).
      - apply Rmult_le_compat; [lra|lra|apply Rmin_r|lra].
      - right. field. lra. }
    set (r := Rmin ((s0 - L) / 2) ((U - s0) / 2)).
    assert (Hr : 0 < r). { unfold r. apply Rmin_glb_lt; lra. }
    assert (Hr1 : r <= (s0 - L) / 2) by apply Rmin_l.
    assert (Hr2 : r <= (U - s0) / 2) by apply Rmin_r.
    assert (He4 : 0 < eps / 4) by lra.
    destruct (uniform_continuity_2d F (s0 - r) (s0 + r) (-1 + d) (1 - d)) with (eps := mkposreal _ He4) as [delta Hdelta].
    { intros s z Hs Hz. apply HC; lra. }
    exists (mkposreal (Rmin r delta) (Rmin_glb_lt _ _ _ Hr (cond_pos delta))). intros s Hs. apply HP.
    assert (Hs' : Rabs (s - s0) < Rmin r delta) by exact Hs. clear Hs.
    assert (Hsr : Rabs (s - s0) < r) by (apply Rlt_le_trans with (1 := Hs'), Rmin_l).
    assert (Hsd : Rabs (s - s0) < delta) by (apply Rlt_le_trans with (1 := Hs'), Rmin_r).
    apply Rabs_def2 in Hsr.
    assert (HsLU : L < s < U) by lra.
    pose proof (slice_integrable s HsLU) as I1. pose proof (slice_integrable s0 Hs0) as I0.
    assert (ID : ex_RInt (fun z => F s z - F s0 z) (-1) 1) by (apply (ex_RInt_minus (F s) (F s0)); assumption).
    assert (ED : RInt (F s) (-1) 1 - RInt (F s0) (-1) 1 = RInt (fun z => F s z - F s0 z) (-1) 1).
    { symmetry. apply (RInt_minus (F s) (F s0)); assumption. }
    change (Rabs (RInt (F s) (-1) 1 - RInt (F s0) (-1) 1) < eps). rewrite ED.
    set (D := fun z => F s z - F s0 z) in *.
    assert (J1 : ex_RInt D (-1) (-1 + d)) by (apply (ex_RInt_Chasles_1 D (-1) (-1 + d) 1); [lra|exact ID]).
    assert (J23 : ex_RInt D (-1 + d) 1) by (apply (ex_RInt_Chasles_2 D (-1) (-1 + d) 1); [lra|exact ID]).
    assert (J2 : ex_RInt D (-1 + d) (1 - d)) by (apply (ex_RInt_Chasles_1 D (-1 + d) (1 - d) 1); [lra|exact J23]).
    assert (J3 : ex_RInt D (1 - d) 1) by (apply (ex_RInt_Chasles_2 D (-1 + d) (1 - d) 1); [lra|exact J23]).
    rewrite <- (RInt_Chasles D (-1) (-1 + d) 1 J1 J23), <- (RInt_Chasles D (-1 + d) (1 - d) 1 J2 J3).
    change (Rabs (RInt D (-1) (-1 + d) + (RInt D (-1 + d) (1 - d) + RInt D (1 - d) 1)) < eps).
    assert (DB : forall z, -1 < z < 1 -> Rabs (D z) <= 2 * M).
    { intros z Hz. unfold D, Rminus. apply Rle_trans with (1 := Rabs_triang _ _). rewrite Rabs_Ropp.
      pose proof (HB s z HsLU Hz). pose proof (HB s0 z Hs0 Hz). lra. }
    assert (K1 : Rabs (RInt D (-1) (-1 + d)) <= eps / 8).
    { apply Rle_trans with (2 := HdM). replace d with (-1 + d - -1) at 2 by ring. apply open_RInt_bound; [lra|exact J1|]. intros z Hz. apply DB. lra. }
    assert (K3 : Rabs (RInt D (1 - d) 1) <= eps / 8).
    { apply Rle_trans with (2 := HdM). replace d with (1 - (1 - d)) at 2 by ring. apply open_RInt_bound; [lra|exact J3|]. intros z Hz. apply DB. lra. }
    assert (K2 : Rabs (RInt D (-1 + d) (1 - d)) <= 2 * (eps / 4)).
    { apply Rle_trans with ((1 - d - (-1 + d)) * (eps / 4)).
      - apply open_RInt_bound; [lra|exact J2|]. intros z Hz. left. unfold D. apply (Hdelta s0 z s z); try lra; try exact Hsd.
        rewrite Rminus_diag_eq by reflexivity. rewrite Rabs_R0. apply cond_pos.
      - apply Rmult_le_compat_r; lra. }
    apply Rle_lt_trans with (1 := Rabs_triang _ _).
    pose proof (Rabs_triang (RInt D (-1 + d) (1 - d)) (RInt D (1 - d) 1)). lra.
  Qed.
End parameter.
