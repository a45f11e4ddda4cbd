(** Exchange of the order of integration for continuous functions (for C142) *)
From Coq Require Import Reals Lra.
From Coquelicot Require Import Coquelicot.
From Verif Require Import IntegralFacts.
Local Open Scope R_scope.

Lemma slice_1 (f : R -> R -> R) x y : continuity_2d_pt f x y -> continuous (f x) y.
Proof.
  intros H P [e HP]. destruct (H e) as [d Hd]. exists d. intros v Hv. apply HP. apply Hd; [|exact Hv].
  rewrite Rminus_diag_eq by reflexivity. rewrite Rabs_R0. apply cond_pos.
Qed.
Lemma slice_2 (f : R -> R -> R) x y : continuity_2d_pt f x y -> continuous (fun u => f u y) x.
Proof.
  intros H P [e HP]. destruct (H e) as [d Hd]. exists d. intros v Hv. apply HP. apply Hd; [exact Hv|].
  rewrite Rminus_diag_eq by reflexivity. rewrite Rabs_R0. apply cond_pos.
Qed.

Section Everywhere.
  Variable f : R -> R -> R.
  Hypothesis Hf : forall x y, continuity_2d_pt f x y.
  Lemma ex_slice_1 x c d : ex_RInt (f x) c d.
  Proof using Hf. apply (ex_RInt_continuous (f x)). intros y _. apply slice_1, Hf. Qed.
  Lemma ex_slice_2 y a b : ex_RInt (fun x => f x y) a b.
  Proof using Hf. apply (ex_RInt_continuous (fun x => f x y)). intros x _. exact (slice_2 f x y (Hf x y)). Qed.
  Lemma param_le_continuous a b y0 : a <= b -> continuous (fun y => RInt (fun x => f x y) a b) y0.
  Proof using Hf.
    intros Hab P [eps HP].
    assert (He : 0 < eps / (2 * (b - a + 1))) by (apply Rdiv_lt_0_compat; [apply cond_pos|lra]).
    destruct (uniform_continuity_2d f a b (y0 - 1) (y0 + 1) (fun x y _ _ => Hf x y) (mkposreal _ He)) as [d Hd].
    exists (mkposreal (Rmin 1 d) (Rmin_glb_lt _ _ _ Rlt_0_1 (cond_pos d))). intros y Hy. apply HP.
    assert (Hy' : Rabs (y - y0) < Rmin 1 d) by exact Hy. clear Hy.
    assert (Hy1 : Rabs (y - y0) < 1) by (apply Rlt_le_trans with (1 := Hy'), Rmin_l).
    assert (Hyd : Rabs (y - y0) < d) by (apply Rlt_le_trans with (1 := Hy'), Rmin_r).
    apply Rabs_def2 in Hy1.
    change (Rabs (RInt (fun x => f x y) a b - RInt (fun x => f x y0) a b) < eps).
    replace (RInt (fun x => f x y) a b - RInt (fun x => f x y0) a b) with (RInt (fun x => f x y - f x y0) a b)
      by (apply (RInt_minus (fun x => f x y) (fun x => f x y0)); apply ex_slice_2).
    apply Rle_lt_trans with ((b - a) * (eps / (2 * (b - a + 1)))).
    - apply open_RInt_bound; [exact Hab|apply (ex_RInt_minus (fun x => f x y) (fun x => f x y0)); apply ex_slice_2|].
      intros x Hx. left. apply (Hd x y0 x y); try lra. rewrite Rminus_diag_eq by reflexivity. rewrite Rabs_R0. apply cond_pos.
    - apply Rle_lt_trans with ((b - a + 1) * (eps / (2 * (b - a + 1)))); [apply Rmult_le_compat_r; lra|].
      replace ((b - a + 1) * (eps / (2 * (b - a + 1)))) with (eps / 2) by (field; lra). pose proof (cond_pos eps). lra.
  Qed.
  Lemma param_continuous a b y0 : continuous (fun y => RInt (fun x => f x y) a b) y0.
  Proof using Hf.
    destruct (Rle_or_lt a b) as [H|H]; [exact (param_le_continuous a b y0 H)|].
    apply (continuous_ext (fun y => opp (RInt (fun x => f x y) b a))).
    - intros y. apply opp_RInt_swap. apply ex_slice_2.
    - apply (continuous_opp (fun y => RInt (fun x => f x y) b a)). apply param_le_continuous. lra.
  Qed.
End Everywhere.
Lemma swap_2d (f : R -> R -> R) : (forall x y, continuity_2d_pt f x y) -> forall y x, continuity_2d_pt (fun y x => f x y) y x.
Proof.
  intros H y x e. destruct (H x y e) as [d Hd]. exists d. intros v u Hv Hu. apply Hd; assumption.
Qed.

Theorem fubini (f : R -> R -> R) a b c d : (forall x y, continuity_2d_pt f x y) ->
  RInt (fun x => RInt (fun y => f x y) c d) a b = RInt (fun y => RInt (fun x => f x y) a b) c d.
Proof.
  intros Hf. set (h := fun t y => RInt (fun x => f x y) a t).
  assert (Dh : forall t y, is_derive (fun u => h u y) t (f t y)).
  { intros t y. apply (is_derive_RInt (fun x => f x y) (fun u => h u y) a t).
    - apply filter_forall. intros u. exact (RInt_correct _ _ _ (ex_slice_2 f Hf y a u)).
    - exact (slice_2 f t y (Hf t y)). }
  assert (Eh : forall t y, Derive (fun u => h u y) t = f t y) by (intros; apply is_derive_unique, Dh).
  assert (Ih : forall t, ex_RInt (h t) c d).
  { intros t. apply (ex_RInt_continuous (h t)). intros y _. exact (param_continuous f Hf a t y). }
  assert (D : forall t, is_derive (fun t => RInt (h t) c d) t (RInt (fun y => f t y) c d)).
  { intros t. replace (RInt (fun y => f t y) c d) with (RInt (fun y => Derive (fun u => h u y) t) c d) by (apply RInt_ext; intros; apply Eh).
    apply (is_derive_RInt_param h c d t).
    - apply filter_forall. intros u y _. exists (f u y). apply Dh.
    - intros y _. apply (continuity_2d_pt_ext f); [|apply Hf]. intros u v. symmetry. apply Eh.
    - apply filter_forall. exact Ih. }
  pose proof (is_RInt_derive (fun t => RInt (h t) c d) (fun t => RInt (fun y => f t y) c d) a b (fun t _ => D t)
    (fun t _ => param_continuous (fun y x => f x y) (swap_2d f Hf) c d t)) as K.
  rewrite (is_RInt_unique _ _ _ _ K). unfold h.
  replace (RInt (fun y => RInt (fun x => f x y) a a) c d) with 0.
  - change (RInt (fun y => RInt (fun x => f x y) a b) c d - 0 = RInt (fun y => RInt (fun x => f x y) a b) c d). ring.
  - rewrite (RInt_ext _ (fun _ => 0)) by (intros y _; exact (RInt_point a (fun x => f x y))). rewrite RInt_const. change (0 = (d - c) * 0). ring.
Qed.
