(** Finite sums of real and complex numbers over lists. *)
From Coq Require Import ZArith List Bool Reals Lra Lia Permutation.
From Coquelicot Require Import Complex.
Import ListNotations.

Section RSum.
  Context {A : Type}.
  Local Open Scope R_scope.
  Fixpoint Rsum (l : list A) (f : A -> R) : R :=
    match l with [] => 0 | x :: l => f x + Rsum l f end.
  Lemma Rsum_ext l f g : (forall x, In x l -> f x = g x) -> Rsum l f = Rsum l g.
  Proof.
    induction l; simpl; intros H; auto. rewrite (H a) by auto. rewrite IHl; auto.
  Qed.
  Lemma Rsum_app l l' f : Rsum (l ++ l') f = Rsum l f + Rsum l' f.
  Proof. induction l; simpl; [lra|]. rewrite IHl. lra. Qed.
  Lemma Rsum_plus l f g : Rsum l (fun x => f x + g x) = Rsum l f + Rsum l g.
  Proof. induction l; simpl; [lra|]. rewrite IHl. lra. Qed.
  Lemma Rsum_scal_l l c f : Rsum l (fun x => c * f x) = c * Rsum l f.
  Proof. induction l; simpl; [lra|]. rewrite IHl. lra. Qed.
  Lemma Rsum_scal_r l c f : Rsum l (fun x => f x * c) = Rsum l f * c.
  Proof. induction l; simpl; [lra|]. rewrite IHl. lra. Qed.
  Lemma Rsum_zero l f : (forall x, In x l -> f x = 0) -> Rsum l f = 0.
  Proof.
    induction l; simpl; intros H; auto. rewrite (H a) by auto. rewrite IHl; auto. lra.
  Qed.
  Lemma Rsum_nonneg l f : (forall x, In x l -> 0 <= f x) -> 0 <= Rsum l f.
  Proof.
    induction l; simpl; intros H; [lra|].
    pose proof (H a (or_introl eq_refl)). assert (0 <= Rsum l f) by auto. lra.
  Qed.
  Lemma Rsum_perm l l' f : Permutation l l' -> Rsum l f = Rsum l' f.
  Proof. induction 1; simpl; try lra. Qed.
  Lemma Rsum_single l (a : A) f : NoDup l -> In a l -> (forall x, In x l -> x <> a -> f x = 0) ->
    Rsum l f = f a.
  Proof.
    induction l as [|b l IH]; simpl; [easy|]. intros N I H. inversion_clear N.
    destruct I as [-> | I].
    - rewrite Rsum_zero; [lra|]. intros x Hx. apply H; auto. intros ->. auto.
    - rewrite IH; auto. rewrite (H b); auto; [lra|]. intros ->. auto.
  Qed.
  Lemma Rsum_filter l (p : A -> bool) f : Rsum (filter p l) f = Rsum l (fun x => if p x then f x else 0).
  Proof. induction l; simpl; auto. destruct (p a); simpl; rewrite IHl; lra. Qed.
End RSum.
Lemma Rsum_swap {A B} (l : list A) (l' : list B) f :
  Rsum l (fun x => Rsum l' (fun y => f x y)) = Rsum l' (fun y => Rsum l (fun x => f x y)).
Proof.
  induction l; simpl.
  - symmetry. apply Rsum_zero; auto.
  - rewrite IHl, <- Rsum_plus. reflexivity.
Qed.
Lemma Rsum_map {A B} (l : list A) (g : A -> B) f : Rsum (map g l) f = Rsum l (fun x => f (g x)).
Proof. induction l; simpl; congruence. Qed.

Section CSum.
  Context {A : Type}.
  Local Open Scope C_scope.
  Fixpoint Csum (l : list A) (f : A -> C) : C :=
    match l with [] => RtoC 0 | x :: l => f x + Csum l f end.
  Lemma Csum_ext l f g : (forall x, In x l -> f x = g x) -> Csum l f = Csum l g.
  Proof. induction l; simpl; intros H; auto. rewrite (H a) by auto. rewrite IHl; auto. Qed.
  Lemma Csum_app l l' f : Csum (l ++ l') f = Csum l f + Csum l' f.
  Proof. induction l; simpl; [ring|]. rewrite IHl. ring. Qed.
  Lemma Csum_plus l f g : Csum l (fun x => f x + g x) = Csum l f + Csum l g.
  Proof. induction l; simpl; [ring|]. rewrite IHl. ring. Qed.
  Lemma Csum_scal_l l c f : Csum l (fun x => c * f x) = c * Csum l f.
  Proof. induction l; simpl; [ring|]. rewrite IHl. ring. Qed.
  Lemma Csum_scal_r l c f : Csum l (fun x => f x * c) = Csum l f * c.
  Proof. induction l; simpl; [ring|]. rewrite IHl. ring. Qed.
  Lemma Csum_zero l f : (forall x, In x l -> f x = RtoC 0) -> Csum l f = RtoC 0.
  Proof.
    induction l; simpl; intros H; auto. rewrite (H a) by auto. rewrite IHl; auto. ring.
  Qed.
  Lemma Csum_perm l l' f : Permutation l l' -> Csum l f = Csum l' f.
  Proof. induction 1; simpl; try congruence; ring. Qed.
  Lemma Csum_single l (a : A) f : NoDup l -> In a l -> (forall x, In x l -> x <> a -> f x = RtoC 0) ->
    Csum l f = f a.
  Proof.
    induction l as [|b l IH]; simpl; [easy|]. intros N I H. inversion_clear N.
    destruct I as [-> | I].
    - rewrite Csum_zero; [ring|]. intros x Hx. apply H; auto. intros ->. auto.
    - rewrite IH; auto. rewrite (H b); auto; [ring|]. intros ->. auto.
  Qed.
  Lemma Csum_filter l (p : A -> bool) f : Csum (filter p l) f = Csum l (fun x => if p x then f x else RtoC 0).
  Proof. induction l; simpl; auto. destruct (p a); simpl; rewrite IHl; ring. Qed.
  Lemma Csum_RtoC l f : Csum l (fun x => RtoC (f x)) = RtoC (Rsum l f).
  Proof. induction l; simpl; auto. rewrite IHl, RtoC_plus. reflexivity. Qed.
  Lemma Csum_opp l f : Csum l (fun x => - f x) = - Csum l f.
  Proof. induction l; simpl; [ring|]. rewrite IHl. ring. Qed.
End CSum.
Lemma Csum_swap {A B} (l : list A) (l' : list B) f :
  Csum l (fun x => Csum l' (fun y => f x y)) = Csum l' (fun y => Csum l (fun x => f x y)).
Proof.
  induction l; simpl.
  - symmetry. apply Csum_zero; auto.
  - rewrite IHl, <- Csum_plus. reflexivity.
Qed.
Lemma Csum_map {A B} (l : list A) (g : A -> B) f : Csum (map g l) f = Csum l (fun x => f (g x)).
Proof. induction l; simpl; congruence. Qed.
Lemma Csum_flat_map {A B} (l : list A) (g : A -> list B) f :
  Csum (flat_map g l) f = Csum l (fun x => Csum (g x) f).
Proof. induction l; simpl; auto. rewrite Csum_app. congruence. Qed.
