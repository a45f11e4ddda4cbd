(** Dimensional analysis of real expressions: a syntactic degree and its soundness. *)
From Coq Require Import String ZArith List Bool Reals Lra Lia.
From Verif Require Import Prelude Expr.
Import ListNotations.
Local Open Scope Z_scope.

Section Dim.
  (** the dimension of each symbol *)
  Variable dim : symbol -> Z.

  (** [degree e = Some d]: [e] is homogeneous of degree [d] by its construction. *)
  Fixpoint degree (e : rexpr) : option Z :=
    match e with
    | RNum _ => Some 0
    | RVar s => Some (dim s)
    | RAdd a b | RSub a b =>
        match degree a, degree b with
        | Some x, Some y => if x =? y then Some x else None
        | _, _ => None
        end
    | RMul a b =>
        match degree a, degree b with Some x, Some y => Some (x + y) | _, _ => None end
    | RDiv a b =>
        match degree a, degree b with Some x, Some y => Some (x - y) | _, _ => None end
    | ROpp a => degree a
    | RSq a => match degree a with Some x => Some (2 * x) | None => None end
    | RSqrt a => match degree a with
                 | Some x => if Z.even x then Some (x / 2) else None
                 | None => None
                 end
    | RAcos a => match degree a with Some 0 => Some 0 | _ => None end
    | RKallen a b c =>
        match degree a, degree b, degree c with
        | Some x, Some y, Some z => if (x =? y) && (y =? z) then Some (2 * x) else None
        | _, _, _ => None
        end
    end.

  Variable c : R.
  Hypothesis Hc : (0 < c)%R.
  Definition scaled (env : symbol -> R) (s : symbol) : R := (powerRZ c (dim s) * env s)%R.

  Local Open Scope R_scope.
  Lemma pow_pos x : 0 < powerRZ c x. Proof. apply powerRZ_lt; auto. Qed.
  Lemma pow_add x y : powerRZ c (x + y) = powerRZ c x * powerRZ c y.
  Proof. apply powerRZ_add. lra. Qed.
  Lemma pow_opp x : powerRZ c (- x) = / powerRZ c x.
  Proof. rewrite powerRZ_neg'. reflexivity. Qed.
  Lemma pow_double x : powerRZ c (2 * x) = powerRZ c x * powerRZ c x.
  Proof. rewrite <- pow_add. f_equal. lia. Qed.

  Theorem degree_sound env e : forall d, degree e = Some d ->
    reval (scaled env) e = powerRZ c d * reval env e.
  Proof.
    induction e; cbn [degree reval]; intros d Hd.
    - injection Hd as <-. simpl. lra.
    - injection Hd as <-. reflexivity.
    - destruct (degree e1) as [x|], (degree e2) as [y|]; try discriminate.
      destruct (Z.eqb_spec x y) as [-> |]; [|discriminate]. injection Hd as <-.
      rewrite (IHe1 _ eq_refl), (IHe2 _ eq_refl). ring.
    - destruct (degree e1) as [x|], (degree e2) as [y|]; try discriminate.
      destruct (Z.eqb_spec x y) as [-> |]; [|discriminate]. injection Hd as <-.
      rewrite (IHe1 _ eq_refl), (IHe2 _ eq_refl). ring.
    - destruct (degree e1) as [x|], (degree e2) as [y|]; try discriminate.
      injection Hd as <-. rewrite (IHe1 _ eq_refl), (IHe2 _ eq_refl), pow_add. ring.
    - destruct (degree e1) as [x|], (degree e2) as [y|]; try discriminate.
      injection Hd as <-. rewrite (IHe1 _ eq_refl), (IHe2 _ eq_refl).
      unfold Z.sub. rewrite pow_add, pow_opp. unfold Rdiv. rewrite Rinv_mult. ring.
    - rewrite (IHe _ Hd). ring.
    - destruct (degree e) as [x|]; [|discriminate].
      assert (d = (2 * x)%Z) as -> by congruence.
      rewrite (IHe _ eq_refl), pow_double. ring.
    - destruct (degree e) as [x|]; [|discriminate].
      destruct (Z.even x) eqn:Ev; [|discriminate]. injection Hd as <-.
      rewrite (IHe _ eq_refl).
      assert (E : (x = 2 * (x / 2))%Z).
      { apply Z.even_spec in Ev. destruct Ev as [k ->]. rewrite Z.mul_comm at 2.
        rewrite Z_div_mult; lia. }
      rewrite E at 1. rewrite pow_double.
      rewrite sqrt_mult_alt by (pose proof (pow_pos (x / 2)); nra).
      rewrite sqrt_square by (apply Rlt_le, pow_pos). reflexivity.
    - destruct (degree e) as [[| |]|]; try discriminate. injection Hd as <-.
      rewrite (IHe _ eq_refl). simpl. rewrite !Rmult_1_l. reflexivity.
    - destruct (degree e1) as [x|], (degree e2) as [y|], (degree e3) as [z|]; try discriminate.
      destruct (Z.eqb_spec x y) as [-> |]; [|discriminate].
      destruct (Z.eqb_spec y z) as [-> |]; [|discriminate].
      cbn [andb] in Hd. assert (d = (2 * z)%Z) as -> by congruence.
      rewrite (IHe1 _ eq_refl), (IHe2 _ eq_refl), (IHe3 _ eq_refl), pow_double.
      unfold kallen. ring.
  Qed.
  Lemma reval_ext env env' e : (forall s, env s = env' s) -> reval env e = reval env' e.
  Proof. intros H. induction e; cbn [reval]; congruence. Qed.
End Dim.

(** The dimension of the symbols of the kinematics: masses 1, squared masses 2. *)
Definition mass_dim (s : symbol) : Z :=
  if existsb (String.eqb (sname s)) ["m0"; "m1"; "m2"; "m3"]%string then 1
  else if existsb (String.eqb (sname s)) ["sigma1"; "sigma2"; "sigma3"]%string then 2
  else 0.
