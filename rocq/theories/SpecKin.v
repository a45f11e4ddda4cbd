(** Kinematics of a three-body decay: specification vocabulary. *)
From Coq Require Import String ZArith Reals.
From Verif Require Import Expr.
Local Open Scope R_scope.

(** ** Three-vectors and four-vectors *)
Record vec3 := V3 { vx : R; vy : R; vz : R }.
Record vec4 := V4 { vE : R; vp : vec3 }.

Definition dot (a b : vec3) : R := vx a * vx b + vy a * vy b + vz a * vz b.
Definition norm (a : vec3) : R := sqrt (dot a a).
Definition add3 (a b : vec3) : vec3 := V3 (vx a + vx b) (vy a + vy b) (vz a + vz b).
Definition opp3 (a : vec3) : vec3 := V3 (- vx a) (- vy a) (- vz a).
Definition zero3 : vec3 := V3 0 0 0.
(** The angle in [0, pi] between two non-zero vectors. *)
Definition angle_between (a b : vec3) : R := acos (dot a b / (norm a * norm b)).

Definition add4 (a b : vec4) : vec4 := V4 (vE a + vE b) (add3 (vp a) (vp b)).
(** Minkowski square: the squared invariant mass. *)
Definition msq (a : vec4) : R := vE a * vE a - dot (vp a) (vp a).

(** ** The symbols of the kinematic variables *)
Definition at_m0 (env : symbol -> R) := env (Sym "m0" ANonneg).
Definition at_m1 (env : symbol -> R) := env (Sym "m1" ANonneg).
Definition at_m2 (env : symbol -> R) := env (Sym "m2" ANonneg).
Definition at_m3 (env : symbol -> R) := env (Sym "m3" ANonneg).
Definition at_s1 (env : symbol -> R) := env (Sym "sigma1" ANonneg).
Definition at_s2 (env : symbol -> R) := env (Sym "sigma2" ANonneg).
Definition at_s3 (env : symbol -> R) := env (Sym "sigma3" ANonneg).

(** A particle of mass [m] with four-momentum [p]. *)
Definition on_shell (m : R) (p : vec4) : Prop := 0 <= m /\ 0 <= vE p /\ msq p = m * m.

(** [env] assigns to the symbols the masses and invariant masses of three particles
    with four-momenta [p1], [p2], [p3] (in any frame) that come from the decay of
    particle 0 with four-momentum [p1 + p2 + p3]. *)
Definition momenta_of (env : symbol -> R) (p1 p2 p3 : vec4) : Prop :=
  on_shell (at_m1 env) p1 /\ on_shell (at_m2 env) p2 /\ on_shell (at_m3 env) p3 /\
  on_shell (at_m0 env) (add4 p1 (add4 p2 p3)) /\
  at_s1 env = msq (add4 p2 p3) /\
  at_s2 env = msq (add4 p3 p1) /\
  at_s3 env = msq (add4 p1 p2).

(** A physical point of the phase space. *)
Definition physical (env : symbol -> R) : Prop := exists p1 p2 p3, momenta_of env p1 p2 p3.

(** No break-up momentum vanishes: all angles are well-defined. *)
Definition nonsingular (env : symbol -> R) : Prop :=
  0 < kallen (at_m0 env * at_m0 env) (at_m1 env * at_m1 env) (at_s1 env) /\
  0 < kallen (at_m0 env * at_m0 env) (at_m2 env * at_m2 env) (at_s2 env) /\
  0 < kallen (at_m0 env * at_m0 env) (at_m3 env * at_m3 env) (at_s3 env) /\
  0 < kallen (at_s1 env) (at_m2 env * at_m2 env) (at_m3 env * at_m3 env) /\
  0 < kallen (at_s2 env) (at_m3 env * at_m3 env) (at_m1 env * at_m1 env) /\
  0 < kallen (at_s3 env) (at_m1 env * at_m1 env) (at_m2 env * at_m2 env).

(** Change of the unit of mass by a factor [c]: masses scale with [c], squared
    masses with [c^2], everything else is left alone. *)
Definition scale_units (c : R) (env : symbol -> R) (s : symbol) : R :=
  if string_dec (sname s) "m0" then c * env s
  else if string_dec (sname s) "m1" then c * env s
  else if string_dec (sname s) "m2" then c * env s
  else if string_dec (sname s) "m3" then c * env s
  else if string_dec (sname s) "sigma1" then c * c * env s
  else if string_dec (sname s) "sigma2" then c * c * env s
  else if string_dec (sname s) "sigma3" then c * c * env s
  else env s.

(** ** Directions that define the angles *)
Definition pick {A} (i : Z) (a1 a2 a3 : A) : A :=
  if Z.eqb i 1 then a1 else if Z.eqb i 2 then a2 else a3.
(** The third of three labels 1,2,3. *)
Definition third (i j : Z) : Z := 6 - i - j.
(** The label that follows [i] in the cyclic order 1,2,3. *)
Definition next_label (i : Z) : Z := if Z.eqb i 3 then 1%Z else (i + 1)%Z.

(** In the rest frame of final state [i], chain [j] (spectator [j]) defines a
    direction: if [i] is the spectator it is that of the decaying particle,
    otherwise it is that of the sibling of [i] in the isobar. *)
Definition zeta_direction (i j : Z) (p1 p2 p3 : vec4) : vec3 :=
  if Z.eqb i j then vp (add4 p1 (add4 p2 p3)) else vp (pick (third i j) p1 p2 p3).
(** Orientation of the decay plane: seen from [i], the directions of the chains
    [i+1], [i], [i+2] are ordered. *)
Definition zeta_rank (i j : Z) : Z :=
  if Z.eqb j (next_label i) then 2 else if Z.eqb j i then 1 else 0.

(** ** Expressions that stay in the reals *)
(** Every denominator is non-zero, every radicand is non-negative and every
    arccosine is taken of a number in [-1,1]. *)
Fixpoint real_valued (env : symbol -> R) (e : rexpr) : Prop :=
  match e with
  | RNum _ | RVar _ => True
  | RAdd a b | RSub a b | RMul a b => real_valued env a /\ real_valued env b
  | RDiv a b => real_valued env a /\ real_valued env b /\ reval env b <> 0
  | ROpp a | RSq a => real_valued env a
  | RSqrt a => real_valued env a /\ 0 <= reval env a
  | RAcos a => real_valued env a /\ -1 <= reval env a <= 1
  | RKallen a b c => real_valued env a /\ real_valued env b /\ real_valued env c
  end.

(** The ID combinations for which an alignment angle is defined: rotated state,
    aligned subsystem, reference subsystem. *)
Definition zeta_ids (r a f : Z) : Prop := (
  (r = 0 /\ 1 <= a <= 3 /\ 1 <= f <= 3) \/
  (1 <= r <= 3 /\ 1 <= a <= 3 /\ 0 <= f <= 3))%Z.

Definition zsign (x : Z) : R := if (x =? 0)%Z then 0%R else if (0 <? x)%Z then 1%R else (-1)%R.
