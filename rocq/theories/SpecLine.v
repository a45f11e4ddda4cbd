(** Specification of angular momentum along a line, for events on the boundary of the Dalitz plot (C136) *)
From Coq Require Import ZArith Bool Reals List.
From Coquelicot Require Import Complex.
From Verif Require Import Prelude Expr Decay CExpr SpecKin SpecDPD Builder.
Import ListNotations.
Local Open Scope R_scope.

(** In the rest frame of the decaying particle all momenta are along [u]: that of particle n is [a n] times [u]. *)
Definition on_line (env : symbol -> R) (p1 p2 p3 : vec4) (u : vec3) (a : Z -> R) : Prop :=
  momenta_of env p1 p2 p3 /\ add3 (vp p1) (add3 (vp p2) (vp p3)) = zero3 /\ dot u u = 1 /\
  forall n, (1 <= n <= 3)%Z -> vp (pick n p1 p2 p3) = V3 (a n * vx u) (a n * vy u) (a n * vz u).

Definition sgn (x : R) : Z := if Rlt_dec x 0 then (-1)%Z else 1%Z.
(** The direction along [u] in which particle n moves in the frame of its helicity: for the spectator of the reference subsystem [r] this
    is the rest frame of the decaying particle; for the others it is the rest frame of their pair, in which the momentum of n is
    proportional to its velocity relative to the other particle (a_n/E_n - a_m/E_m, multiplied by the energies).
    Reference 0 stands for the rest frame of the decaying particle. *)
Definition moves (a E : Z -> R) (r n : Z) : Z :=
  if (Z.eqb r n || Z.eqb r 0)%bool then sgn (a n) else sgn (a n * E (third r n) - a (third r n) * E n).
(** Twice the spin projections on [u]; the decaying particle is quantised along the momentum of the pair, opposite to that of the spectator [r] *)
Definition parent_projection (a : Z -> R) (r : Z) (l : Z * Z * Z * Z) : Z :=
  if Z.eqb r 0 then 0%Z else (- sgn (a r) * at4 l 0)%Z.
Definition final_projection (a E : Z -> R) (r : Z) (l : Z * Z * Z * Z) : Z :=
  (moves a E r 1 * at4 l 1 + moves a E r 2 * at4 l 2 + moves a E r 3 * at4 l 3)%Z.

(** The value of the aligned amplitude for given helicities; amplitude symbols have the values of the model's amplitudes *)
Definition aligned_value (b : builder) (r : Z) (m : model) (ev : env) (l : Z * Z * Z * Z) : C :=
  match formulate_aligned_amplitude b (fun n => HVal (at4 l n)) (Some r) with
  | Ok (e, _) => ceval (amp_env ev (m_amplitudes m)) (fun _ => 0%Z) e
  | Err _ => RtoC 0
  end.
