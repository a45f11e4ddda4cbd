(** Model of /repo/src/ampform_dpd/spin.py *)
From Coq Require Import ZArith QArith Qcanon Qround List Bool.
From Verif Require Import Prelude.
Import ListNotations.
Local Open Scope Z_scope.

(** Rational numbers in canonical form stand for [sympy.Rational], [float] and
    [Decimal] values.  Floats and decimals are exact here: rounding of floats and
    the 28-digit context of [decimal] are not modelled. *)
Global Instance EqDec_Qc : EqDec Qc := Qc_eq_dec.
(** An int as rational number (spin.py:5, 8: Decimal, sp.Rational). *)
Definition Qc_of_Z (z : Z) : Qc := Q2Qc (inject_Z z).
(** The literal 0.5 of spin.py:77. *)
Definition Qc_half : Qc := Q2Qc (1 # 2).
(** [<] of numbers, spin.py:83. *)
Definition Qc_ltb (a b : Qc) : bool := match (a ?= b)%Qc with Lt => true | _ => false end.
(** [<=] of numbers, spin.py:33. *)
Definition Qc_leb (a b : Qc) : bool := match (a ?= b)%Qc with Gt => false | _ => true end.
(** [abs], spin.py:28, 33. *)
Definition Qc_abs (a : Qc) : Qc := if Qc_ltb a (Qc_of_Z 0) then Qcopp a else a.
Global Instance Cmp_Qc : Cmp Qc := fun a b => Ok (a ?= b)%Qc.

(** spin.py:81-85 [arange]: the [while] loop, with fuel; [None] is out-of-fuel. *)
Fixpoint arange_loop (fuel : nat) (current x_2 delta : Qc) : option (list Qc) :=
  match fuel with
  | O => None
  | S fuel =>
      if Qc_ltb current x_2
      then option_map (cons current) (arange_loop fuel (current + delta)%Qc x_2 delta)
      else Some []
  end.

(** spin.py:81-85 [arange] with the default [delta=1.0], the only value used. *)
Definition arange_fuel (x_1 x_2 : Qc) : nat := S (Z.to_nat (Qceiling (x_2 - x_1)%Qc)).
(** spin.py:81-85 [arange] with [delta=1.0]; the fuel suffices (lemma [arange_spec]). *)
Definition arange (x_1 x_2 : Qc) : res (list Qc) :=
  match arange_loop (arange_fuel x_1 x_2) x_1 x_2 (Qc_of_Z 1) with
  | Some l => Ok l
  | None => Err OutOfFuel
  end.

(** spin.py:69-78 [create_rational_range] *)
Definition create_rational_range (from to : Qc) : res (list Qc) :=
  arange from (to + Qc_half)%Qc.

(** spin.py:60-66 [create_spin_range] *)
Definition create_spin_range (spin : Qc) : res (list Qc) :=
  create_rational_range (- spin)%Qc spin.

(** [int(L)] of a rational: truncation towards zero (only applied to integers). *)
(** [int(L)] of spin.py:30: truncation towards zero. *)
Definition Qc_to_int (q : Qc) : Z := Z.quot (Qnum q) (Z.pos (Qden q)).

(** spin.py:14-35 [generate_ls_couplings] *)
Definition generate_ls_couplings (parent_spin child1_spin child2_spin : Qc) (max_L : Z)
  : res (list (Z * Qc)) :=
  let s1 := child1_spin in
  let s2 := child2_spin in
  let* angular_momenta := create_rational_range (Qc_of_Z 0) (Qc_of_Z max_L) in
  let* coupled_spins := create_rational_range (Qc_abs (s1 - s2)) (s1 + s2)%Qc in
  let ls_couplings :=
    to_set
      (flat_map (fun L =>
         flat_map (fun S =>
           if Qc_leb (Qc_abs (L - S)) parent_spin && Qc_leb parent_spin (L + S)%Qc
           then [(Qc_to_int L, S)] else [])
           coupled_spins)
         angular_momenta) in
  sorted ls_couplings.

(** [(-1) ** L] for an int [L] (for a negative [L] Python gives the float
    [-1.0] or [1.0], which compares equal to the integer). *)
Definition minus_one_pow (L : Z) : Z := if Z.even L then 1 else -1.

(** spin.py:38-57 [filter_parity_violating_ls]; the parities are ints already
    ([int()] of an int). *)
Definition filter_parity_violating_ls (ls : list (Z * Qc)) (eta0 eta1 eta2 : Z)
  : list (Z * Qc) :=
  filter (fun x => eta0 =? eta1 * eta2 * minus_one_pow (fst x)) ls.

(** Doubled representation: spins and projections of the rest of the model are
    integers [z] that stand for [z/2]; [spin_range2 j] stands for
    [create_spin_range(j/2)] (spin.py:60-66), see [create_spin_range_half]. *)
Definition half (z : Z) : Qc := Q2Qc (z # 2).
(** spin.py:60-66 [create_spin_range], for doubled spins, as used at __init__.py:117, 191, 279-282: lemma [create_spin_range_half] relates the two. *)
Definition spin_range2 (j : Z) : list Z :=
  map (fun n => - j + 2 * Z.of_nat n) (seq 0 (Z.to_nat (j + 1))).
