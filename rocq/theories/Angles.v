(** Model of /repo/src/ampform_dpd/angles.py *)
From Coq Require Import String ZArith List Bool.
From Verif Require Import Prelude Expr.
Import ListNotations.
Local Open Scope string_scope.
Local Open Scope Z_scope.

Declare Scope rexpr_scope.
Delimit Scope rexpr_scope with re.
Infix "+" := RAdd : rexpr_scope.
Infix "-" := RSub : rexpr_scope.
Infix "*" := RMul : rexpr_scope.
Infix "/" := RDiv : rexpr_scope.

(** [sp.Symbol(f"m{i}", nonnegative=True)] and [sp.Symbol(f"sigma{i}", nonnegative=True)] *)
(** angles.py:34-37, 60-62: [sp.Symbol(f"m{i}", nonnegative=True)]. *)
Definition m_sym (i : Z) : symbol := Sym ("m" ++ str_of_Z i) ANonneg.
(** angles.py:38-39, 63-65: [sp.Symbol(f"sigma{i}", nonnegative=True)]. *)
Definition sigma_sym (i : Z) : symbol := Sym ("sigma" ++ str_of_Z i) ANonneg.
(** angles.py:34-37: the mass symbol as expression. *)
Definition mE (i : Z) : rexpr := RVar (m_sym i).
(** angles.py:38-39: the symbol of the squared invariant mass as expression. *)
Definition sigmaE (i : Z) : rexpr := RVar (sigma_sym i).

(** Python values that occur in the guard of angles.py:22-26: sets and tuples of
    ints.  A set never equals a tuple. *)
Inductive pyval := PySet (l : list Z) | PyTuple (l : list Z).
(** Python [==], angles.py:22-26. *)
Definition pyval_eqb (a b : pyval) : bool :=
  match a, b with
  | PySet a, PySet b => set_eqb a b
  | PyTuple a, PyTuple b => eqb a b
  | _, _ => false
  end.
(** Python [in], angles.py:22-26. *)
Definition py_in (x : pyval) (l : list pyval) : bool := existsb (pyval_eqb x) l.

(** [next(iter(s))] of a set: the iteration order of a singleton; an empty set
    raises StopIteration (never happens, see [AnglesFacts.v]). *)
(** angles.py:33, 59 [next(iter(...))]. *)
Definition next_iter (s : list Z) : res Z :=
  match s with [] => Err ValueError | x :: _ => Ok x end.

(** angles.py:9-44 [formulate_scattering_angle] *)
Definition formulate_scattering_angle (state_id sibling_id : Z) : res (symbol * rexpr) :=
  if negb (subsetb [state_id; sibling_id] [1; 2; 3]) then Err ValueError
  else if py_in (PySet [state_id; sibling_id]) [PyTuple [2; 1]; PyTuple [3; 2]; PyTuple [1; 3]]
  then Err NotImplementedErr
  else if state_id =? sibling_id then Err ValueError
  else
    let symbol := Sym ("theta_" ++ str_of_Z state_id ++ str_of_Z sibling_id) AReal in
    let* spectator_id := next_iter (set_diff [1; 2; 3] [state_id; sibling_id]) in
    let m0 := mE 0 in
    let mi := mE state_id in
    let mj := mE sibling_id in
    let mk := mE spectator_id in
    let sj := sigmaE sibling_id in
    let sk := sigmaE spectator_id in
    let theta :=
      RAcos
        ((RNum 2 * sk * (sj - RSq mk - RSq mi)
          - (sk + RSq mi - RSq mj) * (RSq m0 - sk - RSq mk))
         / (RSqrt (RKallen (RSq m0) (RSq mk) sk) * RSqrt (RKallen sk (RSq mi) (RSq mj))))%re in
    Ok (symbol, theta).

(** angles.py:47-75 [formulate_theta_hat_angle]; recursive, hence fuel. *)
Fixpoint theta_hat_fuel (fuel : nat) (isobar_id aligned_subsystem : Z) : res (symbol * rexpr) :=
  match fuel with
  | O => Err OutOfFuel
  | S fuel =>
      let allowed_ids := [1; 2; 3] in
      if negb (subsetb [isobar_id; aligned_subsystem] allowed_ids) then Err ValueError
      else
        let symbol :=
          Sym ("\hat\theta_" ++ str_of_Z isobar_id ++ "(" ++ str_of_Z aligned_subsystem ++ ")")
            AReal in
        if isobar_id =? aligned_subsystem then Ok (symbol, RNum 0)
        else if memb (isobar_id, aligned_subsystem) [(3, 1); (1, 2); (2, 3)] then
          let* remaining_id := next_iter (set_diff allowed_ids [isobar_id; aligned_subsystem]) in
          let m0 := mE 0 in
          let mi := mE isobar_id in
          let mj := mE aligned_subsystem in
          let si := sigmaE isobar_id in
          let sj := sigmaE aligned_subsystem in
          let sk := sigmaE remaining_id in
          let theta :=
            RAcos
              (((RSq m0 + RSq mi - si) * (RSq m0 + RSq mj - sj)
                - RNum 2 * RSq m0 * (sk - RSq mi - RSq mj))
               / (RSqrt (RKallen (RSq m0) (RSq mj) sj) * RSqrt (RKallen (RSq m0) si (RSq mi))))%re in
          Ok (symbol, theta)
        else
          let* (_, theta) := theta_hat_fuel fuel aligned_subsystem isobar_id in
          Ok (symbol, ROpp theta)
  end.
(** angles.py:47-75 [formulate_theta_hat_angle]: it calls itself at most once, so that the fuel suffices. *)
Definition formulate_theta_hat_angle (isobar_id aligned_subsystem : Z) : res (symbol * rexpr) :=
  theta_hat_fuel 2 isobar_id aligned_subsystem.

(** angles.py:84-87: the symbol of [formulate_zeta_angle] *)
Definition zeta_symbol (rotated_state aligned_subsystem reference_subsystem : Z) : symbol :=
  Sym ("\zeta^" ++ str_of_Z rotated_state ++ "_{" ++ str_of_Z aligned_subsystem ++ "("
       ++ str_of_Z reference_subsystem ++ ")}") AReal.

(** angles.py:78-170 [formulate_zeta_angle]; recursive, hence fuel. *)
Fixpoint zeta_fuel (fuel : nat) (rotated_state aligned_subsystem reference_subsystem : Z)
  : res (symbol * rexpr) :=
  match fuel with
  | O => Err OutOfFuel
  | S fuel =>
      let sym := zeta_symbol rotated_state aligned_subsystem reference_subsystem in
      let key := (rotated_state, aligned_subsystem, reference_subsystem) in
      if rotated_state =? 0 then
        let* (_, theta) := formulate_theta_hat_angle aligned_subsystem reference_subsystem in
        Ok (sym, theta)
      else if reference_subsystem =? 0 then
        let* (_, zeta) := zeta_fuel fuel rotated_state aligned_subsystem rotated_state in
        Ok (sym, zeta)
      else if aligned_subsystem =? reference_subsystem then Ok (sym, RNum 0)
      else
        let m0 := mE 0 in let m1 := mE 1 in let m2 := mE 2 in let m3 := mE 3 in
        let s1 := sigmaE 1 in let s2 := sigmaE 2 in let s3 := sigmaE 3 in
        if eqb key (1, 1, 3) then
          Ok (sym, RAcos
            ((RNum 2 * RSq m1 * (s2 - RSq m0 - RSq m2)
              + (RSq m0 + RSq m1 - s1) * (s3 - RSq m1 - RSq m2))
             / (RSqrt (RKallen (RSq m0) (RSq m1) s1) * RSqrt (RKallen s3 (RSq m1) (RSq m2))))%re)
        else if eqb key (1, 2, 1) then
          Ok (sym, RAcos
            ((RNum 2 * RSq m1 * (s3 - RSq m0 - RSq m3)
              + (RSq m0 + RSq m1 - s1) * (s2 - RSq m1 - RSq m3))
             / (RSqrt (RKallen (RSq m0) (RSq m1) s1) * RSqrt (RKallen s2 (RSq m1) (RSq m3))))%re)
        else if eqb key (2, 2, 1) then
          Ok (sym, RAcos
            ((RNum 2 * RSq m2 * (s3 - RSq m0 - RSq m3)
              + (RSq m0 + RSq m2 - s2) * (s1 - RSq m2 - RSq m3))
             / (RSqrt (RKallen (RSq m0) (RSq m2) s2) * RSqrt (RKallen s1 (RSq m2) (RSq m3))))%re)
        else if eqb key (2, 3, 2) then
          Ok (sym, RAcos
            ((RNum 2 * RSq m2 * (s1 - RSq m0 - RSq m1)
              + (RSq m0 + RSq m2 - s2) * (s3 - RSq m2 - RSq m1))
             / (RSqrt (RKallen (RSq m0) (RSq m2) s2) * RSqrt (RKallen s3 (RSq m2) (RSq m1))))%re)
        else if eqb key (3, 3, 2) then
          Ok (sym, RAcos
            ((RNum 2 * RSq m3 * (s1 - RSq m0 - RSq m1)
              + (RSq m0 + RSq m3 - s3) * (s2 - RSq m3 - RSq m1))
             / (RSqrt (RKallen (RSq m0) (RSq m3) s3) * RSqrt (RKallen s2 (RSq m3) (RSq m1))))%re)
        else if eqb key (3, 1, 3) then
          Ok (sym, RAcos
            ((RNum 2 * RSq m3 * (s2 - RSq m0 - RSq m2)
              + (RSq m0 + RSq m3 - s3) * (s1 - RSq m3 - RSq m2))
             / (RSqrt (RKallen (RSq m0) (RSq m3) s3) * RSqrt (RKallen s1 (RSq m3) (RSq m2))))%re)
        else if memb key [(1, 2, 3); (2, 3, 1); (3, 1, 2)] then
          let mi := mE rotated_state in let si := sigmaE rotated_state in
          let mj := mE aligned_subsystem in let sj := sigmaE aligned_subsystem in
          let mk := mE reference_subsystem in let sk := sigmaE reference_subsystem in
          Ok (sym, RAcos
            ((RNum 2 * RSq mi * (RSq mj + RSq mk - si)
              + (sj - RSq mi - RSq mk) * (sk - RSq mi - RSq mj))
             / (RSqrt (RKallen sj (RSq mk) (RSq mi)) * RSqrt (RKallen sk (RSq mi) (RSq mj))))%re)
        else if memb key [(1, 3, 1); (2, 1, 2); (3, 2, 3);
                          (1, 1, 2); (2, 2, 3); (3, 3, 1);
                          (1, 3, 2); (2, 1, 3); (3, 2, 1)] then
          let* (_, zeta) := zeta_fuel fuel rotated_state reference_subsystem aligned_subsystem in
          Ok (sym, ROpp zeta)
        else Err NotImplementedErr
  end.
(** angles.py:78-170 [formulate_zeta_angle]: it calls itself at most twice, so that the fuel suffices. *)
Definition formulate_zeta_angle (rotated_state aligned_subsystem reference_subsystem : Z)
  : res (symbol * rexpr) :=
  zeta_fuel 3 rotated_state aligned_subsystem reference_subsystem.
