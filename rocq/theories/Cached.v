(** Model of /repo/src/ampform_dpd/io/cached.py: [lambdify] with its two caches, and the functions
    that it returns.

    Outside the repository, and modelled from their documented behaviour:
    - tensorwaves [create_function] and [create_parametrized_function]: an object that computes the
      expression; the second kind has parameters, kept by the name of their symbol, that
      [update_parameters] changes in place.  Calling the objects is not modelled.
    - [functools.cache]: a dictionary from the arguments to the returned object, in the memory of
      the process, that compares arguments with [==] (and hashes that agree with it).
    - ampform [cache_to_disk]: a file per hash of the arguments, written after the first
      computation, read otherwise; a file that was read gives a new object.  Interrupted writes and
      changes of the versions of dependencies are not modelled.
    NaN, infinities and the sign of zero are not values here. *)
From Coq Require Import String ZArith QArith Qcanon List Bool.
From Verif Require Import Prelude Spin.
Import ListNotations.
Local Open Scope string_scope.
Local Open Scope list_scope.

(** ** Numbers: [ParameterValue] of tensorwaves *)
(** io/cached.py:22, 41: [ParameterValue] of tensorwaves, with exact rational numbers instead of floats. *)
Inductive value := VBool (b : bool) | VInt (n : Z) | VFloat (q : Qc) | VComplex (re im : Qc).
(** [x == y] of Python numbers of whatever types: the numbers are compared *)
Definition number (v : value) : Qc * Qc :=
  match v with
  | VBool b => (Qc_of_Z (if b then 1 else 0), Qc_of_Z 0)
  | VInt n => (Qc_of_Z n, Qc_of_Z 0)
  | VFloat q => (q, Qc_of_Z 0)
  | VComplex re im => (re, im)
  end.
(** Python [==], by which the keys of io/cached.py:79 are compared. *)
Definition py_eq (v w : value) : bool := eqb (number v) (number w).
(** A sympy symbol: name and assumptions *)
(** io/cached.py:41: the keys of [parameters], SymPy symbols. *)
Record symbol := Symbol { sy_name : string; sy_assumptions : Z }.
Global Instance EqDec_symbol : EqDec symbol.
Proof. unfold EqDec; decide equality; apply eq_dec. Defined.

(** The argument [parameters] of [lambdify]: None, a text, or a mapping *)
(** io/cached.py:44-49, 67-69: the values of [parameters] that [lambdify] distinguishes. *)
Inductive parameters := NoParameters | Text (s : string) | Parameters (items : list (symbol * value)).

Section Cached.
  (** Expressions with their [==] *)
  Context {E : Type} `{EqDec E}.
  (** Arguments of [_lambdify_impl] *)
  Record call := Call { k_expr : E; k_params : option (dict symbol value); k_backend : string }.
  (** Whether two calls have the same hash on disk *)
  Variable same_file : call -> call -> bool.
  (** The backends of tensorwaves *)
  Variable known_backend : string -> bool.

  (** A function object.  Parameters are absent from a [PositionalArgumentFunction]. *)
  Record function := Function { fn_expr : E; fn_backend : string; fn_params : option (dict string value) }.
  (** Objects are identified by their position in [w_heap].  After a restart of the process nothing
      refers to older objects any more.  [w_x64] is the jax option. *)
  Record world := World {
    w_heap : list function;
    w_memory : list (call * nat);
    w_disk : list (call * function);
    w_x64 : bool
  }.
  Definition start : world := World [] [] [] false.

  (** [==] of frozendicts, and of the arguments *)
  Definition dict_eq (a b : dict symbol value) : bool :=
    Nat.eqb (length a) (length b) &&
    forallb (fun sv => match dget (fst sv) b with Some v => py_eq (snd sv) v | None => false end) a.
  Definition call_eq (a b : call) : bool :=
    eqb (k_expr a) (k_expr b) && eqb (k_backend a) (k_backend b) &&
    match k_params a, k_params b with
    | None, None => true
    | Some a, Some b => dict_eq a b
    | _, _ => false
    end.
  (** 85-93: the body of [_lambdify_impl] *)
  Definition create (k : call) : res function :=
    if known_backend (k_backend k)
    then Ok (Function (k_expr k) (k_backend k)
               (match k_params k with
                | None => None
                | Some d => Some (dict_of (map (fun sv => (sy_name (fst sv), snd sv)) d))
                end))
    else Err NotImplementedErr.
  Definition lookup {A} (same : call -> call -> bool) (k : call) (l : list (call * A)) : option A :=
    match find_first (fun x => same (fst x) k) l with Some x => Some (snd x) | None => None end.
  (** 79-84 [@cache @cache_to_disk]: what a call of [_lambdify_impl] does *)
  Definition lambdify_impl (k : call) (w : world) : res nat * world :=
    match lookup call_eq k (w_memory w) with
    | Some r => (Ok r, w)
    | None =>
        let r := length (w_heap w) in
        match lookup same_file k (w_disk w) with
        | Some f => (Ok r, World (w_heap w ++ [f]) ((k, r) :: w_memory w) (w_disk w) (w_x64 w))
        | None =>
            match create k with
            | Ok f => (Ok r, World (w_heap w ++ [f]) ((k, r) :: w_memory w) ((k, f) :: w_disk w) (w_x64 w))
            | Err e => (Err e, w)
            end
        end
    end.
  (** 67-76 [lambdify] *)
  Definition lambdify (expr : E) (ps : parameters) (backend : string) (w : world) : res nat * world :=
    let backend := match ps with Text s => s | _ => backend end in
    let ps := match ps with Text _ => NoParameters | _ => ps end in
    let w := if eqb backend "jax" then World (w_heap w) (w_memory w) (w_disk w) true else w in
    match ps with
    | Parameters items => lambdify_impl (Call expr (Some (dict_of items)) backend) w
    | _ => lambdify_impl (Call expr None backend) w
    end.

  (** ** What a program can do *)
  Inductive event :=
  | ELambdify (expr : E) (ps : parameters) (backend : string)
  | EUpdate (r : nat) (new : list (string * value))   (* [r.update_parameters(new)] *)
  | ERestart.
  Inductive outcome := Returned (r : nat) | Done | Raised (e : exn).
  Fixpoint replace_nth {A} (l : list A) (n : nat) (x : A) : list A :=
    match l, n with
    | [], _ => []
    | _ :: l, O => x :: l
    | y :: l, S n => y :: replace_nth l n x
    end.
  (** tensorwaves [ParametrizedBackendFunction.update_parameters]; the other functions do not have
      this method *)
  Definition update_parameters (r : nat) (new : list (string * value)) (w : world) : res unit * world :=
    match nth_error (w_heap w) r with
    | Some (Function e b (Some d)) =>
        if forallb (fun nv => memb (fst nv) (dkeys d)) new
        then (Ok tt, World (replace_nth (w_heap w) r (Function e b (Some (dupdate d new)))) (w_memory w) (w_disk w) (w_x64 w))
        else (Err ValueError, w)
    | _ => (Err AttributeError, w)
    end.
  Definition step (x : event) (w : world) : outcome * world :=
    match x with
    | ELambdify expr ps backend =>
        let (o, w) := lambdify expr ps backend w in
        (match o with Ok r => Returned r | Err e => Raised e end, w)
    | EUpdate r new =>
        let (o, w) := update_parameters r new w in
        (match o with Ok _ => Done | Err e => Raised e end, w)
    | ERestart => (Done, World (w_heap w) [] (w_disk w) false)
    end.
End Cached.
Arguments call E : clear implicits.
Arguments function E : clear implicits.
Arguments world E : clear implicits.
Arguments event E : clear implicits.
Arguments Call {E} _ _ _.
Arguments Function {E} _ _ _.
Arguments World {E} _ _ _ _.
Arguments ELambdify {E} _ _ _.
Arguments EUpdate {E} _ _.
Arguments ERestart {E}.
Arguments start {E}.
