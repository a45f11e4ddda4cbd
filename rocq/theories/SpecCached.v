(** Specification vocabulary for histories of [lambdify]: C62, C78, C79 *)
From Coq Require Import String ZArith QArith Qcanon List Bool.
From Verif Require Import Prelude Spin Cached.
Import ListNotations.
Local Open Scope string_scope.
Local Open Scope list_scope.

(** ** Requests *)
Definition backend_of (ps : parameters) (backend : string) : string :=
  match ps with Text s => s | _ => backend end.
Definition mapping_of (ps : parameters) : option (list (symbol * value)) :=
  match ps with Parameters items => Some items | _ => None end.
(** The value that a mapping gives to a symbol *)
Definition wants (items : list (symbol * value)) (s : symbol) (v : value) : Prop :=
  dget s (dict_of items) = Some v.
(** No two symbols of the mapping differ in assumptions only *)
Definition distinct_names (items : list (symbol * value)) : Prop :=
  forall s s', In s (map fst items) -> In s' (map fst items) -> sy_name s = sy_name s' -> s = s'.
(** Equal as Python numbers, such as [1] and [1.0] *)
Definition real_part (v : value) : Qc :=
  match v with
  | VBool true => 1%Qc | VBool false => 0%Qc
  | VInt n => Q2Qc (inject_Z n)
  | VFloat q | VComplex q _ => q
  end.
Definition imaginary_part (v : value) : Qc := match v with VComplex _ q => q | _ => 0%Qc end.
Definition equal_numbers (v w : value) : Prop :=
  real_part v = real_part w /\ imaginary_part v = imaginary_part w.
Definition same_number (x y : option value) : Prop :=
  match x, y with
  | None, None => True
  | Some v, Some w => equal_numbers v w
  | _, _ => False
  end.
Definition same_request {E} (e : E) ps b (e' : E) ps' b' : Prop :=
  e = e' /\ backend_of ps b = backend_of ps' b' /\
  match mapping_of ps, mapping_of ps' with
  | None, None => True
  | Some a, Some a' => forall s, same_number (dget s (dict_of a)) (dget s (dict_of a'))
  | _, _ => False
  end.
(** What is assumed of the hashes on disk: equal hashes come from arguments that are equal and whose
    numbers have equal types *)
Definition hash_of_arguments {E} (same_file : call E -> call E -> bool) : Prop :=
  forall k k', same_file k k' = true ->
    k_expr k = k_expr k' /\ k_backend k = k_backend k' /\
    match k_params k, k_params k' with
    | None, None => True
    | Some d, Some d' => forall s, dget s d = dget s d'
    | _, _ => False
    end.

(** ** Histories, the latest event first *)
Section History.
  Context {E : Type} `{EqDec E}.
  Variables (same_file : call E -> call E -> bool) (known_backend : string -> bool).
  Inductive history : list (event E * outcome) -> world E -> Prop :=
  | h_start : history [] start
  | h_step tr w x o w' : history tr w -> step same_file known_backend x w = (o, w') -> history ((x, o) :: tr) w'.
End History.
(** The events of the running process *)
Fixpoint this_process {E} (tr : list (event E * outcome)) : list (event E * outcome) :=
  match tr with
  | [] => []
  | (ERestart, _) :: _ => []
  | x :: tr => x :: this_process tr
  end.
(** The value that the latest successful [update_parameters] on [r] gave to a parameter *)
Fixpoint last_set {E} (r : nat) (name : string) (tr : list (event E * outcome)) : option value :=
  match tr with
  | [] => None
  | (EUpdate r' new, Done) :: tr =>
      if Nat.eqb r r' then match dget name (dict_of new) with Some v => Some v | None => last_set r name tr end
      else last_set r name tr
  | _ :: tr => last_set r name tr
  end.
Definition never_updated {E} (r : nat) (tr : list (event E * outcome)) : Prop :=
  forall new, ~ In (EUpdate r new, Done) tr.
(** The object that a reference stands for *)
Definition object {E} (w : world E) (r : nat) : option (function E) := nth_error (w_heap w) r.
