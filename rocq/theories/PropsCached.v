(** Properties C62, C78, C79: io/cached.py.  Specification vocabulary: SpecCached.v *)
From Coq Require Import String ZArith QArith Qcanon List Bool.
From Verif Require Import Prelude Spin Cached SpecCached CachedProofs.
Import ListNotations.
Local Open Scope string_scope.
Local Open Scope list_scope.

(** ** C62 *)
(** Full statement: the parameters of the returned function are the requested ones.  It is false after
    an update of a function that was returned for an equal request; and, with respect to the types
    of the numbers, even without any update. *)
Theorem C62_update_refuted :
  ~ (forall (same_file : call Z -> call Z -> bool) known_backend tr w e ps b r w' items,
  hash_of_arguments same_file -> history same_file known_backend tr w ->
  step same_file known_backend (ELambdify e ps b) w = (Returned r, w') ->
  mapping_of ps = Some items -> distinct_names items ->
  exists d, object w' r = Some (Function e (backend_of ps b) (Some d)) /\
    forall s v, wants items s v -> exists v', dget (sy_name s) d = Some v' /\ equal_numbers v' v).
Proof. exact c62_refuted. Qed.
Print Assumptions C62_update_refuted.

Theorem C62_types_refuted :
  ~ (forall (same_file : call Z -> call Z -> bool) known_backend tr w e ps b r w' items,
  hash_of_arguments same_file -> history same_file known_backend tr w ->
  step same_file known_backend (ELambdify e ps b) w = (Returned r, w') ->
  mapping_of ps = Some items -> distinct_names items -> never_updated r tr ->
  exists d, object w' r = Some (Function e (backend_of ps b) (Some d)) /\
    forall s v, wants items s v -> dget (sy_name s) d = Some v).
Proof. exact c62_types_refuted. Qed.
Print Assumptions C62_types_refuted.

Theorem C62_positional_partial {E : Type} `{EqDec E} (same_file : call E -> call E -> bool) (known_backend : string -> bool)
  (Hash : hash_of_arguments same_file) tr w e ps b r w' :
  history same_file known_backend tr w -> step same_file known_backend (ELambdify e ps b) w = (Returned r, w') ->
  mapping_of ps = None -> object w' r = Some (Function e (backend_of ps b) None).
Proof. exact (c62_positional same_file known_backend Hash tr w e ps b r w'). Qed.
Print Assumptions C62_positional_partial.

Theorem C62_unmodified_partial {E : Type} `{EqDec E} (same_file : call E -> call E -> bool) (known_backend : string -> bool)
  (Hash : hash_of_arguments same_file) tr w e ps b r w' items :
  history same_file known_backend tr w -> step same_file known_backend (ELambdify e ps b) w = (Returned r, w') ->
  mapping_of ps = Some items -> distinct_names items -> never_updated r tr ->
  exists d, object w' r = Some (Function e (backend_of ps b) (Some d)) /\
    (forall n, In n (dkeys d) <-> exists s, In s (map fst items) /\ sy_name s = n) /\
    (forall s v, wants items s v -> exists v', dget (sy_name s) d = Some v' /\ equal_numbers v' v).
Proof. exact (c62_unmodified same_file known_backend Hash tr w e ps b r w' items). Qed.
Print Assumptions C62_unmodified_partial.

Theorem C62_updated_partial {E : Type} `{EqDec E} (same_file : call E -> call E -> bool) (known_backend : string -> bool)
  (Hash : hash_of_arguments same_file) tr w e ps b r w' items :
  history same_file known_backend tr w -> step same_file known_backend (ELambdify e ps b) w = (Returned r, w') ->
  mapping_of ps = Some items -> distinct_names items ->
  exists d, object w' r = Some (Function e (backend_of ps b) (Some d)) /\
    (forall n, In n (dkeys d) <-> exists s, In s (map fst items) /\ sy_name s = n) /\
    (forall n v, last_set r n tr = Some v -> dget n d = Some v) /\
    (forall s v, wants items s v -> last_set r (sy_name s) tr = None ->
       exists v', dget (sy_name s) d = Some v' /\ equal_numbers v' v).
Proof. exact (c62_parameters same_file known_backend Hash tr w e ps b r w' items). Qed.
Print Assumptions C62_updated_partial.

Theorem C62_fresh_partial {E : Type} `{EqDec E} (same_file : call E -> call E -> bool) (known_backend : string -> bool)
  (Hash : hash_of_arguments same_file) tr w e ps b r w' items :
  history same_file known_backend tr w -> step same_file known_backend (ELambdify e ps b) w = (Returned r, w') ->
  mapping_of ps = Some items -> distinct_names items ->
  (forall e' ps' b' r', In (ELambdify e' ps' b', Returned r') (this_process tr) -> ~ same_request e' ps' b' e ps b) ->
  never_updated r tr /\
  exists d, object w' r = Some (Function e (backend_of ps b) (Some d)) /\
    (forall n, In n (dkeys d) <-> exists s, In s (map fst items) /\ sy_name s = n) /\
    (forall s v, wants items s v -> dget (sy_name s) d = Some v).
Proof. exact (c62_fresh same_file known_backend Hash tr w e ps b r w' items). Qed.
Print Assumptions C62_fresh_partial.
Example C62_example : hash_of_arguments ca_file /\
  history ca_file ca_known (fst (ca_history [ca_call (VInt 1); ca_update; ERestart])) (snd (ca_history [ca_call (VInt 1); ca_update; ERestart])) /\
  (exists w, step ca_file ca_known (ca_call (VInt 1)) (snd (ca_history [ca_call (VInt 1); ca_update; ERestart])) = (Returned 1, w)) /\
  distinct_names [(ca_m, VInt 1); (Symbol "g" 0, VInt 3)].
Proof.
  split; [exact ca_hash|]. split; [apply ca_is_history|]. split; [eexists; vm_compute; reflexivity|apply ca_names].
Qed.

(** ** C78 *)
Theorem C78_shared {E : Type} `{EqDec E} (same_file : call E -> call E -> bool) (known_backend : string -> bool)
  (Hash : hash_of_arguments same_file) tr w e ps b r w' e' ps' b' r' :
  history same_file known_backend tr w ->
  In (ELambdify e' ps' b', Returned r') (this_process tr) -> step same_file known_backend (ELambdify e ps b) w = (Returned r, w') ->
  (r' = r <-> same_request e' ps' b' e ps b).
Proof. exact (c78_shared same_file known_backend Hash tr w e ps b r w' e' ps' b' r'). Qed.
Print Assumptions C78_shared.

Theorem C78_isolated {E : Type} `{EqDec E} (same_file : call E -> call E -> bool) (known_backend : string -> bool)
  (Hash : hash_of_arguments same_file) tr w x o w' r f :
  history same_file known_backend tr w -> step same_file known_backend x w = (o, w') -> object w r = Some f ->
  (forall new, x <> EUpdate r new) -> object w' r = Some f.
Proof. exact (c78_isolated same_file known_backend Hash tr w x o w' r f). Qed.
Print Assumptions C78_isolated.

Theorem C78_update {E : Type} `{EqDec E} (same_file : call E -> call E -> bool) (known_backend : string -> bool) w r new o w' :
  step same_file known_backend (EUpdate r new) w = (o, w') ->
  (o = Done <-> exists e b d, object w r = Some (Function e b (Some d)) /\ forall n, In n (map fst new) -> In n (dkeys d)) /\
  (o <> Done -> w' = w).
Proof. exact (c78_update same_file known_backend w r new o w'). Qed.
Print Assumptions C78_update.

Theorem C78_total {E : Type} `{EqDec E} (same_file : call E -> call E -> bool) (known_backend : string -> bool)
  (Hash : hash_of_arguments same_file) tr w e ps b o w' :
  history same_file known_backend tr w -> step same_file known_backend (ELambdify e ps b) w = (o, w') ->
  if known_backend (backend_of ps b) then exists r, o = Returned r else o = Raised NotImplementedErr.
Proof. exact (c78_total same_file known_backend Hash tr w e ps b o w'). Qed.
Print Assumptions C78_total.
Example C78_example : In (ca_call (VInt 1), Returned 0) (this_process (fst (ca_history [ca_call (VInt 1); ca_update]))) /\
  (exists w, step ca_file ca_known (ca_call (VInt 1)) (snd (ca_history [ca_call (VInt 1); ca_update])) = (Returned 0, w)) /\
  (exists w, step ca_file ca_known (ca_call (VInt 4)) (snd (ca_history [ca_call (VInt 1); ca_update])) = (Returned 1, w)) /\
  (exists w, step ca_file ca_known ca_update (snd (ca_history [ca_call (VInt 1)])) = (Done, w)).
Proof. split; [vm_compute; tauto|]. split; [|split]; eexists; vm_compute; reflexivity. Qed.

(** ** C79 *)
Theorem C79_text {E : Type} `{EqDec E} (same_file : call E -> call E -> bool) (known_backend : string -> bool) e s b w :
  step same_file known_backend (ELambdify e (Text s) b) w = step same_file known_backend (ELambdify e NoParameters s) w.
Proof. exact (c79_text same_file known_backend e s b w). Qed.
Print Assumptions C79_text.

Theorem C79_x64 {E : Type} `{EqDec E} (same_file : call E -> call E -> bool) (known_backend : string -> bool)
  (Hash : hash_of_arguments same_file) tr w :
  history same_file known_backend tr w ->
  (w_x64 w = true <-> exists e ps b o, In (ELambdify e ps b, o) (this_process tr) /\ backend_of ps b = "jax").
Proof. exact (c79_x64 same_file known_backend Hash tr w). Qed.
Print Assumptions C79_x64.
Example C79_example : w_x64 (snd (ca_history [ELambdify 5%Z (Text "numpy") "jax"])) = false /\
  w_x64 (snd (ca_history [ELambdify 5%Z (Text "jax") "numpy"])) = true.
Proof. split; reflexivity. Qed.
