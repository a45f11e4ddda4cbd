(** Model of /repo/src/ampform_dpd/io/serialization/format.py and decay.py *)
From Coq Require Import String ZArith QArith Qcanon List Bool.
From Verif Require Import Prelude Spin Decay Builder.
Import ListNotations.
Local Open Scope string_scope.
Local Open Scope Z_scope.
Local Open Scope list_scope.

(** ** format.py: the shape of a deserialised JSON file.
    Keys that the code reads with [d[key]] or [d.get(key)] and that a file may lack are options;
    keys that the code never reads are left out.  Numbers in strings are given by the numbers
    that [sp.Rational], [int] and [complex] make of them. *)
(** io/serialization/format.py:42, 80: items of topologies and nodes are ints or, again, lists *)
Inductive item := It (i : Z) | Sub (l : list item).
(** Python [isinstance(i, int)], e.g. io/serialization/dynamics.py:84, 179. *)
Definition is_int (x : item) : bool := match x with It _ => true | Sub _ => false end.
(** [all(isinstance(i, int) for i in node)], e.g. io/serialization/dynamics.py:84, 179. *)
Definition all_int (n : list item) : bool := forallb is_int n.
(** io/serialization/format.py:90-94 [StateDefinition] *)
Record state_def := StateDef { sd_index : Z; sd_name : string; sd_spin : Qc; sd_mass : Qc }.
(** io/serialization/format.py:55-58 [Propagator] *)
Record propagator := Propagator { pr_spin : Qc; pr_node : list item; pr_parametrization : string }.
(** io/serialization/format.py:61-77 [Vertex], [HelicityVertex], [ParityVertex], [LSVertex].  Helicities and [s] are
    doubled half-integers. *)
Record vertex := Vertex {
  v_type : string;
  v_node : list item;
  v_formfactor : option string;
  v_helicities : option (list Z);
  v_parity_factor : option string;
  v_l : option Z;
  v_s : option Z }.
(** io/serialization/format.py:46-52 [DecayChain] *)
Record chain_def := ChainDef {
  cd_name : string;
  cd_propagators : list propagator;
  cd_vertices : list vertex;
  cd_topology : list item;
  cd_weight : pval }.
(** io/serialization/format.py:97-126 [FunctionDefinition]: the numbers under its keys, and [channels] *)
Record func_def := FuncDef {
  fd_name : string;
  fd_type : string;
  fd_numbers : dict string Qc;
  fd_channels : option (list (dict string Qc)) }.
(** io/serialization/format.py:27-39, 85-87 [Distribution] with its [DecayDescription] and [KinematicsDefinition] *)
Record distribution := Distribution {
  di_initial : state_def;
  di_final : list state_def;
  di_reference : list item;
  di_chains : list chain_def }.
(** io/serialization/format.py:19-24 [ModelDefinition] *)
Record model_def := ModelDef { md_distributions : list distribution; md_functions : list func_def }.

(** io/serialization/format.py:134-143 [get_distribution_def]; the boolean says whether a warning is issued *)
Definition get_distribution_def (m : model_def) : res distribution * bool :=
  let n := length (md_distributions m) in
  (match md_distributions m with [] => Err ValueError | d :: _ => Ok d end,
   Nat.ltb 1 n).
(** io/serialization/format.py:129-131 [get_decay_chains] *)
Definition get_decay_chains (m : model_def) : res (list chain_def) :=
  let* d := fst (get_distribution_def m) in Ok (di_chains d).
(** io/serialization/format.py:146-158 [get_function_definition]; the text of the exception is in Difflib.v *)
Definition get_function_definition (name : string) (m : model_def) : res func_def :=
  match find_first (fun f => eqb (fd_name f) name) (md_functions m) with
  | Some f => Ok f
  | None => Err KeyError
  end.
(** io/serialization/format.py:161-163 [get_reference_topology] *)
Definition get_reference_topology (m : model_def) : res (list item) :=
  let* d := fst (get_distribution_def m) in Ok (di_reference d).

(** ** decay.py *)
(** [to_latex]: a function or None *)
(** io/serialization/decay.py:34, 51, 102, 110, 119, 130: the parameter [to_latex]. *)
Definition latex_arg := option (string -> string).
(** io/serialization/decay.py:54-55, 58, 132-133, 136. *)
Definition apply_latex (f : latex_arg) (s : string) : string :=
  match f with Some f => f s | None => s end.
(** io/serialization/decay.py:129-142 [_to_particle] *)
Definition to_state (x : state_def) (to_latex : latex_arg) : res state :=
  let* p := mk_particle (sd_name x) (apply_latex to_latex (sd_name x)) (sd_spin x) None
              (sd_mass x) (Qc_of_Z 0) in
  Ok (State p (sd_index x)).
(** io/serialization/decay.py:109-115 [get_initial_state] *)
Definition get_initial_state (m : model_def) (to_latex : latex_arg) : res state :=
  let* d := fst (get_distribution_def m) in to_state (di_initial d) to_latex.
(** io/serialization/decay.py:118-126 [get_final_state] *)
Definition get_final_state (m : model_def) (to_latex : latex_arg) : res (dict Z state) :=
  let* d := fst (get_distribution_def m) in
  let* l := mapM (fun x => to_state x to_latex) (di_final d) in
  Ok (dict_of (map (fun p => (st_index p, p)) l)).
(** io/serialization/decay.py:101-106 [get_states] *)
Definition get_states (m : model_def) (to_latex : latex_arg) : res (dict Z state) :=
  let* i := get_initial_state m to_latex in
  let* f := get_final_state m to_latex in
  Ok (dupdate [(st_index i, i)] f).
(** io/serialization/decay.py:79-87 [__find_spectator_id] *)
(** io/serialization/decay.py:83-85: the inner loop. *)
Fixpoint first_int (n : list item) : option Z :=
  match n with [] => None | It i :: _ => Some i | Sub _ :: n => first_int n end.
(** io/serialization/decay.py:79-87 [__find_spectator_id]: the outer loop *)
Fixpoint find_spectator_id (vs : list vertex) : res Z :=
  match vs with
  | [] => Err ValueError
  | v :: vs =>
      if existsb (fun x => negb (is_int x)) (v_node v) then
        match first_int (v_node v) with Some i => Ok i | None => find_spectator_id vs end
      else find_spectator_id vs
  end.
(** io/serialization/decay.py:90-98 [__find_decay_product_ids] *)
Fixpoint find_decay_product_ids (vs : list vertex) : res (Z * Z) :=
  match vs with
  | [] => Err ValueError
  | v :: vs =>
      match v_node v with
      | [It i; It j] => Ok (i, j)
      | _ => find_decay_product_ids vs
      end
  end.
(** io/serialization/decay.py:47-76 [to_decay_chain] *)
Definition to_decay_chain (c : chain_def) (initial : state) (final : dict Z state)
  (to_latex : latex_arg) : res chain :=
  match cd_propagators c with
  | [] => Err IndexError
  | p :: _ =>
      let* r := mk_particle (cd_name c) (apply_latex to_latex (cd_name c)) (pr_spin p) None
                  (Qc_of_Z 0) (Qc_of_Z 0) in
      let* (i, j) := find_decay_product_ids (cd_vertices c) in
      let* k := find_spectator_id (cd_vertices c) in
      let* si := dgetitem i final in
      let* sj := dgetitem j final in
      let* inner := mk_node (PPart r) (Leaf (PSt si)) (Leaf (PSt sj)) ArgNone in
      let* sk := dgetitem k final in
      let* outer := mk_node (PSt initial) inner (Leaf (PSt sk)) ArgNone in
      mk_chain outer
  end.
(** io/serialization/decay.py:33-44 [to_decay] *)
Definition to_decay (m : model_def) (to_latex : latex_arg) : res decay :=
  let* initial := get_initial_state m to_latex in
  let* final := get_final_state m to_latex in
  let* states := get_states m to_latex in
  let* defs := get_decay_chains m in
  let* chains := mapM (fun c => to_decay_chain c initial final to_latex) defs in
  let* chains := sorted (to_set chains) in
  mk_decay states chains.
(** io/serialization/decay.py:145-155 [get_spectator_id] *)
(** io/serialization/decay.py:151. *)
Definition ints_of (t : list item) : list Z :=
  flat_map (fun x => match x with It i => [i] | Sub _ => [] end) t.
(** io/serialization/decay.py:145-155 [get_spectator_id]. *)
Definition get_spectator_id (topology : list item) : res Z :=
  match to_set (ints_of topology) with
  | [i] => Ok i
  | _ => Err ValueError
  end.
