(** Model of the texts of warnings and errors that describe a decay: /repo/src/ampform_dpd/decay.py and
    /repo/src/ampform_dpd/__init__.py; and of the LaTeX of indexed symbols in /repo/src/ampform_dpd/io/__init__.py *)
From Coq Require Import String ZArith List Bool.
From Verif Require Import Prelude Decay Builder.
Import ListNotations.
Local Open Scope list_scope.
Local Open Scope string_scope.
Local Open Scope Z_scope.

(** decay.py:129-132 [_get_decay_description] *)
Definition get_decay_description (d : decay) : res string :=
  let* s0 := initial_state_r d in
  let initial_state := p_name (st_particle s0) in
  let final_state := sjoin ", " (map (fun is => (str_of_Z (fst is) ++ ": " ++ p_name (st_particle (snd is)))%string)
                                     (final_states d)) in
  Ok (initial_state ++ " → " ++ final_state).
(** decay.py:123 and __init__.py:310: the sorted names of the subsystems *)
Definition subsystems_text (d : decay) : res string :=
  let* names := sorted (map str_of_Z (get_subsystem_ids d)) in Ok (sjoin ", " names).
(** decay.py:119-126 [get_subsystem]: the warning, if one is issued *)
Definition get_subsystem_warning (d : decay) (subsystem_id : Z) : res (option string) :=
  if snd (get_subsystem d subsystem_id) then
    let* decay_description := get_decay_description d in
    let* subsystems := subsystems_text d in
    Ok (Some ("Decay " ++ decay_description ++ " only has subsystems " ++ subsystems ++ ", not " ++ str_of_Z subsystem_id))
  else Ok None.
(** __init__.py:293-297: the text of the ValueError of [_get_best_reference_subsystems], if it is raised *)
Definition best_reference_error (d : decay) : res (option string) :=
  match get_subsystem_ids d with
  | [] => let* decay_description := get_decay_description d in Ok (Some ("Decay " ++ decay_description ++ " has no subsystems"))
  | _ => Ok None
  end.
(** __init__.py:304-315 [_check_reference_subsystems]: the warning, if one is issued *)
Definition check_reference_warning (d : decay) (reference : Z) : res (option string) :=
  if check_reference_subsystem d reference then
    let* decay_description := get_decay_description d in
    let* subsystems := subsystems_text d in
    Ok (Some ("Decay " ++ decay_description ++ " only has subsystems " ++ subsystems
              ++ ". Are you sure you want to use subsystem " ++ str_of_Z reference ++ " as reference?"))
  else Ok None.

(** io/__init__.py:231-234 [_print_Indexed_latex] *)
Definition print_Indexed_latex {V : Type} (pr : V -> string) (base : V) (indices : list V) : string :=
  pr base ++ "_{" ++ sjoin ", " (map pr indices) ++ "}".
