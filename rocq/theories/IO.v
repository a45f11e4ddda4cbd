(** Model of /repo/src/ampform_dpd/io/__init__.py *)
From Coq Require Import String Ascii ZArith QArith Qcanon SpecFloat List Bool.
From Verif Require Import Prelude Spin Decay.
Import ListNotations.
Local Open Scope list_scope.
Local Open Scope string_scope.
Local Open Scope Z_scope.

(** ** Numbers in tables *)
(** The exponent of a power of two *)
(** Python floats: used to represent the exact value of [1e3 * mass] at io/__init__.py:175-176. *)
Fixpoint log2_exact (p : positive) : option Z :=
  match p with
  | xH => Some 0
  | xO p => match log2_exact p with Some k => Some (k + 1) | None => None end
  | xI _ => None
  end.
(** [1e3 * x] for a Python float [x]: the product rounded to the nearest binary64 number, ties to
    even.  A rational that is no float (the denominator is not a power of two) cannot occur; it
    would give NaN here. *)
Definition times_1e3 (q : Qc) : spec_float :=
  match log2_exact (Qden q) with
  | Some k => binary_normalize 53 1024 (1000 * Qnum q) (- k) false
  | None => S754_nan
  end.
(** [int(x)] of a float *)
(** Python [int], io/__init__.py:175-176, 201-202. *)
Definition int_of_float (x : spec_float) : res Z :=
  match x with
  | S754_zero _ => Ok 0
  | S754_infinity _ => Err OverflowError
  | S754_nan => Err ValueError
  | S754_finite s m e =>
      let a := if 0 <=? e then Zpos m * 2 ^ e else Zpos m / 2 ^ (- e) in
      Ok (if s then - a else a)
  end.
(** [f"{n:,.0f}"] for an int below 2^53: decimal digits in groups of three *)
(** Python format specification [,.0f], io/__init__.py:175-176, 201-202. *)
Fixpoint commas (s : string) : string :=
  match s with
  | "" => ""
  | String c s' =>
      String c (if Nat.eqb (Nat.modulo (String.length s') 3) 0 && negb (Nat.eqb (String.length s') 0)
                then String "," (commas s') else commas s')
  end.
(** Python format specification [,.0f], io/__init__.py:175-176, 201-202. *)
Definition format_int (n : Z) : string :=
  if n <? 0 then String "-" (commas (str_of_Z (- n))) else commas (str_of_Z n).
(** 176-177, 203-204: [f"{int(1e3 * mass):,.0f}"] *)
Definition mev (x : Qc) : res string :=
  let* n := int_of_float (times_1e3 x) in Ok (format_int n).

(** ** LaTeX *)
(** 98-106 [_render_jp]; spins are doubled, [sp.latex] of an int is [str] *)
Definition render_jp (p : particle) : string :=
  let spin := if Z.even (p_spin p) then str_of_Z (p_spin p / 2)
              else "\frac{" ++ str_of_Z (p_spin p) ++ "}{2}" in
  match p_parity p with
  | None => "J=" ++ spin
  | Some x => spin ++ "^" ++ (if x <? 0 then "-" else "+")
  end.
(** 73-80 [aslatex(Particle)] *)
Definition latex_particle (with_jp only_jp : bool) (p : particle) : string :=
  if only_jp then render_jp p
  else if with_jp then p_latex p ++ "\left[" ++ render_jp p ++ "\right]"
  else p_latex p.
(** [str] of a half-integer, given doubled *)
(** SymPy [str] of a Rational, io/__init__.py:51. *)
Definition str_spin (z : Z) : string :=
  if Z.even z then str_of_Z (z / 2) else str_of_Z z ++ "/2".
(** 48-51 [render_arrow] *)
Definition render_arrow (i : option ls_coupling) : string :=
  match i with
  | None => "\to"
  | Some c => "\xrightarrow[S=" ++ str_spin (ls_S c) ++ "]{L=" ++ str_of_Z (ls_L c) ++ "}"
  end.
(** 46-60 [aslatex(IsobarNode)], 68-70 [aslatex(ThreeBodyDecayChain)] *)
Fixpoint latex_tree (with_jp only_jp : bool) (t : tree) : string :=
  match t with
  | Leaf o => latex_particle with_jp only_jp (pobj_particle o)
  | Node parent c1 c2 i =>
      let latex := latex_particle with_jp only_jp (pobj_particle parent) ++ " " ++ render_arrow i ++ " " ++
                   latex_tree with_jp only_jp c1 ++ " " ++ latex_tree with_jp only_jp c2 in
      match parent with
      | PSt _ => latex
      | PPart _ => "\left(" ++ latex ++ "\right)"
      end
  end.

(** ** Tables *)
(** Python character escape in io/__init__.py:219. *)
Definition newline : string := String "010" "".
(** 218-219 [_create_markdown_table_row] *)
Definition table_row (items : list string) : string :=
  "| " ++ sjoin " | " items ++ " |" ++ newline.
(** 212-215 [_create_markdown_table_header] *)
Definition table_header (names : list string) : string :=
  table_row names ++ table_row (map (fun _ => "---") names).
(** io/__init__.py:166, 179: [isinstance(i, State)]. *)
Definition is_state (o : pobj) : bool := match o with PSt _ => true | PPart _ => false end.
(** 171-180: the row of a particle *)
Definition particle_row (render_index : bool) (o : pobj) : res (list string) :=
  let p := pobj_particle o in
  let* mass := mev (p_mass p) in
  let* width := mev (p_width p) in
  let items := ["`" ++ p_name p ++ "`"; "$" ++ p_latex p ++ "$"; "$" ++ latex_particle false true p ++ "$";
                mass; width] in
  Ok (if render_index
      then (match o with PSt s => str_of_Z (st_index s) | PPart _ => " " end) :: items
      else items).
(** io/__init__.py:170-181, 196-209: the loop [src += _create_markdown_table_row(row_items)]. *)
Fixpoint add_rows {A} (row : A -> res (list string)) (l : list A) (src : string) : res string :=
  match l with
  | [] => Ok src
  | x :: l => let* items := row x in add_rows row l (src ++ table_row items)
  end.
(** 158-181 [_as_resonance_markdown_table] *)
Definition resonance_table (items : list pobj) : res string :=
  let names := ["name"; "LaTeX"; "$J^P$"; "mass (MeV)"; "width (MeV)"] in
  let render_index := existsb is_state items in
  let names := if render_index then "index" :: names else names in
  add_rows (particle_row render_index) items (table_header names).
(** io/__init__.py:191, 193: [is not None]. *)
Definition is_some {A} (x : option A) : bool := match x with Some _ => true | None => false end.
(** 196-208: the row of a chain *)
Definition chain_row (c : chain) : res (list string) :=
  let (c1, c2) := ch_decay_products c in
  let r := ch_resonance c in
  let* mass := mev (p_mass r) in
  let* width := mev (p_width r) in
  let items := ["$" ++ p_latex r ++ " \to " ++ latex_particle false false c1 ++ " " ++
                  latex_particle false false c2 ++ "$";
                "$" ++ latex_particle false true r ++ "$"; mass; width] in
  Ok (items ++ (match ch_outgoing_ls c with Some ls => [str_of_Z (ls_L ls)] | None => [] end)
            ++ (match ch_incoming_ls c with Some ls => [str_of_Z (ls_L ls)] | None => [] end))%list.
(** 184-209 [_as_decay_markdown_table] *)
Definition decay_table (cs : list chain) : res string :=
  let names := (["resonance"; "$J^P$"; "mass (MeV)"; "width (MeV)"]
    ++ (if existsb (fun c => is_some (ch_outgoing_ls c)) cs then ["$L_\mathrm{dec}^\mathrm{min}$"] else [])
    ++ (if existsb (fun c => is_some (ch_incoming_ls c)) cs then ["$L_\mathrm{prod}^\mathrm{min}$"] else []))%list in
  add_rows chain_row cs (table_header names).

(** ** Types *)
(** 124-155 [_determine_item_type].  Of the argument only the types of its items matter, or its own
    type if it is not a sequence. *)
Inductive typed (C : Type) := NotSequence (c : C) | Sequence (items : list C).
Arguments NotSequence {C} _.
Arguments Sequence {C} _.
(** io/__init__.py:124-155 [_determine_item_type]. *)
Definition determine_item_type {C} `{EqDec C} (issubclass : C -> C -> bool) (obj : typed C) : res C :=
  match obj with
  | NotSequence c => Ok c
  | Sequence [] => Err ValueError
  | Sequence items =>
      let existing := to_set items in
      let existing := filter (fun t => negb (existsb (fun o => negb (eqb t o) && issubclass t o) existing)) existing in
      match existing with
      | [] => Err StopIteration
      | [t] => Ok t
      | _ => Err ValueError
      end
  end.

(** The classes of decay.py, and other classes: each with the list of its bases (single inheritance) *)
(** io/__init__.py:114-117, 143: the types that are compared. *)
Inductive cls := CParticle | CState | CChain | COther (path : list Z).
Global Instance EqDec_cls : EqDec cls.
Proof. unfold EqDec; decide equality; apply eq_dec. Defined.
(** Python [issubclass] for the other classes, used at io/__init__.py:148. *)
Fixpoint suffixb (p q : list Z) : bool :=
  eqb p q || match q with [] => false | _ :: q => suffixb p q end.
(** Python [issubclass], used at io/__init__.py:148; [State] is a subclass of [Particle] (decay.py:39). *)
Definition issubclass (a b : cls) : bool :=
  match a, b with
  | CParticle, CParticle | CState, CState | CState, CParticle | CChain, CChain => true
  | COther p, COther q => suffixb q p
  | _, _ => false
  end.
(** io/__init__.py:109-117: the items of the argument. *)
Inductive pyitem := IPart (o : pobj) | IChain (c : chain) | IOther (path : list Z).
(** Python [type], used at io/__init__.py:139, 143. *)
Definition type_of (x : pyitem) : cls :=
  match x with
  | IPart (PPart _) => CParticle
  | IPart (PSt _) => CState
  | IChain _ => CChain
  | IOther p => COther p
  end.
(** The argument of [as_markdown_table]; other objects are [Single (IOther _)] *)
(** io/__init__.py:109-117. *)
Inductive table_arg := OfDecay (d : decay) | OfSequence (l : list pyitem) | Single (x : pyitem).
(** io/__init__.py:171-177: the attributes of a particle; another object raises AttributeError. *)
Definition as_particle (x : pyitem) : res pobj := match x with IPart o => Ok o | _ => Err AttributeError end.
(** io/__init__.py:197-207: the attributes of a chain; another object raises AttributeError. *)
Definition as_chain (x : pyitem) : res chain := match x with IChain c => Ok c | _ => Err AttributeError end.
(** 109-121 [as_markdown_table]; iterating over an object that is not iterable raises TypeError *)
Definition as_markdown_table (obj : table_arg) : res string :=
  match obj with
  | OfDecay d => decay_table (d_chains d)
  | _ =>
      let* t := determine_item_type issubclass
                  (match obj with OfSequence l => Sequence (map type_of l) | Single x => NotSequence (type_of x)
                   | OfDecay _ => NotSequence (COther []) end) in
      if eqb t CParticle || eqb t CState then
        match obj with
        | OfSequence l => let* l := mapM as_particle l in resonance_table l
        | _ => Err TypeError
        end
      else if eqb t CChain then
        match obj with
        | OfSequence l => let* l := mapM as_chain l in decay_table l
        | _ => Err TypeError
        end
      else Err NotImplementedErr
  end.
