(** Specification vocabulary for Markdown tables, item types and numbers of io/__init__.py: C60, C61, C75-C77 *)
From Coq Require Import String Ascii ZArith QArith Qabs Qcanon List Bool.
From Verif Require Import Prelude Spin Decay.
From Verif Require IO.
Import ListNotations.
Local Open Scope list_scope.
Local Open Scope string_scope.
Local Open Scope Z_scope.

(** ** Reading a Markdown table *)
(** The pieces of a text between the occurrences of a character *)
Fixpoint split_on (c : ascii) (s : string) : list string :=
  match s with
  | "" => [""]
  | String a s' =>
      if Ascii.eqb a c then "" :: split_on c s'
      else match split_on c s' with
           | [] => [String a ""]
           | p :: ps => String a p :: ps
           end
  end.
(** The lines of a text; each ends with a newline *)
Definition lines (s : string) : list string := removelast (split_on "010" s).
(** A text without one blank at each end *)
Definition unpad (s : string) : string :=
  match s with
  | String " " s' => substring 0 (String.length s' - 1) s'
  | _ => s
  end.
(** The cells of a line of a table: what stands between its bars *)
Definition cells (line : string) : list string :=
  map unpad (removelast (List.tl (split_on "|" line))).
Definition table_cells (t : string) : list (list string) := map cells (lines t).
(** All lines of the table have as many cells as its first line *)
Definition rectangular (t : string) : Prop :=
  forall r, In r (table_cells t) -> length r = length (hd [] (table_cells t)).
(** Texts that can stand in a cell *)
Definition characters (s : string) : list ascii := list_ascii_of_string s.
Definition cell_text (s : string) : Prop :=
  ~ In "|"%char (characters s) /\ ~ In "010"%char (characters s).

(** ** Numbers *)
(** The numbers of IEEE 754 double precision *)
Definition is_float (q : Qc) : Prop :=
  exists m e, Z.abs m < 2 ^ 53 /\ -1074 <= e <= 971 /\ this q == inject_Z m * Qpower 2 e.
(** The number that a decimal literal of value [x] stands for *)
Definition nearest_float (q x : Qc) : Prop :=
  is_float q /\ forall q', is_float q' -> (Qabs (q - x) <= Qabs (q' - x))%Q.
Definition remove_commas (s : string) : string :=
  string_of_list_ascii (filter (fun a => negb (Ascii.eqb a ",")) (characters s)).

(** ** Item types *)
(** Subclass relations *)
Definition hierarchy {C} (sub : C -> C -> bool) : Prop :=
  (forall a, sub a a = true) /\
  (forall a b c, sub a b = true -> sub b c = true -> sub a c = true) /\
  (forall a b, sub a b = true -> sub b a = true -> a = b).
(** Two items, not both particles, both chains or both other objects *)
Definition different_kinds (x y : IO.pyitem) : Prop :=
  match x, y with IO.IPart _, IO.IPart _ | IO.IChain _, IO.IChain _ | IO.IOther _, IO.IOther _ => False | _, _ => True end.
(** The other objects in a sequence have a common class among their types. *)
Definition common_class (l : list IO.pyitem) : Prop :=
  exists p, In (IO.IOther p) l /\ forall q, In (IO.IOther q) l -> IO.issubclass (IO.COther q) (IO.COther p) = true.
(** Digits in groups of three: at most three before the first comma, three after each *)
Definition grouped (s : string) : Prop :=
  exists p ps, split_on "," s = p :: ps /\ (1 <= String.length p <= 3)%nat /\
    forall q, In q ps -> String.length q = 3%nat.

(** ** What the tables say *)
(** Masses and widths: floating point numbers up to a million GeV *)
Definition good_number (q : Qc) : Prop := is_float q /\ (0 <= q <= 1000000)%Q.
Definition good_particle (p : particle) : Prop := good_number (p_mass p) /\ good_number (p_width p).
(** The text is the whole number of MeV of an energy in GeV, up to 2^-23 MeV *)
Definition shows_mev (q : Qc) (t : string) : Prop :=
  exists n, remove_commas t = str_of_Z n /\ grouped t /\
    (inject_Z n <= 1000 * q + (1 # 8388608))%Q /\ (1000 * q < inject_Z (n + 1) + (1 # 8388608))%Q.
(** The texts of a row that describes a particle, and of one that describes a chain *)
Definition particle_cells (p : particle) (jp mass width : string) : list string :=
  ["`" ++ p_name p ++ "`"; "$" ++ p_latex p ++ "$"; "$" ++ jp ++ "$"; mass; width].
Definition chain_cells (c : chain) (jp mass width : string) : list string :=
  ["$" ++ p_latex (ch_resonance c) ++ " \to " ++ p_latex (fst (ch_decay_products c)) ++ " " ++
     p_latex (snd (ch_decay_products c)) ++ "$"; "$" ++ jp ++ "$"; mass; width].
(** The angular momentum of a vertex, where it has one *)
Definition L_cell (x : option ls_coupling) : list string :=
  match x with Some ls => [str_of_Z (ls_L ls)] | None => [] end.
Definition particle_texts (o : pobj) : Prop :=
  cell_text (p_name (pobj_particle o)) /\ cell_text (p_latex (pobj_particle o)).
Definition chain_texts (c : chain) : Prop :=
  cell_text (p_latex (ch_resonance c)) /\ cell_text (p_latex (fst (ch_decay_products c))) /\
  cell_text (p_latex (snd (ch_decay_products c))).
