(** Specification vocabulary for the nodes of a decay: their construction and their LaTeX (C90, C91) *)
From Coq Require Import String Ascii ZArith QArith Qcanon List Bool.
From Verif Require Import Prelude Spin Decay SpecIO.
Import ListNotations.
Local Open Scope list_scope.
Local Open Scope string_scope.
Local Open Scope Z_scope.

(** ** Construction *)
(** [z] halves: the exact value of a spin that is stored as twice its value *)
Definition halves (z : Z) : Qc := Q2Qc (z # 2).
(** Integer or half-integer *)
Definition spin_number (q : Qc) : Prop := exists z, q = halves z.
(** The couplings that an argument of [IsobarNode] stands for *)
Definition stands_for (a : ls_arg) (i : option ls_coupling) : Prop :=
  match a with
  | ArgNone => i = None
  | ArgLS c => i = Some c
  | ArgTuple L S0 => exists c, i = Some c /\ ls_L c = L /\ halves (ls_S c) = S0
  | ArgTupleN _ | ArgOther => False
  end.

(** ** LaTeX *)
(** The words of a text: what stands between its blanks *)
Definition words (s : string) : list string := split_on " " s.
(** Texts that are one word *)
Definition one_word (s : string) : Prop := ~ In " "%char (characters s).
(** [s] is the text of the spin [z]/2: a whole number, or an odd number of halves *)
Definition spin_text (s : string) (z : Z) : Prop :=
  (exists n, z = 2 * n /\ s = str_of_Z n) \/ (Z.odd z = true /\ s = str_of_Z z ++ "/2").
(** [a] is an arrow that shows the coupling [i] *)
Definition arrow_text (a : string) (i : option ls_coupling) : Prop :=
  match i with
  | None => a = "\to"
  | Some c => exists s, spin_text s (ls_S c) /\ a = "\xrightarrow[S=" ++ s ++ "]{L=" ++ str_of_Z (ls_L c) ++ "}"
  end.
(** The same decay, apart from the couplings *)
Fixpoint same_decay (t t' : tree) : Prop :=
  match t, t' with
  | Leaf o, Leaf o' => o = o'
  | Node o a b _, Node o' a' b' _ => o = o' /\ same_decay a a' /\ same_decay b b'
  | _, _ => False
  end.
(** The chain s0 -> (r -> s1 s2) s3, or s0 -> s3 (r -> s1 s2) *)
Definition plain_chain (first : bool) (s0 : state) (r : particle) (s1 s2 s3 : state) (i j : option ls_coupling) : chain :=
  let isobar := Node (PPart r) (Leaf (PSt s1)) (Leaf (PSt s2)) j in
  if first then Node (PSt s0) isobar (Leaf (PSt s3)) i else Node (PSt s0) (Leaf (PSt s3)) isobar i.
