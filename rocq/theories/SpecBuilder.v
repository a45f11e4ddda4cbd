(** Specification of the dynamics registry and of what has to be defined in a model. *)
From Coq Require Import String ZArith List Bool.
From Verif Require Import Prelude Decay Expr CExpr Builder SpecDPD.
Import ListNotations.
Local Open Scope string_scope.
Local Open Scope Z_scope.
Local Open Scope list_scope.

(** ** The dynamics registry *)
(** The identifier [i] stands for chain [c] of decay [d]: the chain itself, or the name of
    its resonance, if it is the first chain with that resonance. *)
Definition denotes (d : decay) (i : identifier) (c : chain) : Prop :=
  match i with
  | IdChain c' => c' = c /\ In c (d_chains d)
  | IdName n => exists before after, d_chains d = before ++ c :: after /\
      p_name (ch_resonance c) = n /\ forall c', In c' before -> p_name (ch_resonance c') <> n
  | IdOther => False
  end.
(** A history of calls of [register_builder]; calls that raise leave the object as it is. *)
Definition history := list (identifier * dyn_builder).
Fixpoint register_all (cf : configurator) (h : history) : configurator :=
  match h with
  | [] => cf
  | (i, f) :: h => register_all (match register_builder cf i f with Ok cf' => cf' | Err _ => cf end) h
  end.
(** [f] is the builder of the last call in [h] that stands for [c]. *)
Definition last_registered (d : decay) (h : history) (c : chain) (f : dyn_builder) : Prop :=
  exists before i after, h = before ++ (i, f) :: after /\ denotes d i c /\
    forall j g, In (j, g) after -> ~ denotes d j c.
Definition never_registered (d : decay) (h : history) (c : chain) : Prop :=
  forall i f, In (i, f) h -> ~ denotes d i c.
(** What the registry has to give for chain [c]: the result of the last registered builder, or 1 *)
Definition default_or_last (d : decay) (h : history) (c : chain) (x : defexpr) : Prop :=
  (exists f, last_registered d h c f /\ f c = Ok x) \/ (never_registered d h c /\ x = DefExpr (CNum 1) []).
(** The exceptions for identifiers that do not stand for any chain *)
Definition registry_error (i : identifier) : exn :=
  match i with IdChain _ => ValueError | IdName _ => KeyError | IdOther => NotImplementedErr end.

(** ** What occurs in an expression *)
(** The (doubled) exponents of the factors (-1)**x in an expression, after expansion of the sums *)
Fixpoint sign_exponents (h : symbol -> Z) (e : cexpr) : list Z :=
  match e with
  | CSign a => [heval h a]
  | CAdd a b | CSub a b | CMul a b | CDiv a b => sign_exponents h a ++ sign_exponents h b
  | CNeg a | CSqr a | CSqrt a | CExp a | CAbs2 a => sign_exponents h a
  | CSum e pools => pool_flat (fun h => sign_exponents h e) pools h
  | CFormFactor s m1 m2 _ r =>
      sign_exponents h s ++ sign_exponents h m1 ++ sign_exponents h m2 ++ sign_exponents h r
  | CBreakup s m1 m2 => sign_exponents h s ++ sign_exponents h m1 ++ sign_exponents h m2
  | _ => []
  end.
(** The summation indices in an expression *)
Fixpoint sum_indices (e : cexpr) : list symbol :=
  match e with
  | CAdd a b | CSub a b | CMul a b | CDiv a b => sum_indices a ++ sum_indices b
  | CNeg a | CSqr a | CSqrt a | CExp a | CAbs2 a => sum_indices a
  | CSum e pools => map fst pools ++ sum_indices e
  | CFormFactor s m1 m2 _ r => sum_indices s ++ sum_indices m1 ++ sum_indices m2 ++ sum_indices r
  | CBreakup s m1 m2 => sum_indices s ++ sum_indices m1 ++ sum_indices m2
  | _ => []
  end.
(** All that occurs in the expressions of a model after expansion *)
Definition occurs_in_amplitudes (m : model) (x : okey) : Prop :=
  exists key e, dget key (m_amplitudes m) = Some e /\ In x (occ (fun _ => 0) e).
Definition occurs_in_intensity (m : model) (x : okey) : Prop := In x (occ (fun _ => 0) (m_intensity m)).
(** A free symbol has a definition: a default value, or the expression of a variable, or it is
    one of the Mandelstam variables. *)
Definition mandelstam (x : symbol) : Prop :=
  In x [Sym "sigma1" ANonneg; Sym "sigma2" ANonneg; Sym "sigma3" ANonneg].
Definition mass_symbol (x : symbol) : Prop :=
  In x [Sym "m0" ANonneg; Sym "m1" ANonneg; Sym "m2" ANonneg; Sym "m3" ANonneg].

(** ** Couplings *)
(** A chain has the LS couplings that the bases need. *)
Definition has_ls (ph dh : bool) (c : chain) : Prop :=
  (ph = false -> ch_incoming_ls c <> None) /\ (dh = false -> ch_outgoing_ls c <> None).
(** the keys of the two couplings and of the coefficient of a chain *)
Definition coupling_pair (ph dh : bool) (c : chain) (r lk li lj : Z) :=
  ((production_name ph, IStr (p_latex (ch_resonance c)) :: coupling_index ph (ch_incoming_ls c) r lk),
   (decay_name dh, IStr (p_latex (ch_resonance c)) :: coupling_index dh (ch_outgoing_ls c) li lj)).
Definition coefficient_key (ph dh : bool) (c : chain) (r lk li lj : Z) : string * list ival :=
  (coefficient_base (p_latex (ch_resonance c)) ph dh,
   coupling_index ph (ch_incoming_ls c) r lk ++ coupling_index dh (ch_outgoing_ls c) li lj).
