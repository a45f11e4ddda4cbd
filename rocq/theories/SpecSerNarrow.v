(** Specification vocabulary for narrow resonances of model files (C159) *)
From Coq Require Import String ZArith List Bool Reals.
From Coquelicot Require Import Complex.
From Verif Require Import Prelude Spin Expr SerFormat SpecSerial.
Import ListNotations.

(** Mass and width of the resonance of a chain *)
Definition chain_mass (tl : string -> string) (c : chain_def) : symbol := named "m" (tl (cd_name c)).
Definition chain_width (tl : string -> string) (c : chain_def) : symbol := named "\Gamma" (tl (cd_name c)).
(** Another value for one symbol *)
Definition with_value (base : symbol -> C) (y0 : symbol) (v : C) (y : symbol) : C := if eqb y y0 then v else base y.
(** The lineshape of the chain is a Breit-Wigner function. The production vertex has no form factor; the decay vertex has
    a Blatt-Weisskopf form factor with angular momentum [L], or none ([L] = 0). *)
Definition breit_wigner_chain (m : model_def) (c : chain_def) (L : Z) : Prop :=
  (forall p, In p (cd_propagators c) -> exists f, function_of m (pr_parametrization p) f /\ complete_breit_wigner f) /\
  (forall v k pair, In v (cd_vertices c) -> with_pair k pair (v_node v) -> v_formfactor v = None \/ v_formfactor v = Some ""%string) /\
  (forall v a b, In v (cd_vertices c) -> v_node v = [It a; It b] ->
     ((v_formfactor v = None \/ v_formfactor v = Some ""%string) /\ L = 0%Z) \/
     exists name f, v_formfactor v = Some name /\ name <> ""%string /\ function_of m name f /\ fd_type f = "BlattWeisskopf"%string /\
       has_numbers ["radius"%string] (fd_numbers f) /\ dget "l"%string (fd_numbers f) = Some (Qc_of_Z L)).
