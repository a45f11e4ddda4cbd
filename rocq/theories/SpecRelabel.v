(** Specification of a change of the labels of the final state. *)
From Coq Require Import String ZArith List Bool Reals Permutation.
From Coquelicot Require Import Complex.
From Verif Require Import Prelude Decay Expr CExpr Builder SpecDPD Dynamics SpecDynamics.
Import ListNotations.
Local Open Scope string_scope.
Local Open Scope Z_scope.
Local Open Scope list_scope.

(** [p] gives new labels to the final states 1, 2, 3. *)
Definition relabelling (p : Z -> Z) : Prop := p 0 = 0 /\ Permutation [p 1; p 2; p 3] [1; 2; 3].
(** It keeps the cyclic order of the labels. *)
Definition keeps_order (p : Z -> Z) : Prop := cyclic (p 1) (p 2) (p 3).
(** It exchanges two labels. *)
Definition exchanges (p : Z -> Z) : Prop := cyclic (p 2) (p 1) (p 3).

Definition relabel_state (p : Z -> Z) (s : state) : state := State (st_particle s) (p (st_index s)).
Definition relabel_pobj (p : Z -> Z) (o : pobj) : pobj :=
  match o with PPart q => PPart q | PSt s => PSt (relabel_state p s) end.
Fixpoint relabel (p : Z -> Z) (t : tree) : tree :=
  match t with
  | Leaf o => Leaf (relabel_pobj p o)
  | Node o a b ls => Node (relabel_pobj p o) (relabel p a) (relabel p b) ls
  end.

(** The decays of two models differ by the labels of their final states only; chains in any order. *)
Definition relabelled_decay (p : Z -> Z) (d : decay) (s : Z -> state) (d' : decay) (s' : Z -> state) : Prop :=
  (forall i, In i [0; 1; 2; 3] -> st_particle (s' (p i)) = st_particle (s i)) /\
  Permutation (d_chains d') (map (relabel p) (d_chains d)).

(** The same masses and invariant masses with the new labels *)
Definition relabelled_point (p : Z -> Z) (base base' : symbol -> C) : Prop :=
  base' (Sym "m0" ANonneg) = base (Sym "m0" ANonneg) /\
  forall i, In i [1; 2; 3] ->
    base' (Sym ("m" ++ str_of_Z (p i))%string ANonneg) = base (Sym ("m" ++ str_of_Z i)%string ANonneg) /\
    base' (Sym ("sigma" ++ str_of_Z (p i))%string ANonneg) = base (Sym ("sigma" ++ str_of_Z i)%string ANonneg).

(** The same helicities with the new labels *)
Definition relabelled_helicities (p : Z -> Z) (l l' : Z * Z * Z * Z) : Prop :=
  forall i, In i [0; 1; 2; 3] -> at4 l' (p i) = at4 l i.

(** The sign of the exchange of the decay products of a resonance: (-1)^(J + J_R + J_k) with the spins of
    the initial state, the resonance and the spectator. *)
Definition exchange_sign (c : chain) : R :=
  parity_sign (p_spin (ch_parent c) + p_spin (ch_resonance c) + p_spin (ch_spectator c)).
(** The sign of the exchange of the labels for given helicities: the product of (-1)^(spin - helicity) *)
Definition orientation_sign (s : Z -> state) (l : Z * Z * Z * Z) : R :=
  (parity_sign (p_spin (s 0%Z) - at4 l 0) * parity_sign (p_spin (s 1%Z) - at4 l 1)
   * parity_sign (p_spin (s 2%Z) - at4 l 2) * parity_sign (p_spin (s 3%Z) - at4 l 3))%R.

(** The same values of all symbols with the new labels *)
Definition relabelled_values (p : Z -> Z) (base base' : symbol -> C) : Prop :=
  relabelled_point p base base' /\
  forall x, ~ In (sname x) ["m0"; "m1"; "m2"; "m3"; "sigma1"; "sigma2"; "sigma3"] -> base' x = base x.
(** A chain and the same chain with new labels have lineshapes of BreitWignerBuilder with the same settings, or no dynamics. *)
Definition same_lineshapes (p : Z -> Z) (d : decay) (dyn dyn' : chain -> defexpr) : Prop :=
  forall c, In c (d_chains d) ->
    (dyn c = DefExpr (CNum 1) [] /\ dyn' (relabel p c) = DefExpr (CNum 1) []) \/
    exists w f, phsp_value (bw_phsp_factor w) f /\
      bw_call w c = Ok (dyn c) /\ bw_call w (relabel p c) = Ok (dyn' (relabel p c)).
