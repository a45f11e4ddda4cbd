(** C132: the amplitudes of all chains are added in one frame *)
From Coq Require Import ZArith Reals List.
From Coquelicot Require Import Complex.
From Verif Require Import Prelude Spin Decay Expr Angles Sums Wigner CExpr SpecSpin SpecKin SpecDPD Builder AnglesProofs RefRefuted BuilderExamples
  SpecWigner SpecCovariant CovariantProofs CovariantExamples.
Import ListNotations.
Local Open Scope R_scope.

(** The matrices of spin j represent the spinor matrices; for rotations they are the Wigner d functions. *)
Theorem C132_spin_matrix j l l' m m' : In m (helicities j) -> In m' (helicities j) ->
  Rsum (helicities j) (fun k => spin_matrix j l m k * spin_matrix j l' k m') = spin_matrix j (mul2 l l') m m' /\
  (forall a, spin_matrix j (spinor_rot a) m m' = wigner_d j m m' a) /\
  (forall x y, spin_state j m' (m11 l * x + m21 l * y) (m12 l * x + m22 l * y)
     = Rsum (helicities j) (fun m => spin_matrix j l m m' * spin_state j m x y)) /\
  (forall f, (forall x y, spin_state j m' (m11 l * x + m21 l * y) (m12 l * x + m22 l * y)
     = Rsum (helicities j) (fun m => f m * spin_state j m x y)) -> f m = spin_matrix j l m m').
Proof. exact (c132_rep j l l' m m'). Qed.
Print Assumptions C132_spin_matrix.

(** Helicity amplitudes of a chain are the components of exactly one amplitude in the frame of particle 0. *)
Theorem C132_exists env s th A : physical env -> (forall i, (1 <= i <= 3)%Z -> 0 < mass_at env i) ->
  (exists T, forall k l, (1 <= k <= 3)%Z -> helicity_tuple s l -> A k l = in_frames s (chain_frames env k (th k)) (T k) l) /\
  (forall k T T', (1 <= k <= 3)%Z ->
     (forall l, helicity_tuple s l -> in_frames s (chain_frames env k (th k)) T l = in_frames s (chain_frames env k (th k)) T' l) ->
     forall t, helicity_tuple s t -> T t = T' t).
Proof. exact (c132_exists env s th A). Qed.
Print Assumptions C132_exists.

(** The model adds these amplitudes, each turned to the orientation of the reference chain and with a sign, and quantises the spins of
    the sum in the frames of the reference chain. *)
Theorem C132_coherent_sum b s ref cl uc m r base cpl th hat T :
  std_decay (b_decay b) s -> formulate b ref cl uc = Ok m -> resolve_reference (b_decay b) ref = Ok r -> (1 <= r <= 3)%Z ->
  let env x := Re (base x) in let ev := at_point (m_variables m) base cpl in
  physical env -> nonsingular env -> (forall i, (1 <= i <= 3)%Z -> 0 < mass_at env i) ->
  (forall k, (1 <= k <= 3)%Z -> scattering_angle env k (th k)) ->
  (forall k, (1 <= k <= 3)%Z -> exists x e, formulate_theta_hat_angle k r = Ok (x, e) /\ hat k = reval env e) ->
  (forall k l, In k (get_subsystem_ids (b_decay b)) -> helicity_tuple s l ->
     amp_value ev m k l = in_frames s (chain_frames env k (th k)) (T k) l) ->
  full_value ev m = RtoC (Rsum (tuples s) (fun l => Cmod (in_frames s (chain_frames env r (th r))
    (fun t => Csum (get_subsystem_ids (b_decay b)) (fun k => RtoC (chain_sign s k r) * turned_amplitude s (hat k) (T k) t)%C) l) ^ 2)).
Proof. exact (c132_coherent b s ref cl uc m r base cpl th hat T). Qed.
Print Assumptions C132_coherent_sum.

(** The sign is that of a full turn of the particle that is the spectator in neither of the two chains. *)
Theorem C132_sign s k r : (1 <= k <= 3)%Z -> (1 <= r <= 3)%Z ->
  chain_sign s k r = if Z.eqb k r then 1 else (-1) ^ Z.to_nat (p_spin (s (6 - k - r)%Z)).
Proof. exact (c132_sign s k r). Qed.
Print Assumptions C132_sign.

(** The intensity is the contraction of the sum with the matrices of the momenta. *)
Theorem C132_intensity b s ref cl uc m r base cpl th hat T :
  std_decay (b_decay b) s -> formulate b ref cl uc = Ok m -> resolve_reference (b_decay b) ref = Ok r -> (1 <= r <= 3)%Z ->
  let env x := Re (base x) in let ev := at_point (m_variables m) base cpl in
  physical env -> nonsingular env -> (forall i, (1 <= i <= 3)%Z -> 0 < mass_at env i) ->
  (forall k, (1 <= k <= 3)%Z -> scattering_angle env k (th k)) ->
  (forall k, (1 <= k <= 3)%Z -> exists x e, formulate_theta_hat_angle k r = Ok (x, e) /\ hat k = reval env e) ->
  (forall k l, In k (get_subsystem_ids (b_decay b)) -> helicity_tuple s l ->
     amp_value ev m k l = in_frames s (chain_frames env k (th k)) (T k) l) ->
  let total t := Csum (get_subsystem_ids (b_decay b)) (fun k => RtoC (chain_sign s k r) * turned_amplitude s (hat k) (T k) t)%C in
  let p i := helicity_frame env r (th r) i (at_rest (mass_at env i)) in
  full_value ev m = Csum (tuples s) (fun t => Csum (tuples s) (fun t' =>
    total t * Cconj (total t') * RtoC (spin_matrices s (momentum_matrices env p) t t')))%C.
Proof. exact (c132_intensity b s ref cl uc m r base cpl th hat T). Qed.
Print Assumptions C132_intensity.

Example C132_example cpl : exists m T,
  formulate ex_b (Some 3%Z) false false = Ok m /\ resolve_reference (b_decay ex_b) (Some 3%Z) = Ok 3%Z /\
  std_decay (b_decay ex_b) ex_st /\ physical (fun x => Re (rx_base x)) /\ nonsingular (fun x => Re (rx_base x)) /\
  (forall i, (1 <= i <= 3)%Z -> 0 < mass_at (fun x => Re (rx_base x)) i) /\
  (forall k, (1 <= k <= 3)%Z -> scattering_angle (fun x => Re (rx_base x)) k (ex_th k)) /\
  (forall k, (1 <= k <= 3)%Z -> exists x e, formulate_theta_hat_angle k 3 = Ok (x, e) /\ ex_hat 3 k = reval (fun x => Re (rx_base x)) e) /\
  (forall k l, In k (get_subsystem_ids (b_decay ex_b)) -> helicity_tuple ex_st l ->
     amp_value (at_point (m_variables m) rx_base cpl) m k l = in_frames ex_st (chain_frames (fun x => Re (rx_base x)) k (ex_th k)) (T k) l).
Proof. exact (ex_covariant cpl). Qed.
Example C132_example_sign : chain_sign ex_st 2 3 = -1.
Proof. rewrite C132_sign by (split; discriminate). simpl. ring. Qed.
