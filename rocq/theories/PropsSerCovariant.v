(** C133: serialised models: the amplitudes of all chains are added in one frame *)
From Coq Require Import String ZArith Reals List.
From Coquelicot Require Import Complex.
From Verif Require Import Prelude Spin Decay Expr Angles Sums Wigner CExpr SpecSpin SpecKin SpecDPD Builder
  SpecWigner SpecCovariant Dynamics SerFormat SerDynamics SerAmplitude SpecSerial SerExamples SerWeightExamples SerCovariant.
Import ListNotations.
Local Open Scope R_scope.

Theorem C133_coherent_sum (m : model_def) (d : distribution) (s : Z -> state) (r : Z) (tl : string -> string)
  (additional : option (dict string prop_builder)) (x : chain_def -> content) (w : chain_def -> symbol) (dyn : chain_def -> defexpr)
  (cl : bool) (M : model) base cpl th hat T ks :
  helicity_definition m d s r tl additional x w dyn -> SerAmplitude.formulate m cl tl additional = Ok M ->
  NoDup ks -> (forall k, In k ks <-> exists c, In c (di_chains d) /\ ct_k (x c) = k) ->
  let env y := Re (base y) in let ev := at_point (m_variables M) base cpl in
  physical env -> nonsingular env -> (forall i, (1 <= i <= 3)%Z -> 0 < mass_at env i) ->
  (forall k, (1 <= k <= 3)%Z -> scattering_angle env k (th k)) ->
  (forall k, (1 <= k <= 3)%Z -> exists y e, formulate_theta_hat_angle k r = Ok (y, e) /\ hat k = reval env e) ->
  (forall k l, In k ks -> helicity_tuple s l -> amp_value ev M k l = in_frames s (chain_frames env k (th k)) (T k) l) ->
  full_value ev M = RtoC (Rsum (tuples s) (fun l => Cmod (in_frames s (chain_frames env r (th r))
    (fun t => Csum ks (fun k => RtoC (chain_sign s k r) * turned_amplitude s (hat k) (T k) t)%C) l) ^ 2)).
Proof. exact (fun H F => c133_coherent m d s r tl additional x w dyn H cl M F base cpl th hat T ks). Qed.
Print Assumptions C133_coherent_sum.

Theorem C133_intensity (m : model_def) (d : distribution) (s : Z -> state) (r : Z) (tl : string -> string)
  (additional : option (dict string prop_builder)) (x : chain_def -> content) (w : chain_def -> symbol) (dyn : chain_def -> defexpr)
  (cl : bool) (M : model) base cpl th hat T ks :
  helicity_definition m d s r tl additional x w dyn -> SerAmplitude.formulate m cl tl additional = Ok M ->
  NoDup ks -> (forall k, In k ks <-> exists c, In c (di_chains d) /\ ct_k (x c) = k) ->
  let env y := Re (base y) in let ev := at_point (m_variables M) base cpl in
  physical env -> nonsingular env -> (forall i, (1 <= i <= 3)%Z -> 0 < mass_at env i) ->
  (forall k, (1 <= k <= 3)%Z -> scattering_angle env k (th k)) ->
  (forall k, (1 <= k <= 3)%Z -> exists y e, formulate_theta_hat_angle k r = Ok (y, e) /\ hat k = reval env e) ->
  (forall k l, In k ks -> helicity_tuple s l -> amp_value ev M k l = in_frames s (chain_frames env k (th k)) (T k) l) ->
  let total t := Csum ks (fun k => RtoC (chain_sign s k r) * turned_amplitude s (hat k) (T k) t)%C in
  let p i := helicity_frame env r (th r) i (at_rest (mass_at env i)) in
  full_value ev M = Csum (tuples s) (fun t => Csum (tuples s) (fun t' =>
    total t * Cconj (total t') * RtoC (spin_matrices s (momentum_matrices env p) t t')))%C.
Proof. exact (fun H F => c133_intensity m d s r tl additional x w dyn H cl M F base cpl th hat T ks). Qed.
Print Assumptions C133_intensity.

Example C133_example a b c cpl : exists M T,
  let env y := Re (wx_base a b c y) in
  SerAmplitude.formulate sx_model true sx_tl None = Ok M /\
  helicity_definition sx_model (sx_dist sx_chains) sx_s 1 sx_tl None sx_x sx_w sx_dyn /\
  NoDup [1; 2; 3]%Z /\ (forall k, In k [1; 2; 3]%Z <-> exists q, In q sx_chains /\ ct_k (sx_x q) = k) /\
  physical env /\ nonsingular env /\ (forall i, (1 <= i <= 3)%Z -> 0 < mass_at env i) /\
  (forall k, (1 <= k <= 3)%Z -> scattering_angle env k (angle_th env k)) /\
  (forall k, (1 <= k <= 3)%Z -> exists y e, formulate_theta_hat_angle k 1 = Ok (y, e) /\ angle_hat env 1 k = reval env e) /\
  (forall k l, In k [1; 2; 3]%Z -> helicity_tuple sx_s l ->
     amp_value (at_point (m_variables M) (wx_base a b c) cpl) M k l = in_frames sx_s (chain_frames env k (angle_th env k)) (T k) l).
Proof. exact (sx_covariant a b c cpl). Qed.
Print Assumptions C133_example.
