(** C134: models with LS couplings are sums of partial waves *)
From Coq Require Import ZArith Reals List.
From Coquelicot Require Import Complex.
From Verif Require Import Prelude Spin Decay Expr Angles Sums Wigner CG CExpr SpecSpin SpecKin SpecDPD Builder AnglesProofs RefRefuted BuilderExamples
  SpecWigner SpecCovariant CovariantExamples SpecWave WaveProofs WaveExamples.
Import ListNotations.
Local Open Scope R_scope.

(** Clebsch-Gordan coefficients couple the representations of any spinor matrix. *)
Theorem C134_coupling j1 j2 j3 l n1 n2 m3 : (Z.abs (j1 - j2) <= j3 <= j1 + j2)%Z -> Z.Even (j1 + j2 - j3) ->
  In n1 (helicities j1) -> In n2 (helicities j2) -> In m3 (helicities j3) ->
  Rsum (helicities j1) (fun m1 => Rsum (helicities j2) (fun m2 => spin_matrix j1 l n1 m1 * spin_matrix j2 l n2 m2 * cg j1 m1 j2 m2 j3 m3))
  = (m11 l * m22 l - m12 l * m21 l) ^ Z.to_nat ((j1 + j2 - j3) / 2) * Rsum (helicities j3) (fun n3 => cg j1 n1 j2 n2 j3 n3 * spin_matrix j3 l n3 m3).
Proof. exact (c134_cg j1 j2 j3 l n1 n2 m3). Qed.
Print Assumptions C134_coupling.

(** A partial wave turns with the event. *)
Theorem C134_turn J c j1 j2 theta a M s1 s2 :
  wave J c j1 j2 (theta + a) M s1 s2
  = Rsum (helicities J) (fun M' => Rsum (helicities j1) (fun t1 => Rsum (helicities j2) (fun t2 =>
      wigner_d J M M' a * wigner_d j1 s1 t1 a * wigner_d j2 s2 t2 a * wave J c j1 j2 theta M' t1 t2))).
Proof. exact (wave_turn J c j1 j2 theta a M s1 s2). Qed.
Print Assumptions C134_turn.

(** Its helicity components are a Wigner function times the factor of the LS coupling. *)
Theorem C134_vertex J c j1 j2 theta M l1 l2 : In l2 (helicities j2) ->
  Rsum (helicities j1) (fun s1 => Rsum (helicities j2) (fun s2 => wave J c j1 j2 theta M s1 s2 * wigner_d j1 s1 l1 theta * wigner_d j2 s2 l2 (theta + PI)))
  = parity_sign (j2 - l2) * wigner_d J M (l1 - l2) theta * ls_factor J c j1 l1 j2 l2.
Proof. exact (c134_vertex J c j1 j2 theta M l1 l2). Qed.
Print Assumptions C134_vertex.

(** Without spins of the products it is the spherical harmonic. *)
Theorem C134_spinless L theta M : (0 <= L)%Z -> In M (helicities (2 * L)) ->
  wave (2 * L) (LS L 0) 0 0 theta M 0 0 = wigner_d (2 * L) M 0 theta.
Proof. exact (wave_spinless L theta M). Qed.
Print Assumptions C134_spinless.

(** The amplitude of a subsystem in a model with LS couplings: for each chain the product of its couplings, its lineshape and the partial
    waves of its two nodes; the spins of the final state are then quantised along their momenta. *)
Theorem C134_chains b s dyn ref cl uc m ev i j k l :
  std_decay (b_decay b) s -> dynamics_of b dyn -> plain_resonances (b_decay b) -> b_prod_helicity b = false -> b_dec_helicity b = false ->
  formulate b ref cl uc = Ok m -> cyclic i j k -> helicity_tuple s l ->
  let theta := Re (e_sym ev (theta_name i j)) in
  amp_value ev m k l
  = in_frames s (turns k theta) (fun t =>
      Csum (filter (fun c => Z.eqb (st_index (ch_spectator c)) k) (d_chains (b_decay b))) (fun c =>
        (if uc then coefficient else coupling_product) ev false false c 0%Z 0%Z 0%Z 0%Z
        * ceval ev (fun _ => 0%Z) (de_expr (dyn c)) * RtoC (chain_wave s c i j k theta t))%C) l.
Proof. exact (fun D Y P A B F => c134_model b s dyn D Y P A B ref cl uc m ev i j k l F). Qed.
Print Assumptions C134_chains.

(** The helicity frames of C131 and C132 are these turns followed by boosts without rotation. *)
Theorem C134_frames env k theta n :
  chain_frames env k theta n = mul2 (boosts env k theta n) (turns k theta n) /\
  (forall a m p, 0 < m -> pure_boost (boost_to a m p)).
Proof. exact (conj (chain_frames_turns env k theta n) boost_to_pure). Qed.
Print Assumptions C134_frames.

(** The amplitude that is added up over the chains in the frame of particle 0 is the sum of partial waves if each particle is boosted to
    rest. *)
Theorem C134_rest_frames b s dyn ref cl uc m ev i j k theta env T :
  std_decay (b_decay b) s -> dynamics_of b dyn -> plain_resonances (b_decay b) -> b_prod_helicity b = false -> b_dec_helicity b = false ->
  formulate b ref cl uc = Ok m -> cyclic i j k -> Re (e_sym ev (theta_name i j)) = theta ->
  (forall l, helicity_tuple s l -> amp_value ev m k l = in_frames s (chain_frames env k theta) T l) ->
  forall t, helicity_tuple s t -> in_frames s (boosts env k theta) T t =
    Csum (filter (fun c => Z.eqb (st_index (ch_spectator c)) k) (d_chains (b_decay b))) (fun c =>
      (if uc then coefficient else coupling_product) ev false false c 0%Z 0%Z 0%Z 0%Z
      * ceval ev (fun _ => 0%Z) (de_expr (dyn c)) * RtoC (chain_wave s c i j k theta t))%C.
Proof. exact (c134_rest b s dyn ref cl uc m ev i j k theta env T). Qed.
Print Assumptions C134_rest_frames.

Example C134_example : std_decay (b_decay ex_b) ex_st /\ dynamics_of ex_b ex_dyn /\ plain_resonances (b_decay ex_b) /\
  b_prod_helicity ex_b = false /\ b_dec_helicity ex_b = false /\ (exists m, formulate ex_b None false true = Ok m) /\
  (exists c, In c (d_chains (b_decay ex_b)) /\ st_index (ch_spectator c) = 2%Z /\ cyclic 3 1 2 /\
     ch_incoming_ls c = Some (LS 1 1) /\ ch_outgoing_ls c = Some (LS 0 1)).
Proof. exact ex_wave. Qed.
