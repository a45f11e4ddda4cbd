(** C137: an upper bound of the intensity, from couplings and lineshapes only. *)
From Coq Require Import String ZArith List Bool Reals.
From Coquelicot Require Import Complex.
From Verif Require Import Prelude Spin Decay Expr Angles Sums CExpr SpecSpin SpecKin SpecDPD Builder SpecBuilder BuilderExamples ChainExamples
  SpecObs RelabelExamples RelabelShapeExamples AngularExamples
  SerFormat SerDynamics SpecSerial LcModel LcProofs SpecEnvelope EnvelopeFacts EnvelopeSerial EnvelopeExamples.
From Verif Require SerAmplitude.
Import ListNotations.
Local Open Scope R_scope.

(** The intensity is at most the square of the sum of the sizes of all chains. *)
Theorem C137_envelope b s dyn ref cl uc m : std_decay (b_decay b) s -> dynamics_of b dyn ->
  (b_prod_helicity b = false -> plain_resonances (b_decay b)) -> formulate b ref cl uc = Ok m -> forall ev,
  Re (full_value ev m) <= Rsum (d_chains (b_decay b)) (chain_size (b_prod_helicity b) (b_dec_helicity b) s
    ((if uc then coefficient else coupling_product) ev (b_prod_helicity b) (b_dec_helicity b))
    (fun c => ceval ev (fun _ => 0%Z) (de_expr (dyn c)))) ^ 2.
Proof. exact (fun D Y P F => c137_envelope b s D dyn ref cl uc m Y P F). Qed.
Print Assumptions C137_envelope.
Example C137_example : std_decay (b_decay ex_b) ex_st /\ dynamics_of ex_b ex_dyn /\ plain_resonances (b_decay ex_b) /\
  exists m, formulate ex_b None false false = Ok m.
Proof. exact (conj ex_std (conj (ex_dynamics (MinBool false) (or_introl eq_refl)) (conj ex_plain (ex_formulate _ _ (or_introl eq_refl))))). Qed.
Print Assumptions C137_example.

(** With LS couplings in both vertices, a chain has the size of coupling times lineshape. *)
Theorem C137_LS b s dyn ref cl uc m : std_decay (b_decay b) s -> dynamics_of b dyn -> plain_resonances (b_decay b) ->
  formulate b ref cl uc = Ok m -> b_prod_helicity b = false -> b_dec_helicity b = false -> forall ev,
  Re (full_value ev m) <= Rsum (d_chains (b_decay b)) (fun c => Cmod (ceval ev (fun _ => 0%Z) (de_expr (dyn c)))
    * Cmod ((if uc then coefficient else coupling_product) ev false false c 0%Z 0%Z 0%Z 0%Z)) ^ 2.
Proof. exact (fun D Y P F Hp Hd ev => c137_LS b s D dyn ref cl uc m ev Y P F Hp Hd). Qed.
Print Assumptions C137_LS.
Example C137_LS_example : exists m, std_decay dl_decay ex_st /\ dynamics_of (dl_b dl_decay [] false) (fun _ => de_unit) /\
  plain_resonances dl_decay /\ formulate (dl_b dl_decay [] false) (Some 2%Z) false true = Ok m /\
  b_prod_helicity (dl_b dl_decay [] false) = false /\ b_dec_helicity (dl_b dl_decay [] false) = false.
Proof. exact en_example. Qed.
Print Assumptions C137_LS_example.

(** There the bound is sharp: one chain of spinless particles attains it where the angle of the chain is 0. *)
Theorem C137_attained b s dyn ref cl uc m c n ev : std_decay (b_decay b) s -> dynamics_of b dyn -> plain_resonances (b_decay b) ->
  formulate b ref cl uc = Ok m -> b_prod_helicity b = false -> b_dec_helicity b = false ->
  spinless s -> d_chains (b_decay b) = [c] -> p_spin (ch_resonance c) = (2 * Z.of_nat n)%Z ->
  ch_incoming_ls c = Some (LS (Z.of_nat n) (2 * Z.of_nat n)) -> ch_outgoing_ls c = Some (LS (Z.of_nat n) 0) ->
  Re (e_sym ev (chain_angle c)) = 0 ->
  Re (full_value ev m) = (Cmod (ceval ev (fun _ => 0%Z) (de_expr (dyn c)))
    * Cmod ((if uc then coefficient else coupling_product) ev false false c 0%Z 0%Z 0%Z 0%Z)) ^ 2.
Proof. exact (c137_attained b s dyn ref cl uc m c n ev). Qed.
Print Assumptions C137_attained.
Example C137_attained_example : std_decay (b_decay (og_b og_odd)) id_st /\ dynamics_of (og_b og_odd) rb_dyn /\
  plain_resonances (b_decay (og_b og_odd)) /\ (exists m, formulate (og_b og_odd) None false false = Ok m) /\
  b_prod_helicity (og_b og_odd) = false /\ b_dec_helicity (og_b og_odd) = false /\
  spinless id_st /\ d_chains (b_decay (og_b og_odd)) = [og_odd] /\ p_spin (ch_resonance og_odd) = (2 * Z.of_nat 1)%Z /\
  ch_incoming_ls og_odd = Some (LS (Z.of_nat 1) (2 * Z.of_nat 1)) /\ ch_outgoing_ls og_odd = Some (LS (Z.of_nat 1) 0).
Proof. exact en_attained. Qed.
Print Assumptions C137_attained_example.

(** Models of a model file: weight times lineshape, with a factor for flipped helicities, summed over the helicities of the parent *)
Theorem C137_serial (m : model_def) (d : distribution) (s : Z -> state) (r : Z) (tl : string -> string)
    (additional : option (dict string prop_builder)) (x : chain_def -> content) (w : chain_def -> symbol) (dyn : chain_def -> defexpr) cl M :
  helicity_definition m d s r tl additional x w dyn -> SerAmplitude.formulate m cl tl additional = Ok M -> forall ev,
  Re (full_value ev M) <= IZR (p_spin (s 0%Z) + 1) * Rsum (di_chains d) (serial_size x w dyn ev) ^ 2.
Proof. exact (fun H F ev => c137_serial m d s r tl additional x w dyn H cl M F ev). Qed.
Print Assumptions C137_serial.
Example C137_Lc2ppiK : helicity_definition lc_model lc_dist lc_s 2 lc_tl lc_builders lc_x lc_w lc_dyn /\
  length (di_chains lc_dist) = 26%nat /\ exists M, SerAmplitude.formulate lc_model true lc_tl lc_builders = Ok M.
Proof. exact (conj lc_definition (conj eq_refl (lc_formulate true))). Qed.
Print Assumptions C137_Lc2ppiK.
