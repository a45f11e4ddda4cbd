(** C95: how the intensity depends on the couplings. The vocabulary is in SpecForm.v. *)
From Coq Require Import String ZArith List Bool Reals.
From Coquelicot Require Import Complex.
From Verif Require Import Prelude Decay Expr CExpr Sums SpecDPD Builder SpecBuilder SpecForm
  FormProofs BuilderExamples ChainExamples.
Import ListNotations.
Local Open Scope Z_scope.

(** Amplitudes are linear in the couplings. *)
Theorem C95_linear b s dyn ref cl uc m names : std_decay (b_decay b) s -> dynamics_of b dyn ->
  (b_prod_helicity b = false -> plain_resonances (b_decay b)) -> formulate b ref cl uc = Ok m ->
  one_factor b uc names ->
  forall base x y cpl1 cpl2 cpl k l, combined names x y cpl1 cpl2 cpl -> In k [1; 2; 3] -> helicity_tuple s l ->
    amp_value (Env base cpl) m k l =
    (x * amp_value (Env base cpl1) m k l + y * amp_value (Env base cpl2) m k l)%C.
Proof. exact (fun D Y P F => amp_linear b s dyn ref cl uc m D Y P F names). Qed.
Print Assumptions C95_linear.

(** The intensity is a Hermitian form: two sets of couplings interfere with one complex number, whose modulus is
    bounded by the two intensities. *)
Theorem C95_interference b s dyn ref cl uc m names : std_decay (b_decay b) s -> dynamics_of b dyn ->
  (b_prod_helicity b = false -> plain_resonances (b_decay b)) -> formulate b ref cl uc = Ok m ->
  one_factor b uc names ->
  forall base cpl1 cpl2, exists H : C,
    (Cmod H ^ 2 <= Re (full_value (Env base cpl1) m) * Re (full_value (Env base cpl2) m))%R /\
    forall x y cpl, combined names x y cpl1 cpl2 cpl ->
      full_value (Env base cpl) m =
      RtoC (Cmod x ^ 2 * Re (full_value (Env base cpl1) m) + Cmod y ^ 2 * Re (full_value (Env base cpl2) m)
            + 2 * Re (x * Cconj y * H)%C)%R.
Proof. exact (fun D Y P F => c95_interference b s dyn ref cl uc m D Y P F names). Qed.
Print Assumptions C95_interference.

(** A common factor z of the couplings multiplies the intensity with |z|^2: its phase is not observable. *)
Theorem C95_common_factor b s dyn ref cl uc m names : std_decay (b_decay b) s -> dynamics_of b dyn ->
  (b_prod_helicity b = false -> plain_resonances (b_decay b)) -> formulate b ref cl uc = Ok m ->
  one_factor b uc names ->
  forall base z cpl cpl', combined names z (RtoC 0) cpl cpl cpl' ->
    full_value (Env base cpl') m = (RtoC (Cmod z ^ 2) * full_value (Env base cpl) m)%C.
Proof. exact (fun D Y P F => c95_scale b s dyn ref cl uc m D Y P F names). Qed.
Print Assumptions C95_common_factor.

Theorem C95_parallelogram b s dyn ref cl uc m names : std_decay (b_decay b) s -> dynamics_of b dyn ->
  (b_prod_helicity b = false -> plain_resonances (b_decay b)) -> formulate b ref cl uc = Ok m ->
  one_factor b uc names ->
  forall base cpl1 cpl2 cplp cplm,
    combined names (RtoC 1) (RtoC 1) cpl1 cpl2 cplp -> combined names (RtoC 1) (- RtoC 1)%C cpl1 cpl2 cplm ->
    (full_value (Env base cplp) m + full_value (Env base cplm) m =
     RtoC 2 * full_value (Env base cpl1) m + RtoC 2 * full_value (Env base cpl2) m)%C.
Proof. exact (fun D Y P F => c95_parallelogram b s dyn ref cl uc m D Y P F names). Qed.
Print Assumptions C95_parallelogram.

(** Two LS couplings of one resonance, with coefficients and with production couplings *)
Example C95_example : std_decay dl_decay ex_st /\ dynamics_of (dl_b dl_decay [] false) (fun _ => de_unit) /\
  plain_resonances dl_decay /\ (exists m, formulate (dl_b dl_decay [] false) None false true = Ok m) /\
  one_factor (dl_b dl_decay [] false) true (fun _ => True) /\
  (exists m, formulate (dl_b dl_decay [] false) None false false = Ok m) /\
  one_factor (dl_b dl_decay [] false) false (fun n => n = production_name false) /\
  (forall x y cpl1 cpl2, exists cpl, combined (fun _ => True) x y cpl1 cpl2 cpl) /\
  (forall z cpl, exists cpl', combined (fun n => n = production_name false) z (RtoC 0) cpl cpl cpl').
Proof.
  split; [apply dl_std|]. split; [apply be_dynamics; simpl; auto|]. split; [apply be_plain; simpl; auto|].
  split; [vm_compute; eexists; reflexivity|]. split; [intros n; exact I|].
  split; [vm_compute; eexists; reflexivity|]. split; [left; intros n; reflexivity|]. split.
  - intros x y cpl1 cpl2. exists (fun n ix => x * cpl1 n ix + y * cpl2 n ix)%C. intros n ix. split; [reflexivity|tauto].
  - intros z cpl. exists (fun n ix => if string_dec n (production_name false) then z * cpl n ix else cpl n ix)%C.
    intros n ix. destruct (string_dec n (production_name false)) as [E|E]; split; try contradiction; auto.
    intros _. rewrite Cmult_0_l. symmetry. apply Cplus_0_r.
Qed.
