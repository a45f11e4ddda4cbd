(** Properties of the interference of any number of contributions *)
From Coq Require Import String ZArith QArith Qcanon List Bool Reals Permutation.
From Coquelicot Require Import Complex.
From Verif Require Import Prelude Spin Decay Expr CExpr Sums SpecDPD Builder SpecBuilder SpecForm SpecFractions FractionProofs
  BuilderExamples ChainExamples.
Import ListNotations.
Local Open Scope string_scope.
Local Open Scope Z_scope.
Local Open Scope list_scope.

(** ** C122: one matrix gives the intensities of all linear combinations of couplings, ... *)
Theorem C122_couplings b s dyn ref cl uc m names : std_decay (b_decay b) s -> dynamics_of b dyn ->
  (b_prod_helicity b = false -> plain_resonances (b_decay b)) -> formulate b ref cl uc = Ok m ->
  one_factor b uc names ->
  forall base, exists G, interference (fun cpl => full_value (Env base cpl) m) G /\
    forall xs cpl, superposed names xs cpl ->
      full_value (Env base cpl) m = Csum xs (fun x => Csum xs (fun y => fst x * Cconj (fst y) * G (snd x) (snd y))%C).
Proof. exact (fun D Y P F N => c122_couplings b s dyn ref cl uc m D Y P F names N). Qed.
Print Assumptions C122_couplings.
(** ... and the intensity of a model is the sum of the intensities of its parts and of one interference term for each pair
    of parts. *)
Theorem C122_parts b s dyn ref cl uc m r ps : std_decay (b_decay b) s -> dynamics_of b dyn ->
  (b_prod_helicity b = false -> plain_resonances (b_decay b)) -> formulate b ref cl uc = Ok m ->
  resolve_reference (b_decay b) ref = Ok r ->
  Permutation (d_chains (b_decay b)) (flat_map (fun p => d_chains (b_decay (pt_builder p))) ps) ->
  (forall p, In p ps -> is_part b s dyn uc r p) ->
  forall ev, exists G : part -> part -> C,
    (forall p, In p ps -> G p p = full_value ev (pt_model p)) /\
    (forall p q, G q p = Cconj (G p q)) /\
    (forall p q, In p ps -> In q ps ->
       (Cmod (G p q) ^ 2 <= Re (full_value ev (pt_model p)) * Re (full_value ev (pt_model q)))%R) /\
    full_value ev m =
      (Csum ps (fun p => full_value ev (pt_model p))
       + Csum (pairs ps) (fun pq => RtoC (2 * Re (G (fst pq) (snd pq)))))%C /\
    (Re (full_value ev m) <= INR (length ps) * Rsum ps (fun p => Re (full_value ev (pt_model p))))%R.
Proof. exact (fun D Y P F R Pm Ps => c122_parts b s dyn ref cl uc m r ps D Y P F R Pm Ps). Qed.
Print Assumptions C122_parts.
(** Two LS couplings of one resonance *)
Example C122_example : exists m m1 m2, std_decay dl_decay ex_st /\ dynamics_of (dl_b dl_decay [] false) (fun _ => de_unit) /\
  plain_resonances dl_decay /\ formulate (dl_b dl_decay [] false) (Some 2) false true = Ok m /\
  one_factor (dl_b dl_decay [] false) true (fun _ => True) /\
  (forall xs, exists cpl, superposed (fun _ => True) xs cpl) /\
  resolve_reference dl_decay (Some 2) = Ok 2 /\
  let ps := [Part (dl_b dl_decay1 [] false) (Some 2) false m1; Part (dl_b dl_decay2 [] false) (Some 2) true m2] in
  Permutation (d_chains dl_decay) (flat_map (fun p => d_chains (b_decay (pt_builder p))) ps) /\
  forall p, In p ps -> is_part (dl_b dl_decay [] false) ex_st (fun _ => de_unit) true 2 p.
Proof.
  do 3 eexists. split; [apply dl_std|]. split; [apply be_dynamics; simpl; auto|]. split; [apply be_plain; simpl; auto|].
  split; [vm_compute; reflexivity|]. split; [intros n; exact I|]. split.
  { intros xs. exists (fun n ix => Csum xs (fun x => fst x * snd x n ix)%C). intros n ix. split; [reflexivity|tauto]. }
  split; [reflexivity|]. split; [apply Permutation_refl|]. intros p [<-|[<-|[]]]; split.
  - apply dl_std.
  - apply be_dynamics; simpl; auto.
  - reflexivity.
  - reflexivity.
  - vm_compute; reflexivity.
  - reflexivity.
  - apply be_std.
  - apply be_dynamics; simpl; auto.
  - reflexivity.
  - reflexivity.
  - vm_compute; reflexivity.
  - reflexivity.
Qed.
