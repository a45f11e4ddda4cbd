(** C124 for /repo/docs/Lc2ppiK.json *)
From Coq Require Import String ZArith QArith Qcanon List Bool Reals Lia Permutation.
From Coquelicot Require Import Complex.
From Verif Require Import Prelude Spin Decay Expr Sums CExpr SpecDPD Builder Dynamics SerFormat SerDynamics SpecSerial SpecWeights SpecParts
  SerParts LcModel LcProofs.
From Verif Require SerAmplitude.
Import ListNotations.
Local Open Scope string_scope.
Local Open Scope Z_scope.
Local Open Scope list_scope.

Lemma lc_unused : chains_unused lc_builders.
Proof.
  intros table type b T I p n m cs. injection T as <-. destruct I as [I|[]]. injection I as _ <-.
  unfold formulate_bugg_breit_wigner. rewrite <- same_function.
  assert (E : get_final_state (with_chains m cs) None = get_final_state m None).
  { unfold get_final_state, get_distribution_def, with_chains. destruct (md_distributions m) eqn:D; rewrite ?D; reflexivity. }
  rewrite E. reflexivity.
Qed.
Lemma lc_weights : weights_only lc_w lc_dyn lc_chains.
Proof.
  assert (B : forallb (fun c => forallb (fun c' => negb (memb (lc_w c') (symbols_of (de_expr (lc_dyn c))))) lc_chains) lc_chains = true)
    by (vm_compute; reflexivity).
  intros c y I (c' & I' & ->) J. rewrite forallb_forall in B. specialize (B c I). rewrite forallb_forall in B. specialize (B c' I').
  apply negb_true_iff in B. apply memb_In in J. congruence.
Qed.
(** Every chain a part of its own *)
Lemma lc_singles (cl : bool) : exists ps : list (list chain_def * model), Permutation (di_chains lc_dist) (flat_map fst ps) /\ length ps = length lc_chains /\
  forall p, In p ps -> exists cl', SerAmplitude.formulate (with_chains lc_model (fst p)) cl' lc_tl lc_builders = Ok (snd p).
Proof.
  change (di_chains lc_dist) with lc_chains.
  assert (K : forall cs, incl cs lc_chains -> exists ps : list (list chain_def * model), cs = flat_map fst ps /\ length ps = length cs /\
    forall p, In p ps -> exists cl', SerAmplitude.formulate (with_chains lc_model (fst p)) cl' lc_tl lc_builders = Ok (snd p)).
  { induction cs as [|c cs IH]; intros I; [exists []; split; [reflexivity|split; [reflexivity|intros p []]]|].
    destruct IH as (ps & E & L & Ps); [intros q Hq; apply I; right; exact Hq|].
    destruct (part_model _ _ _ _ _ _ _ _ _ lc_definition lc_unused [c] cl) as (M & F); [intros q [<-|[]]; apply I; left; reflexivity|].
    exists (([c], M) :: ps). split; [cbn [flat_map fst app]; congruence|]. split; [cbn [length]; congruence|].
    intros p [<-|Hp]; [exists cl; exact F|auto]. }
  destruct (K lc_chains (incl_refl _)) as (ps & E & L & Ps). exists ps. split; [rewrite <- E; apply Permutation_refl|auto].
Qed.
Lemma lc_superposed (v v' : symbol -> C) (a b : C) : same_but_weights lc_w lc_chains v v' ->
  let u := fun y => if existsb (fun c => eqb y (lc_w c)) lc_chains then (a * v y + b * v' y)%C else v y in
  same_but_weights lc_w lc_chains u v /\ weights_superposed lc_w lc_chains [(a, v); (b, v')] u.
Proof.
  intros S u.
  assert (Y : forall y, is_weight lc_w lc_chains y -> u y = (a * v y + b * v' y)%C).
  { intros y (c & I & ->). unfold u. replace (existsb _ _) with true; [reflexivity|]. symmetry. apply existsb_exists.
    exists c. split; [exact I|apply Prelude.eqb_refl]. }
  assert (N : forall y, ~ is_weight lc_w lc_chains y -> u y = v y).
  { intros y Ny. unfold u. destruct (existsb _ _) eqn:E; [|reflexivity]. exfalso. apply Ny. apply existsb_exists in E.
    destruct E as (c & I & E). exists c. split; [exact I|]. apply (proj1 (Prelude.eqb_eq _ _)) in E. exact E. }
  split; [exact N|]. intros y. split.
  - intros W. rewrite (Y y W). cbn [Csum fst snd]. ring.
  - intros Ny q [<-|[<-|[]]]; cbn [snd]; rewrite (N y Ny); [reflexivity|]. symmetry. apply S. exact Ny.
Qed.
(** Any chains can be switched off. *)
Lemma lc_off (off : list chain_def) (base : symbol -> C) : exists v, same_but_weights lc_w off v base /\ forall c, In c off -> v (lc_w c) = RtoC 0.
Proof.
  exists (fun y => if existsb (fun c => eqb y (lc_w c)) off then RtoC 0 else base y). split.
  - intros y Ny. destruct (existsb _ _) eqn:E; [|reflexivity]. exfalso. apply Ny. apply existsb_exists in E.
    destruct E as (c & I & E). exists c. split; [exact I|]. apply (proj1 (Prelude.eqb_eq _ _)) in E. exact E.
  - intros c I. replace (existsb _ _) with true; [reflexivity|]. symmetry. apply existsb_exists. exists c. split; [exact I|apply Prelude.eqb_refl].
Qed.
