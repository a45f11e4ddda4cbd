(** J/psi -> gamma pi pi (C135) *)
From Coq Require Import String ZArith QArith Qcanon List Bool Reals Lia Lra Permutation.
From Coquelicot Require Import Complex.
From Verif Require Import Prelude Spin Decay Expr Angles CExpr SpecSpin SpecKin SpecDPD SpecWigner Builder BuilderFacts SpecMassless AnglesProofs MasslessFacts.
Import ListNotations.
Local Open Scope string_scope.
Local Open Scope Z_scope.
Local Open Scope list_scope.

Definition ga_p name spin := Particle name name spin (Some 1) (Qc_of_Z 1) (Qc_of_Z 0).
Definition ga_s (i : Z) : state :=
  match i with
  | 0 => State (ga_p "J/psi" 2) 0
  | 1 => State (ga_p "gamma" 2) 1
  | 2 => State (ga_p "pi0" 0) 2
  | _ => State (ga_p "eta" 0) 3
  end.
Definition ga_leaf i := Leaf (PSt (ga_s i)).
(** a2 -> pi eta, omega -> gamma pi, phi -> gamma eta *)
Definition ga_a2 : chain := Node (PSt (ga_s 0)) (Node (PPart (ga_p "a2" 4)) (ga_leaf 2) (ga_leaf 3) None) (ga_leaf 1) None.
Definition ga_omega : chain := Node (PSt (ga_s 0)) (Node (PPart (ga_p "omega" 2)) (ga_leaf 1) (ga_leaf 2) None) (ga_leaf 3) None.
Definition ga_phi : chain := Node (PSt (ga_s 0)) (Node (PPart (ga_p "phi" 2)) (ga_leaf 3) (ga_leaf 1) None) (ga_leaf 2) None.
Definition ga_decay : decay := Decay [(0, ga_s 0); (1, ga_s 1); (2, ga_s 2); (3, ga_s 3)] [ga_a2; ga_omega; ga_phi].
Definition ga_b : builder := Builder ga_decay (mk_configurator ga_decay) true true false.
Lemma ga_mk : mk_builder ga_decay (MinBool true) false = Ok ga_b.
Proof. reflexivity. Qed.
Lemma ga_std : std_decay ga_decay ga_s.
Proof.
  constructor.
  - split; [repeat constructor|vm_compute; reflexivity].
  - apply Permutation_refl.
  - intros i H. apply In_0123 in H. destruct H as [->|[->|[->| ->]]]; reflexivity.
  - intros i H. apply In_0123 in H. destruct H as [->|[->|[->| ->]]]; vm_compute; discriminate.
Qed.
Lemma ga_dyn : dynamics_of ga_b (fun _ => de_unit).
Proof.
  intros c H. split; [|reflexivity]. exists default_builder. split; [|reflexivity].
  destruct H as [<-|[<-|[<-|[]]]]; vm_compute; reflexivity.
Qed.
Lemma ga_formulate : exists m, formulate ga_b (Some 1) false false = Ok m.
Proof. destruct (formulate ga_b (Some 1) false false) as [m|] eqn:F; [eauto|exfalso; vm_compute in F; discriminate F]. Qed.

Local Open Scope R_scope.
Definition ga_env (s : symbol) : R :=
  if eqb s (Sym "m0" ANonneg) then 22 else if eqb s (Sym "m1" ANonneg) then 0
  else if eqb s (Sym "m2" ANonneg) then 12 else if eqb s (Sym "m3" ANonneg) then 4
  else if eqb s (Sym "sigma1" ANonneg) then 308 else if eqb s (Sym "sigma2" ANonneg) then 56
  else if eqb s (Sym "sigma3" ANonneg) then 280 else 0.
Definition ga_base (x : symbol) : C := RtoC (ga_env x).
Lemma ga_vals : at_m0 ga_env = 22 /\ at_m1 ga_env = 0 /\ at_m2 ga_env = 12 /\
  at_m3 ga_env = 4 /\ at_s1 ga_env = 308 /\ at_s2 ga_env = 56 /\ at_s3 ga_env = 280.
Proof. repeat split. Qed.
Lemma ga_physical : physical ga_env.
Proof.
  exists (V4 4 (V3 4 0 0)), (V4 13 (V3 (-4) 3 0)), (V4 5 (V3 0 (-3) 0)).
  unfold momenta_of, on_shell. destruct ga_vals as (-> & -> & -> & -> & -> & -> & ->).
  unfold msq, add4, add3, dot; simpl. repeat split; lra.
Qed.
Lemma ga_nonsingular : nonsingular ga_env.
Proof.
  unfold nonsingular. destruct ga_vals as (-> & -> & -> & -> & -> & -> & ->).
  unfold kallen. repeat split; lra.
Qed.
(** The couplings with helicity 0 of the photon are set to 0. *)
Definition ga_cpl (cpl : string -> list ival -> C) (base : string) (idx : list ival) : C :=
  match idx with
  | [IStr p; IHel a; IHel c] =>
      if String.eqb base (production_name true) then
        if (String.eqb p "a2" && Z.eqb c 0)%bool then RtoC 0 else cpl base idx
      else if (String.eqb p "omega" && Z.eqb a 0 || String.eqb p "phi" && Z.eqb c 0)%bool then RtoC 0 else cpl base idx
  | _ => cpl base idx
  end.
Lemma ga_restricted vars cpl : restricted_couplings ga_s ga_b 1 [(-2)%Z; 2%Z]
  (coupling_product (at_point vars ga_base cpl) true true) (coupling_product (at_point vars ga_base (ga_cpl cpl)) true true).
Proof.
  intros c i j k r [[[l0 l1] l2] l3] Hc Hk Cy _ (_ & H1 & _ & _).
  assert (Hd : l1 = (-2)%Z \/ l1 = 0%Z \/ l1 = 2%Z).
  { assert (T : In l1 [(-2)%Z; 0%Z; 2%Z]) by exact H1. simpl in T. intuition auto. }
  destruct Hc as [<-|[<-|[<-|[]]]]; vm_compute in Hk; subst k; (destruct Cy as [E|[E|[E|[]]]]; try discriminate E; inversion E; subst i j; clear E);
    unfold coupling_product, coupling_index, at_point; cbn [e_idx at4]; unfold ga_cpl; cbn -[in_dec Cmult];
    (destruct Hd as [->|[->| ->]]); destruct (in_dec Z.eq_dec _ _) as [I|I]; cbn -[Cmult];
    try reflexivity; try (exfalso; simpl in I; intuition lia).
  all: ring.
Qed.
Lemma ga_mass : mass_at (fun x => Re (ga_base x)) 1 = 0.
Proof. reflexivity. Qed.
Lemma ga_example : exists m, formulate ga_b (Some 1%Z) false false = Ok m /\ std_decay (b_decay ga_b) ga_s /\ dynamics_of ga_b (fun _ => de_unit) /\
  physical (fun x => Re (ga_base x)) /\ nonsingular (fun x => Re (ga_base x)) /\ mass_at (fun x => Re (ga_base x)) 1 = 0 /\
  forall cpl, exists I : Z -> R,
    full_value (at_point (m_variables m) ga_base cpl) m = RtoC (I (-2)%Z + I 0%Z + I 2%Z) /\
    full_value (at_point (m_variables m) ga_base (ga_cpl cpl)) m = RtoC (I (-2)%Z + I 2%Z).
Proof.
  destruct ga_formulate as [m F]. exists m. split; [exact F|]. split; [exact ga_std|]. split; [exact ga_dyn|].
  split; [exact ga_physical|]. split; [exact ga_nonsingular|]. split; [exact ga_mass|].
  intros cpl.
  destruct (c135_parts ga_b ga_s ga_std (Some 1%Z) false false m ga_base cpl 1 F ga_physical ga_nonsingular ltac:(split; discriminate) ga_mass) as (I & _ & P).
  exists I. split.
  - rewrite (P (helicities 2) cpl).
    + f_equal. change (helicities (p_spin (ga_s 1))) with [(-2)%Z; 0%Z; 2%Z]. change (helicities 2) with [(-2)%Z; 0%Z; 2%Z].
      cbn -[Rplus]. ring.
    + intros k l _ Hl. destruct (in_dec Z.eq_dec (at4 l 1) (helicities 2)) as [_|N]; [reflexivity|].
      destruct l as [[[l0 l1] l2] l3]. exfalso. apply N. exact (proj1 (proj2 Hl)).
  - rewrite (P [(-2)%Z; 2%Z] (ga_cpl cpl)).
    + f_equal. change (helicities (p_spin (ga_s 1))) with [(-2)%Z; 0%Z; 2%Z]. cbn -[Rplus]. ring.
    + apply (c135_couplings ga_b ga_s (fun _ => de_unit) (Some 1%Z) false false m _ _ 1 _ ga_std ga_dyn eq_refl eq_refl F).
      * intros x. reflexivity.
      * intros c _. reflexivity.
      * apply ga_restricted.
Qed.
