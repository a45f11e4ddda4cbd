(** The decay Lc -> p pi K of SerExamples with two reference subsystems *)
From Coq Require Import String ZArith QArith Qcanon List Bool Reals Lia Lra Permutation.
From Coquelicot Require Import Complex.
From Verif Require Import Prelude Spin Decay Expr CExpr SpecKin SpecDPD Builder SpecBuilder BuilderFacts SpecTurn Dynamics SerFormat SerDynamics SerAmplitude
  SpecSerial SerTotal SerExamples SpecWeights SerWeights SerSymbols.
From Verif Require AnglesProofs RefRefuted.
Import ListNotations.
Local Open Scope string_scope.
Local Open Scope Z_scope.
Local Open Scope list_scope.

(** The same definition with the second final state as spectator of the reference subsystem, and the chains in another order *)
Definition wx_chains : list chain_def := [sx_C; sx_A; sx_B].
Definition wx_dist : distribution := Distribution sx_initial sx_final [It 2; Sub [It 3; It 1]] wx_chains.
Definition wx_model : model_def := ModelDef [wx_dist] sx_functions.
Lemma wx_describes : describes_states (fun n => n) wx_model wx_dist sx_s 2.
Proof.
  constructor.
  - exists []. reflexivity.
  - split; [reflexivity|]. exists 1. split; [lia|]. split; reflexivity.
  - reflexivity.
  - intros x I. destruct I as [<-|[<-|[<-|[]]]]; [exists 1|exists 0|exists 0]; (split; [lia|]); split; reflexivity.
  - split; [cbn; auto|]. exists [It 3; It 1]. right. reflexivity.
Qed.
Lemma wx_perm : Permutation sx_chains wx_chains.
Proof.
  change (Permutation [sx_A; sx_B; sx_C] [sx_C; sx_A; sx_B]).
  symmetry. apply (Permutation_cons_append [sx_A; sx_B] sx_C).
Qed.
Lemma wx_hyp c : In c wx_chains -> has_content c (sx_x c) /\ complete_chain wx_model c.
Proof.
  intros I. apply (Permutation_in _ (Permutation_sym wx_perm)) in I. split; [apply sx_contents; exact I|].
  exact (sx_complete c I).
Qed.
Lemma wx_definition : helicity_definition wx_model wx_dist sx_s 2 sx_tl None sx_x sx_w sx_dyn.
Proof.
  destruct (complete_helicity wx_model wx_dist sx_s 2 sx_tl wx_describes sx_x wx_hyp) as [[H1 H2 H3 H4 H5] _].
  assert (E : forall c, In c wx_chains -> dynamics_value wx_model sx_tl c = sx_dyn c).
  { intros c [<-|[<-|[<-|[]]]]; lazy; reflexivity. }
  constructor; [exact H1|exact H2|exact H3| |].
  - intros c I. rewrite <- (E c I). exact (H4 c I).
  - intros c I. rewrite <- (E c I). exact (H5 c I).
Qed.
Lemma wx_formulate cl : exists M, SerAmplitude.formulate wx_model cl sx_tl None = Ok M.
Proof. exact (serial_total wx_model wx_dist sx_s 2 sx_tl wx_describes sx_x cl wx_hyp). Qed.

(** A point of phase space; the weights are [a], [b], [c], all other parameters 1 *)
Definition wx_base (a b c : C) (y : symbol) : C :=
  if eqb y (sx_w sx_A) then a else if eqb y (sx_w sx_B) then b else if eqb y (sx_w sx_C) then c
  else if existsb (eqb (sname y)) ["m0"; "m1"; "m2"; "m3"; "sigma1"; "sigma2"; "sigma3"] then RtoC (AnglesProofs.ex_env y) else RtoC 1.
Lemma wx_physical a b c : physical (fun y => Re (wx_base a b c y)) /\ nonsingular (fun y => Re (wx_base a b c y)).
Proof.
  split; [|exact AnglesProofs.ex_nonsingular].
  exists AnglesProofs.ex_p1, AnglesProofs.ex_p2, AnglesProofs.ex_p3. exact AnglesProofs.ex_momenta.
Qed.
Lemma wx_weights a b c : wx_base a b c (sx_w sx_A) = a /\ wx_base a b c (sx_w sx_B) = b /\ wx_base a b c (sx_w sx_C) = c.
Proof. repeat split. Qed.
Lemma wx_other a b c a' b' c' y : ~ is_weight sx_w sx_chains y -> wx_base a b c y = wx_base a' b' c' y.
Proof.
  intros N. unfold wx_base.
  destruct (eqb y (sx_w sx_A)) eqn:E1; [exfalso; apply N; exists sx_A; split; [cbn; auto|apply Prelude.eqb_eq; exact E1]|].
  destruct (eqb y (sx_w sx_B)) eqn:E2; [exfalso; apply N; exists sx_B; split; [cbn; auto|apply Prelude.eqb_eq; exact E2]|].
  destruct (eqb y (sx_w sx_C)) eqn:E3; [exfalso; apply N; exists sx_C; split; [cbn; auto|apply Prelude.eqb_eq; exact E3]|].
  reflexivity.
Qed.
(** From reference 1 to reference 2, only the chain with spectator 3 changes its sign. *)
Lemma wx_scaled a b c : weights_scaled sx_w sx_chains (fun q => RtoC (turn_sign sx_s 1 2 (ct_k (sx_x q))))
  (wx_base a b c) (wx_base (- a)%C b c).
Proof.
  split; [|intros y N; apply wx_other; exact N].
  destruct (wx_weights a b c) as (A & B & Cc). destruct (wx_weights (- a)%C b c) as (A' & B' & C').
  intros q [<-|[<-|[<-|[]]]]; rewrite ?A, ?B, ?Cc, ?A', ?B', ?C'.
  - change (turn_sign sx_s 1 2 (ct_k (sx_x sx_A))) with (-1)%R. apply injective_projections; cbn [fst snd Copp Cmult RtoC]; ring.
  - change (turn_sign sx_s 1 2 (ct_k (sx_x sx_B))) with 1%R. apply injective_projections; cbn [fst snd Copp Cmult RtoC]; ring.
  - change (turn_sign sx_s 1 2 (ct_k (sx_x sx_C))) with 1%R. apply injective_projections; cbn [fst snd Copp Cmult RtoC]; ring.
Qed.
Lemma wx_combined a b c a' b' c' u v : weights_combined sx_w sx_chains u v (wx_base a b c) (wx_base a' b' c')
  (wx_base (u * a + v * a')%C (u * b + v * b')%C (u * c + v * c')%C).
Proof.
  intros y. split; [|intros N; split; apply wx_other; exact N].
  intros (q & [<-|[<-|[<-|[]]]] & ->); reflexivity.
Qed.
Lemma wx_only : weights_only sx_w sx_dyn sx_chains.
Proof. exact (builtin_weights _ _ _ _ _ _ _ _ (proj1 sx_definition)). Qed.

(** Without the chain with spectator 3 the reference does not matter. *)
Definition wy_chains : list chain_def := [sx_B; sx_C].
Definition wy_dist1 : distribution := sx_dist wy_chains.
Definition wy_dist2 : distribution := Distribution sx_initial sx_final [It 2; Sub [It 3; It 1]] wy_chains.
Definition wy_model (d : distribution) : model_def := ModelDef [d] sx_functions.
Lemma wy_describes1 : describes_states (fun n => n) (wy_model wy_dist1) wy_dist1 sx_s 1.
Proof. exact (sx_describes wy_chains sx_functions). Qed.
Lemma wy_describes2 : describes_states (fun n => n) (wy_model wy_dist2) wy_dist2 sx_s 2.
Proof.
  destruct wx_describes as [_ H2 H3 H4 H5]. constructor; [exists []; reflexivity|exact H2|exact H3|exact H4|exact H5].
Qed.
Lemma wy_hyp d c : In c wy_chains -> has_content c (sx_x c) /\ complete_chain (wy_model d) c.
Proof.
  intros I. assert (I' : In c sx_chains) by (right; exact I). split; [exact (sx_contents c I')|exact (sx_complete c I')].
Qed.
Lemma wy_definition d r : describes_states (fun n => n) (wy_model d) d sx_s r -> di_chains d = wy_chains ->
  di_initial d = sx_initial -> helicity_definition (wy_model d) d sx_s r sx_tl None sx_x sx_w sx_dyn.
Proof.
  intros D Ec Ei.
  destruct (complete_helicity (wy_model d) d sx_s r sx_tl D sx_x) as [[H1 H2 H3 H4 H5] _].
  { rewrite Ec. apply wy_hyp. }
  assert (E : forall c, In c (di_chains d) -> dynamics_value (wy_model d) sx_tl c = sx_dyn c).
  { rewrite Ec. intros c [<-|[<-|[]]]; lazy; reflexivity. }
  constructor; [exact H1|exact H2|exact H3| |].
  - intros c I. rewrite <- (E c I). exact (H4 c I).
  - intros c I. rewrite <- (E c I). exact (H5 c I).
Qed.
Lemma wy_formulate d r cl : describes_states (fun n => n) (wy_model d) d sx_s r -> di_chains d = wy_chains ->
  exists M, SerAmplitude.formulate (wy_model d) cl sx_tl None = Ok M.
Proof. intros D Ec. apply (serial_total (wy_model d) d sx_s r sx_tl D sx_x cl). rewrite Ec. apply wy_hyp. Qed.
Lemma wy_safe : turn_safe sx_s 1 2 (map (fun c => ct_k (sx_x c)) wy_chains).
Proof. right. left. intros k [<-|[<-|[]]]; vm_compute; auto. Qed.
