(** The decay Lc -> p pi K of SerPointExamples.v with new labels *)
From Coq Require Import String Ascii ZArith QArith Qcanon Qreals List Bool Reals Lia Lra Permutation.
From Coquelicot Require Import Complex.
From Verif Require Import Prelude Spin Decay Expr SpecKin SpecDPD CExpr Builder AnglesProofs SpecRelabel RelabelProofs SerFormat SerDynamics SerAmplitude
  SpecSerial SerTotal SerExamples SpecSerPoints SerPoints SerPointExamples SpecSerRelabel SerRelabel SerRelabelDef.
Import ListNotations.
Local Open Scope string_scope.
Local Open Scope Z_scope.
Local Open Scope list_scope.

(** In cyclic order: 2, 3, 1; exchanged: 1, 3, 2 *)
Definition rl_p (turn : bool) (n : Z) : Z :=
  if turn then (if n =? 2 then 3 else if n =? 3 then 2 else n) else (if n =? 1 then 2 else if n =? 2 then 3 else if n =? 3 then 1 else n).
Definition rl_swap (c : chain_def) : bool := eqb (cd_name c) "K".
Definition rl_T (turn : bool) (c : chain_def) : chain_def := relabel_chain_def (rl_p turn) turn (rl_swap c) c.
Definition rl_dist (turn : bool) : distribution :=
  Distribution sx_initial (map (relabel_state_def (rl_p turn)) sx_final) (relabel_node (rl_p turn) [Sub [It 2; It 3]; It 1]) (map (rl_T turn) px_chains).
Definition rl_model (turn : bool) : model_def := ModelDef [rl_dist turn] px_functions.
Definition rl_x (turn : bool) (c : chain_def) : content := relabelled_content (rl_p turn) turn (rl_swap c) (sx_x c).
Definition rl_w (turn : bool) (c : chain_def) : symbol := weight_sym sx_tl c (rl_x turn c).
Definition rl_dyn (turn : bool) : chain_def -> defexpr := dynamics_value (rl_model turn) sx_tl.
Definition rl_s (turn : bool) (n : Z) : state := if n =? 0 then sx_s 0 else relabel_state (rl_p turn) (sx_s (unlabel (rl_p turn) n)).

Lemma rl_relabelling turn : relabelling (rl_p turn) /\ (if turn then exchanges (rl_p turn) else keeps_order (rl_p turn)).
Proof. destruct turn; (split; [split; [reflexivity|cbn; perm]|cbv; auto]). Qed.
Lemma rl_relabelled turn : relabelled_definition (rl_p turn) turn rl_swap px_model (sx_dist px_chains) (rl_model turn) (rl_dist turn).
Proof. constructor; try reflexivity. exists []. reflexivity. Qed.
Lemma rl_describes turn : describes_states (fun n => n) (rl_model turn) (rl_dist turn) (rl_s turn) (rl_p turn 1).
Proof.
  exact (proj1 (relabel_describes (rl_p turn) turn rl_swap px_model (rl_model turn) (sx_dist px_chains) (rl_dist turn) (proj1 (rl_relabelling turn))
    (rl_relabelled turn) (fun n => n) sx_s 1 (sx_describes _ _))).
Qed.
Lemma rl_hyp turn c : In c (di_chains (rl_dist turn)) -> has_content c (rl_x turn c) /\ complete_chain (rl_model turn) c.
Proof.
  intros I. cbn [rl_dist di_chains] in I. apply in_map_iff in I. destruct I as (c0 & <- & I). destruct (px_hyp c0 I) as [A B]. split.
  - exact (relabel_has_content (rl_p turn) turn (rl_swap c0) c0 (sx_x c0) (proj1 (rl_relabelling turn)) A).
  - exact (relabel_complete (rl_p turn) turn rl_swap px_model (rl_model turn) (sx_dist px_chains) (rl_dist turn) (rl_relabelled turn) c0 B).
Qed.
Lemma rl_definition turn : helicity_definition (rl_model turn) (rl_dist turn) (rl_s turn) (rl_p turn 1) sx_tl None (rl_x turn) (rl_w turn) (rl_dyn turn).
Proof. exact (proj1 (complete_helicity (rl_model turn) (rl_dist turn) (rl_s turn) (rl_p turn 1) sx_tl (rl_describes turn) (rl_x turn) (rl_hyp turn))). Qed.
Lemma rl_formulate turn cl : exists M, SerAmplitude.formulate (rl_model turn) cl sx_tl None = Ok M.
Proof. exact (serial_total (rl_model turn) (rl_dist turn) (rl_s turn) (rl_p turn 1) sx_tl (rl_describes turn) (rl_x turn) cl (rl_hyp turn)). Qed.

(** The same point; the weight of the chain with other order of decay products has the opposite sign. *)
Definition rl_base (turn : bool) (y : symbol) : C :=
  let old n := unlabel (rl_p turn) n in
  if eqb y (mass_sym 1) then px_base (mass_sym (old 1)) else if eqb y (mass_sym 2) then px_base (mass_sym (old 2))
  else if eqb y (mass_sym 3) then px_base (mass_sym (old 3))
  else if eqb y (sigma_sym 1) then px_base (sigma_sym (old 1)) else if eqb y (sigma_sym 2) then px_base (sigma_sym (old 2))
  else if eqb y (sigma_sym 3) then px_base (sigma_sym (old 3))
  else if eqb y (rl_w turn (rl_T turn sx_C)) then (- px_base y)%C else px_base y.
Lemma rl_point turn : relabelled_point (rl_p turn) px_base (rl_base turn).
Proof.
  destruct turn; (split; [reflexivity|]); intros i [<-|[<-|[<-|[]]]]; split; reflexivity.
Qed.
Lemma rl_parameters turn : same_parameters sx_tl sx_s px_chains (rl_T turn) px_w (rl_w turn) (fun c => label_sign sx_s turn (rl_swap c) (sx_x c)) px_base (rl_base turn).
Proof.
  split; [reflexivity|]. intros c Hc. split.
  - assert (E : (rl_base turn (rl_w turn (rl_T turn c)) = (if rl_swap c then Copp (2%R, 1%R) else (2%R, 1%R)) /\ px_base (px_w c) = (2%R, 1%R))).
    { destruct turn, Hc as [<-|[<-|[<-|[]]]]; split; reflexivity. }
    destruct E as [-> ->].
    assert (L : label_sign sx_s turn (rl_swap c) (sx_x c) = if rl_swap c then (-1)%R else 1%R).
    { destruct turn, Hc as [<-|[<-|[<-|[]]]]; lazy -[IZR Rmult Ropp]; ring. }
    rewrite L. destruct (rl_swap c); apply injective_projections; cbn; ring.
  - intros y Hy. destruct turn, Hc as [<-|[<-|[<-|[]]]];
      (destruct Hy as [[->|(n & [->| ->])]|[[->|(n & ->)]|[->| ->]]]; reflexivity).
Qed.
