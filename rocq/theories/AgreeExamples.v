(** A decay with a spinless initial state, built with the amplitude builder and as serialised model definition: B -> p pbar K with
    a resonance X in p pbar and a resonance L in pbar K *)
From Coq Require Import String ZArith QArith Qcanon List Bool Reals Lia Lra Permutation.
From Coquelicot Require Import Complex.
From Verif Require Import Prelude Spin Decay Expr CExpr SpecDPD Builder SpecBuilder BuilderFacts BuilderProofs Dynamics SpecDynamics
  LineshapeFacts DynamicsProofs LineshapeProofs SerFormat SerDynamics SerAmplitude SpecSerial SerTotal SerExamples BuilderExamples SpecAgree AgreeProofs.
Import ListNotations.
Local Open Scope string_scope.
Local Open Scope Z_scope.
Local Open Scope list_scope.

Definition ag_initial : state_def := StateDef 0 "B" (half 0) (sx_z 5).
Definition ag_final : list state_def :=
  [StateDef 1 "p" (half 1) (sx_z 1); StateDef 2 "pbar" (half 1) (sx_z 1); StateDef 3 "K" (half 0) (sx_z 1)].
Definition ag_s (n : Z) : state :=
  state_of (fun n => n) (if n =? 0 then ag_initial else nth (Z.to_nat (n - 1)) ag_final ag_initial)
    (if (n =? 1) || (n =? 2) then 1 else 0).
(** The decay for the builder, with Breit-Wigner functions for both resonances *)
Definition ag_res (name : string) (j : Z) : particle := Particle name name j (Some 1) (Qc_of_Z 2) (Qc_of_Z 1).
Definition ag_X : chain :=
  Node (PSt (ag_s 0)) (Node (PPart (ag_res "X" 2)) (Leaf (PSt (ag_s 1))) (Leaf (PSt (ag_s 2))) (Some (LS 1 0))) (Leaf (PSt (ag_s 3)))
    (Some (LS 1 2)).
Definition ag_L : chain :=
  Node (PSt (ag_s 0)) (Node (PPart (ag_res "L" 1)) (Leaf (PSt (ag_s 2))) (Leaf (PSt (ag_s 3))) (Some (LS 0 1))) (Leaf (PSt (ag_s 1)))
    (Some (LS 0 0)).
Definition ag_decay : decay := Decay [(0, ag_s 0); (1, ag_s 1); (2, ag_s 2); (3, ag_s 3)] [ag_X; ag_L].
Definition ag_bw : bw_builder := BWBuilder true false false phase_space_factor.
Definition ag_b : builder := dl_b ag_decay [(IdName "X", bw_call ag_bw); (IdName "L", bw_call ag_bw)] true.
Definition ag_dyn (c : chain) : defexpr := match bw_call ag_bw c with Ok e => e | Err _ => de_unit end.
Lemma ag_std : std_decay ag_decay ag_s.
Proof.
  constructor.
  - split; [repeat constructor|vm_compute; reflexivity].
  - apply Permutation_refl.
  - intros i H. apply In_0123 in H. destruct H as [->|[->|[->| ->]]]; reflexivity.
  - intros i H. apply In_0123 in H. destruct H as [->|[->|[->| ->]]]; vm_compute; discriminate.
Qed.
Lemma ag_call c : In c (d_chains ag_decay) -> bw_call ag_bw c = Ok (ag_dyn c).
Proof. intros [<-|[<-|[]]]; lazy; reflexivity. Qed.
Lemma ag_iso_X : isobar_chain ag_X (ag_s 0) (ag_res "X" 2) (ag_s 1) (ag_s 2) (ag_s 3) (Some (LS 1 2)) (Some (LS 1 0)).
Proof. split; [left; reflexivity|]. split; [reflexivity|]. change (Permutation [1; 2; 3] [1; 2; 3]). perm. Qed.
Lemma ag_iso_L : isobar_chain ag_L (ag_s 0) (ag_res "L" 1) (ag_s 2) (ag_s 3) (ag_s 1) (Some (LS 0 0)) (Some (LS 0 1)).
Proof. split; [left; reflexivity|]. split; [reflexivity|]. change (Permutation [2; 3; 1] [1; 2; 3]). perm. Qed.
Lemma ag_dynamics : dynamics_of ag_b ag_dyn.
Proof.
  intros c Hc. split.
  - exists (bw_call ag_bw). split; [|exact (ag_call c Hc)]. destruct Hc as [<-|[<-|[]]]; reflexivity.
  - destruct Hc as [<-|[<-|[]]].
    + exact (proj1 (c36_symbols ag_bw _ _ _ _ _ _ _ _ _ phase_space_factor_closed ag_iso_X (ag_call _ (or_introl eq_refl)))).
    + exact (proj1 (c36_symbols ag_bw _ _ _ _ _ _ _ _ _ phase_space_factor_closed ag_iso_L (ag_call _ (or_intror (or_introl eq_refl))))).
Qed.
Lemma ag_formulate : exists m, Builder.formulate ag_b (Some 1) false false = Ok m.
Proof.
  apply (c63 ag_b ag_s ag_dyn).
  - exact ag_std.
  - exact ag_dynamics.
  - intros c [<-|[<-|[]]]; split; intros _; vm_compute; discriminate.
  - right. exists 1. split; [reflexivity|cbn; auto].
Qed.

(** The serialised definition: one chain for each resonance and each allowed combination of helicities *)
Definition ag_term (c : chain) (l : Z * Z * Z * Z) : chain_def :=
  let v := sx_vertex "helicity" None None in
  if eqb (p_name (ch_resonance c)) "X" then sx_chain "X" "X_BW" 2 1 2 3 (at4 l 3) (at4 l 3) (at4 l 1) (at4 l 2) v v 1
  else sx_chain "L" "L_BW" 1 2 3 1 (at4 l 1) (at4 l 1) (at4 l 2) (at4 l 3) v v 1.
Definition ag_chains : list chain_def :=
  flat_map (fun c => map (ag_term c) (allowed_helicities ag_s c)) [ag_X; ag_L].
Definition ag_dist : distribution := Distribution ag_initial ag_final [Sub [It 2; It 3]; It 1] ag_chains.
Definition ag_model : model_def := ModelDef [ag_dist] [sx_bw "X_BW" 1 2 1 1 1 1; sx_bw "L_BW" 0 2 1 1 1 1].
Definition ag_hel (c : chain_def) (n m : nat) : Z :=
  match nth_error (cd_vertices c) n with
  | Some v => match v_helicities v with Some hs => nth m hs 0 | None => 0 end
  | None => 0 end.
Definition ag_x (c : chain_def) : content :=
  if eqb (cd_name c) "X" then Content 2 1 2 3 (ag_hel c 0 0) (ag_hel c 0 1) (ag_hel c 1 0) (ag_hel c 1 1) 0 0
  else Content 1 2 3 1 (ag_hel c 0 0) (ag_hel c 0 1) (ag_hel c 1 0) (ag_hel c 1 1) 0 0.
Lemma ag_x_X l : ag_x (ag_term ag_X l) = Content 2 1 2 3 (at4 l 3) (at4 l 3) (at4 l 1) (at4 l 2) 0 0.
Proof. reflexivity. Qed.
Lemma ag_x_L l : ag_x (ag_term ag_L l) = Content 1 2 3 1 (at4 l 1) (at4 l 1) (at4 l 2) (at4 l 3) 0 0.
Proof. reflexivity. Qed.
Lemma ag_describes : describes_states (fun n => n) ag_model ag_dist ag_s 1.
Proof.
  constructor.
  - exists []. reflexivity.
  - split; [reflexivity|]. exists 0. split; [lia|]. split; reflexivity.
  - reflexivity.
  - intros x I. destruct I as [<-|[<-|[<-|[]]]]; [exists 1|exists 1|exists 0]; (split; [lia|]); split; reflexivity.
  - split; [cbn; auto|]. exists [It 2; It 3]. left. reflexivity.
Qed.
Lemma ag_hyp c : In c ag_chains -> has_content c (ag_x c) /\ complete_chain ag_model c.
Proof.
  intros I. unfold ag_chains in I. apply in_flat_map in I. destruct I as (c0 & [<-|[<-|[]]] & I);
    apply in_map_iff in I; destruct I as (l & <- & _).
  - rewrite ag_x_X. split; [apply sx_content; [perm|left; auto|left; auto]|].
    split; [intros p [<-|[]]|intros v [<-|[<-|[]]]; left; reflexivity].
    eexists. split; [fn (@nil func_def) (tl (md_functions ag_model))|]. left. split; [reflexivity|]. numbers.
  - rewrite ag_x_L. split; [apply sx_content; [perm|left; auto|left; auto]|].
    split; [intros p [<-|[]]|intros v [<-|[<-|[]]]; left; reflexivity].
    eexists. split; [fn (firstn 1 (md_functions ag_model)) (@nil func_def)|]. left. split; [reflexivity|]. numbers.
Qed.
Definition ag_w (c : chain_def) : symbol := weight_sym sx_tl c (ag_x c).
Definition ag_dyn' : chain_def -> defexpr := dynamics_value ag_model sx_tl.
Lemma ag_definition : helicity_definition ag_model ag_dist ag_s 1 sx_tl None ag_x ag_w ag_dyn' /\
  forall c, In c ag_chains -> closed_expression (ag_dyn' c).
Proof. exact (complete_helicity ag_model ag_dist ag_s 1 sx_tl ag_describes ag_x ag_hyp). Qed.
Lemma ag_serial cl : exists M, SerAmplitude.formulate ag_model cl sx_tl None = Ok M.
Proof. exact (serial_total ag_model ag_dist ag_s 1 sx_tl ag_describes ag_x cl ag_hyp). Qed.
Lemma ag_copy : serial_copy ag_s (d_chains ag_decay) ag_dist ag_x ag_term.
Proof.
  constructor.
  - apply Permutation_refl.
  - intros c l i j k [<-|[<-|[]]] Hl E C.
    + rewrite ag_x_X. assert (k = 3) as ->.
      { destruct C as [C|[C|[C|[]]]]; injection C as <- <- <-; vm_compute in E; congruence. }
      destruct C as [C|[C|[C|[]]]]; try discriminate C. injection C as <- <-. reflexivity.
    + rewrite ag_x_L. assert (k = 1) as ->.
      { destruct C as [C|[C|[C|[]]]]; injection C as <- <- <-; vm_compute in E; congruence. }
      destruct C as [C|[C|[C|[]]]]; try discriminate C. injection C as <- <-. reflexivity.
Qed.

(** Masses, widths and couplings are 1, and the weights those that belong to the couplings. *)
Definition ag_env0 : env := {| e_sym := fun _ => RtoC 1; e_idx := fun _ _ => RtoC 1 |}.
Definition ag_weights : list (symbol * C) :=
  map (fun l => (ag_w (ag_term ag_X l), weight_of false ag_env0 ag_b ag_s ag_X l 1 2 3)) (allowed_helicities ag_s ag_X) ++
  map (fun l => (ag_w (ag_term ag_L l), weight_of false ag_env0 ag_b ag_s ag_L l 2 3 1)) (allowed_helicities ag_s ag_L).
Definition ag_env : env := {|
  e_sym := fun y => match find (fun p => eqb y (fst p)) ag_weights with Some p => snd p | None => RtoC 1 end;
  e_idx := fun _ _ => RtoC 1 |}.
Definition ag_shape (name : string) (L a b k : Z) : cexpr :=
  breit_wigner (CVar (SpecSerial.sigma_sym k)) (CVar (named "m" name)) (CVar (named "\Gamma" name)) (CVar (SpecSerial.mass_sym a))
    (CVar (SpecSerial.mass_sym b)) L (CVar radius_sym) phase_space_factor.
Lemma ag_product e h : ceval ag_env h (CMul (CMul (CMul (CNum 1) e) (CNum 1)) (CNum 1)) = (RtoC 1 * RtoC 1 * ceval ag_env h e)%C.
Proof. unfold CNum. cbn [ceval]. rewrite !CExprFacts.Q2R_Z. ring. Qed.
Lemma ag_dyn_X h l :
  ceval ag_env h (de_expr (ag_dyn' (ag_term ag_X l))) = ceval ag_env h (de_expr (ag_dyn ag_X)).
Proof.
  set (p := Propagator (half 2) [It 1; It 2] "X_BW").
  destruct (agree_breit_wigner ag_X (ag_s 0) (ag_res "X" 2) (ag_s 1) (ag_s 2) (ag_s 3) (Some (LS 1 2)) 1 0 (ag_dyn ag_X) ag_model p
    (sx_bw "X_BW" 1 2 1 1 1 1) (sx_z 2) (sx_z 1) (sx_z 1) (sx_z 1) (sx_z 1) ag_iso_X (ag_call _ (or_introl eq_refl)) eq_refl
    ltac:(fn (@nil func_def) (tl (md_functions ag_model))) eq_refl eq_refl eq_refl eq_refl eq_refl eq_refl) as (e' & E & V).
  rewrite V. clear V.
  assert (Q1 : de_expr e' = ag_shape "X" 1 1 2 3).
  { assert (Q : exists ps, formulate_breit_wigner p (p_latex (ag_res "X" 2)) ag_model = Ok (DefExpr (ag_shape "X" 1 1 2 3) ps))
      by (eexists; reflexivity).
    destruct Q as (ps & Q). rewrite Q in E. injection E as <-. reflexivity. }
  assert (Q2 : de_expr (ag_dyn' (ag_term ag_X l)) = CMul (CMul (CMul (CNum 1) (ag_shape "X" 1 1 2 3)) (CNum 1)) (CNum 1)) by reflexivity.
  rewrite Q1, Q2, ag_product. reflexivity.
Qed.
Lemma ag_dyn_L h l :
  ceval ag_env h (de_expr (ag_dyn' (ag_term ag_L l))) = ceval ag_env h (de_expr (ag_dyn ag_L)).
Proof.
  set (p := Propagator (half 1) [It 2; It 3] "L_BW").
  destruct (agree_breit_wigner ag_L (ag_s 0) (ag_res "L" 1) (ag_s 2) (ag_s 3) (ag_s 1) (Some (LS 0 0)) 0 1 (ag_dyn ag_L) ag_model p
    (sx_bw "L_BW" 0 2 1 1 1 1) (sx_z 2) (sx_z 1) (sx_z 1) (sx_z 1) (sx_z 1) ag_iso_L (ag_call _ (or_intror (or_introl eq_refl))) eq_refl
    ltac:(fn (firstn 1 (md_functions ag_model)) (@nil func_def)) eq_refl eq_refl eq_refl eq_refl eq_refl eq_refl) as (e' & E & V).
  rewrite V. clear V.
  assert (Q1 : de_expr e' = ag_shape "L" 0 2 3 1).
  { assert (Q : exists ps, formulate_breit_wigner p (p_latex (ag_res "L" 1)) ag_model = Ok (DefExpr (ag_shape "L" 0 2 3 1) ps))
      by (eexists; reflexivity).
    destruct Q as (ps & Q). rewrite Q in E. injection E as <-. reflexivity. }
  assert (Q2 : de_expr (ag_dyn' (ag_term ag_L l)) = CMul (CMul (CMul (CNum 1) (ag_shape "L" 0 2 3 1)) (CNum 1)) (CNum 1)) by reflexivity.
  rewrite Q1, Q2, ag_product. reflexivity.
Qed.
Lemma ag_values c l i j k : In c (d_chains (b_decay ag_b)) -> In l (allowed_helicities ag_s c) -> ch_spectator c = ag_s k -> cyclic i j k ->
  (e_sym ag_env (ag_w (ag_term c l)) * ceval ag_env (fun _ => 0) (de_expr (ag_dyn' (ag_term c l)))
   = weight_of false ag_env ag_b ag_s c l i j k * ceval ag_env (fun _ => 0) (de_expr (ag_dyn c)))%C.
Proof.
  intros [<-|[<-|[]]] Hl E C.
  - assert (k = 3) as ->.
    { destruct C as [C|[C|[C|[]]]]; injection C as <- <- <-; vm_compute in E; congruence. }
    destruct C as [C|[C|[C|[]]]]; try discriminate C. injection C as <- <-. rewrite ag_dyn_X. f_equal.
    assert (A : allowed_helicities ag_s ag_X = [(0, -1, -1, 0); (0, -1, 1, 0); (0, 1, -1, 0); (0, 1, 1, 0)]) by reflexivity.
    rewrite A in Hl. destruct Hl as [<-|[<-|[<-|[<-|[]]]]]; reflexivity.
  - assert (k = 1) as ->.
    { destruct C as [C|[C|[C|[]]]]; injection C as <- <- <-; vm_compute in E; congruence. }
    destruct C as [C|[C|[C|[]]]]; try discriminate C. injection C as <- <-. rewrite ag_dyn_L. f_equal.
    assert (A : allowed_helicities ag_s ag_L = [(0, -1, -1, 0); (0, -1, 1, 0); (0, 1, -1, 0); (0, 1, 1, 0)]) by reflexivity.
    rewrite A in Hl. destruct Hl as [<-|[<-|[<-|[<-|[]]]]]; reflexivity.
Qed.
