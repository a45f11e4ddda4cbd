(** Chains of one subsystem of a model file (proofs for C156) *)
From Coq Require Import String ZArith QArith Qcanon List Bool Reals Lia Lra Psatz Permutation Classical.
From Coquelicot Require Import Complex Hierarchy RInt.
From Verif Require Import Prelude Spin Decay Expr Angles Sums Wigner CExpr SpecKin SpecDPD Builder
  SpinFacts DecayFacts CExprFacts BuilderFacts ModelFacts RefFacts ParityProofs SpecObs ObsProofs EffectProofs
  SerFormat SerDynamics SpecSerial SerModel SerProofs SerDyn SerFormal SerTotal SpecWeights SerWeights SerPoints SerSymbols SpecSerMassless SerMassless
  SerExamples SpecSerEffect SerEffectProofs SerEffectShapes SpecSerChain SerChain SerChainExamples SpecSerCombine.
From Verif Require SerAmplitude SerDecay JacobiFacts.
Import ListNotations.
Local Open Scope Z_scope.

Section Model.
  Variables (m : model_def) (d : distribution) (s : Z -> state) (r : Z)
    (tl : string -> string) (additional : option (dict string prop_builder))
    (x : chain_def -> content) (w : chain_def -> symbol) (dyn : chain_def -> defexpr).
  Hypothesis H : helicity_definition m d s r tl additional x w dyn.
  Variables (cl : bool) (M : model).
  Hypothesis F : SerAmplitude.formulate m cl tl additional = Ok M.
  Variable k : Z.
  Hypothesis One : one_spectator x (di_chains d) k.

  Lemma one_k : In k [1; 2; 3].
  Proof.
    destruct One as [N K]. destruct (di_chains d) as [|c cs] eqn:E; [destruct N; reflexivity|].
    rewrite <- (K c (or_introl eq_refl)). apply (hd_k m d s r tl additional x w dyn H). rewrite E. left. reflexivity.
  Qed.
  Lemma one_value ev : full_value ev M = RtoC (Rsum (tuples s) (fun l => Cmod (Csum (chains_in x d k) (chain_contribution x w dyn ev l)) ^ 2)%R).
  Proof.
    destruct One as [N K].
    assert (Ex : exists c, In c (di_chains d)) by (destruct (di_chains d) as [|c cs]; [destruct N; reflexivity|exists c; left; reflexivity]).
    destruct Ex as (c & Hc).
    rewrite (serial_one m d s r tl additional x w dyn H cl M F c Hc k ev (eq_sym (K c Hc))).
    - f_equal. apply Rsum_ext. intros l Hl. apply tuples_In in Hl.
      rewrite (serial_amplitude_value m d s r tl additional x w dyn H cl M F) by (assumption || exact one_k). reflexivity.
    - intros k' l Ik' N' Hl. rewrite (serial_amplitude_value m d s r tl additional x w dyn H cl M F) by assumption.
      apply Csum_zero. intros c' I'. apply in_chains_in in I'. destruct I' as [I' E']. exfalso. apply N'. rewrite <- E'. apply K. exact I'.
  Qed.
  Lemma contribution_combination ev l c : chain_contribution x w dyn ev l c = RtoC 0 \/ combination (x c) l.
  Proof.
    unfold chain_contribution, serial_term, combination. set (q := x c).
    destruct (coupling_given (ct_fp q) (ct_r q) (at4 l (ct_k q)) (ct_r q) (ct_lk q)) as [->|A]; [left; ring|].
    destruct (coupling_given (ct_fd q) (at4 l (ct_i q)) (at4 l (ct_j q)) (ct_li q) (ct_lj q)) as [->|B]; [left; ring|]. right. split; [tauto|].
    destruct A as [(_ & A)|(A0 & A1 & A2)]; [left; exact A|right]. split; [exact A0|]. split; [lia|exact A2].
  Qed.
  Theorem combine_incoherent : weights_only w dyn (di_chains d) -> forall base base1 base2 cpl keep,
    weights_scaled w (di_chains d) (kept keep) base base1 -> weights_scaled w (di_chains d) (kept (fun c => negb (keep c))) base base2 ->
    (forall c c' l, In c (di_chains d) -> In c' (di_chains d) -> keep c = true -> keep c' = false -> helicity_tuple s l ->
       combination (x c) l -> combination (x c') l -> False) ->
    full_value (at_point (m_variables M) base cpl) M
    = (full_value (at_point (m_variables M) base1 cpl) M + full_value (at_point (m_variables M) base2 cpl) M)%C.
  Proof.
    intros W base base1 base2 cpl keep S1 S2 D. rewrite !one_value, <- RtoC_plus, <- Rsum_plus. f_equal. apply Rsum_ext. intros l Hl. apply tuples_In in Hl.
    set (g := chain_contribution x w dyn (at_point (m_variables M) base cpl) l).
    rewrite (Csum_ext (chains_in x d k) (chain_contribution x w dyn (at_point (m_variables M) base1 cpl) l) (fun c => kept keep c * g c)%C).
    2:{ intros c Hc. apply in_chains_in in Hc. destruct Hc as [Hc _].
        apply (contribution_point m m d d s r r tl additional x w dyn H H (Permutation_refl _) cl cl M M F F base base1 cpl (kept keep) W S1 l c Hc). }
    rewrite (Csum_ext (chains_in x d k) (chain_contribution x w dyn (at_point (m_variables M) base2 cpl) l) (fun c => kept (fun c => negb (keep c)) c * g c)%C).
    2:{ intros c Hc. apply in_chains_in in Hc. destruct Hc as [Hc _].
        apply (contribution_point m m d d s r r tl additional x w dyn H H (Permutation_refl _) cl cl M M F F base base2 cpl _ W S2 l c Hc). }
    assert (Sq0 : (Cmod (RtoC 0) ^ 2 = 0)%R) by (rewrite Cmod_0; ring).
    destruct (classic (exists c, In c (di_chains d) /\ keep c = true /\ g c <> RtoC 0)) as [(c & Hc & Kc & Gc)|N].
    - destruct (contribution_combination (at_point (m_variables M) base cpl) l c) as [Q|Q]; [contradiction|].
      assert (Z0 : forall c', In c' (di_chains d) -> keep c' = false -> g c' = RtoC 0).
      { intros c' Hc' Kc'. destruct (contribution_combination (at_point (m_variables M) base cpl) l c') as [E|E]; [exact E|].
        destruct (D c c' l Hc Hc' Kc Kc' Hl Q E). }
      rewrite (Csum_zero _ (fun c => kept (fun c => negb (keep c)) c * g c)%C).
      + rewrite Sq0, Rplus_0_r. do 2 f_equal. apply Csum_ext. intros c' Hc'. apply in_chains_in in Hc'. destruct Hc' as [Hc' _].
        unfold kept. destruct (keep c') eqn:E; [ring|]. fold (g c'). rewrite (Z0 c' Hc' E). ring.
      + intros c' Hc'. apply in_chains_in in Hc'. destruct Hc' as [Hc' _]. unfold kept. destruct (keep c') eqn:E; cbn [negb]; [ring|rewrite (Z0 c' Hc' E); ring].
    - assert (Z0 : forall c', In c' (di_chains d) -> keep c' = true -> g c' = RtoC 0).
      { intros c' Hc' Kc'. apply NNPP. intros Q. apply N. eauto. }
      rewrite (Csum_zero _ (fun c => kept keep c * g c)%C).
      + rewrite Sq0, Rplus_0_l. do 2 f_equal. apply Csum_ext. intros c' Hc'. apply in_chains_in in Hc'. destruct Hc' as [Hc' _].
        unfold kept. destruct (keep c') eqn:E; cbn [negb]; [fold (g c'); rewrite (Z0 c' Hc' E); ring|ring].
      + intros c' Hc'. apply in_chains_in in Hc'. destruct Hc' as [Hc' _]. unfold kept. destruct (keep c') eqn:E; [rewrite (Z0 c' Hc' E); ring|ring].
  Qed.
End Model.

(** ** Two chains that cancel: K* -> pi K with helicities 1 and -1 and the same helicity of the proton *)
Definition co_K (r : Z) : chain_def := sx_chain "K" "K_BW" 2 2 3 1 r 1 0 0 (sx_vertex "helicity" None None) (sx_vertex "helicity" None None) 1.
Definition co_chains : list chain_def := [co_K 2; co_K (-2)].
Definition co_model : model_def := sx_def co_chains [sx_bw "K_BW" 1 2 1 0 1 3].
(** The content is read off the helicities of the production vertex. *)
Definition co_x (c : chain_def) : content :=
  Content 2 2 3 1 (match cd_vertices c with v :: _ => match v_helicities v with Some (h :: _) => h | _ => 0 end | _ => 0 end) 1 0 0 0 0.
Definition co_w (c : chain_def) : symbol := weight_sym sx_tl c (co_x c).
Definition co_dyn : chain_def -> defexpr := dynamics_value co_model sx_tl.
Lemma co_good c : In c co_chains -> has_content c (co_x c) /\ complete_chain co_model c.
Proof.
  intros [<-|[<-|[]]]; (split; [apply sx_content; [perm|left; auto|left; auto]|]); (split; [intros p [<-|[]]|intros v [<-|[<-|[]]]; left; reflexivity]);
    (eexists; split; [fn (@nil func_def) (@nil func_def)|left; split; [reflexivity|numbers]]).
Qed.
Lemma co_definition : helicity_definition co_model (sx_dist co_chains) sx_s 1 sx_tl None co_x co_w co_dyn.
Proof. exact (proj1 (complete_helicity co_model (sx_dist co_chains) sx_s 1 sx_tl (sx_describes _ _) co_x co_good)). Qed.
Lemma co_formulate : exists M, SerAmplitude.formulate co_model true sx_tl None = Ok M.
Proof. exact (serial_total co_model (sx_dist co_chains) sx_s 1 sx_tl (sx_describes _ _) co_x true co_good). Qed.
Lemma co_same_dyn : co_dyn (co_K 2) = co_dyn (co_K (-2)).
Proof. reflexivity. Qed.
Lemma co_one : one_spectator co_x co_chains 1.
Proof. split; [discriminate|]. intros c [<-|[<-|[]]]; reflexivity. Qed.
Definition co_base (b1 b2 : bool) (y : symbol) : C :=
  if eqb y (co_w (co_K 2)) then (if b1 then RtoC 1 else RtoC 0) else if eqb y (co_w (co_K (-2))) then (if b2 then RtoC 1 else RtoC 0) else se_base y.
Lemma co_cancel M : SerAmplitude.formulate co_model true sx_tl None = Ok M -> forall base cpl,
  base (co_w (co_K 2)) = base (co_w (co_K (-2))) -> full_value (at_point (m_variables M) base cpl) M = RtoC 0.
Proof.
  intros F base cpl E. rewrite (one_value co_model (sx_dist co_chains) sx_s 1 sx_tl None co_x co_w co_dyn co_definition true M F 1 co_one).
  f_equal. apply Rsum_zero. intros l _.
  replace (Csum _ _) with (RtoC 0); [rewrite Cmod_0; ring|].
  change (chains_in co_x (sx_dist co_chains) 1) with co_chains. unfold co_chains. cbn [Csum].
  unfold chain_contribution, serial_term.
  rewrite !(serial_weight_at co_model (sx_dist co_chains) sx_s 1 sx_tl None co_x co_w co_dyn co_definition true M F) by (cbn; auto).
  rewrite <- E, <- co_same_dyn. cbn [co_x co_K sx_chain sx_vertex cd_vertices v_helicities ct_spin ct_i ct_j ct_k ct_r ct_lk ct_li ct_lj ct_fp ct_fd].
  set (th := Re _). change (0 - 0) with 0.
  replace (wigner_d 2 (-2) 0 th) with (- wigner_d 2 2 0 th)%R.
  2:{ pose proof (wigner_d_flip 2 2 0 th) as Q. change (- (2)) with (-2) in Q. change (- 0) with 0 in Q. rewrite Q. change (parity_sign (2 - 0)) with (-1)%R. ring. }
  replace (coupling_of 0 (-2) (at4 l 1) (-2) 1) with (coupling_of 0 2 (at4 l 1) 2 1).
  2:{ unfold coupling_of. cbn [Z.eqb Pos.eqb andb Z.opp]. ring. }
  rewrite RtoC_opp. ring.
Qed.
Theorem combine_refuted : ~ (forall m d s r tl x w dyn cl M, helicity_definition m d s r tl None x w dyn -> SerAmplitude.formulate m cl tl None = Ok M ->
  forall i j k, cyclic i j k -> one_spectator x (di_chains d) k ->
  forall base base1 base2 cpl keep, weights_scaled w (di_chains d) (kept keep) base base1 -> weights_scaled w (di_chains d) (kept (fun c => negb (keep c))) base base2 ->
  (forall c c', In c (di_chains d) -> In c' (di_chains d) -> keep c = true -> keep c' = false -> ct_r (x c) <> ct_r (x c')) ->
  forall lo hi v v1 v2, between_thresholds base i j k -> dalitz_range base i j k lo hi ->
  is_RInt (fun t => Re (full_value (at_point (m_variables M) (dalitz_line base i j k t) cpl) M)) lo hi v ->
  is_RInt (fun t => Re (full_value (at_point (m_variables M) (dalitz_line base1 i j k t) cpl) M)) lo hi v1 ->
  is_RInt (fun t => Re (full_value (at_point (m_variables M) (dalitz_line base2 i j k t) cpl) M)) lo hi v2 -> v = v1 + v2)%R.
Proof.
  intros Q. destruct co_formulate as (M & F). set (cpl := fun (_ : string) (_ : list ival) => RtoC 0).
  assert (Cy : cyclic 2 3 1) by (cbn; auto).
  assert (BT : forall b1 b2, between_thresholds (co_base b1 b2) 2 3 1) by (intros b1 b2; exact (se_between 2 3 1 Cy)).
  destruct (c94_range (co_base true true) 2 3 1 Cy (BT true true)) as (lo & hi & L & Rg).
  assert (Rg' : forall b1 b2, dalitz_range (co_base b1 b2) 2 3 1 lo hi) by (intros b1 b2; exact Rg).
  assert (ND : NoDup co_chains) by (constructor; [cbn; intros [A|[]]; discriminate A|constructor; [intros []|constructor]]).
  assert (P : forall c b1 b2, In c co_chains -> only_chain co_w co_chains (co_base b1 b2) c -> co_base b1 b2 (co_w c) = RtoC 1 -> exists v,
    (0 < v)%R /\ is_RInt (fun t => Re (full_value (at_point (m_variables M) (dalitz_line (co_base b1 b2) 2 3 1 t) cpl) M)) lo hi v).
  { intros c b1 b2 Hc On B1. eexists. split; [|
      assert (K1 : 1 = ct_k (co_x c)) by reflexivity; rewrite K1;
      apply (complete_projection co_model (sx_dist co_chains) sx_s 1 sx_tl co_x co_w co_dyn co_definition true M F ND c Hc (proj2 (co_good c Hc)))].
    - rewrite B1, Cmod_1. set (X := ceval _ _ _).
      assert (NX : X <> RtoC 0).
      { unfold X. rewrite (lineshape_eval (Env (co_base b1 b2) cpl) (Env se_base cpl) (fun _ => 0) (fun _ => 0) _ (hd_lineshape _ _ _ _ _ _ _ _ _ co_definition c Hc)).
        - refine (proj1 (complete_live_own co_model (sx_dist co_chains) sx_s 1 sx_tl None co_x co_w co_dyn co_definition _ c Hc cpl (fun _ => 0) (proj2 (proj2 (co_good c Hc))) _)).
          + intros a A. discriminate A.
          + intros p y Ip Ly. right. split; [exact Ly|exact (proj1 (proj2 (co_good c Hc)) p Ip)].
        - intros y _ Iy. cbn [e_sym]. unfold co_base.
          assert (N : forall c', In c' co_chains -> eqb y (co_w c') = false).
          { intros c' Hc'. destruct (eqb y (co_w c')) eqn:E; [|reflexivity]. apply (proj1 (Prelude.eqb_eq _ _)) in E.
            destruct (builtin_weights _ _ _ _ _ _ _ _ co_definition c y Hc (ex_intro _ c' (conj Hc' E)) Iy). }
          rewrite !N by (cbn; auto). reflexivity. }
      assert (X0 : (0 < Cmod X)%R) by (apply Cmod_gt_0; exact NX).
      assert (C1 : production_count (co_x c) = 1%R /\ decay_count (co_x c) = 1%R).
      { destruct Hc as [<-|[<-|[]]]; split; unfold production_count, decay_count; cbn; ring. }
      rewrite (proj1 C1), (proj2 C1). change (IZR (p_spin (sx_s 0) + 1)) with 2%R. change (IZR (ct_spin (co_x c) + 1)) with 3%R.
      assert (X2 : (0 < Cmod X ^ 2)%R) by (apply pow_lt; exact X0). nra.
    - destruct Hc as [<-|[<-|[]]]; split; apply memb_In; reflexivity.
    - destruct Hc as [<-|[<-|[]]]; (repeat split; try (apply memb_In; reflexivity)); intros (A & _); discriminate A.
    - exact Cy.
    - exact (BT b1 b2).
    - exact (Rg' b1 b2).
    - exact On. }
  destruct (P (co_K 2) true false) as (v1 & V1 & I1); [left; reflexivity|intros c [<-|[<-|[]]] N; [contradiction|reflexivity]|reflexivity|].
  destruct (P (co_K (-2)) false true) as (v2 & V2 & I2); [right; left; reflexivity|intros c [<-|[<-|[]]] N; [reflexivity|contradiction]|reflexivity|].
  assert (I0 : is_RInt (fun t => Re (full_value (at_point (m_variables M) (dalitz_line (co_base true true) 2 3 1 t) cpl) M)) lo hi 0%R).
  { apply (is_RInt_ext (fun _ => 0%R)); [|apply JacobiFacts.is_RInt_zero]. intros t _. rewrite (co_cancel M F) by reflexivity. reflexivity. }
  assert (E : (0 = v1 + v2)%R); [|lra].
  apply (Q co_model (sx_dist co_chains) sx_s 1 sx_tl co_x co_w co_dyn true M co_definition F 2 3 1 Cy co_one (co_base true true) (co_base true false) (co_base false true) cpl
    (fun c => ct_r (co_x c) =? 2)) with (lo := lo) (hi := hi); try assumption.
  - split; [intros c [<-|[<-|[]]]; unfold kept; cbn -[RtoC Cmult]; ring|]. intros y N. unfold co_base.
    destruct (eqb y (co_w (co_K 2))); [reflexivity|]. destruct (eqb y (co_w (co_K (-2)))) eqn:E; [|reflexivity].
    destruct N. exists (co_K (-2)). split; [right; left; reflexivity|exact (proj1 (Prelude.eqb_eq _ _) E)].
  - split; [intros c [<-|[<-|[]]]; unfold kept; cbn -[RtoC Cmult]; ring|]. intros y N. unfold co_base.
    destruct (eqb y (co_w (co_K 2))) eqn:E; [|reflexivity].
    destruct N. exists (co_K 2). split; [left; reflexivity|exact (proj1 (Prelude.eqb_eq _ _) E)].
  - intros c c' [<-|[<-|[]]] [<-|[<-|[]]]; cbn; intros; congruence.
  - apply BT.
Qed.

(** ** Two chains that do not interfere: the proton has helicities 1/2 and -1/2 *)
Definition cn_K (r lk : Z) : chain_def := sx_chain "K" "K_BW" 2 2 3 1 r lk 0 0 (sx_vertex "helicity" None None) (sx_vertex "parity" (Some "+"%string) None) 1.
Definition cn_chains : list chain_def := [cn_K 2 1; cn_K 0 1; cn_K 0 (-1); cn_K (-2) (-1)].
Definition cn_model : model_def := sx_def cn_chains [sx_bw "K_BW" 1 2 1 0 1 3].
Definition cn_hel (n : nat) (c : chain_def) : Z :=
  match cd_vertices c with v :: _ => match v_helicities v with Some hs => nth n hs 0 | _ => 0 end | _ => 0 end.
Definition cn_x (c : chain_def) : content := Content 2 2 3 1 (cn_hel 0 c) (cn_hel 1 c) 0 0 0 1.
Definition cn_w (c : chain_def) : symbol := weight_sym sx_tl c (cn_x c).
Definition cn_dyn : chain_def -> defexpr := dynamics_value cn_model sx_tl.
Lemma cn_good c : In c cn_chains -> has_content c (cn_x c) /\ complete_chain cn_model c.
Proof.
  intros [<-|[<-|[<-|[<-|[]]]]]; (split; [apply sx_content; [perm|left; auto|right; cbn; auto]|]); (split; [intros p [<-|[]]|intros v [<-|[<-|[]]]; left; reflexivity]);
    (eexists; split; [fn (@nil func_def) (@nil func_def)|left; split; [reflexivity|numbers]]).
Qed.
Definition cn_keep (c : chain_def) : bool := ct_lk (cn_x c) =? 1.
Definition cn_base (keep : chain_def -> bool) (y : symbol) : C :=
  if existsb (fun c => negb (keep c) && eqb y (cn_w c)) cn_chains then RtoC 0 else if eqb (sassume y) ANonneg then se_base y else RtoC 1.
Lemma cn_scaled keep : (forall c c', In c cn_chains -> In c' cn_chains -> cn_w c = cn_w c' -> keep c = keep c') ->
  weights_scaled cn_w cn_chains (kept keep) (cn_base (fun _ => true)) (cn_base keep).
Proof.
  intros K.
  assert (T : forall y, existsb (fun c => negb true && eqb y (cn_w c)) cn_chains = false) by reflexivity.
  split.
  - intros c Hc. unfold cn_base. rewrite T. replace (eqb (sassume (cn_w c)) ANonneg) with false by reflexivity. unfold kept.
    destruct (existsb (fun c0 => negb (keep c0) && eqb (cn_w c) (cn_w c0)) cn_chains) eqn:E.
    + apply existsb_exists in E. destruct E as (c' & Hc' & E). apply andb_true_iff in E. destruct E as [E1 E2].
      apply (proj1 (Prelude.eqb_eq _ _)) in E2. rewrite (K c c' Hc Hc' E2). destruct (keep c'); [discriminate E1|ring].
    + destruct (keep c) eqn:Kc; [ring|]. exfalso.
      assert (E' : existsb (fun c0 => negb (keep c0) && eqb (cn_w c) (cn_w c0)) cn_chains = true); [|congruence].
      apply existsb_exists. exists c. split; [exact Hc|]. rewrite Kc, Prelude.eqb_refl. reflexivity.
  - intros y N. unfold cn_base. rewrite T.
    destruct (existsb (fun c0 => negb (keep c0) && eqb y (cn_w c0)) cn_chains) eqn:E; [|reflexivity].
    apply existsb_exists in E. destruct E as (c' & Hc' & E). apply andb_true_iff in E. destruct E as [_ E2].
    destruct N. exists c'. split; [exact Hc'|exact (proj1 (Prelude.eqb_eq _ _) E2)].
Qed.
Lemma cn_example : helicity_definition cn_model (sx_dist cn_chains) sx_s 1 sx_tl None cn_x cn_w cn_dyn /\
  (exists M, SerAmplitude.formulate cn_model true sx_tl None = Ok M) /\ one_spectator cn_x cn_chains 1 /\ weights_only cn_w cn_dyn cn_chains /\
  weights_scaled cn_w cn_chains (kept cn_keep) (cn_base (fun _ => true)) (cn_base cn_keep) /\
  weights_scaled cn_w cn_chains (kept (fun c => negb (cn_keep c))) (cn_base (fun _ => true)) (cn_base (fun c => negb (cn_keep c))) /\
  map cn_keep cn_chains = [true; true; false; false] /\
  (forall c c' l, In c cn_chains -> In c' cn_chains -> cn_keep c = true -> cn_keep c' = false -> helicity_tuple sx_s l ->
     combination (cn_x c) l -> combination (cn_x c') l -> False).
Proof.
  pose proof (proj1 (complete_helicity cn_model (sx_dist cn_chains) sx_s 1 sx_tl (sx_describes _ _) cn_x cn_good)) as H.
  split; [exact H|]. split; [exact (serial_total cn_model (sx_dist cn_chains) sx_s 1 sx_tl (sx_describes _ _) cn_x true cn_good)|].
  split; [split; [discriminate|intros c [<-|[<-|[<-|[<-|[]]]]]; reflexivity]|].
  split; [exact (builtin_weights _ _ _ _ _ _ _ _ H)|].
  assert (K : forall c c', In c cn_chains -> In c' cn_chains -> cn_w c = cn_w c' -> cn_keep c = cn_keep c').
  { intros c c' [<-|[<-|[<-|[<-|[]]]]] [<-|[<-|[<-|[<-|[]]]]] E; try reflexivity; discriminate E. }
  split; [apply cn_scaled; exact K|]. split; [apply cn_scaled; intros c c' A B E; rewrite (K c c' A B E); reflexivity|]. split; [reflexivity|].
  intros c c' l Hc Hc' Kc Kc' _ (_ & A) (_ & B).
  destruct Hc as [<-|[<-|[<-|[<-|[]]]]]; try discriminate Kc; destruct Hc' as [<-|[<-|[<-|[<-|[]]]]]; try discriminate Kc';
    cbn [cn_x ct_k ct_lk ct_fp] in A, B; change (cn_hel 1 (cn_K 2 1)) with 1 in *; change (cn_hel 1 (cn_K 0 1)) with 1 in *;
    change (cn_hel 1 (cn_K 0 (-1))) with (-1) in *; change (cn_hel 1 (cn_K (-2) (-1))) with (-1) in *; lia.
Qed.
