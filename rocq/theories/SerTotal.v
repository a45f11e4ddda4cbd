(** Complete definitions: weights, dynamics and totality; form factors, recouplings and LS vertices. *)
From Coq Require Import String ZArith QArith Qcanon Qreals List Bool Reals Lia Lra Permutation Sorted.
From Coquelicot Require Import Complex.
From Verif Require Import Prelude Spin SpinFacts Decay Expr Angles Sums Wigner WignerFacts CG CExpr CExprFacts OccFacts SpecDPD Builder BuilderFacts
  ModelFacts BuilderProofs Dynamics SpecDynamics DynamicsProofs LineshapeFacts LineshapeProofs SerFormat SerDynamics SerAmplitude SpecSerial SerDecay
  SerAmpFacts SerModel SerProofs SerDyn.
From Verif Require QrulesConvert.
Import ListNotations.
Local Open Scope string_scope.
Local Open Scope Z_scope.
Local Open Scope list_scope.

(** ** Weights *)
Lemma latex_half_eq z : latex_half z = half_latex z.
Proof.
  unfold latex_half, half_latex. destruct (Z.even z); auto. destruct (Z.ltb_spec z 0).
  - rewrite Z.abs_neq by lia. reflexivity.
  - rewrite Z.abs_eq by lia. reflexivity.
Qed.
Lemma app_assoc_str (a b c : string) : ((a ++ b) ++ c = a ++ (b ++ c))%string.
Proof. induction a as [|x a IH]; cbn; [reflexivity|rewrite IH; reflexivity]. Qed.
Lemma weight_symbol_eq tl c x : weight_symbol (tl (cd_name c)) (ct_r x) [helicity_in x 1; helicity_in x 2; helicity_in x 3] = weight_sym tl c x.
Proof.
  unfold weight_symbol, weight_sym. cbn [map String.concat]. rewrite !latex_half_eq. unfold str_half, half_text.
  rewrite !app_assoc_str. reflexivity.
Qed.
Lemma weight_ok c x tl : has_content c x -> get_weight c tl = Ok (weight_sym tl c x, cd_weight c).
Proof.
  intros (vp & vd & TB & Hd & (pair & Hp) & _ & _). rewrite <- weight_symbol_eq.
  destruct (tb_production _ _ _ _ _ _ _ TB) as (a & b & W & _).
  assert (PE : pair = [It a; It b]).
  { destruct W as [W|W], Hp as [[W' _]|[W' _]]; rewrite W in W'; congruence. }
  assert (RH : resonance_helicity (cd_vertices c) = Ok (pair, ct_r x)).
  { apply (resonance_helicity_ok c vp vd (ct_i x) (ct_j x) (ct_k x) pair (ct_r x) (ct_lk x)).
    - exact (tb_vertices _ _ _ _ _ _ _ TB).
    - exact (tb_decay _ _ _ _ _ _ _ TB).
    - eauto.
    - exact Hp. }
  unfold get_weight. rewrite RH. cbn [bind].
  assert (FH : exists hs, final_state_helicities c = Ok hs /\ dvalues hs = [helicity_in x 1; helicity_in x 2; helicity_in x 3]).
  { unfold final_state_helicities. pose proof (tb_decay _ _ _ _ _ _ _ TB) as ND.
    pose proof (perm_123 _ _ _ (tb_ids _ _ _ _ _ _ _ TB)) as PI. unfold helicity_in.
    destruct x as [sp xi xj xk xr xlk xli xlj fp fd]. cbn [ct_i ct_j ct_k ct_li ct_lj ct_lk ct_r] in *.
    destruct (tb_vertices _ _ _ _ _ _ _ TB) as [->| ->];
      destruct Hp as [[Np Hp]|[Np Hp]]; cbn [collect_helicities]; rewrite ND, Np, Hd, Hp;
      clear -PI; cbn in PI;
      repeat (destruct PI as [E|PI]; [injection E as <- <- <-; eexists; split; reflexivity|]); destruct PI. }
  destruct FH as (hs & -> & E). cbn [bind]. rewrite E. reflexivity.
Qed.

(** ** Dynamics *)
Lemma closed_unit : closed_expression de_unit.
Proof. intros y []. Qed.
Lemma closed_mul a b : closed_expression a -> closed_expression b -> closed_expression (de_mul a (MulDef b)).
Proof.
  intros A B y I. cbn [de_mul de_expr de_params symbols_of] in *. apply in_app_or in I. rewrite dupdate_keys.
  destruct I as [I|I]; [destruct (A y I) as [X|[X|X]]|destruct (B y I) as [X|[X|X]]]; auto.
Qed.
Section Complete.
  Variables (m : model_def) (d : distribution) (s : Z -> state) (r : Z) (tl : string -> string).
  Hypothesis D : describes_states (fun n => n) m d s r.
  Lemma form_factor_complete c spin i j k vp vd v : three_body c spin i j k vp vd -> In v [vp; vd] ->
    complete_form_factor m v -> exists e, formulate_form_factor v m = Ok e /\ NoDup (dkeys (de_params e)) /\
      lineshape (de_expr e) = true /\ closed_expression e.
  Proof.
    intros TB I CF. destruct CF as [E|[E|(name & f & V & NE & F & T & HN)]].
    - exists de_unit. rewrite form_factor_none by auto. split; [reflexivity|]. split; [constructor|]. split; [reflexivity|exact closed_unit].
    - exists de_unit. rewrite form_factor_none by auto. split; [reflexivity|]. split; [constructor|]. split; [reflexivity|exact closed_unit].
    - destruct (HN "l") as (vl & E1); [cbn; auto|]. destruct (HN "radius") as (vr & E2); [cbn; auto|].
      destruct (perm_in _ _ _ (tb_ids _ _ _ _ _ _ _ TB)) as (Pi & Pj & Pk & _).
      cbn in I. destruct I as [<-|[<-|[]]].
      + destruct (tb_production _ _ _ _ _ _ _ TB) as (a & b & W & P).
        assert (P' : Permutation [a; b; k] [1; 2; 3]).
        { apply Permutation_trans with [i; j; k]; [|exact (tb_ids _ _ _ _ _ _ _ TB)].
          apply (Permutation_app_tail [k] P). }
        destruct (form_factor_production m vp name f vl vr V NE F T E1 E2 a b k d s r D W P') as (m1 & m2 & -> & X).
        eexists. split; [reflexivity|]. split; [repeat constructor; intros []|]. split.
        * destruct X as [(_ & -> & ->)|(_ & -> & ->)]; reflexivity.
        * intros y I. cbn in I. unfold closed_expression. cbn [de_params dkeys map fst In].
          assert (Y : y = mass_sym 0 \/ y = m1 \/ y = m2 \/ y = named "R" (p_latex (s 0))) by (clear -I; destruct I as [X|[X|[X|[X|[]]]]]; rewrite <- X; auto).
          destruct Y as [->|[->|[->| ->]]]; auto.
          -- right; left. exists 0. split; [cbn; auto|reflexivity].
          -- destruct X as [(_ & -> & ->)|(_ & -> & ->)]; [right; right; exists k; auto|right; left; exists k; auto using in_0].
          -- destruct X as [(_ & -> & ->)|(_ & -> & ->)]; [right; left; exists k; auto using in_0|right; right; exists k; auto].
      + rewrite (form_factor_decay m vd name f vl vr V NE F T E1 E2 i j k (tb_decay _ _ _ _ _ _ _ TB) (tb_ids _ _ _ _ _ _ _ TB)).
        eexists. split; [reflexivity|]. split; [repeat constructor; intros []|]. split; [reflexivity|].
        intros y I. cbn in I. cbn [de_params dkeys map fst In].
        assert (Y : y = sigma_sym k \/ y = mass_sym i \/ y = mass_sym j \/ y = radius_sym) by (clear -I; destruct I as [X|[X|[X|[X|[]]]]]; rewrite <- X; auto).
        destruct Y as [->|[->|[->| ->]]]; auto.
        * right; right. exists k. auto.
        * right; left. exists i. auto using in_0.
        * right; left. exists j. auto using in_0.
  Qed.
  Lemma dynamics_complete c x : has_content c x -> complete_chain m c ->
    exists e, dynamics_of_chain m tl None c e /\ NoDup (dkeys (de_params e)) /\
      lineshape (de_expr e) = true /\ closed_expression e.
  Proof.
    intros (vp & vd & TB & _) [CP CV].
    destruct (tb_propagator _ _ _ _ _ _ _ TB) as (p & a & b & EP & _ & NP & PP).
    assert (P' : Permutation [a; b; ct_k x] [1; 2; 3]).
    { apply Permutation_trans with [ct_i x; ct_j x; ct_k x]; [|exact (tb_ids _ _ _ _ _ _ _ TB)].
      apply (Permutation_app_tail [ct_k x] PP). }
    destruct (CP p) as (f & F & CF); [rewrite EP; left; auto|].
    assert (B : exists e0, formulate_dynamics c m tl None = Ok e0 /\ NoDup (dkeys (de_params e0)) /\
      lineshape (de_expr e0) = true /\ closed_expression e0).
    { unfold formulate_dynamics. rewrite EP. cbn [dynamics_loop]. rewrite (function_ok _ _ _ F). cbn [bind builder_table].
      destruct CF as [CF|CF].
      - rewrite (proj1 CF). change (dget "BreitWigner" _) with (Some (formulate_breit_wigner : prop_builder)). cbn iota.
        destruct (bw_complete m p a b (ct_k x) (tl (cd_name c)) f NP P' F CF) as (e & -> & ND & LS & CL).
        cbn [bind]. eexists. split; [reflexivity|]. split; [apply dupdate_NoDup; constructor|]. split.
        + cbn [de_mul de_expr lineshape]. exact LS.
        + apply closed_mul; [exact closed_unit|exact CL].
      - rewrite (proj1 CF). change (dget "MultichannelBreitWigner" _) with (Some (formulate_multichannel_breit_wigner : prop_builder)). cbn iota.
        destruct (multi_ok m p a b (ct_k x) (tl (cd_name c)) f NP P' F CF) as (e & ? & ? & ? & ? & ? & ? & ? & ? & ? & -> & _ & _ & _ & _ & _ & _ & _ & _ & _ & _ & _ & ND & LS & CL).
        cbn [bind]. eexists. split; [reflexivity|]. split; [apply dupdate_NoDup; constructor|]. split.
        + cbn [de_mul de_expr lineshape]. exact LS.
        + apply closed_mul; [exact closed_unit|exact CL]. }
    destruct B as (e0 & E0 & ND0 & LS0 & CL0).
    assert (FF : forall vs e, (forall v, In v vs -> In v [vp; vd] /\ complete_form_factor m v) ->
      NoDup (dkeys (de_params e)) -> lineshape (de_expr e) = true -> closed_expression e ->
      exists e', form_factor_loop m vs e = Ok e' /\ NoDup (dkeys (de_params e')) /\ lineshape (de_expr e') = true /\ closed_expression e').
    { induction vs as [|v vs IH]; intros e V N L K; cbn [form_factor_loop]; [eauto|].
      destruct (V v) as [I C]; [left; auto|].
      destruct (form_factor_complete _ _ _ _ _ _ _ v TB I C) as (e1 & -> & ND1 & LS1 & CL1). cbn [bind].
      apply IH.
      - intros v' I'. apply V. right; auto.
      - apply dupdate_NoDup. exact N.
      - cbn [de_mul de_expr lineshape]. rewrite L, LS1. reflexivity.
      - apply closed_mul; assumption. }
    destruct (FF (cd_vertices c) e0) as (e & E & X); auto.
    { intros v I. split; [|apply CV; exact I]. destruct (tb_vertices _ _ _ _ _ _ _ TB) as [E|E]; rewrite E in I; cbn in *; tauto. }
    exists e. split; [exists e0; auto|exact X].
  Qed.
  Definition dynamics_value (c : chain_def) : defexpr :=
    match (let* y := formulate_dynamics c m tl None in form_factor_loop m (cd_vertices c) y) with Ok e => e | Err _ => de_unit end.
  (** C72 *)
  Lemma complete_helicity x : (forall c, In c (di_chains d) -> has_content c (x c) /\ complete_chain m c) ->
    helicity_definition m d s r tl None x (fun c => weight_sym tl c (x c)) dynamics_value /\
    forall c, In c (di_chains d) -> closed_expression (dynamics_value c).
  Proof.
    intros C.
    assert (G : forall c, In c (di_chains d) -> dynamics_of_chain m tl None c (dynamics_value c) /\
      lineshape (de_expr (dynamics_value c)) = true /\ closed_expression (dynamics_value c)).
    { intros c I. destruct (C c I) as [HC CC]. destruct (dynamics_complete c (x c) HC CC) as (e & (y & Y1 & Y2) & _ & L & K).
      assert (E : dynamics_value c = e) by (unfold dynamics_value; rewrite Y1; cbn [bind]; rewrite Y2; reflexivity).
      rewrite E. split; auto. exists y. auto. }
    split; [|intros c I; apply (G c I)]. constructor.
    - exact D.
    - intros c I. apply (C c I).
    - intros c I. exists (cd_weight c). apply weight_ok. apply (C c I).
    - intros c I. apply (G c I).
    - intros c I. apply (G c I).
  Qed.
  Theorem serial_total x cl : (forall c, In c (di_chains d) -> has_content c (x c) /\ complete_chain m c) ->
    exists M, SerAmplitude.formulate m cl tl None = Ok M.
  Proof.
    intros C. destruct (complete_helicity x C) as [H _].
    destruct (serial_model _ _ _ _ _ _ _ _ _ H cl) as (M & _ & _ & _ & _ & _ & E & _). eauto.
  Qed.
End Complete.

(** ** C57 *)
Lemma dgetitem_some (key : string) (d : dict string Qc) v : dgetitem key d = Ok v -> dget key d = Some v.
Proof. intros E. apply dgetitem_ok. exact E. Qed.
Lemma form_factor_inv m v e : formulate_form_factor v m = Ok e ->
  (e = de_unit /\ (v_formfactor v = None \/ v_formfactor v = Some "")) \/
  exists name f vl vr, v_formfactor v = Some name /\ name <> "" /\ function_of m name f /\
    fd_type f = "BlattWeisskopf" /\ dget "l" (fd_numbers f) = Some vl /\ dget "radius" (fd_numbers f) = Some vr.
Proof.
  unfold formulate_form_factor. destruct (v_formfactor v) as [[|a n]|] eqn:V; intros E.
  - injection E as <-. auto.
  - right. apply bind_ok in E. destruct E as (f & F & E). destruct (eqb (fd_type f) "BlattWeisskopf") eqn:T; [|discriminate E].
    rewrite Prelude.eqb_eq in T. apply bind_ok in E. destruct E as (y1 & _ & E). apply bind_ok in E. destruct E as (y2 & _ & E).
    apply bind_ok in E. destruct E as ([y3 y3'] & _ & E). apply bind_ok in E. destruct E as (y4 & _ & E).
    apply bind_ok in E. destruct E as (vl & L & E). apply bind_ok in E. destruct E as (vr & R & E).
    exists (String a n), f, vl, vr. split; auto. split; [discriminate|]. split; [apply c50_function; exact F|].
    split; auto. split; apply dgetitem_some; assumption.
  - injection E as <-. auto.
Qed.
Lemma c57_decay m v e i j k t ev ev' h : v_node v = [It i; It j] -> Permutation [i; j; k] [1; 2; 3] ->
  formulate_form_factor v m = Ok e -> (0 < t)%R -> change_of_units t ev ev' ->
  ceval ev' h (de_expr e) = ceval ev h (de_expr e).
Proof.
  intros N P E Ht (U1 & U2 & U3 & _). destruct (form_factor_inv _ _ _ E) as [[-> _]|(name & f & vl & vr & V & NE & F & T & L & R)].
  - reflexivity.
  - rewrite (form_factor_decay m v name f vl vr V NE F T L R i j k N P) in E. injection E as <-. cbn [de_expr].
    rewrite !eval_ff. cbn [ceval]. rewrite !U1, U2, U3. apply form_factor_scale. exact Ht.
Qed.
Lemma c57_decay_value m v name f vl vr i j k ev h : v_formfactor v = Some name -> name <> "" -> function_of m name f ->
  fd_type f = "BlattWeisskopf" -> dget "l" (fd_numbers f) = Some vl -> dget "radius" (fd_numbers f) = Some vr ->
  v_node v = [It i; It j] -> Permutation [i; j; k] [1; 2; 3] ->
  exists e, formulate_form_factor v m = Ok e /\
    ceval ev h (de_expr e) = form_factor (int_of vl) (e_sym ev (sigma_sym k)) (e_sym ev (mass_sym i)) (e_sym ev (mass_sym j)) (e_sym ev radius_sym) /\
    de_params e = [(KSym radius_sym, real_val vr)].
Proof.
  intros V NE F T L R N P. eexists. split; [apply (form_factor_decay m v name f vl vr V NE F T L R i j k N P)|].
  split; reflexivity.
Qed.
Lemma c57_production_value m d s r v name f vl vr i j k ev h : describes_states (fun n => n) m d s r ->
  v_formfactor v = Some name -> name <> "" -> function_of m name f ->
  fd_type f = "BlattWeisskopf" -> dget "l" (fd_numbers f) = Some vl -> dget "radius" (fd_numbers f) = Some vr ->
  with_pair k [It i; It j] (v_node v) -> Permutation [i; j; k] [1; 2; 3] ->
  exists e, formulate_form_factor v m = Ok e /\
    ceval ev h (de_expr e) = form_factor (int_of vl) (e_sym ev (mass_sym 0)) (e_sym ev (sigma_sym k)) (e_sym ev (mass_sym k))
      (e_sym ev (named "R" (p_latex (s 0)))) /\
    de_params e = [(KSym (named "R" (p_latex (s 0))), real_val vr)].
Proof.
  intros D V NE F T L R N P.
  destruct (form_factor_production m v name f vl vr V NE F T L R i j k d s r D N P) as (m1 & m2 & E & X).
  eexists. split; [exact E|]. split; [|reflexivity]. cbn [de_expr]. rewrite eval_ff. cbn [ceval].
  destruct X as [(_ & -> & ->)|(_ & -> & ->)]; [reflexivity|apply form_factor_sym].
Qed.

(** ** C58 *)
Lemma c58_helicity ev h a b a0 b0 : ceval ev h (helicity_recoupling a b a0 b0) =
  RtoC (if (heval h a =? heval h a0) && (heval h b =? heval h b0) then 1 else 0).
Proof.
  unfold helicity_recoupling. cbn [ceval]. destruct (_ =? _), (_ =? _); cbn [andb]; rewrite <- RtoC_mult; f_equal; ring.
Qed.
Lemma c58_parity ev h a b a0 b0 f : ceval ev h (parity_recoupling a b a0 b0 f) =
  RtoC (coupling_of f (heval h a) (heval h b) (heval h a0) (heval h b0)).
Proof.
  unfold parity_recoupling, CNum, coupling_of. cbn [ceval heval]. rewrite Q2R_Z.
  destruct (_ =? _), (_ =? _), (_ =? - _), (_ =? - _); cbn [andb]; rewrite <- ?RtoC_mult, <- ?RtoC_plus; f_equal; ring.
Qed.
Lemma c58_parity_symmetry ev h a b a0 b0 f : f = 1 \/ f = -1 ->
  ceval ev h (parity_recoupling (HNeg a) (HNeg b) a0 b0 f) = (RtoC (IZR f) * ceval ev h (parity_recoupling a b a0 b0 f))%C.
Proof.
  intros F. rewrite !c58_parity. cbn [heval]. rewrite <- RtoC_mult. f_equal. unfold coupling_of.
  set (x := heval h a). set (y := heval h b). set (x0 := heval h a0). set (y0 := heval h b0).
  assert (E1 : forall u w : Z, (- u =? w) = (u =? - w)).
  { intros u w. destruct (Z.eqb_spec (- u) w), (Z.eqb_spec u (- w)); auto; lia. }
  rewrite !E1, !Z.opp_involutive. destruct F as [->| ->];
    destruct ((x =? x0) && (y =? y0)), ((x =? - x0) && (y =? - y0)); ring.
Qed.
Lemma c58_ls ev h la lb l s ja jb j :
  ceval ev h (ls_recoupling la lb l s ja jb j) = RtoC (ls_factor j (LS l s) ja (heval h la) jb (heval h lb)).
Proof.
  unfold ls_recoupling, ls_factor. cbn [ceval heval ls_L ls_S].
  destruct (Z_lt_le_dec j 0) as [Hj|Hj].
  { rewrite !(cg_zero_j3 _ _ _ _ j) by auto. rewrite Rmult_0_r, Rmult_0_l, Cmult_0_r. reflexivity. }
  destruct (Z_lt_le_dec l 0) as [HL|HL].
  { rewrite !(cg_zero_j1 (2 * l)) by lia. rewrite Rmult_0_r, Rmult_0_l, Cmult_0_r. reflexivity. }
  rewrite Q2R_div by lia. rewrite csqrt_nonneg.
  - rewrite <- !RtoC_mult. f_equal. ring.
  - apply Rmult_le_pos; [apply IZR_le; lia|]. apply Rlt_le, Rinv_0_lt_compat, IZR_lt. lia.
Qed.
Lemma c58_sign (t : string) :
  (sign_to_value "+" = Ok 1 /\ sign_to_value "-" = Ok (-1) /\ sign_to_value "" = Ok 0) /\
  (forall f, sign_to_value t = Ok f -> (f = 1 /\ strip t = "+") \/ (f = -1 /\ strip t = "-") \/ (f = 0 /\ strip t = "")) /\
  (forall e, sign_to_value t = Err e <-> e = NotImplementedErr /\ ~ In (strip t) ["+"; "-"; ""]).
Proof.
  split; [repeat split; reflexivity|]. unfold sign_to_value.
  destruct (eqb (strip t) "-") eqn:E1; [rewrite Prelude.eqb_eq in E1|rewrite eqb_neq in E1].
  - split; [intros f X; injection X as <-; auto|]. intros e. split; [discriminate|]. intros [_ X]. exfalso. apply X. rewrite E1. cbn; auto.
  - destruct (eqb (strip t) "") eqn:E2; [rewrite Prelude.eqb_eq in E2|rewrite eqb_neq in E2].
    + split; [intros f X; injection X as <-; auto|]. intros e. split; [discriminate|]. intros [_ X]. exfalso. apply X. rewrite E2. cbn; auto.
    + destruct (eqb (strip t) "+") eqn:E3; [rewrite Prelude.eqb_eq in E3|rewrite eqb_neq in E3].
      * split; [intros f X; injection X as <-; auto|]. intros e. split; [discriminate|]. intros [_ X]. exfalso. apply X. rewrite E3. cbn; auto.
      * split; [discriminate|]. intros e. split.
        -- intros X. split; [congruence|]. cbn. intros [X1|[X1|[X1|[]]]]; congruence.
        -- intros [-> _]. reflexivity.
Qed.

(** ** C54 *)
Lemma ls_no_child_spins m ci vi c v i : nth_chain m ci = Ok c -> nth_vertex c vi = Ok v -> In (It i) (v_node v) ->
  forall l, get_child_spins m ci vi <> Ok l.
Proof.
  intros Hc Hv I l E. unfold get_child_spins in E. rewrite Hc in E. cbn [bind] in E. rewrite Hv in E. cbn [bind] in E.
  apply bind_ok in E. destruct E as (fin & _ & E). apply mapM_ok_inv in E.
  destruct (QrulesConvert.Forall2_In_l _ _ _ _ E I) as (y & _ & Y). cbn beta iota in Y.
  apply bind_ok in Y. destruct Y as (st & _ & Y). discriminate Y.
Qed.
Lemma ls_no_recoupling m ci vi c v i : nth_chain m ci = Ok c -> nth_vertex c vi = Ok v -> v_type v = "ls" ->
  In (It i) (v_node v) -> forall e, formulate_recoupling m ci vi <> Ok e.
Proof.
  intros Hc Hv T I e E. unfold formulate_recoupling in E. rewrite Hc in E. cbn [bind] in E.
  destruct (negb _) in E; [discriminate E|]. destruct (negb _) in E; [discriminate E|]. rewrite Hv in E. cbn [bind] in E.
  apply bind_ok in E. destruct E as ([la lb] & _ & E). rewrite T in E.
  change (eqb "ls" "helicity" || eqb "ls" "parity") with false in E. change (eqb "ls" "ls") with true in E. cbn iota in E.
  apply bind_ok in E. destruct E as (l & _ & E). apply bind_ok in E. destruct E as (sp & _ & E).
  apply bind_ok in E. destruct E as (spins & E' & _). exact (ls_no_child_spins _ _ _ _ _ _ Hc Hv I _ E').
Qed.
Lemma loop_elements m tl additional work : forall acc y, formulate_loop m tl additional work acc = Ok y ->
  forall l n, In (l, n) work -> exists a, formulate_chain_amplitude l m n tl additional = Ok a.
Proof.
  induction work as [|[l n] work IH]; intros acc y E l' n' I; [destruct I|].
  cbn [formulate_loop] in E. apply bind_ok in E. destruct E as (a & Ea & E). destruct acc as [[amps vars] params].
  destruct I as [I|I]; [injection I as -> ->; eauto|]. eapply IH; eauto.
Qed.
Lemma chain_amplitude_recouplings l m n tl additional a : formulate_chain_amplitude l m n tl additional = Ok a ->
  exists e0 e1, formulate_recoupling m n 0 = Ok e0 /\ formulate_recoupling m n 1 = Ok e1.
Proof.
  intros E. unfold formulate_chain_amplitude in E.
  apply bind_ok in E. destruct E as (c & _ & E). apply bind_ok in E. destruct E as (d1 & _ & E).
  apply bind_ok in E. destruct E as (d2 & _ & E). apply bind_ok in E. destruct E as ([w wv] & _ & E).
  apply bind_ok in E. destruct E as (ps & _ & E). apply bind_ok in E. destruct E as ([[i li] [j lj]] & _ & E).
  apply bind_ok in E. destruct E as ([th the] & _ & E). destruct (cd_propagators c) as [|p ?]; [discriminate E|].
  apply bind_ok in E. destruct E as (jR & _ & E). apply bind_ok in E. destruct E as ([rn rr] & _ & E).
  apply bind_ok in E. destruct E as (k & _ & E). apply bind_ok in E. destruct E as (e0 & E0 & E).
  apply bind_ok in E. destruct E as (e1 & E1 & _). eauto.
Qed.
Lemma recoupling_length m ci vi e c : formulate_recoupling m ci vi = Ok e -> nth_chain m ci = Ok c -> length (cd_vertices c) = 2%nat.
Proof.
  intros E Hc. unfold formulate_recoupling in E. rewrite Hc in E. cbn [bind] in E.
  destruct (Nat.eqb (length (cd_vertices c)) 2) eqn:L; [apply Nat.eqb_eq; exact L|discriminate E].
Qed.
Lemma c54 m d s r tl additional cl c v i : describes_states (fun n => n) m d s r ->
  In c (di_chains d) -> In v (cd_vertices c) -> v_type v = "ls" -> In (It i) (v_node v) ->
  forall M, SerAmplitude.formulate m cl tl additional <> Ok M.
Proof.
  intros D Ic Iv T Ii M E. unfold SerAmplitude.formulate in E.
  rewrite (states_ok None _ _ _ _ D) in E. cbn [bind] in E.
  assert (SI : forall i, In i [0; 1; 2; 3] -> dgetitem i ((0, s 0) :: final_dict d s) = Ok (s i)).
  { intros n I. apply dgetitem_ok. apply In_dget.
    - apply (Permutation_NoDup (l := [0; 1; 2; 3])); [|repeat constructor; simpl; intuition discriminate].
      apply Permutation_sym. exact (Permutation_map fst (states_perm None _ _ _ _ D)).
    - apply (Permutation_in _ (Permutation_sym (states_perm None _ _ _ _ D))).
      rewrite In_0123 in I. destruct I as [->|[->|[->| ->]]]; cbn; auto. }
  rewrite !SI in E by (cbn; auto). cbn [bind] in E. rewrite (chains_ok None _ _ _ _ D) in E. cbn [bind] in E.
  apply bind_ok in E. destruct E as ([[amps vars] params] & E & _).
  apply In_nth_error in Ic. destruct Ic as (n & En).
  assert (Ln : (n < length (di_chains d))%nat) by (apply nth_error_Some; congruence).
  assert (Il : exists l, In l (tuples s)).
  { exists (- p_spin (s 0), - p_spin (s 1), - p_spin (s 2), - p_spin (s 3)).
    apply tuples_In. cbn. rewrite !helicities_range.
    assert (G : forall i, In i [0; 1; 2; 3] -> In (- p_spin (s i)) (spin_range2 (p_spin (s i)))).
    { intros q Hi. pose proof (std_spin_s None _ _ _ _ D q Hi). apply spin_range2_In. split; [lia|].
      apply Z.even_spec. exists (p_spin (s q)). lia. }
    repeat split; apply G; cbn; auto. }
  destruct Il as (l & Il). rewrite tuples_spin4 in Il.
  destruct (loop_elements _ _ _ _ _ _ E l n) as (a & Ea).
  { apply in_flat_map. exists l. split; [exact Il|]. apply (in_map (fun n => (l, n))). apply in_seq. lia. }
  destruct (chain_amplitude_recouplings _ _ _ _ _ _ Ea) as (e0 & e1 & E0 & E1).
  assert (NC : nth_chain m n = Ok c).
  { unfold nth_chain. rewrite (chains_ok None _ _ _ _ D). cbn [bind]. rewrite En. reflexivity. }
  pose proof (recoupling_length _ _ _ _ _ E0 NC) as LV.
  apply In_nth_error in Iv. destruct Iv as (q & Eq).
  assert (Lq : (q < 2)%nat) by (rewrite <- LV; apply nth_error_Some; congruence).
  assert (NV : nth_vertex c q = Ok v) by (unfold nth_vertex; rewrite Eq; reflexivity).
  destruct q as [|[|q]]; [| |lia].
  - exact (ls_no_recoupling _ _ _ _ _ _ NC NV T Ii _ E0).
  - exact (ls_no_recoupling _ _ _ _ _ _ NC NV T Ii _ E1).
Qed.
