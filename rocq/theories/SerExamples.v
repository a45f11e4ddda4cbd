(** Concrete model definitions: witnesses for the hypotheses of the serialisation properties, and counterexamples *)
From Coq Require Import String ZArith QArith Qcanon Qreals List Bool Reals Lia Lra Permutation.
From Coquelicot Require Import Complex.
From Verif Require Import Prelude Spin SpinFacts Decay Expr Angles Sums Wigner WignerFacts CG CExpr CExprFacts SpecDPD SpecBuilder Builder BuilderFacts
  ModelFacts BuilderProofs Dynamics SpecDynamics LineshapeFacts LineshapeProofs SerFormat SerDynamics SerAmplitude SpecSerial SerDecay SerAmpFacts SerModel SerProofs SerDyn
  SerTotal SerFormal.
Import ListNotations.
Local Open Scope string_scope.
Local Open Scope Z_scope.
Local Open Scope list_scope.

Ltac perm := apply NoDup_Permutation; [repeat constructor; cbn; lia|repeat constructor; cbn; lia|intros; cbn; tauto].

(** Lc -> p pi K with spins 1/2, 1/2, 0, 0 *)
Definition sx_z (z : Z) : Qc := Qc_of_Z z.
Definition sx_initial : state_def := StateDef 0 "Lc" (half 1) (sx_z 4).
Definition sx_final : list state_def :=
  [StateDef 1 "p" (half 1) (sx_z 1); StateDef 2 "pi" (half 0) (sx_z 0); StateDef 3 "K" (half 0) (sx_z 1)].
Definition sx_s (n : Z) : state :=
  state_of (fun n => n) (if n =? 0 then sx_initial else nth (Z.to_nat (n - 1)) sx_final sx_initial) (if n <=? 1 then 1 else 0).
(** A vertex and a chain with resonance of helicity [r] in the pair [i], [j] and spectator [k] *)
Definition sx_vertex (ty : string) (pf ff : option string) (node : list item) (hs : list Z) : vertex :=
  Vertex ty node ff (Some hs) pf None None.
Definition sx_chain (name f : string) (spin i j k r lk li lj : Z) (vp vd : list item -> list Z -> vertex) (w : Z) : chain_def :=
  ChainDef name [Propagator (half spin) [It i; It j] f]
    [vp [Sub [It i; It j]; It k] [r; lk]; vd [It i; It j] [li; lj]]
    [Sub [It i; It j]; It k] (real_val (sx_z w)).
Definition sx_bw (name : string) (l mass width ma mb d : Z) : func_def :=
  FuncDef name "BreitWigner" [("l", sx_z l); ("mass", sx_z mass); ("width", sx_z width);
    ("ma", sx_z ma); ("mb", sx_z mb); ("d", sx_z d)] None.
Definition sx_ff (name : string) (l radius : Z) : func_def :=
  FuncDef name "BlattWeisskopf" [("l", sx_z l); ("radius", sx_z radius)] None.
Definition sx_channel (l ma mb g d : Z) : dict string Qc :=
  [("l", sx_z l); ("ma", sx_z ma); ("mb", sx_z mb); ("gsq", sx_z g); ("d", sx_z d)].
Definition sx_multi (name : string) (mass : Z) (cs : list (dict string Qc)) : func_def :=
  FuncDef name "MultichannelBreitWigner" [("mass", sx_z mass)] (Some cs).
Definition sx_dist (cs : list chain_def) : distribution :=
  Distribution sx_initial sx_final [Sub [It 2; It 3]; It 1] cs.
Definition sx_def (cs : list chain_def) (fs : list func_def) : model_def := ModelDef [sx_dist cs] fs.

Lemma sx_describes cs fs : describes_states (fun n => n) (sx_def cs fs) (sx_dist cs) sx_s 1.
Proof.
  constructor.
  - exists []. reflexivity.
  - split; [reflexivity|]. exists 1. split; [lia|]. split; reflexivity.
  - reflexivity.
  - intros x I. destruct I as [<-|[<-|[<-|[]]]]; [exists 1|exists 0|exists 0]; (split; [lia|]); split; reflexivity.
  - split; [cbn; auto|]. exists [It 2; It 3]. left. reflexivity.
Qed.
Lemma sx_three_body name f spin i j k r lk li lj vp vd w : Permutation [i; j; k] [1; 2; 3] ->
  (forall n h, v_node (vp n h) = n) -> (forall n h, v_node (vd n h) = n) ->
  three_body (sx_chain name f spin i j k r lk li lj vp vd w) spin i j k (vp [Sub [It i; It j]; It k] [r; lk]) (vd [It i; It j] [li; lj]).
Proof.
  intros P N1 N2. constructor.
  - exact P.
  - eexists _, i, j. split; [reflexivity|]. split; [reflexivity|]. split; reflexivity.
  - left. reflexivity.
  - apply N2.
  - exists i, j. rewrite N1. split; [left|]; reflexivity.
  - exists [It i; It j]. left. reflexivity.
Qed.
Lemma sx_content name f spin i j k r lk li lj tp td pp pd fp fd ffp ffd w : Permutation [i; j; k] [1; 2; 3] ->
  (tp = "helicity" /\ fp = 0 \/ tp = "parity" /\ In (pp, fp) [(None, 1); (Some "+", 1); (Some "-", -1); (Some "", 0)]) ->
  (td = "helicity" /\ fd = 0 \/ td = "parity" /\ In (pd, fd) [(None, 1); (Some "+", 1); (Some "-", -1); (Some "", 0)]) ->
  has_content (sx_chain name f spin i j k r lk li lj (sx_vertex tp pp ffp) (sx_vertex td pd ffd) w)
    (Content spin i j k r lk li lj fp fd).
Proof.
  intros P Tp Td. eexists _, _. split; [apply sx_three_body; [exact P|reflexivity|reflexivity]|].
  split; [reflexivity|]. split; [exists [It i; It j]; left; split; reflexivity|]. split; assumption.
Qed.

(** ** A complete definition *)
Definition sx_A : chain_def := sx_chain "D" "D_BW" 3 1 2 3 1 0 1 0
  (sx_vertex "helicity" None (Some "Lc_FF")) (sx_vertex "parity" (Some "-") (Some "D_FF")) 2.
Definition sx_B : chain_def := sx_chain "L" "L_MC" 1 3 1 2 (-1) 0 0 1
  (sx_vertex "helicity" None None) (sx_vertex "parity" (Some "+") None) 3.
Definition sx_C : chain_def := sx_chain "K" "K_BW" 2 2 3 1 0 1 0 0
  (sx_vertex "helicity" None (Some "")) (sx_vertex "helicity" None None) 5.
Definition sx_functions : list func_def :=
  [sx_bw "D_BW" 1 2 1 1 0 3; sx_multi "L_MC" 3 [sx_channel 0 1 1 2 3; sx_channel 1 1 2 4 5; sx_channel 0 2 2 6 7];
   sx_bw "K_BW" 1 2 1 0 1 3; sx_ff "Lc_FF" 1 5; sx_ff "D_FF" 1 3].
Definition sx_chains : list chain_def := [sx_A; sx_B; sx_C].
Definition sx_model : model_def := sx_def sx_chains sx_functions.
Definition sx_x (c : chain_def) : content :=
  if eqb (cd_name c) "D" then Content 3 1 2 3 1 0 1 0 0 (-1)
  else if eqb (cd_name c) "L" then Content 1 3 1 2 (-1) 0 0 1 0 1
  else Content 2 2 3 1 0 1 0 0 0 0.
Definition sx_tl (n : string) : string := n.

Ltac fn l1 l2 := exists l1, l2; split; [reflexivity|]; split; [reflexivity|];
  let g := fresh in let I := fresh in intros g I; cbn in I; repeat (destruct I as [<-|I]; [discriminate|]); destruct I.
Ltac numbers := let key := fresh in let I := fresh in intros key I; cbn in I;
  repeat (destruct I as [<-|I]; [eexists; reflexivity|]); destruct I.
Lemma sx_contents c : In c sx_chains -> has_content c (sx_x c).
Proof.
  intros [<-|[<-|[<-|[]]]].
  - apply sx_content; [perm|left; auto|right; cbn; auto].
  - apply sx_content; [perm|left; auto|right; cbn; auto].
  - apply sx_content; [perm|left; auto|left; auto].
Qed.
Lemma sx_complete c : In c sx_chains -> complete_chain sx_model c.
Proof.
  intros [<-|[<-|[<-|[]]]]; (split; [intros p [<-|[]]|intros v [<-|[<-|[]]]]).
  - exists (sx_bw "D_BW" 1 2 1 1 0 3). split; [fn (@nil func_def) (tl sx_functions)|].
    left. split; [reflexivity|]. numbers.
  - right; right. exists "Lc_FF", (sx_ff "Lc_FF" 1 5). split; [reflexivity|]. split; [discriminate|].
    split; [fn (firstn 3 sx_functions) (skipn 4 sx_functions)|]. split; [reflexivity|numbers].
  - right; right. exists "D_FF", (sx_ff "D_FF" 1 3). split; [reflexivity|]. split; [discriminate|].
    split; [fn (firstn 4 sx_functions) (@nil func_def)|]. split; [reflexivity|numbers].
  - eexists. split; [fn (firstn 1 sx_functions) (skipn 2 sx_functions)|].
    right. split; [reflexivity|]. split; [numbers|]. do 3 eexists. split; [reflexivity|]. split; [numbers|].
    intros c [<-|[<-|[<-|[]]]]; numbers.
  - left. reflexivity.
  - left. reflexivity.
  - eexists. split; [fn (firstn 2 sx_functions) (skipn 3 sx_functions)|]. left. split; [reflexivity|]. numbers.
  - right; left. reflexivity.
  - left. reflexivity.
Qed.
Definition sx_w (c : chain_def) : symbol := weight_sym sx_tl c (sx_x c).
Definition sx_dyn : chain_def -> defexpr := dynamics_value sx_model sx_tl.
Lemma sx_definition : helicity_definition sx_model (sx_dist sx_chains) sx_s 1 sx_tl None sx_x sx_w sx_dyn /\
  forall c, In c sx_chains -> closed_expression (sx_dyn c).
Proof.
  apply (complete_helicity sx_model (sx_dist sx_chains) sx_s 1 sx_tl (sx_describes _ _)).
  intros c I. split; [apply sx_contents; exact I|apply sx_complete; exact I].
Qed.
Lemma sx_formulate cl : exists M, SerAmplitude.formulate sx_model cl sx_tl None = Ok M.
Proof.
  apply (serial_total sx_model (sx_dist sx_chains) sx_s 1 sx_tl (sx_describes _ _) sx_x).
  intros c I. split; [apply sx_contents; exact I|apply sx_complete; exact I].
Qed.

(** ** C52, C53: one chain whose decay vertex has type parity *)
Definition sy_chain : chain_def := sx_chain "R" "R_BW" 1 1 2 3 1 0 1 0
  (sx_vertex "helicity" None None) (sx_vertex "parity" (Some "+") None) 1.
Definition sy_model : model_def := sx_def [sy_chain] [sx_bw "R_BW" 0 1 1 1 0 1].
Definition sy_x (c : chain_def) : content := Content 1 1 2 3 1 0 1 0 0 1.
Definition sy_w (c : chain_def) : symbol := weight_sym sx_tl c (sy_x c).
Definition sy_dyn : chain_def -> defexpr := dynamics_value sy_model sx_tl.
Lemma sy_hyp c : In c [sy_chain] -> has_content c (sy_x c) /\ complete_chain sy_model c.
Proof.
  intros [<-|[]]. split; [apply sx_content; [perm|left; auto|right; cbn; auto]|].
  split; [intros p [<-|[]]|intros v [<-|[<-|[]]]; left; reflexivity].
  eexists. split; [fn (@nil func_def) (@nil func_def)|]. left. split; [reflexivity|]. numbers.
Qed.
Lemma sy_definition : helicity_definition sy_model (sx_dist [sy_chain]) sx_s 1 sx_tl None sy_x sy_w sy_dyn.
Proof. apply (complete_helicity sy_model (sx_dist [sy_chain]) sx_s 1 sx_tl (sx_describes _ _) sy_x sy_hyp). Qed.
Definition sy_env : env := {|
  e_sym := fun y => if eqb y (sy_w sy_chain) then RtoC 1 else if eqb y (SpecSerial.sigma_sym 3) then RtoC 2
                    else if eqb y (named "m" "R") then RtoC 1 else RtoC 0;
  e_idx := fun _ _ => RtoC 0 |}.
Lemma sy_dynamics h : ceval sy_env h (de_expr (sy_dyn sy_chain)) = RtoC (-1).
Proof.
  assert (E : de_expr (sy_dyn sy_chain) = CMul (CMul (CMul (CNum 1)
    (breit_wigner (CVar (SpecSerial.sigma_sym 3)) (CVar (named "m" "R")) (CVar (named "\Gamma" "R")) (CVar (SpecSerial.mass_sym 1)) (CVar (SpecSerial.mass_sym 2))
       0 (CVar radius_sym) phase_space_factor)) (CNum 1)) (CNum 1)).
  { reflexivity. }
  rewrite E. cbn [ceval]. rewrite (c38_running sy_env h _ _ _ _ _ _ _ _ _ phase_space_factor_value) by (right; left; reflexivity).
  cbn [ceval]. change (e_sym sy_env (SpecSerial.sigma_sym 3)) with (RtoC 2). change (e_sym sy_env (named "m" "R")) with (RtoC 1).
  change (e_sym sy_env (named "\Gamma" "R")) with (RtoC 0). unfold CNum. cbn [ceval]. rewrite !Q2R_Z.
  unfold running_width, bw_simple. rewrite !Cmult_0_l, !Cmult_0_r, !Cmult_1_l, !Cmult_1_r.
  rewrite <- !RtoC_minus. unfold Cdiv. rewrite Cmult_1_l, Cinv_RtoC. f_equal. field.
Qed.
Lemma sy_theta : e_sym sy_env (theta_name 1 2) = RtoC 0. Proof. reflexivity. Qed.
Lemma sy_contribution l : at4 l 1 = -1 -> at4 l 2 = 0 -> at4 l 3 = 0 ->
  chain_contribution sy_x sy_w sy_dyn sy_env l sy_chain = RtoC (-1).
Proof.
  intros E1 E2 E3. unfold chain_contribution. rewrite sy_dynamics. change (e_sym sy_env (sy_w sy_chain)) with (RtoC 1).
  rewrite term_flipped; cbn [sy_x ct_li ct_lj ct_lk ct_k ct_fp ct_i ct_j ct_fd ct_spin ct_r];
    [|left; lia|exact E3|left; reflexivity|exact E1|exact E2].
  rewrite sy_theta. change (1 - 0) with 1. rewrite wigner_d_half_pp. cbn [Re RtoC fst].
  replace (0 / 2)%R with 0%R by field. rewrite cos_0. rewrite <- !RtoC_mult. f_equal. ring.
Qed.
Lemma sy_formalism l : at4 l 1 = -1 -> at4 l 2 = 0 -> at4 l 3 = 0 ->
  formalism_contribution sy_x sy_w sy_dyn sy_env l sy_chain = RtoC 0.
Proof.
  intros E1 E2 E3. unfold formalism_contribution, helicity_formalism_term. apply Csum_zero. intros q Hq.
  destruct (_ =? _); [|reflexivity]. cbn [sy_x ct_li ct_lj ct_lk ct_k ct_fp ct_i ct_j ct_fd ct_spin ct_r].
  rewrite E1, E2, E3.
  assert (Q : q = 1 \/ q <> 1) by lia. destruct Q as [->|N].
  - rewrite sy_theta. change (-1 - 0) with (-1). rewrite wigner_d_half_pm. cbn [Re RtoC fst].
    replace (0 / 2)%R with 0%R by field. rewrite sin_0, Ropp_0. ring.
  - unfold coupling_of. assert (q =? 1 = false) as -> by (apply Z.eqb_neq; exact N). cbn [andb].
    replace (0 + 0 * (if (q =? - (1)) && (0 =? - 0) then 1 else 0))%R with 0%R by ring. ring.
Qed.
Lemma sy_tuple l0 : In l0 [-1; 1] -> helicity_tuple sx_s (l0, -1, 0, 0).
Proof. intros I. cbn in I. destruct I as [<-|[<-|[]]]; vm_compute; auto 10. Qed.
Lemma sy_amplitude M cl l0 : In l0 [-1; 1] -> SerAmplitude.formulate sy_model cl sx_tl None = Ok M ->
  amp_value sy_env M 3 (l0, -1, 0, 0) = RtoC (-1).
Proof.
  intros I F. rewrite (serial_amplitude_value _ _ _ _ _ _ _ _ _ sy_definition cl M F).
  - change (chains_in sy_x (sx_dist [sy_chain]) 3) with [sy_chain]. cbn [Csum].
    rewrite sy_contribution by reflexivity. ring.
  - apply sy_tuple. exact I.
  - cbn; auto.
Qed.
Lemma sy_formulate cl : exists M, SerAmplitude.formulate sy_model cl sx_tl None = Ok M.
Proof. apply (serial_total sy_model (sx_dist [sy_chain]) sx_s 1 sx_tl (sx_describes _ _) sy_x). exact sy_hyp. Qed.
Lemma RtoC_m1 : RtoC (-1) <> RtoC 0.
Proof. intros E. apply RtoC_inj in E. lra. Qed.
Theorem c52_refuted : ~ (forall m d s r tl x w dyn cl M ev k l,
  helicity_definition m d s r tl None x w dyn -> SerAmplitude.formulate m cl tl None = Ok M ->
  helicity_tuple s l -> In k [1; 2; 3] ->
  (forall c, In c (di_chains d) -> ct_k (x c) = k -> at4 l 0 <> ct_r (x c) - at4 l k) ->
  amp_value ev M k l = RtoC 0).
Proof.
  intros C. destruct (sy_formulate false) as (M & F).
  apply RtoC_m1. rewrite <- (sy_amplitude M false (-1)); [|cbn; auto|exact F].
  apply (C sy_model _ sx_s 1 sx_tl sy_x sy_w sy_dyn false M sy_env 3 _ sy_definition F).
  - apply sy_tuple. cbn; auto.
  - cbn; auto.
  - intros c _ _. cbn. lia.
Qed.
(** at the right helicity of the initial state the Wigner function of the flipped term is wrong *)
Theorem c53_refuted : ~ (forall m d s r tl x w dyn cl M ev k l,
  helicity_definition m d s r tl None x w dyn -> SerAmplitude.formulate m cl tl None = Ok M ->
  helicity_tuple s l -> In k [1; 2; 3] ->
  (forall c, In c (di_chains d) -> In (ct_r (x c)) (helicities (ct_spin (x c))) /\ at4 l 0 = ct_r (x c) - at4 l k) ->
  amp_value ev M k l = Csum (chains_in x d k) (formalism_contribution x w dyn ev l)).
Proof.
  intros C. destruct (sy_formulate false) as (M & F).
  apply RtoC_m1. rewrite <- (sy_amplitude M false 1); [|cbn; auto|exact F].
  rewrite (C sy_model _ sx_s 1 sx_tl sy_x sy_w sy_dyn false M sy_env 3 (1, -1, 0, 0) sy_definition F).
  - change (chains_in sy_x (sx_dist [sy_chain]) 3) with [sy_chain]. cbn [Csum].
    rewrite sy_formalism by reflexivity. ring.
  - apply sy_tuple. cbn; auto.
  - cbn; auto.
  - intros c _. split; [vm_compute; auto|reflexivity].
Qed.

(** ** C54: vertices of type ls *)
Definition sl_vertex (l s : Z) (node : list item) (hs : list Z) : vertex :=
  Vertex "ls" node None (Some hs) None (Some l) (Some s).
Definition sl_chain : chain_def := sx_chain "R" "R_BW" 1 1 2 3 1 0 1 0 (sl_vertex 0 1) (sl_vertex 0 1) 1.
Definition sl_model : model_def := sx_def [sl_chain] [sx_bw "R_BW" 0 1 1 1 0 1].
Lemma sl_three_body c : In c [sl_chain] -> three_body_chain c /\ complete_chain sl_model c.
Proof.
  intros [<-|[]]. split.
  - do 6 eexists. apply sx_three_body; [perm|reflexivity|reflexivity].
  - split; [intros p [<-|[]]|intros v [<-|[<-|[]]]; left; reflexivity].
    eexists. split; [fn (@nil func_def) (@nil func_def)|]. left. split; [reflexivity|]. numbers.
Qed.
Lemma sl_error cl : SerAmplitude.formulate sl_model cl sx_tl None = Err TypeError.
Proof. destruct cl; vm_compute; reflexivity. Qed.

(** ** C55, C56: shared parameters *)
Definition sp_chain (name f : string) (w : Z) : chain_def := sx_chain name f 1 1 2 3 1 0 1 0
  (sx_vertex "helicity" None None) (sx_vertex "helicity" None None) w.
Definition sp_model : model_def := sx_def [sp_chain "R" "R_BW" 1; sp_chain "S" "S_BW" 1] [sx_bw "R_BW" 0 1 1 1 0 1; sx_bw "S_BW" 0 2 1 1 0 7].
Definition sp_x (c : chain_def) : content := Content 1 1 2 3 1 0 1 0 0 0.
Lemma sp_hyp c : In c (di_chains (sx_dist [sp_chain "R" "R_BW" 1; sp_chain "S" "S_BW" 1])) -> has_content c (sp_x c) /\ complete_chain sp_model c.
Proof.
  intros [<-|[<-|[]]]; (split; [apply sx_content; [perm|left; auto|left; auto]|]);
  (split; [intros p [<-|[]]|intros v [<-|[<-|[]]]; left; reflexivity]).
  - eexists. split; [fn (@nil func_def) [sx_bw "S_BW" 0 2 1 1 0 7]|]. left. split; [reflexivity|]. numbers.
  - eexists. split; [fn [sx_bw "R_BW" 0 1 1 1 0 1] (@nil func_def)|]. left. split; [reflexivity|]. numbers.
Qed.
Definition param_of (m : model_def) (y : pkey) : option pval :=
  match SerAmplitude.formulate m false sx_tl None with Ok M => dget y (m_params M) | Err _ => None end.
(** the value of [d] in a BreitWigner function *)
Theorem c55_refuted : ~ (forall m d s r tl x M c p f v,
  describes_states (fun n => n) m d s r -> (forall c, In c (di_chains d) -> has_content c (x c) /\ complete_chain m c) ->
  SerAmplitude.formulate m false tl None = Ok M ->
  In c (di_chains d) -> In p (cd_propagators c) -> function_of m (pr_parametrization p) f ->
  fd_type f = "BreitWigner" -> dget "d" (fd_numbers f) = Some v ->
  dget (KSym radius_sym) (m_params M) = Some (real_val v)).
Proof.
  intros C.
  assert (G : param_of sp_model (KSym radius_sym) = Some (real_val (sx_z 7))) by (vm_compute; reflexivity).
  unfold param_of in G. destruct (SerAmplitude.formulate sp_model false sx_tl None) as [M|] eqn:F; [|discriminate G].
  specialize (C sp_model _ sx_s 1 sx_tl sp_x M (sp_chain "R" "R_BW" 1) (Propagator (half 1) [It 1; It 2] "R_BW")
    (sx_bw "R_BW" 0 1 1 1 0 1) (sx_z 1) (sx_describes _ _) sp_hyp F).
  rewrite G in C. discriminate C.
  - left. reflexivity.
  - left. reflexivity.
  - fn (@nil func_def) [sx_bw "S_BW" 0 2 1 1 0 7].
  - reflexivity.
  - reflexivity.
Qed.
(** one resonance name in two subsystems *)
Definition sw_1 : chain_def := sx_chain "R" "R_BW" 1 1 2 3 1 0 1 0 (sx_vertex "helicity" None None) (sx_vertex "helicity" None None) 2.
Definition sw_2 : chain_def := sx_chain "R" "R_BW" 1 1 3 2 1 0 1 0 (sx_vertex "helicity" None None) (sx_vertex "helicity" None None) 3.
Definition sw_model : model_def := sx_def [sw_1; sw_2] [sx_bw "R_BW" 0 1 1 1 0 1].
Definition sw_x (c : chain_def) : content :=
  if eqb (cd_weight c) (cd_weight sw_1) then Content 1 1 2 3 1 0 1 0 0 0 else Content 1 1 3 2 1 0 1 0 0 0.
Lemma sw_hyp c : In c (di_chains (sx_dist [sw_1; sw_2])) -> has_content c (sw_x c) /\ complete_chain sw_model c.
Proof.
  intros [<-|[<-|[]]]; (split; [apply sx_content; [perm|left; auto|left; auto]|]);
  (split; [intros p [<-|[]]|intros v [<-|[<-|[]]]; left; reflexivity]);
  (eexists; split; [fn (@nil func_def) (@nil func_def)|]; left; split; [reflexivity|]; numbers).
Qed.
Theorem c56_refuted : ~ (forall m d s r tl x M c,
  describes_states (fun n => n) m d s r -> (forall c, In c (di_chains d) -> has_content c (x c) /\ complete_chain m c) ->
  SerAmplitude.formulate m false tl None = Ok M -> In c (di_chains d) ->
  dget (KSym (weight_sym tl c (x c))) (m_params M) = Some (cd_weight c)).
Proof.
  intros C.
  assert (G : param_of sw_model (KSym (weight_sym sx_tl sw_1 (sw_x sw_1))) = Some (cd_weight sw_2)) by (vm_compute; reflexivity).
  unfold param_of in G. destruct (SerAmplitude.formulate sw_model false sx_tl None) as [M|] eqn:F; [|discriminate G].
  specialize (C sw_model _ sx_s 1 sx_tl sw_x M sw_1 (sx_describes _ _) sw_hyp F (or_introl eq_refl)).
  rewrite G in C. discriminate C.
Qed.

(** ** C57: the form factor of a production vertex *)
Definition sf_vertex : vertex := sx_vertex "helicity" None (Some "FF") [Sub [It 1; It 2]; It 3] [1; 0].
Definition sf_model : model_def := sx_def [] [sx_ff "FF" 1 1].
Definition sf_env (t : R) : env := {|
  e_sym := fun y => if eqb y (SpecSerial.mass_sym 0) then RtoC (4 * t) else if eqb y (SpecSerial.sigma_sym 3) then RtoC (t * t)
                    else if eqb y (named "R" "Lc") then RtoC (/ t) else RtoC 0;
  e_idx := fun _ _ => RtoC 0 |}.
Lemma sf_units t : change_of_units t (sf_env 1) (sf_env t).
Proof.
  assert (G : forall y a, (y = SpecSerial.mass_sym 0 -> a = t) -> (y = SpecSerial.sigma_sym 3 -> a = (t * t)%R) -> (y = named "R" "Lc" -> a = (/ t)%R) ->
    e_sym (sf_env t) y = (RtoC a * e_sym (sf_env 1) y)%C).
  { intros y a H1 H2 H3. unfold sf_env. cbn [e_sym].
    destruct (eqb y (SpecSerial.mass_sym 0)) eqn:E1; [rewrite Prelude.eqb_eq in E1; rewrite (H1 E1), <- RtoC_mult; f_equal; ring|].
    destruct (eqb y (SpecSerial.sigma_sym 3)) eqn:E2; [rewrite Prelude.eqb_eq in E2; rewrite (H2 E2), <- RtoC_mult; f_equal; ring|].
    destruct (eqb y (named "R" "Lc")) eqn:E3; [rewrite Prelude.eqb_eq in E3; rewrite (H3 E3), <- RtoC_mult; f_equal; rewrite Rinv_1; ring|ring]. }
  split; [|split; [|split]].
  - intros n. apply G; intros E; [reflexivity|discriminate E|discriminate E].
  - intros n. apply G; intros E; [discriminate E|reflexivity|discriminate E].
  - apply G; intros E; discriminate E.
  - intros n. apply G; intros E; [discriminate E|discriminate E|reflexivity].
Qed.
Theorem c57_refuted : ~ (forall m d s r v e k i j t ev ev' h, describes_states (fun n => n) m d s r ->
  with_pair k [It i; It j] (v_node v) -> Permutation [i; j; k] [1; 2; 3] ->
  formulate_form_factor v m = Ok e -> (0 < t)%R -> change_of_units t ev ev' ->
  ceval ev' h (de_expr e) = ceval ev h (de_expr e)).
Proof.
  intros C.
  assert (FO : function_of sf_model "FF" (sx_ff "FF" 1 1)) by fn (@nil func_def) (@nil func_def).
  assert (V : forall ev h, exists e, formulate_form_factor sf_vertex sf_model = Ok e /\
    ceval ev h (de_expr e) = form_factor 1 (e_sym ev (SpecSerial.mass_sym 0)) (e_sym ev (SpecSerial.sigma_sym 3)) (e_sym ev (SpecSerial.mass_sym 3))
      (e_sym ev (named "R" "Lc"))).
  { intros ev h. destruct (c57_production_value sf_model (sx_dist []) sx_s 1 sf_vertex "FF" (sx_ff "FF" 1 1) (sx_z 1) (sx_z 1) 1 2 3 ev h)
      as (e & E & Ev & _).
    - apply sx_describes.
    - reflexivity.
    - discriminate.
    - exact FO.
    - reflexivity.
    - reflexivity.
    - reflexivity.
    - left. reflexivity.
    - reflexivity.
    - exists e. split; [exact E|exact Ev]. }
  destruct (V (sf_env 1) (fun _ => 0)) as (e & E & V1). destruct (V (sf_env 2) (fun _ => 0)) as (e' & E' & V2).
  assert (e' = e) by congruence. subst e'.
  pose proof (C sf_model (sx_dist []) sx_s 1 sf_vertex e 3 1 2 2%R (sf_env 1) (sf_env 2) (fun _ => 0) (sx_describes _ _)
    (or_introl eq_refl) (Permutation_refl _) E ltac:(lra) (sf_units 2)) as X.
  rewrite V1, V2 in X.
  change (e_sym (sf_env 2) (SpecSerial.mass_sym 0)) with (RtoC (4 * 2)) in X. change (e_sym (sf_env 1) (SpecSerial.mass_sym 0)) with (RtoC (4 * 1)) in X.
  change (e_sym (sf_env 2) (SpecSerial.sigma_sym 3)) with (RtoC (2 * 2)) in X. change (e_sym (sf_env 1) (SpecSerial.sigma_sym 3)) with (RtoC (1 * 1)) in X.
  change (e_sym (sf_env 2) (SpecSerial.mass_sym 3)) with (RtoC 0) in X. change (e_sym (sf_env 1) (SpecSerial.mass_sym 3)) with (RtoC 0) in X.
  change (e_sym (sf_env 2) (named "R" "Lc")) with (RtoC (/ 2)) in X. change (e_sym (sf_env 1) (named "R" "Lc")) with (RtoC (/ 1)) in X.
  rewrite (form_factor_1 (/ 2)), (form_factor_1 (9 / 16)) in X.
  - apply RtoC_inj in X. apply (f_equal (fun x => x * x)%R) in X. rewrite !sqrt_sqrt in X by lra. lra.
  - lra.
  - unfold breakup_squared, Cdiv. rewrite <- ?RtoC_plus, <- ?RtoC_minus, <- ?RtoC_mult, <- ?RtoC_minus, Cinv_RtoC, <- ?RtoC_mult. f_equal. field.
  - lra.
  - unfold breakup_squared, Cdiv. rewrite <- ?RtoC_plus, <- ?RtoC_minus, <- ?RtoC_mult, <- ?RtoC_minus, Cinv_RtoC, <- ?RtoC_mult. f_equal. field.
Qed.
