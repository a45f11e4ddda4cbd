(** Concrete decays for the properties of the amplitude builder, and the counterexamples. *)
From Coq Require Import String ZArith QArith Qcanon List Bool Reals Lia Lra Permutation.
From Coquelicot Require Import Complex.
From Verif Require Import DecayProofs.
From Verif Require Import Prelude Spin Decay Expr Angles Sums Wigner CG CExpr SpecKin SpecDPD Builder SpecBuilder
  SpinFacts DecayFacts AnglesFacts WignerFacts CGFacts CExprFacts BuilderFacts ModelFacts RefFacts OccFacts BuilderProofs
  RefRefuted.
Import ListNotations.
Local Open Scope string_scope.
Local Open Scope Z_scope.
Local Open Scope list_scope.

(** Lc -> p K pi with an L(1405) in K p and a D(1232) in p pi *)
Definition ex_st (i : Z) : state :=
  match i with
  | 0 => ex_s "Lc" 1 0
  | 1 => ex_s "p" 1 1
  | 2 => ex_s "pi" 0 2
  | _ => ex_s "K" 0 3
  end.
(** a lineshape with its own parameter for each resonance *)
Definition ex_line (c : chain) : defexpr :=
  let g := Sym ("g_" ++ p_name (ch_resonance c))%string ANonneg in
  DefExpr (CDiv (CVar g) (CSub (CVar (Sym "sigma2" ANonneg)) (CVar (Sym "m0" ANonneg)))) [(KSym g, one_val)].
Definition ex_builder (min_ls : min_ls_arg) : builder :=
  match mk_builder ex_decay min_ls false with
  | Ok b => match builder_register b (IdName "L(1405)") (fun c => Ok (ex_line c)) with Ok b => b | Err _ => b end
  | Err _ => Builder ex_decay (mk_configurator ex_decay) false false false
  end.
Definition ex_b : builder := ex_builder (MinBool false).
Definition ex_bh : builder := ex_builder (MinBool true).
Definition ex_dyn (c : chain) : defexpr := if eqb c ex_chain then ex_line c else de_unit.
Lemma ex_std : std_decay ex_decay ex_st.
Proof.
  constructor.
  - split; [repeat constructor|vm_compute; reflexivity].
  - apply Permutation_refl.
  - intros i H. apply In_0123 in H. destruct H as [->|[->|[->| ->]]]; reflexivity.
  - intros i H. apply In_0123 in H. destruct H as [->|[->|[->| ->]]]; vm_compute; discriminate.
Qed.
Lemma ex_dynamics m : m = MinBool false \/ m = MinBool true -> dynamics_of (ex_builder m) ex_dyn.
Proof.
  intros [->| ->] c H; (split; [|destruct H as [<-|[<-|[]]]; vm_compute; reflexivity]);
  (destruct H as [<-|[<-|[]]]; eexists; (split; [vm_compute; reflexivity|vm_compute; reflexivity])).
Qed.
Lemma ex_plain : plain_resonances ex_decay.
Proof. intros c [<-|[<-|[]]]; vm_compute; eauto. Qed.
Lemma ex_ls ph dh c : In c (d_chains ex_decay) -> has_ls ph dh c.
Proof. intros [<-|[<-|[]]]; split; intros _; vm_compute; discriminate. Qed.
Lemma ex_formulate m uc : m = MinBool false \/ m = MinBool true ->
  exists x, formulate (ex_builder m) None false uc = Ok x.
Proof.
  intros H. apply (c63 (ex_builder m) ex_st ex_dyn).
  - destruct H as [->| ->]; exact ex_std.
  - apply ex_dynamics, H.
  - intros c Hc. apply ex_ls. destruct H as [->| ->]; exact Hc.
  - left. split; auto. destruct H as [->| ->]; vm_compute; discriminate.
Qed.

(** *** Two LS couplings of one resonance *)
Definition dl_chain (L : Z) : chain :=
  Node (PSt (ex_s "Lc" 1 0))
    (Leaf (PSt (ex_s "pi" 0 2)))
    (Node (PPart (ex_p "L(1405)" 1)) (Leaf (PSt (ex_s "K" 0 3))) (Leaf (PSt (ex_s "p" 1 1))) (Some (LS 0 1)))
    (Some (LS L 1)).
Definition dl_decay : decay := Decay ex_states [dl_chain 0; dl_chain 1].
Definition dl_decay1 : decay := Decay ex_states [dl_chain 0].
Definition dl_b (d : decay) (h : history) (hel : bool) : builder :=
  Builder d (register_all (mk_configurator d) h) hel hel false.
Lemma dl_std : std_decay dl_decay ex_st /\ std_decay dl_decay1 ex_st.
Proof.
  split; constructor.
  1,5: (split; [repeat constructor|vm_compute; reflexivity]).
  1,4: apply Permutation_refl.
  all: intros i H; apply In_0123 in H; destruct H as [->|[->|[->| ->]]]; try reflexivity; vm_compute; discriminate.
Qed.

(** C32: the builder registered for the second chain is ignored. *)
Lemma c32_refuted : exists d s (h h' : history) c f m,
  std_decay d s /\ In c (d_chains d) /\ last_registered d (h ++ h') c f /\ f c <> default_builder c /\
  get_builder (register_all (mk_configurator d) (h ++ h')) (IdChain c) = Ok f /\
  never_registered d h c /\
  formulate (Builder d (register_all (mk_configurator d) (h ++ h')) true true false) None false false = Ok m /\
  formulate (Builder d (register_all (mk_configurator d) h) true true false) None false false = Ok m.
Proof.
  destruct (formulate (dl_b dl_decay [] true) None false false) as [m|] eqn:E; [|vm_compute in E; discriminate].
  exists dl_decay, ex_st, [], [(IdChain (dl_chain 1), fun c => Ok (ex_line c))], (dl_chain 1), (fun c => Ok (ex_line c)), m.
  split; [apply dl_std|]. split; [right; left; reflexivity|]. split.
  { exists [], (IdChain (dl_chain 1)), []. split; [reflexivity|]. split; [|intros ? ? []].
    split; [reflexivity|right; left; reflexivity]. }
  split; [vm_compute; discriminate|]. split; [vm_compute; reflexivity|]. split; [intros ? ? []|].
  split; [|exact E]. rewrite <- E. vm_compute. reflexivity.
Qed.
(** C32, the positive part: without repeated names the builders are the registered ones. *)
Lemma c32 d h ph dh all dyn :
  NoDup (map (fun c => p_name (ch_resonance c)) (d_chains d)) ->
  (forall c, In c (d_chains d) -> default_or_last d h c (dyn c) /\ lineshape (de_expr (dyn c)) = true) ->
  dynamics_of (Builder d (register_all (mk_configurator d) h) ph dh all) dyn.
Proof.
  intros ND H c Hc. destruct (H c Hc) as [X L]. split; auto. cbn [b_dynamics b_decay] in *.
  pose proof (name_denotes d c ND Hc) as De. destruct (c31 d h) as (A & B & _ & _).
  destruct X as [(f & F & E)|(N & ->)].
  - exists f. split; auto. apply (A _ _ _ De F).
  - destruct (B _ _ De N) as (f & F & E). exists f. split; auto.
Qed.

Lemma c32_value d s h ph dh all dyn ref cl uc m :
  std_decay d s -> NoDup (map (fun c => p_name (ch_resonance c)) (d_chains d)) ->
  (forall c, In c (d_chains d) -> default_or_last d h c (dyn c) /\ lineshape (de_expr (dyn c)) = true) ->
  (ph = false -> plain_resonances d) ->
  formulate (Builder d (register_all (mk_configurator d) h) ph dh all) ref cl uc = Ok m ->
  forall ev l i j k, helicity_tuple s l -> cyclic i j k -> In k (get_subsystem_ids d) ->
    amp_value ev m k l =
      dpd_amplitude ph dh s (d_chains d)
        (fun c r => (if uc then coefficient else coupling_product) ev ph dh c r (at4 l k) (at4 l i) (at4 l j))
        (fun c => ceval ev (fun _ => 0) (de_expr (dyn c)))
        (Re (e_sym ev (theta_name i j))) (at4 l) i j k.
Proof.
  intros D ND H PR F ev l i j k Hl Cy Hk.
  destruct (amplitude_formula (Builder d (register_all (mk_configurator d) h) ph dh all) s D dyn ref cl uc m
    (c32 d h ph dh all dyn ND H) PR F l i j k Hl Cy (or_intror Hk)) as (_ & _ & A). apply A.
Qed.

(** C33: the same couplings twice *)
Lemma dl_dynamics d hel : d = dl_decay \/ d = dl_decay1 -> dynamics_of (dl_b d [] hel) (fun _ => de_unit).
Proof.
  intros H c Hc. split; [|reflexivity]. exists default_builder. split; [|reflexivity].
  destruct H as [->| ->]; simpl in Hc; repeat destruct Hc as [<-|Hc]; try destruct Hc; vm_compute; reflexivity.
Qed.
Lemma c33_refuted : exists b b1 s m m1 k l,
  std_decay (b_decay b) s /\ std_decay (b_decay b1) s /\
  b_prod_helicity b = true /\ b_dec_helicity b = true /\
  (exists c c', d_chains (b_decay b) = [c; c'] /\ d_chains (b_decay b1) = [c] /\
     forall r lk li lj, coupling_pair true true c r lk li lj = coupling_pair true true c' r lk li lj) /\
  formulate b None false false = Ok m /\ formulate b1 None false false = Ok m1 /\
  helicity_tuple s l /\
  (forall ev, amp_value ev m k l = (RtoC 2 * amp_value ev m1 k l)%C) /\
  exists ev, amp_value ev m1 k l = RtoC 1.
Proof.
  destruct (formulate (dl_b dl_decay [] true) None false false) as [m|] eqn:E; [|vm_compute in E; discriminate].
  destruct (formulate (dl_b dl_decay1 [] true) None false false) as [m1|] eqn:E1; [|vm_compute in E1; discriminate].
  exists (dl_b dl_decay [] true), (dl_b dl_decay1 [] true), ex_st, m, m1, 2, (-1, 1, 0, 0).
  split; [apply dl_std|]. split; [apply dl_std|]. do 2 (split; [reflexivity|]). split.
  { exists (dl_chain 0), (dl_chain 1). repeat split. }
  do 2 (split; [assumption|]).
  assert (Hl : helicity_tuple ex_st (-1, 1, 0, 0)) by (repeat split; vm_compute; auto).
  split; [exact Hl|].
  assert (Cy : cyclic 3 1 2) by (right; right; left; reflexivity).
  destruct (amplitude_formula (dl_b dl_decay [] true) ex_st (proj1 dl_std) (fun _ => de_unit) None false false m
    (dl_dynamics dl_decay true (or_introl eq_refl)) ltac:(discriminate) E _ _ _ _ Hl Cy) as (_ & _ & A).
  { right. vm_compute. auto. }
  destruct (amplitude_formula (dl_b dl_decay1 [] true) ex_st (proj2 dl_std) (fun _ => de_unit) None false false m1
    (dl_dynamics dl_decay1 true (or_intror eq_refl)) ltac:(discriminate) E1 _ _ _ _ Hl Cy) as (_ & _ & A1).
  { right. vm_compute. auto. }
  assert (V : forall ev, amp_value ev m1 2 (-1, 1, 0, 0) =
    (RtoC (wigner_d 1 (-1) (-1) (Re (e_sym ev (theta_name 3 1)))) *
      (e_idx ev "\mathcal{H}^\mathrm{production}" [IStr "L(1405)"; IHel (-1); IHel 0] *
       e_idx ev "\mathcal{H}^\mathrm{decay}" [IStr "L(1405)"; IHel 0; IHel 1]))%C).
  { intros ev. rewrite A1. unfold dpd_amplitude. cbn [dl_b b_decay dl_decay1 d_chains].
    change (filter _ _) with [dl_chain 0]. cbn [Csum].
    change (helicities (p_spin (ch_resonance (dl_chain 0)))) with [-1; 1]. cbn [Csum].
    change (at4 (-1, 1, 0, 0) 0 =? -1 - at4 (-1, 1, 0, 0) 2) with true.
    change (at4 (-1, 1, 0, 0) 0 =? 1 - at4 (-1, 1, 0, 0) 2) with false. cbv iota.
    rewrite de_unit_eval. unfold coupling_product.
    cbn [dl_b b_prod_helicity b_dec_helicity prod_factor dec_factor coupling_index production_name decay_name].
    change (p_latex (ch_resonance (dl_chain 0))) with "L(1405)". 
    change (parity_sign (p_spin (ex_st 2) - at4 (-1, 1, 0, 0) 2)) with 1%R.
    change (parity_sign (p_spin (ex_st 1) - at4 (-1, 1, 0, 0) 1)) with 1%R.
    change (p_spin (ch_resonance (dl_chain 0))) with 1. cbn [at4].
    change (0 - 1) with (-1). rewrite !Rmult_1_l, !Cmult_1_l, !Cmult_1_r, !Cplus_0_r. reflexivity. }
  split.
  - intros ev. rewrite A, A1. unfold dpd_amplitude. cbn [dl_b b_decay dl_decay1 dl_decay d_chains].
    change (filter _ [dl_chain 0; dl_chain 1]) with [dl_chain 0; dl_chain 1].
    change (filter _ [dl_chain 0]) with [dl_chain 0]. cbn [Csum].
    change (helicities (p_spin (ch_resonance (dl_chain 0)))) with [-1; 1].
    change (helicities (p_spin (ch_resonance (dl_chain 1)))) with [-1; 1]. cbn [Csum].
    change (at4 (-1, 1, 0, 0) 0 =? -1 - at4 (-1, 1, 0, 0) 2) with true.
    change (at4 (-1, 1, 0, 0) 0 =? 1 - at4 (-1, 1, 0, 0) 2) with false. cbv iota.
    unfold coupling_product.
    cbn [dl_b b_prod_helicity b_dec_helicity prod_factor dec_factor coupling_index production_name decay_name].
    change (p_latex (ch_resonance (dl_chain 0))) with "L(1405)". 
    change (p_latex (ch_resonance (dl_chain 1))) with "L(1405)". 
    change (p_spin (ch_resonance (dl_chain 1))) with 1. change (p_spin (ch_resonance (dl_chain 0))) with 1.
    replace (RtoC 2) with (RtoC 1 + RtoC 1)%C by (rewrite <- RtoC_plus; f_equal; lra). ring.
  - exists (Env (fun _ => RtoC 0) (fun _ _ => RtoC 1)). rewrite V. cbn [e_sym e_idx Re RtoC fst].
    rewrite wigner_d_0. change (-1 =? -1) with true. rewrite !Cmult_1_l.
    unfold is_projection; simpl. ring.
Qed.

(** C34: the outer sum keeps the indices of the spinless states. *)
Lemma c34_refuted : exists b s m i,
  std_decay (b_decay b) s /\ formulate b None true false = Ok m /\
  In i [0; 1; 2; 3] /\ p_spin (s i) = 0 /\ In (hel_sym i) (sum_indices (m_intensity m)).
Proof.
  destruct (ex_formulate (MinBool true) false (or_intror eq_refl)) as [m0 _].
  destruct (formulate ex_bh None true false) as [m|] eqn:E; [|vm_compute in E; discriminate].
  exists ex_bh, ex_st, m, 2. split; [exact ex_std|]. split; [exact E|]. split; [simpl; auto|]. split; [reflexivity|].
  apply (c34_indices ex_bh ex_st None true false m ex_std E). simpl; auto.
Qed.
