(** Every weight of /repo/docs/Lc2ppiK.json has an effect (C153) *)
From Coq Require Import String ZArith QArith Qcanon List Bool Reals Lia Lra Permutation.
From Coquelicot Require Import Complex.
From Verif Require Import Prelude Spin SpinFacts Decay Expr Angles Sums CExpr CExprFacts SpecDPD Builder BuilderFacts Dynamics LineshapeProofs UnitaryProofs
  FiniteFacts FiniteShapes SpecObs SerFormat SerDynamics SpecSerial SpecWeights SpecPropagators SerDecay SerAmpFacts SerTotal SerWeights SerPropagators SpecSerFinite SerFinite SerBounded
  LcModel LcProofs PartExamples SpecSerEffect SerEffectProofs SerEffectShapes.
From Verif Require SerAmplitude.
Import ListNotations.
Local Open Scope string_scope.
Local Open Scope Z_scope.
Local Open Scope list_scope.

Lemma lc_distinct : NoDup (map lc_w lc_chains).
Proof.
  assert (B : forall l : list symbol, (fix nd (l : list symbol) := match l with [] => true | y :: l => negb (memb y l) && nd l end) l = true -> NoDup l).
  { induction l as [|y l IH]; intros E; constructor; apply andb_true_iff in E; destruct E as [E1 E2]; [|exact (IH E2)].
    intros J. apply memb_In in J. rewrite J in E1. discriminate E1. }
  apply B. vm_compute. reflexivity.
Qed.
Lemma lc_possible c : In c lc_chains -> resonance_possible (lc_x c) /\ final_possible lc_s (lc_x c).
Proof.
  assert (B : forallb (fun c => let q := lc_x c in
    memb (ct_r q) (helicities (ct_spin q)) && memb (ct_li q - ct_lj q) (helicities (ct_spin q)) &&
    memb (ct_lk q) (helicities (p_spin (lc_s (ct_k q)))) && memb (ct_li q) (helicities (p_spin (lc_s (ct_i q)))) &&
    memb (ct_lj q) (helicities (p_spin (lc_s (ct_j q)))) && (ct_fp q =? 0) && negb ((ct_fd q =? -1) && (ct_li q =? 0) && (ct_lj q =? 0))) lc_chains = true)
    by (vm_compute; reflexivity).
  intros I. rewrite forallb_forall in B. specialize (B c I). cbv zeta in B.
  repeat (apply andb_true_iff in B; destruct B as [B ?X]).
  apply memb_In in B, X4, X3, X2, X1. apply Z.eqb_eq in X0. split; [split; assumption|]. repeat split; try assumption.
  - intros (Q & _). rewrite X0 in Q. discriminate Q.
  - intros (Q1 & Q2 & Q3). rewrite Q1, Q2, Q3 in X. discriminate X.
Qed.
Lemma numbers_check keys (d : dict string Qc) : forallb (fun key => match dget key d with Some _ => true | None => false end) keys = true -> has_numbers keys d.
Proof. intros B key I. rewrite forallb_forall in B. specialize (B key I). destruct (dget key d); [eauto|discriminate B]. Qed.
Lemma lc_form_factors c v : In c lc_chains -> In v (cd_vertices c) -> complete_form_factor lc_model v.
Proof.
  assert (B : forallb (fun c => forallb (fun v => match v_formfactor v with
    | None => true
    | Some n => eqb n "" || match get_function_definition n lc_model with
        | Ok f => eqb (fd_type f) "BlattWeisskopf" && forallb (fun key => match dget key (fd_numbers f) with Some _ => true | None => false end) ["l"; "radius"]
        | Err _ => false end end) (cd_vertices c)) lc_chains = true) by (vm_compute; reflexivity).
  intros I J. rewrite forallb_forall in B. specialize (B c I). rewrite forallb_forall in B. specialize (B v J).
  destruct (v_formfactor v) as [n|] eqn:E; [|left; exact E]. right. apply orb_true_iff in B. destruct B as [B|B].
  - left. apply (proj1 (eqb_eq _ _)) in B. rewrite B in E. exact E.
  - destruct (eqb n "") eqn:En; [left; apply (proj1 (eqb_eq _ _)) in En; rewrite En in E; exact E|]. right.
    destruct (get_function_definition n lc_model) as [f|] eqn:Ef; [|discriminate B]. apply andb_true_iff in B. destruct B as [B1 B2].
    exists n, f. split; [exact E|]. split; [intros Q; rewrite Q in En; discriminate En|]. split; [exact (proj1 (c50_function _ _ _) Ef)|].
    split; [exact (proj1 (eqb_eq _ _) B1)|exact (numbers_check _ _ B2)].
Qed.
Definition has_all (keys : list string) (d : dict string Qc) : bool := forallb (fun key => match dget key d with Some _ => true | None => false end) keys.
Lemma lc_functions c p f : In c lc_chains -> In p (cd_propagators c) -> function_of lc_model (pr_parametrization p) f ->
  (fd_type f = "BreitWignerWidthExpLikeBugg" /\ pr_node p = [It 2; It 3] /\ ct_k (lc_x c) = 1) \/ complete_breit_wigner f \/ complete_multichannel f.
Proof.
  assert (B : forallb (fun c => forallb (fun p => match get_function_definition (pr_parametrization p) lc_model with
    | Ok f =>
        (eqb (fd_type f) "BreitWignerWidthExpLikeBugg" && match pr_node p with [It 2; It 3] => true | _ => false end && (ct_k (lc_x c) =? 1)) ||
        ((eqb (fd_type f) "BreitWigner" && has_all ["l"; "mass"; "width"; "ma"; "mb"; "d"] (fd_numbers f)) ||
         (eqb (fd_type f) "MultichannelBreitWigner" && has_all ["mass"] (fd_numbers f) && match fd_channels f with
            | Some (c0 :: c1 :: cs) => has_all ["d"] c0 && forallb (has_all ["l"; "ma"; "mb"; "gsq"]) (c0 :: c1 :: cs)
            | _ => false end))
    | Err _ => false end) (cd_propagators c)) lc_chains = true) by (vm_compute; reflexivity).
  intros I J Ff. rewrite forallb_forall in B. specialize (B c I). rewrite forallb_forall in B. specialize (B p J).
  rewrite (proj2 (c50_function _ _ _) Ff) in B. apply orb_true_iff in B. destruct B as [B|B]; [left|right].
  - apply andb_true_iff in B. destruct B as [B B3]. apply andb_true_iff in B. destruct B as [B1 B2].
    split; [exact (proj1 (eqb_eq _ _) B1)|]. split; [|exact (proj1 (Z.eqb_eq _ _) B3)].
    clear - B2. repeat match type of B2 with context [match ?z with _ => _ end] => is_var z; destruct z; try discriminate B2
      | context [match pr_node p with _ => _ end] => destruct (pr_node p); try discriminate B2 end. reflexivity.
  - apply orb_true_iff in B. destruct B as [B|B].
    + left. apply andb_true_iff in B. destruct B as [B1 B2]. split; [exact (proj1 (eqb_eq _ _) B1)|exact (numbers_check _ _ B2)].
    + right. apply andb_true_iff in B. destruct B as [B B3]. apply andb_true_iff in B. destruct B as [B1 B2].
      split; [exact (proj1 (eqb_eq _ _) B1)|]. split; [exact (numbers_check _ _ B2)|].
      destruct (fd_channels f) as [[|c0 [|c1 cs]]|]; try discriminate B3. apply andb_true_iff in B3. destruct B3 as [B3 B4].
      exists c0, c1, cs. split; [reflexivity|]. split; [exact (numbers_check _ _ B3)|].
      intros ch Ich. rewrite forallb_forall in B4. exact (numbers_check _ _ (B4 ch Ich)).
Qed.
Lemma lc_bugg p name y cpl h : pr_node p = [It 2; It 3] -> formulate_bugg_breit_wigner p name lc_model = Ok y -> live_own (Env se_base cpl) h 1 (de_expr y).
Proof.
  intros N E. unfold formulate_bugg_breit_wigner in E. rewrite N in E.
  destruct (get_function_definition (pr_parametrization p) lc_model) as [f|]; cbn [bind] in E; [|discriminate E].
  change (to_mandelstam_symbol [It 2; It 3]) with (Ok (sigma_sym 1)) in E.
  change (to_mass_symbol (It 2)) with (Ok (mass_sym 2)) in E. change (to_mass_symbol (It 3)) with (Ok (mass_sym 3)) in E.
  cbn [unpack2 bind] in E.
  destruct (get_final_state lc_model None) as [fin|]; cbn [bind] in E; [|discriminate E].
  destruct (dgetitem "mass" (fd_numbers f)) as [v1|]; cbn [bind] in E; [|discriminate E].
  destruct (dgetitem "width" (fd_numbers f)) as [v2|]; cbn [bind] in E; [|discriminate E].
  destruct (dgetitem 2 fin) as [v3|]; cbn [bind] in E; [|discriminate E].
  destruct (dgetitem 3 fin) as [v4|]; cbn [bind] in E; [|discriminate E].
  destruct (dgetitem "slope" (fd_numbers f)) as [v5|]; cbn [bind] in E; [|discriminate E].
  injection E as <-. cbn [de_expr].
  change (live_own (Env se_base cpl) h 1 (bugg_breit_wigner (CVar (sigma_sym 1)) (CVar (in_braces "m" name)) (CVar (in_braces "\Gamma" name))
    (CVar (mass_sym 2)) (CVar (mass_sym 3)) (CVar (in_braces "\gamma" name)))). split.
  - rewrite (proj1 (c38_bugg (Env se_base cpl) h _ _ _ _ _ _)). cbn [ceval].
    change (e_sym (Env se_base cpl) (sigma_sym 1)) with (RtoC 4). change (e_sym (Env se_base cpl) (mass_sym 2)) with (RtoC (/8)).
    change (e_sym (Env se_base cpl) (mass_sym 3)) with (RtoC (/8)). change (e_sym (Env se_base cpl) (in_braces "m" name)) with (RtoC (/2)).
    change (e_sym (Env se_base cpl) (in_braces "\Gamma" name)) with (RtoC (/2)). change (e_sym (Env se_base cpl) (in_braces "\gamma" name)) with (RtoC (/2)).
    replace (RtoC (/8) * RtoC (/8) - RtoC (/8) * RtoC (/8) / RtoC 2)%C with (RtoC (/128)) by (apply injective_projections; cbn [fst snd RtoC Cplus Cminus Cmult Copp Cdiv Cinv]; field).
    replace (RtoC (/2) * RtoC (/2) - RtoC (/128))%C with (RtoC (31/128)) by (apply injective_projections; cbn [fst snd RtoC Cplus Cminus Cmult Copp]; field).
    rewrite <- RtoC_opp, <- !RtoC_mult, cexp_real, <- !RtoC_minus, <- RtoC_div, <- !RtoC_mult by lra.
    intros Q. assert (D : forall a X, a <> 0%R -> (RtoC a - Ci * RtoC X)%C <> RtoC 0).
    { clear. intros a X A Q. apply (f_equal fst) in Q. change (a + - (0 * X - 1 * 0) = 0)%R in Q. apply A. lra. }
    match type of Q with (_ / (RtoC ?a - Ci * RtoC ?X))%C = _ => assert (An : a <> 0%R) by (apply Rlt_not_eq; lra); pose proof (D a X An) as Dn; set (den := (RtoC a - Ci * RtoC X)%C) in * end.
    apply (f_equal (fun z => (z * den)%C)) in Q. replace (RtoC 1 / den * den)%C with (RtoC 1) in Q by (field; exact Dn).
    rewrite Cmult_0_l in Q. apply (f_equal fst) in Q. cbn [fst RtoC] in Q. lra.
  - intros z Hz. unfold bugg_breit_wigner, bugg_g_squared, bugg_adler_zero, CNum in Hz. cbn [symbols_of app In] in Hz.
    repeat (destruct Hz as [<-|Hz]; [first [left; reflexivity|right; intros n'; discriminate]|]). destruct Hz.
Qed.
Lemma lc_live c : In c lc_chains -> live_serial lc_x lc_dyn c.
Proof.
  intros Hc. apply (live_chain lc_model lc_dist lc_s 2 lc_tl lc_builders lc_x lc_w lc_dyn c lc_definition).
  - intros a Q. injection Q as <-. repeat constructor. intros [].
  - exact Hc.
  - intros v. apply lc_form_factors. exact Hc.
  - intros p y cpl Ip (f & b & Ff & Bf & E). destruct (lc_functions c p f Hc Ip Ff) as [(Ty & N & K)|Co].
    + left. rewrite K. destruct Bf as [(a & Q & J)|(Nt & _)].
      * injection Q as <-. destruct J as [J|[]]. injection J as _ <-. exact (lc_bugg p _ y cpl _ N E).
      * exfalso. apply (Nt _ eq_refl). rewrite Ty. left. reflexivity.
    + right. split; [|exists f; auto]. exists f, b. split; [exact Ff|]. split; [|exact E].
      destruct Bf as [(a & Q & J)|(_ & Bf)]; [|right; split; [intros a Q; discriminate Q|exact Bf]].
      exfalso. injection Q as <-. destruct J as [J|[]]. apply (f_equal fst) in J. cbn [fst] in J.
      destruct Co as [(Ty & _)|(Ty & _)]; rewrite Ty in J; discriminate J.
Qed.
Lemma lc_effect cl M : SerAmplitude.formulate lc_model cl lc_tl lc_builders = Ok M -> forall c, In c lc_chains -> value_has_effect M (lc_w c).
Proof.
  intros F c Hc. destruct (lc_possible c Hc) as [Rp Fp].
  exact (weight_effect lc_model lc_dist lc_s 2 lc_tl lc_builders lc_x lc_w lc_dyn lc_definition cl M F lc_weights lc_distinct c Hc Rp Fp (lc_live c Hc)).
Qed.
