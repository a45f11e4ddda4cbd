(** Properties C21-C35, C39, C40, C63, C64: the amplitude builder of __init__.py.
    Specification vocabulary: SpecDPD.v, SpecBuilder.v, SpecKin.v *)
From Coq Require Import String ZArith QArith Qcanon List Bool Reals Permutation.
From Coquelicot Require Import Complex.
From Verif Require Import DecayProofs.
From Verif Require Import Prelude Spin Decay Expr Angles Sums Wigner CG CExpr SpecKin SpecDPD Builder SpecBuilder
  ModelFacts RefFacts OccFacts BuilderProofs RefRefuted BuilderExamples.
From Verif Require AnglesProofs.
Import ListNotations.
Local Open Scope string_scope.
Local Open Scope Z_scope.
Local Open Scope list_scope.

(** ** C21 *)
Theorem C21_invariants d s :
  std_decay d s -> exists e1 e2 e3,
  formulate_invariants d = Ok [(Sym "sigma1" ANonneg, e1); (Sym "sigma2" ANonneg, e2); (Sym "sigma3" ANonneg, e3)] /\
  (forall env p1 p2 p3, momenta_of env p1 p2 p3 ->
     reval env e1 = at_s1 env /\ reval env e2 = at_s2 env /\ reval env e3 = at_s3 env) /\
  (forall env, (reval env e1 = at_s1 env <-> reval env e2 = at_s2 env) /\
               (reval env e2 = at_s2 env <-> reval env e3 = at_s3 env)) /\
  create_mass_symbol_mapping d = Ok [(Sym "m0" ANonneg, p_mass (s 0)); (Sym "m1" ANonneg, p_mass (s 1));
                                     (Sym "m2" ANonneg, p_mass (s 2)); (Sym "m3" ANonneg, p_mass (s 3))].
Proof. exact (c21 d s). Qed.
Print Assumptions C21_invariants.
Example C21_example : std_decay ex_decay ex_st.
Proof. exact ex_std. Qed.

(** The hypotheses of the following theorems are met by the example decay, in both bases, with a lineshape
    registered for one of its resonances. *)
Example C22_example : std_decay (b_decay ex_b) ex_st /\ dynamics_of ex_b ex_dyn /\ plain_resonances (b_decay ex_b) /\
  (forall c, In c (d_chains (b_decay ex_b)) -> has_ls false false c) /\
  (exists m, formulate ex_b None false false = Ok m) /\ (exists m, formulate ex_bh None false true = Ok m) /\
  b_prod_helicity ex_b = false /\ b_prod_helicity ex_bh = true /\
  de_expr (ex_dyn ex_chain) <> CNum 1 /\ helicity_tuple ex_st (-1, 1, 0, 0).
Proof.
  split; [exact ex_std|]. split; [apply ex_dynamics; auto|]. split; [exact ex_plain|].
  split; [intros c; apply ex_ls|]. split; [apply ex_formulate; auto|]. split; [apply ex_formulate; auto|].
  repeat split; vm_compute; auto; discriminate.
Qed.

(** ** C22 *)
Theorem C22_amplitudes_defined b s ref cl uc m :
  std_decay (b_decay b) s -> formulate b ref cl uc = Ok m ->
  (forall base idx, occurs_in_intensity m (OIdx base idx) -> exists e, dget (base, idx) (m_amplitudes m) = Some e) /\
  NoDup (dkeys (m_amplitudes m)) /\
  (forall x, In x (dkeys (m_amplitudes m)) <->
     exists k l, x = (amp_name k, amp_index l) /\ helicity_tuple s l /\
       (In k [1; 2; 3] /\ b_all_subsystems b = true \/
        exists c, In c (d_chains (b_decay b)) /\ st_index (ch_spectator c) = k)).
Proof. exact (c22 b s ref cl uc m). Qed.
Print Assumptions C22_amplitudes_defined.

(** ** C23 *)
Theorem C23_symbols_defined b s dyn ref cl uc m :
  std_decay (b_decay b) s -> dynamics_of b dyn -> formulate b ref cl uc = Ok m ->
  (forall base idx, occurs_in_amplitudes m (OIdx base idx) ->
     exists v, dget (KIdx base idx) (m_params m) = Some v) /\
  (forall x, occurs_in_amplitudes m (OAngle x) \/ occurs_in_intensity m (OAngle x) ->
     exists e, dget x (m_variables m) = Some e) /\
  ((forall c x, In c (d_chains (b_decay b)) -> In x (symbols_of (de_expr (dyn c))) ->
      In (KSym x) (dkeys (de_params (dyn c))) \/ mass_symbol x \/ mandelstam x) ->
   forall x, occurs_in_amplitudes m (OVar x) ->
     (exists v, dget (KSym x) (m_params m) = Some v) \/ mandelstam x) /\
  (forall x, ~ occurs_in_intensity m (OVar x)).
Proof. exact (c23 b s dyn ref cl uc m). Qed.
Print Assumptions C23_symbols_defined.

(** ** C24: the value of each amplitude is the Dalitz-plot-decomposition formula [dpd_amplitude] of SpecDPD.v *)
Theorem C24_dpd_formula b s dyn ref cl uc m : std_decay (b_decay b) s -> dynamics_of b dyn ->
  (b_prod_helicity b = false -> plain_resonances (b_decay b)) ->
  formulate b ref cl uc = Ok m ->
  forall l i j k, helicity_tuple s l -> cyclic i j k ->
    (b_all_subsystems b = true \/ In k (get_subsystem_ids (b_decay b))) ->
    (exists e, dget (amp_name k, amp_index l) (m_amplitudes m) = Some e) /\
    (exists th, formulate_scattering_angle i j = Ok (theta_name i j, th) /\
       dget (theta_name i j) (m_variables m) = Some th) /\
    forall ev, amp_value ev m k l =
      dpd_amplitude (b_prod_helicity b) (b_dec_helicity b) s (d_chains (b_decay b))
        (fun c r => (if uc then coefficient else coupling_product) ev (b_prod_helicity b) (b_dec_helicity b)
                      c r (at4 l k) (at4 l i) (at4 l j))
        (fun c => ceval ev (fun _ => 0) (de_expr (dyn c)))
        (Re (e_sym ev (theta_name i j))) (at4 l) i j k.
Proof. exact (fun D Dyn PR F => amplitude_formula b s D dyn ref cl uc m Dyn PR F). Qed.
Print Assumptions C24_dpd_formula.

(** ** C25 *)
Theorem C25_helicity_conservation b s dyn ref cl uc m :
  std_decay (b_decay b) s -> dynamics_of b dyn ->
  (b_prod_helicity b = false -> plain_resonances (b_decay b)) -> formulate b ref cl uc = Ok m ->
  forall ev l i j k, helicity_tuple s l -> cyclic i j k ->
    (b_all_subsystems b = true \/ In k (get_subsystem_ids (b_decay b))) ->
    (forall c, In c (d_chains (b_decay b)) -> st_index (ch_spectator c) = k ->
       p_spin (ch_resonance c) < Z.abs (at4 l 0 + at4 l k) \/ p_spin (ch_resonance c) < Z.abs (at4 l i - at4 l j)) ->
    amp_value ev m k l = RtoC 0.
Proof. exact (c25 b s dyn ref cl uc m). Qed.
Print Assumptions C25_helicity_conservation.

(** ** C26: the intensity is the sum of squared moduli of aligned amplitudes ([intensity_value] of SpecDPD.v) *)
Theorem C26_intensity_real_nonnegative b s ref cl uc m :
  std_decay (b_decay b) s -> formulate b ref cl uc = Ok m -> exists r ks,
  resolve_reference (b_decay b) ref = Ok r /\ Permutation ks (get_subsystem_ids (b_decay b)) /\
  forall ev, full_value ev m = RtoC (intensity_value s ks (amp_value ev m)
      (fun i k => Re (e_sym ev (zeta_symbol i k r)))) /\
    Im (full_value ev m) = 0%R /\ (0 <= Re (full_value ev m))%R.
Proof. exact (c26 b s ref cl uc m). Qed.
Print Assumptions C26_intensity_real_nonnegative.

(** ... with the alignment angles of angles.py, and the variables of the model are exactly the angles. *)
Theorem C26_angles_of_the_intensity b s ref cl uc m r :
  std_decay (b_decay b) s -> formulate b ref cl uc = Ok m ->
  resolve_reference (b_decay b) ref = Ok r ->
  (forall i k, In i [0; 1; 2; 3] -> In k (get_subsystem_ids (b_decay b)) -> p_spin (s i) <> 0 ->
     exists z, formulate_zeta_angle i k r = Ok (zeta_symbol i k r, z) /\
       dget (zeta_symbol i k r) (m_variables m) = Some z) /\
  (forall x, In x (dkeys (m_variables m)) <->
     (exists i j k, cyclic i j k /\ x = theta_name i j /\
        In k (if b_all_subsystems b then [1; 2; 3] else get_subsystem_ids (b_decay b))) \/
     (exists i k, In i [0; 1; 2; 3] /\ In k (get_subsystem_ids (b_decay b)) /\ p_spin (s i) <> 0 /\
        x = zeta_symbol i k r)).
Proof. exact (c26_angles b s ref cl uc m r). Qed.
Print Assumptions C26_angles_of_the_intensity.

(** ** C27 *)
Theorem C27_reference_independence b s dyn uc ref1 cl1 m1 r1 ref2 cl2 m2 r2 base cpl :
  std_decay (b_decay b) s -> dynamics_of b dyn -> (b_prod_helicity b = false -> plain_resonances (b_decay b)) ->
  formulate b ref1 cl1 uc = Ok m1 -> formulate b ref2 cl2 uc = Ok m2 ->
  resolve_reference (b_decay b) ref1 = Ok r1 -> resolve_reference (b_decay b) ref2 = Ok r2 ->
  turn_safe s r1 r2 (get_subsystem_ids (b_decay b)) ->
  physical (fun x => Re (base x)) -> nonsingular (fun x => Re (base x)) ->
  full_value (at_point (m_variables m1) base cpl) m1 = full_value (at_point (m_variables m2) base cpl) m2.
Proof. exact (fun D => reference_independence b s D dyn uc ref1 cl1 m1 r1 ref2 cl2 m2 r2 base cpl). Qed.
Print Assumptions C27_reference_independence.
Example C27_example : (exists m1, formulate ex_b (Some 2) false false = Ok m1) /\
  (exists m2, formulate ex_b (Some 3) false false = Ok m2) /\ turn_safe ex_st 2 3 (get_subsystem_ids (b_decay ex_b)) /\
  physical (fun x => Re (rx_base x)) /\ nonsingular (fun x => Re (rx_base x)).
Proof.
  split; [vm_compute; eexists; reflexivity|]. split; [vm_compute; eexists; reflexivity|].
  split; [right; left; vm_compute; intuition congruence|]. 
  split; [eexists _, _, _; exact AnglesProofs.ex_momenta|exact AnglesProofs.ex_nonsingular].
Qed.

(** ** C28: refuted for half-integer spin of the parent and three subsystems *)
Theorem C28_reference_independence_refuted :
  exists b s dyn m1 m2 base cpl,
  std_decay (b_decay b) s /\ dynamics_of b dyn /\ mk_builder (b_decay b) (MinBool true) false = Ok b /\
  (forall k, In k [1; 2; 3] -> In k (get_subsystem_ids (b_decay b))) /\
  formulate b (Some 1) false false = Ok m1 /\ formulate b (Some 2) false false = Ok m2 /\
  physical (fun x => Re (base x)) /\ nonsingular (fun x => Re (base x)) /\
  full_value (at_point (m_variables m1) base cpl) m1 <> full_value (at_point (m_variables m2) base cpl) m2.
Proof. exact c28. Qed.
Print Assumptions C28_reference_independence_refuted.

(** ** C29 *)
Theorem C29_coefficients_equivalent b s dyn ref cl m1 m2 :
  std_decay (b_decay b) s -> dynamics_of b dyn ->
  (b_prod_helicity b = false -> plain_resonances (b_decay b)) ->
  formulate b ref cl false = Ok m1 -> formulate b ref cl true = Ok m2 ->
  forall ev1 ev2, (forall x, e_sym ev1 x = e_sym ev2 x) ->
  (forall c r lk li lj, In c (d_chains (b_decay b)) ->
     coefficient ev2 (b_prod_helicity b) (b_dec_helicity b) c r lk li lj =
     coupling_product ev1 (b_prod_helicity b) (b_dec_helicity b) c r lk li lj) ->
  full_value ev1 m1 = full_value ev2 m2 /\
  forall k l, helicity_tuple s l -> In k (get_subsystem_ids (b_decay b)) ->
    amp_value ev1 m1 k l = amp_value ev2 m2 k l.
Proof. exact (c29 b s dyn ref cl m1 m2). Qed.
Print Assumptions C29_coefficients_equivalent.

(** Such values of the coefficients exist for all values of the couplings, *)
Theorem C29_coefficients_exist b ev1 :
  (forall c, In c (d_chains (b_decay b)) -> has_ls (b_prod_helicity b) (b_dec_helicity b) c) ->
  exists ev2, (forall x, e_sym ev1 x = e_sym ev2 x) /\
  forall c r lk li lj, In c (d_chains (b_decay b)) ->
     coefficient ev2 (b_prod_helicity b) (b_dec_helicity b) c r lk li lj =
     coupling_product ev1 (b_prod_helicity b) (b_dec_helicity b) c r lk li lj.
Proof. exact (c29_exists b ev1). Qed.
Print Assumptions C29_coefficients_exist.

(** and two pairs of couplings share a coefficient only if they are the same pair. *)
Theorem C29_coefficients_distinct ph dh c r lk li lj c' r' lk' li' lj' :
  has_ls ph dh c -> has_ls ph dh c' ->
  coefficient_key ph dh c r lk li lj = coefficient_key ph dh c' r' lk' li' lj' ->
  coupling_pair ph dh c r lk li lj = coupling_pair ph dh c' r' lk' li' lj'.
Proof. exact (coefficient_inj ph dh c r lk li lj c' r' lk' li' lj'). Qed.
Print Assumptions C29_coefficients_distinct.

(** ** C30 *)
Theorem C30_best_reference d s :
  std_decay d s ->
  (d_chains d = [] -> resolve_reference d None = Err ValueError) /\
  (d_chains d <> [] -> exists r, resolve_reference d None = Ok r /\
     (exists c, In c (d_chains d) /\ st_index (ch_spectator c) = r) /\
     forall k, (chain_count d k <= chain_count d r)%nat /\
               (chain_count d k = chain_count d r -> r <= k)) /\
  (forall r, resolve_reference d (Some r) = Ok r) /\
  (forall r, check_reference_subsystem d r = true <->
     ~ exists c, In c (d_chains d) /\ st_index (ch_spectator c) = r).
Proof. exact (c30 d s). Qed.
Print Assumptions C30_best_reference.

(** ** C31 *)
Theorem C31_last_registered_wins d h :
  let cf := register_all (mk_configurator d) h in
  (forall i c f, denotes d i c -> last_registered d h c f -> get_builder cf i = Ok f) /\
  (forall i c, denotes d i c -> never_registered d h c ->
     exists f, get_builder cf i = Ok f /\ forall c, f c = Ok (DefExpr (CNum 1) [])) /\
  (forall i c, denotes d i c -> (exists f, last_registered d h c f) \/ never_registered d h c) /\
  (forall i f, (forall c, ~ denotes d i c) ->
     register_builder cf i f = Err (registry_error i) /\ get_builder cf i = Err (registry_error i)).
Proof. exact (c31 d h). Qed.
Print Assumptions C31_last_registered_wins.
Example C31_example : let f : dyn_builder := fun c => Ok (ex_line c) in
  let h := [(IdChain ex_chain, f); (IdName "D(1232)", default_builder); (IdName "L(1405)", default_builder)] in
  denotes ex_decay (IdName "L(1405)") ex_chain /\ last_registered ex_decay h ex_chain default_builder /\
  ~ last_registered ex_decay h ex_chain f.
Proof.
  intros f h. assert (De : denotes ex_decay (IdName "L(1405)") ex_chain).
  { exists [], [ex_chain2]. split; [reflexivity|]. split; [reflexivity|]. intros ? []. }
  assert (L : last_registered ex_decay h ex_chain default_builder).
  { exists [(IdChain ex_chain, f); (IdName "D(1232)", default_builder)], (IdName "L(1405)"), [].
    split; [reflexivity|]. split; [exact De|]. intros ? ? []. }
  split; [exact De|]. split; [exact L|]. intros F.
  destruct (c31 ex_decay h) as (A & _). pose proof (A _ _ _ De L) as E. rewrite (A _ _ _ De F) in E.
  assert (X : f = default_builder) by congruence.
  apply (f_equal (fun g : dyn_builder => g ex_chain)) in X. vm_compute in X. discriminate X.
Qed.

(** ** C32: true if no two chains have resonances of the same name; the general statement is refuted. *)
Theorem C32_registered_builder_used_partial d s h ph dh all dyn ref cl uc m :
  std_decay d s -> NoDup (map (fun c => p_name (ch_resonance c)) (d_chains d)) ->
  (forall c, In c (d_chains d) -> default_or_last d h c (dyn c) /\ lineshape (de_expr (dyn c)) = true) ->
  (ph = false -> plain_resonances d) ->
  formulate (Builder d (register_all (mk_configurator d) h) ph dh all) ref cl uc = Ok m ->
  forall ev l i j k, helicity_tuple s l -> cyclic i j k -> In k (get_subsystem_ids d) ->
    amp_value ev m k l =
      dpd_amplitude ph dh s (d_chains d)
        (fun c r => (if uc then coefficient else coupling_product) ev ph dh c r (at4 l k) (at4 l i) (at4 l j))
        (fun c => ceval ev (fun _ => 0) (de_expr (dyn c)))
        (Re (e_sym ev (theta_name i j))) (at4 l) i j k.
Proof. exact (c32_value d s h ph dh all dyn ref cl uc m). Qed.
Print Assumptions C32_registered_builder_used_partial.
Example C32_example : NoDup (map (fun c => p_name (ch_resonance c)) (d_chains ex_decay)) /\
  default_or_last ex_decay [(IdName "L(1405)", fun c => Ok (ex_line c))] ex_chain (ex_line ex_chain).
Proof.
  split; [repeat constructor; vm_compute; intuition discriminate|]. left. exists (fun c => Ok (ex_line c)). split; [|reflexivity].
  exists [], (IdName "L(1405)"), []. split; [reflexivity|]. split; [|intros ? ? []].
  exists [], [ex_chain2]. split; [reflexivity|]. split; [reflexivity|]. intros ? [].
Qed.

Theorem C32_registered_builder_used_refuted :
  exists d s (h h' : history) c f m,
  std_decay d s /\ In c (d_chains d) /\ last_registered d (h ++ h') c f /\ f c <> default_builder c /\
  get_builder (register_all (mk_configurator d) (h ++ h')) (IdChain c) = Ok f /\
  never_registered d h c /\
  formulate (Builder d (register_all (mk_configurator d) (h ++ h')) true true false) None false false = Ok m /\
  formulate (Builder d (register_all (mk_configurator d) h) true true false) None false false = Ok m.
Proof. exact c32_refuted. Qed.
Print Assumptions C32_registered_builder_used_refuted.

(** ** C33: with different labels of the resonances, different terms of a subsystem amplitude (see C24: one
    for each chain and resonance helicity) have different couplings; otherwise the statement is refuted. *)
Theorem C33_counted_once_partial ph dh (chains : list chain) :
  NoDup (map (fun c => p_latex (ch_resonance c)) chains) ->
  forall c c' r r' lk li lj, In c chains -> In c' chains -> 
    coupling_pair ph dh c r lk li lj = coupling_pair ph dh c' r' lk li lj -> c = c' /\ (ph = true -> r = r').
Proof. exact (c33 ph dh chains). Qed.
Print Assumptions C33_counted_once_partial.

Theorem C33_counted_once_refuted :
  exists b b1 s m m1 k l,
  std_decay (b_decay b) s /\ std_decay (b_decay b1) s /\
  b_prod_helicity b = true /\ b_dec_helicity b = true /\
  (exists c c', d_chains (b_decay b) = [c; c'] /\ d_chains (b_decay b1) = [c] /\
     forall r lk li lj, coupling_pair true true c r lk li lj = coupling_pair true true c' r lk li lj) /\
  formulate b None false false = Ok m /\ formulate b1 None false false = Ok m1 /\
  helicity_tuple s l /\
  (forall ev, amp_value ev m k l = (RtoC 2 * amp_value ev m1 k l)%C) /\
  exists ev, amp_value ev m1 k l = RtoC 1.
Proof. exact c33_refuted. Qed.
Print Assumptions C33_counted_once_refuted.

(** ** C34: same value; the primed helicity indices of spinless states disappear; the unprimed ones do not. *)
Theorem C34_cleanup_same_value b s ref uc m1 m2 :
  std_decay (b_decay b) s ->
  formulate b ref false uc = Ok m1 -> formulate b ref true uc = Ok m2 ->
  (forall ev, full_value ev m1 = full_value ev m2) /\
  m_amplitudes m1 = m_amplitudes m2 /\ m_variables m1 = m_variables m2 /\ m_params m1 = m_params m2.
Proof. exact (c34_value b s ref uc m1 m2). Qed.
Print Assumptions C34_cleanup_same_value.

Theorem C34_cleanup_indices_partial b s ref cl uc m :
  std_decay (b_decay b) s -> formulate b ref cl uc = Ok m ->
  forall i, In i [0; 1; 2; 3] ->
    In (hel_sym i) (sum_indices (m_intensity m)) /\
    (In (hel_prime i) (sum_indices (m_intensity m)) <-> cl = false \/ p_spin (s i) <> 0).
Proof. exact (c34_indices b s ref cl uc m). Qed.
Print Assumptions C34_cleanup_indices_partial.

Theorem C34_cleanup_indices_refuted :
  exists b s m i,
  std_decay (b_decay b) s /\ formulate b None true false = Ok m /\
  In i [0; 1; 2; 3] /\ p_spin (s i) = 0 /\ In (hel_sym i) (sum_indices (m_intensity m)).
Proof. exact c34_refuted. Qed.
Print Assumptions C34_cleanup_indices_refuted.

(** ** C35 *)
Theorem C35_products (a b c : defexpr) :
  NoDup (dkeys (de_params b)) -> NoDup (dkeys (de_params c)) ->
  (forall ev h, ceval ev h (de_expr (de_mul a (MulDef b))) =
     (ceval ev h (de_expr a) * ceval ev h (de_expr b))%C) /\
  (forall k, dget k (de_params (de_mul a (MulDef b))) =
     match dget k (de_params b) with Some v => Some v | None => dget k (de_params a) end) /\
  (forall k, In k (dkeys (de_params (de_mul a (MulDef b)))) <->
     In k (dkeys (de_params a)) \/ In k (dkeys (de_params b))) /\
  (forall ev h, ceval ev h (de_expr (de_mul a (MulDef de_unit))) = ceval ev h (de_expr a) /\
     ceval ev h (de_expr (de_mul de_unit (MulDef b))) = ceval ev h (de_expr b)) /\
  (forall k, dget k (de_params (de_mul a (MulDef de_unit))) = dget k (de_params a) /\
     dget k (de_params (de_mul de_unit (MulDef b))) = dget k (de_params b)) /\
  (forall ev h, ceval ev h (de_expr (de_mul (de_mul a (MulDef b)) (MulDef c))) =
     ceval ev h (de_expr (de_mul a (MulDef (de_mul b (MulDef c)))))) /\
  (forall k, dget k (de_params (de_mul (de_mul a (MulDef b)) (MulDef c))) =
     dget k (de_params (de_mul a (MulDef (de_mul b (MulDef c)))))) /\
  (forall e defs, de_mul a (MulPair e defs) = de_mul a (MulDef (DefExpr e defs))) /\
  (forall e, de_mul a (MulExpr e) = de_mul a (MulDef (DefExpr e []))).
Proof. exact (c35 a b c). Qed.
Print Assumptions C35_products.
Example C35_example : NoDup (dkeys (de_params (ex_line ex_chain))) /\ de_params (ex_line ex_chain) <> [].
Proof. split; [repeat constructor; intros []|vm_compute; discriminate]. Qed.

(** ** C39 *)
Theorem C39_signs b s dyn ref cl uc m :
  std_decay (b_decay b) s -> dynamics_of b dyn -> formulate b ref cl uc = Ok m ->
  forall key e, dget key (m_amplitudes m) = Some e ->
  forall z, In z (sign_exponents (fun _ => 0) e) ->
    Z.even z = true /\ (csign z = RtoC 1 \/ csign z = RtoC (-1)).
Proof. exact (c39 b s dyn ref cl uc m). Qed.
Print Assumptions C39_signs.

(** ** C40 *)
Theorem C40_child_order parent c1 c2 ls hel e :
  formulate_clebsch_gordan_factors (Node parent c1 c2 (Some ls)) hel = Ok e ->
  exists e', formulate_clebsch_gordan_factors (Node parent c2 c1 (Some ls)) hel = Ok e' /\
    forall ev h,
      ceval ev h e' = (RtoC (parity_sign (2 * ls_L ls + ls_S ls - p_spin (pobj_particle parent))) * ceval ev h e)%C /\
      Cmod (ceval ev h e') = Cmod (ceval ev h e).
Proof. exact (c40 parent c1 c2 ls hel e). Qed.
Print Assumptions C40_child_order.
Example C40_example : exists p a b hel e,
  formulate_clebsch_gordan_factors (Node p (Leaf a) (Leaf b) (Some (LS 1 1))) hel = Ok e.
Proof.
  exists (PPart (ex_p "D(1232)" 3)), (PSt (ex_st 1)), (PSt (ex_st 2)),
    [(PSt (ex_st 1), HVal 1); (PSt (ex_st 2), HVal 0)].
  vm_compute. eexists. reflexivity.
Qed.

(** ** C63: a model is formulated for every valid decay whose chains have the LS couplings that the bases need,
    and for no other. *)
Theorem C63_formulate_total b s dyn : std_decay (b_decay b) s -> dynamics_of b dyn ->
  (forall c, In c (d_chains (b_decay b)) -> has_ls (b_prod_helicity b) (b_dec_helicity b) c) ->
  forall ref cl uc,
  (ref = None /\ d_chains (b_decay b) <> [] \/ exists r, ref = Some r /\ In r [1; 2; 3]) ->
  exists m, formulate b ref cl uc = Ok m.
Proof. exact (c63 b s dyn). Qed.
Print Assumptions C63_formulate_total.

Theorem C63_formulate_needs_ls b s dyn ref cl uc m :
  std_decay (b_decay b) s -> dynamics_of b dyn -> formulate b ref cl uc = Ok m ->
  forall c, In c (d_chains (b_decay b)) -> has_ls (b_prod_helicity b) (b_dec_helicity b) c.
Proof. exact (c63_ls b s dyn ref cl uc m). Qed.
Print Assumptions C63_formulate_needs_ls.

(** ** C64 *)
Theorem C64_parameter_defaults b s dyn ref cl uc m :
  std_decay (b_decay b) s -> dynamics_of b dyn ->
  (forall c y, In c (d_chains (b_decay b)) -> In y (dkeys (de_params (dyn c))) -> exists x, y = KSym x) ->
  formulate b ref cl uc = Ok m ->
  (forall base idx, (exists v, dget (KIdx base idx) (m_params m) = Some v) <-> occurs_in_amplitudes m (OIdx base idx)) /\
  (forall base idx v, dget (KIdx base idx) (m_params m) = Some v -> v = one_val) /\
  (forall i, In i [0; 1; 2; 3] -> dget (KSym (m_sym i)) (m_params m) = Some (real_val (p_mass (s i)))) /\
  (forall x v, dget (KSym x) (m_params m) = Some v ->
     mass_symbol x \/ exists c, In c (d_chains (b_decay b)) /\ In (KSym x, v) (de_params (dyn c))).
Proof. exact (c64 b s dyn ref cl uc m). Qed.
Print Assumptions C64_parameter_defaults.
Example C64_example : forall c y, In c (d_chains (b_decay ex_b)) -> In y (dkeys (de_params (ex_dyn c))) ->
  exists x, y = KSym x.
Proof. intros c y [<-|[<-|[]]]; vm_compute; intros H; repeat destruct H as [<-|H]; try contradiction; eauto. Qed.
