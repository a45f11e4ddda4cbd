(** The parameters of /repo/docs/Lc2ppiK.json (C55, C56) *)
From Coq Require Import String ZArith QArith Qcanon List Bool Permutation.
From Verif Require Import Prelude Spin Decay Expr CExpr Builder SerFormat SerDynamics SpecSerial SerModel SerProofs SerDyn LcModel LcProofs LcEffect SerEffectProofs SerDecay SpecLcParameters.
From Verif Require SerAmplitude.
Import ListNotations.
Local Open Scope string_scope.
Local Open Scope Z_scope.
Local Open Scope list_scope.

Definition lc_params : list (dict pkey pval) := map (fun c => de_params (lc_dyn c)) lc_chains.
Definition is_mass (y : pkey) : bool := existsb (fun n => eqb y (mass_key n)) [0; 1; 2; 3].
Definition same_val (v v' : pval) : bool := Qc_eq_bool (fst v) (fst v') && Qc_eq_bool (snd v) (snd v').
Lemma same_val_eq v v' : same_val v v' = true -> v = v'.
Proof.
  unfold same_val. intros E. apply andb_true_iff in E. destruct E as [E1 E2]. apply Qc_eq_bool_correct in E1, E2.
  destruct v, v'. cbn [fst snd] in *. congruence.
Qed.
Lemma lc_agree : forallb (fun p => forallb (fun y => is_mass y || forallb (fun p' =>
    match dget y p, dget y p' with Some v, Some v' => same_val v v' | _, _ => true end) lc_params) (dkeys p)) lc_params = true.
Proof. vm_compute. reflexivity. Qed.
Lemma lc_no_weight : forallb (fun p => forallb (fun y => negb (existsb (fun c => eqb y (KSym (lc_w c))) lc_chains)) (dkeys p)) lc_params = true.
Proof. vm_compute. reflexivity. Qed.
Lemma is_mass_false y : is_mass y = false <-> forall n, In n [0; 1; 2; 3] -> y <> mass_key n.
Proof.
  unfold is_mass. split.
  - intros E n I ->. assert (X : existsb (fun n0 => eqb (mass_key n) (mass_key n0)) [0; 1; 2; 3] = true); [|congruence].
    apply existsb_exists. exists n. split; [exact I|apply eqb_refl].
  - intros N. destruct (existsb (fun n => eqb y (mass_key n)) [0; 1; 2; 3]) eqn:E; [|reflexivity].
    apply existsb_exists in E. destruct E as (n & I & E). destruct (N n I (proj1 (eqb_eq _ _) E)).
Qed.
Lemma lc_not_weight c c' : In c lc_chains -> In c' lc_chains -> ~ In (KSym (lc_w c)) (dkeys (de_params (lc_dyn c'))).
Proof.
  intros Hc Hc' I. pose proof lc_no_weight as B. rewrite forallb_forall in B. specialize (B _ (in_map (fun c => de_params (lc_dyn c)) _ _ Hc')).
  rewrite forallb_forall in B. specialize (B _ I). apply negb_true_iff in B.
  assert (X : existsb (fun c0 => eqb (KSym (lc_w c)) (KSym (lc_w c0))) lc_chains = true); [|congruence].
  apply existsb_exists. exists c. split; [exact Hc|apply eqb_refl].
Qed.
Lemma lc_own c c' y v v' : In c lc_chains -> In c' lc_chains -> (forall n, In n [0; 1; 2; 3] -> y <> mass_key n) ->
  own_parameter (lc_w c) (lc_dyn c) c y v -> own_parameter (lc_w c') (lc_dyn c') c' y v' -> v' = v.
Proof.
  intros Hc Hc' N [G|(A & -> & ->)] [G'|(A' & E' & ->)].
  - pose proof lc_agree as B. rewrite forallb_forall in B. specialize (B _ (in_map (fun c => de_params (lc_dyn c)) _ _ Hc)).
    rewrite forallb_forall in B. specialize (B y (proj1 (dget_In _ _) (ex_intro _ v G))).
    rewrite (proj2 (is_mass_false y) N) in B. cbn [orb] in B. rewrite forallb_forall in B. specialize (B _ (in_map (fun c => de_params (lc_dyn c)) _ _ Hc')).
    cbv beta in B. rewrite G, G' in B. symmetry. apply same_val_eq. exact B.
  - exfalso. subst y. apply (lc_not_weight c' c Hc' Hc). apply (proj1 (dget_In _ _)). eauto.
  - exfalso. apply (lc_not_weight c c' Hc Hc'). apply (proj1 (dget_In _ _)). eauto.
  - apply (f_equal (fun y => match y with KSym z => z | _ => lc_w c end)) in E'. f_equal. exact (weight_inj lc_dist lc_w lc_distinct c Hc c' Hc' (eq_sym E')).
Qed.
Theorem lc_parameters cl M : SerAmplitude.formulate lc_model cl lc_tl lc_builders = Ok M -> forall c y v, In c lc_chains ->
  (forall n, In n [0; 1; 2; 3] -> y <> mass_key n) -> own_parameter (lc_w c) (lc_dyn c) c y v -> dget y (m_params M) = Some v.
Proof.
  intros F c y v Hc N O. apply (serial_parameters_agree lc_model lc_dist lc_s 2 lc_tl lc_builders lc_x lc_w lc_dyn lc_definition cl M F y v N).
  - exists c. split; [exact Hc|exact O].
  - intros c' v' Hc' O'. exact (lc_own c c' y v v' Hc Hc' N O O').
Qed.
Theorem lc_weight_values cl M : SerAmplitude.formulate lc_model cl lc_tl lc_builders = Ok M -> forall c, In c lc_chains -> dget (KSym (lc_w c)) (m_params M) = Some (cd_weight c).
Proof.
  intros F c Hc. apply (lc_parameters cl M F c _ _ Hc).
  - intros n I E. apply (f_equal (fun y => match y with KSym z => z | _ => lc_w c end)) in E.
    pose proof (SerWeights.weight_none lc_model lc_dist lc_s 2 lc_tl lc_builders lc_x lc_w lc_dyn lc_definition (lc_w c) (ex_intro _ c (conj Hc eq_refl))) as Q.
    rewrite E in Q. discriminate Q.
  - right. split; [apply lc_not_weight; exact Hc|]. split; reflexivity.
Qed.
(** The numbers of the functions *)
Definition opt_same (o : option pval) (q : Qc) : bool := match o with Some v => same_val v (real_val q) | None => false end.
Lemma opt_same_eq o q : opt_same o q = true -> o = Some (real_val q).
Proof. destruct o as [v|]; [|discriminate]. intros E. f_equal. apply same_val_eq. exact E. Qed.
Lemma lc_function_check : forallb (fun c => forallb (fun p => match get_function_definition (pr_parametrization p) lc_model with
  | Ok f => forallb (fun ky => match dget (fst ky) (fd_numbers f) with
      | Some q => opt_same (dget (KSym (snd ky)) (de_params (lc_dyn c))) q && negb (is_mass (KSym (snd ky))) | None => true end)
      (function_symbols (fd_type f) (lc_tl (cd_name c)))
  | Err _ => true end) (cd_propagators c)) lc_chains = true.
Proof. vm_compute. reflexivity. Qed.
Theorem lc_function_values cl M : SerAmplitude.formulate lc_model cl lc_tl lc_builders = Ok M -> forall c p f key y v, In c lc_chains ->
  In p (cd_propagators c) -> function_of lc_model (pr_parametrization p) f -> In (key, y) (function_symbols (fd_type f) (lc_tl (cd_name c))) ->
  dget key (fd_numbers f) = Some v -> dget (KSym y) (m_params M) = Some (real_val v).
Proof.
  intros F c p f key y v Hc Hp Hf Hk Hv. pose proof lc_function_check as B. rewrite forallb_forall in B. specialize (B c Hc).
  rewrite forallb_forall in B. specialize (B p Hp). rewrite (proj2 (c50_function _ _ _) Hf) in B.
  rewrite forallb_forall in B. specialize (B _ Hk). cbn [fst snd] in B. rewrite Hv in B. apply andb_true_iff in B. destruct B as [B1 B2].
  apply negb_true_iff in B2. apply (lc_parameters cl M F c _ _ Hc (proj1 (is_mass_false _) B2)). left. apply opt_same_eq. exact B1.
Qed.
Lemma lc_radius_check : forallb (fun c => forallb (fun v => match v_formfactor v with
  | Some n => match get_function_definition n lc_model with
     | Ok f => match dget "radius" (fd_numbers f) with
        | Some q => opt_same (dget (KSym (radius_symbol (p_latex (st_particle (lc_s 0))) v)) (de_params (lc_dyn c))) q &&
                    negb (is_mass (KSym (radius_symbol (p_latex (st_particle (lc_s 0))) v))) | None => true end
     | Err _ => true end
  | None => true end) (cd_vertices c)) lc_chains = true.
Proof. vm_compute. reflexivity. Qed.
Theorem lc_radius_values cl M : SerAmplitude.formulate lc_model cl lc_tl lc_builders = Ok M -> forall c v n f q, In c lc_chains ->
  In v (cd_vertices c) -> v_formfactor v = Some n -> function_of lc_model n f -> dget "radius" (fd_numbers f) = Some q ->
  dget (KSym (radius_symbol (p_latex (st_particle (lc_s 0))) v)) (m_params M) = Some (real_val q).
Proof.
  intros F c v n f q Hc Hv Hn Hf Hq. pose proof lc_radius_check as B. rewrite forallb_forall in B. specialize (B c Hc).
  rewrite forallb_forall in B. specialize (B v Hv). rewrite Hn, (proj2 (c50_function _ _ _) Hf), Hq in B. apply andb_true_iff in B. destruct B as [B1 B2].
  apply negb_true_iff in B2. apply (lc_parameters cl M F c _ _ Hc (proj1 (is_mass_false _) B2)). left. apply opt_same_eq. exact B1.
Qed.
(** How many there are *)
Definition lc_count : nat * nat :=
  (length (flat_map (fun c => flat_map (fun p => match get_function_definition (pr_parametrization p) lc_model with
     | Ok f => filter (fun ky => match dget (fst ky) (fd_numbers f) with Some _ => true | None => false end) (function_symbols (fd_type f) (lc_tl (cd_name c))) | Err _ => [] end)
     (cd_propagators c)) lc_chains),
   length (flat_map (fun c => filter (fun v => match v_formfactor v with Some n => match get_function_definition n lc_model with
     | Ok f => match dget "radius" (fd_numbers f) with Some _ => true | None => false end | Err _ => false end | None => false end) (cd_vertices c)) lc_chains)).
Lemma lc_count_value : lc_count = (74, 26)%nat.
Proof. vm_compute. reflexivity. Qed.
