(** Properties of deserialised models (C52, C53, C55, C56, C70-C73). *)
From Coq Require Import String ZArith QArith Qcanon Qreals List Bool Reals Lia Lra Permutation Sorted.
From Coquelicot Require Import Complex.
From Verif Require Import Prelude Spin SpinFacts Decay DecayFacts Expr Angles AnglesFacts Sums Wigner WignerFacts CG CExpr
  CExprFacts OccFacts SpecDPD Builder BuilderFacts ModelFacts RefFacts BuilderProofs SerFormat SerDynamics SerAmplitude SpecSerial SerDecay SerAmpFacts SerModel.
Import ListNotations.
Local Open Scope string_scope.
Local Open Scope Z_scope.
Local Open Scope list_scope.

(** ** Dictionaries written in sequence *)
Section Writers.
  Context {K V A : Type} `{EqDec K}.
  Variable P : A -> dict K V.
  Hypothesis ND : forall a, NoDup (dkeys (P a)).
  Definition last_writer (y : K) (v : V) (l : list A) : Prop :=
    exists l1 a l2, l = l1 ++ a :: l2 /\ dget y (P a) = Some v /\ forall a', In a' l2 -> dget y (P a') = None.
  Lemma fold_writers y v l : forall p0, dget y (fold_left (fun p a => dupdate p (P a)) l p0) = Some v <->
    last_writer y v l \/ ((forall a, In a l -> dget y (P a) = None) /\ dget y p0 = Some v).
  Proof.
    induction l as [|a l IH] using rev_ind; intros p0.
    - cbn. split; [intros X; right; split; [tauto|exact X]|].
      intros [(l1 & a & l2 & E & _)|[_ X]]; [destruct l1; discriminate|exact X].
    - rewrite fold_left_app. cbn [fold_left]. rewrite dget_dupdate_nodup by apply ND.
      destruct (dget y (P a)) as [v'|] eqn:E.
      + split.
        * intros X. left. exists l, a, []. split; auto. split; [congruence|intros ? []].
        * intros [(l1 & b & l2 & E1 & E2 & E3)|[X _]].
          -- destruct (exists_last (l := b :: l2)) as (q & z & Q); [discriminate|].
             rewrite Q in E1. rewrite app_assoc in E1. apply app_inj_tail in E1. destruct E1 as [_ <-].
             destruct q as [|q0 q]; cbn in Q; injection Q as E4 E5.
             ++ subst. congruence.
             ++ specialize (E3 a). rewrite E5 in E3. rewrite E3 in E; [discriminate|]. apply in_or_app. right; left; auto.
          -- specialize (X a). rewrite X in E; [discriminate|]. apply in_or_app. right; left; auto.
      + rewrite IH. split.
        * intros [(l1 & b & l2 & -> & E2 & E3)|[X Y]].
          -- left. exists l1, b, (l2 ++ [a]). rewrite <- app_assoc. split; auto. split; auto.
             intros a' I. apply in_app_or in I. destruct I as [I|[<-|[]]]; auto.
          -- right. split; auto. intros a' I. apply in_app_or in I. destruct I as [I|[<-|[]]]; auto.
        * intros [(l1 & b & l2 & E1 & E2 & E3)|[X Y]].
          -- left. destruct (exists_last (l := b :: l2)) as (q & z & Q); [discriminate|].
             rewrite Q in E1. rewrite app_assoc in E1. apply app_inj_tail in E1. destruct E1 as [E1 <-].
             destruct q as [|q0 q]; cbn in Q; injection Q as E4 E5.
             ++ subst. congruence.
             ++ subst. exists l1, q0, q. split; auto. split; auto. intros a' I. apply E3. apply in_or_app; auto.
          -- right. split; auto. intros a' I. apply X. apply in_or_app; auto.
  Qed.
  Lemma last_writer_tail y v l0 l : (forall a, In a l0 -> In a l) ->
    (last_writer y v (l0 ++ l) <-> last_writer y v l).
  Proof.
    intros S. split.
    - intros (l1 & a & l2 & E & E2 & E3).
      destruct (existsb (fun b => match dget y (P b) with Some _ => true | None => false end) l) eqn:X.
      + (* some element of l writes *)
        assert (L : exists q, l1 = l0 ++ q).
        { clear E2. apply app_eq_app in E. destruct E as (q & [[E4 E5]|[E4 E5]]); [|eauto].
          destruct q as [|b q]; cbn in E5.
          - rewrite app_nil_r in E4. exists []. rewrite app_nil_r. auto.
          - injection E5 as _ E5. apply existsb_exists in X. destruct X as (b' & I & X).
            rewrite E3 in X; [discriminate|]. rewrite E5. apply in_or_app; auto. }
        destruct L as (q & ->). rewrite <- app_assoc in E. apply app_inv_head in E. exists q, a, l2. auto.
      + exfalso. assert (I : In a l).
        { assert (Ia : In a (l0 ++ l)) by (rewrite E; apply in_or_app; right; left; auto).
          apply in_app_or in Ia. destruct Ia; auto. }
        assert (X' : existsb (fun b => match dget y (P b) with Some _ => true | None => false end) l = true).
        { apply existsb_exists. exists a. rewrite E2. auto. }
        congruence.
    - intros (l1 & a & l2 & E & E2 & E3). exists (l0 ++ l1), a, l2. rewrite E, app_assoc. auto.
  Qed.
End Writers.

Section Serial.
  Variables (m : model_def) (d : distribution) (s : Z -> state) (r : Z)
    (tl : string -> string) (additional : option (dict string prop_builder))
    (x : chain_def -> content) (w : chain_def -> symbol) (dyn : chain_def -> defexpr).
  Hypothesis H : helicity_definition m d s r tl additional x w dyn.
  Let D0 : describes_states (apply_latex None) m d s r := hd_states _ _ _ _ _ _ _ _ _ H.

  Lemma dynamics_loop_NoDup table res ps : forall e y, NoDup (dkeys (de_params e)) ->
    dynamics_loop table res m ps e = Ok y -> NoDup (dkeys (de_params y)).
  Proof.
    induction ps as [|p ps IH]; intros e y N X; cbn [dynamics_loop] in X; [congruence|].
    inv_bind X. destruct (dget _ _); [|discriminate]. inv_bind X. apply IH in X; auto.
    cbn [de_mul de_params]. apply dupdate_NoDup. exact N.
  Qed.
  Lemma form_factor_loop_NoDup vs : forall e y, NoDup (dkeys (de_params e)) ->
    form_factor_loop m vs e = Ok y -> NoDup (dkeys (de_params y)).
  Proof.
    induction vs as [|v vs IH]; intros e y N X; cbn [form_factor_loop] in X; [congruence|].
    inv_bind X. apply IH in X; auto. cbn [de_mul de_params]. apply dupdate_NoDup. exact N.
  Qed.
  Lemma dyn_NoDup c : In c (di_chains d) -> NoDup (dkeys (de_params (dyn c))).
  Proof.
    intros I. destruct (hd_dynamics _ _ _ _ _ _ _ _ _ H c I) as (y & Y1 & Y2).
    apply form_factor_loop_NoDup in Y2; auto. unfold formulate_dynamics in Y1.
    apply dynamics_loop_NoDup in Y1; auto. constructor.
  Qed.
  Lemma own_parameter_eq c y v : In c (di_chains d) ->
    own_parameter (w c) (dyn c) c y v <-> dget y (params_at w dyn c) = Some v.
  Proof.
    intros I. unfold own_parameter, params_at, chain_params. rewrite dget_dupdate_nodup by (apply dyn_NoDup; auto).
    rewrite <- dget_None. destruct (dget y (de_params (dyn c))) as [v'|] eqn:E.
    - split; [intros [X|[X _]]; [exact X|discriminate]|auto].
    - cbn [dget]. destruct (eq_dec y (KSym (w c))) as [->|N].
      + split; [intros [X|(_ & _ & ->)]; [discriminate|reflexivity]|]. intros X. right. repeat split; congruence.
      + split; [intros [X|(_ & X & _)]; [discriminate|congruence]|discriminate].
  Qed.
  Lemma params_NoDup c : NoDup (dkeys (params_at w dyn c)).
  Proof. apply dupdate_NoDup. repeat constructor. intros []. Qed.

  Lemma work_chains : exists pre, (forall c, In c pre -> In c (di_chains d)) /\
    map (fun ln => chain_at d (snd ln)) (work d s) = pre ++ di_chains d.
  Proof.
    assert (T : exists q l, tuples s = q ++ [l]).
    { destruct (exists_last (l := tuples s)) as (q & l & E); [|eauto]. intros E.
      assert (X : In (- p_spin (s 0), - p_spin (s 1), - p_spin (s 2), - p_spin (s 3)) (tuples s)).
      { apply tuples_In. cbn. rewrite !helicities_range.
        assert (G : forall i, In i [0; 1; 2; 3] -> In (- p_spin (s i)) (spin_range2 (p_spin (s i)))).
        { intros i Hi. pose proof (std_spin_s _ _ _ _ _ D0 i Hi). apply spin_range2_In. split; [lia|].
          apply Z.even_spec. exists (p_spin (s i)). lia. }
        repeat split; apply G; cbn; auto. }
      rewrite E in X. destruct X. }
    destruct T as (q & l & T). unfold work. rewrite T, flat_map_app, map_app.
    exists (map (fun ln => chain_at d (snd ln)) (flat_map (fun l => map (fun n => (l, n)) (seq 0 (length (di_chains d)))) q)).
    split.
    - intros c I. apply in_map_iff in I. destruct I as (ln & <- & I). apply in_flat_map in I.
      destruct I as (l' & _ & I). apply in_map_iff in I. destruct I as (n & <- & I). apply in_seq in I.
      apply chain_at_In. cbn [snd]. lia.
    - f_equal. cbn [flat_map]. rewrite app_nil_r, map_map. cbn [snd]. apply map_nth_seq.
  Qed.
  Lemma all_params_get y v : dget y (all_params d s w dyn []) = Some v <->
    last_writer (params_at w dyn) y v (di_chains d).
  Proof.
    unfold all_params.
    assert (E : forall p, fold_left (fun p ln => dupdate p (params_at w dyn (chain_at d (snd ln)))) (work d s) p =
      fold_left (fun p c => dupdate p (params_at w dyn c)) (map (fun ln => chain_at d (snd ln)) (work d s)) p).
    { induction (work d s) as [|ln l IH]; intros p; [reflexivity|]. cbn [map fold_left]. apply IH. }
    rewrite E. rewrite (fold_writers (params_at w dyn) params_NoDup).
    destruct work_chains as (pre & S & ->). rewrite last_writer_tail by exact S. cbn [dget]. split.
    - intros [X|[_ X]]; [exact X|discriminate].
    - auto.
  Qed.

  Section Model.
    Variables (cl : bool) (M : model).
    Hypothesis F : SerAmplitude.formulate m cl tl additional = Ok M.

    Lemma mass_key_sym n : mass_key n = KSym (m_sym n).
    Proof. reflexivity. Qed.
    (** C55, C56 *)
    Theorem serial_parameters y v : dget y (m_params M) = Some v <->
      (exists n, In n [0; 1; 2; 3] /\ y = mass_key n /\ v = real_val (p_mass (s n))) \/
      ((forall n, In n [0; 1; 2; 3] -> y <> mass_key n) /\
       exists l1 c l2, di_chains d = l1 ++ c :: l2 /\ own_parameter (w c) (dyn c) c y v /\
         forall c' v', In c' l2 -> ~ own_parameter (w c') (dyn c') c' y v').
    Proof.
      destruct (serial_model m d s r tl additional x w dyn H cl)
        as (M' & ks & terms & zdefs & amps & vars & F' & _ & _ & _ & _ & _ & _ & _ & _ & EP & _).
      assert (M' = M) by congruence. subst M'. rewrite EP.
      set (ms := map (fun n => (KSym (m_sym n), real_val (p_mass (s n)))) [0; 1; 2; 3]).
      assert (N : NoDup (dkeys ms)) by (cbn; repeat constructor; cbn; intuition discriminate).
      rewrite dget_dupdate_nodup by exact N.
      assert (MS : forall v, dget y ms = Some v <-> exists n, In n [0; 1; 2; 3] /\ y = mass_key n /\ v = real_val (p_mass (s n))).
      { intros v0. split.
        - intros X. apply dget_Some_In in X. apply in_map_iff in X. destruct X as (n & X & I). injection X as X1 X2.
          exists n. split; [exact I|]. split; [symmetry; exact X1|symmetry; exact X2].
        - intros (n & I & -> & ->). apply In_dget; auto. apply (in_map (fun n => (KSym (m_sym n), real_val (p_mass (s n)))) _ _ I). }
      assert (LW : forall v, last_writer (params_at w dyn) y v (di_chains d) <->
        exists l1 c l2, di_chains d = l1 ++ c :: l2 /\ own_parameter (w c) (dyn c) c y v /\
         forall c' v', In c' l2 -> ~ own_parameter (w c') (dyn c') c' y v').
      { intros v0. assert (IC : forall l1 c l2, di_chains d = l1 ++ c :: l2 -> forall c', In c' (c :: l2) -> In c' (di_chains d)).
        { intros l1 c l2 E c' I. rewrite E. apply in_or_app. auto. }
        split; intros (l1 & c & l2 & E & E2 & E3); exists l1, c, l2; split; auto; pose proof (IC _ _ _ E) as IC'.
        - split; [apply own_parameter_eq; [apply IC'; left; auto|exact E2]|].
          intros c' v' I O. rewrite own_parameter_eq in O by (apply IC'; right; auto). rewrite E3 in O by auto. discriminate.
        - split; [apply own_parameter_eq; [apply IC'; left; auto|exact E2]|].
          intros c' I. destruct (dget y (params_at w dyn c')) as [v'|] eqn:X; auto. exfalso.
          apply (E3 c' v' I). apply own_parameter_eq; [apply IC'; right; auto|exact X]. }
      destruct (dget y ms) as [v'|] eqn:E.
      - split.
        + intros X. left. apply MS. congruence.
        + intros [X|[X _]].
          * apply MS in X. congruence.
          * exfalso. destruct (proj1 (MS v') eq_refl) as (n & I & Y & _). exact (X n I Y).
      - rewrite all_params_get, LW. split.
        + intros X. right. split; auto. intros n I ->. apply dget_None in E. apply E.
          change (In (mass_key n) (map fst ms)). unfold ms. rewrite map_map. cbn [fst].
          apply (in_map (fun n => mass_key n)). exact I.
        + intros [X|[_ X]]; [|exact X]. apply MS in X. discriminate.
    Qed.
    Theorem serial_parameters_agree y v :
      (forall n, In n [0; 1; 2; 3] -> y <> mass_key n) ->
      (exists c, In c (di_chains d) /\ own_parameter (w c) (dyn c) c y v) ->
      (forall c v', In c (di_chains d) -> own_parameter (w c) (dyn c) c y v' -> v' = v) ->
      dget y (m_params M) = Some v.
    Proof.
      intros N (c0 & I0 & O0) A. apply serial_parameters. right. split; auto.
      assert (W : forall l, (forall c, In c l -> In c (di_chains d)) -> In c0 l -> exists l1 c l2, l = l1 ++ c :: l2 /\ own_parameter (w c) (dyn c) c y v /\
        forall c' v', In c' l2 -> ~ own_parameter (w c') (dyn c') c' y v').
      { induction l as [|c l IH] using rev_ind; intros S I; [destruct I|].
        destruct (dget y (params_at w dyn c)) as [v'|] eqn:E.
        - exists l, c, []. split; auto. split; [|intros ? ? []].
          assert (Ic : In c (di_chains d)) by (apply S, in_or_app; right; left; auto).
          assert (O : own_parameter (w c) (dyn c) c y v') by (apply own_parameter_eq; auto).
          rewrite <- (A c v' Ic O). exact O.
        - assert (Ic : In c (di_chains d)) by (apply S, in_or_app; right; left; auto).
          assert (NO : forall v', ~ own_parameter (w c) (dyn c) c y v').
          { intros v' O. rewrite own_parameter_eq in O by auto. congruence. }
          apply in_app_or in I. destruct I as [I|[->|[]]]; [|exfalso; exact (NO _ O0)].
          destruct (IH (fun c' I' => S c' (in_or_app _ _ _ (or_introl I'))) I) as (l1 & c1 & l2 & -> & O & X).
          exists l1, c1, (l2 ++ [c]). rewrite <- app_assoc. split; auto. split; auto.
          intros c' v' I'. apply in_app_or in I'. destruct I' as [I'|[<-|[]]]; auto. }
      apply W; auto.
    Qed.

    (** the amplitudes *)
    Theorem serial_amplitude_keys : NoDup (dkeys (m_amplitudes M)) /\
      forall y, In y (dkeys (m_amplitudes M)) <-> exists k l, y = (amp_name k, amp_index l) /\
        helicity_tuple s l /\ exists c, In c (di_chains d) /\ ct_k (x c) = k.
    Proof.
      destruct (serial_model m d s r tl additional x w dyn H cl)
        as (M' & ks & terms & zdefs & amps & vars & F' & _ & _ & L & _ & _ & EA & _).
      assert (M' = M) by congruence. subst M'. rewrite EA.
      destruct (loop_ok m d s r tl additional x w dyn H (work d s)) with (amps := @nil (akey * cexpr)) (vars := @nil (symbol * rexpr)) (params := @nil (pkey * pval))
        as (amps' & vars' & L' & _ & I2 & _ & _ & _ & I6 & _).
      { intros [l n] I. apply work_In in I. apply I. }
      assert (amps' = amps) by (unfold dict, akey in *; congruence). subst amps'.
      split; [apply I6; constructor|]. intros y. rewrite I2. split.
      - intros [[]|([l n] & I & ->)]. apply work_In in I. destruct I as [I1' I2'].
        exists (ct_k (x (chain_at d n))), l. split; [reflexivity|]. split; auto. exists (chain_at d n).
        split; auto. apply chain_at_In. auto.
      - intros (k & l & -> & I & c & Ic & <-). right. destruct (chain_index d c Ic) as (n & Ln & En).
        exists (l, n). split; [apply work_In; auto|]. unfold key_of. cbn [fst snd]. rewrite En. reflexivity.
    Qed.
    (** C70 *)
    Theorem serial_amplitude_value ev k l : helicity_tuple s l -> In k [1; 2; 3] ->
      amp_value ev M k l = Csum (chains_in x d k) (chain_contribution x w dyn ev l).
    Proof.
      intros Hl Hk.
      destruct (serial_model m d s r tl additional x w dyn H cl)
        as (M' & ks & terms & zdefs & amps & vars & F' & _ & _ & L & _ & _ & EA & _).
      assert (M' = M) by congruence. subst M'.
      destruct (loop_ok m d s r tl additional x w dyn H (work d s)) with (amps := @nil (akey * cexpr)) (vars := @nil (symbol * rexpr)) (params := @nil (pkey * pval))
        as (amps' & vars' & L' & I1 & _).
      { intros [l' n] I. apply work_In in I. apply I. }
      assert (amps' = amps) by (unfold dict, akey in *; congruence). subst amps'.
      change (amp_value ev M k l) with (aval ev (m_amplitudes M) (amp_name k, amp_index l)). rewrite EA, I1.
      unfold aval at 1. cbn [dget]. rewrite Cplus_0_l. unfold work. rewrite Csum_flat_map.
      rewrite (Csum_single _ l).
      - rewrite Csum_map. cbn [fst snd]. unfold chains_in. rewrite Csum_filter.
        rewrite <- (map_nth_seq (di_chains d) no_chain) at 2. rewrite Csum_map. apply Csum_ext. intros n I.
        apply in_seq in I. unfold key_of. cbn [fst snd]. change (nth n (di_chains d) no_chain) with (chain_at d n).
        assert (Ik : In (ct_k (x (chain_at d n))) [1; 2; 3]).
        { apply (hd_k m d s r tl additional x w dyn H). apply chain_at_In. lia. }
        destruct (eq_dec _ _) as [E|E]; destruct (Z.eqb_spec (ct_k (x (chain_at d n))) k) as [E'|E']; auto.
        + exfalso. apply E'. apply amp_name_inj; auto. congruence.
        + exfalso. apply E. rewrite E'. reflexivity.
      - apply tuples_NoDup.
      - apply tuples_In. exact Hl.
      - intros l' _ N. rewrite Csum_map. apply Csum_zero. intros n _. cbn [fst snd]. unfold key_of. cbn [fst snd].
        destruct (eq_dec _ _) as [E|E]; auto. exfalso. apply N. apply amp_index_inj. congruence.
    Qed.
    (** C71 *)
    Theorem serial_intensity_value : exists ks, NoDup ks /\ StronglySorted Z.lt ks /\
      (forall k, In k ks <-> exists c, In c (di_chains d) /\ ct_k (x c) = k) /\
      forall ev, full_value ev M = RtoC (intensity_value s ks (amp_value ev M)
        (fun i k => Re (e_sym ev (zeta_symbol i k r)))).
    Proof.
      destruct (serial_model m d s r tl additional x w dyn H cl)
        as (M' & ks & terms & zdefs & amps & vars & F' & K & AT & L & _ & _ & EA & _ & EI & _).
      assert (M' = M) by congruence. subst M'.
      destruct (subsystems_ok m d s r tl additional x w dyn H) as (ks' & K1 & K2 & K3 & K4).
      assert (ks' = ks) by congruence. subst ks'. exists ks. split; auto. split; auto. split; auto.
      assert (Hk : forall k, In k ks -> In k [1; 2; 3]).
      { intros k I. apply K3 in I. destruct I as (c & I & <-). apply (hd_k m d s r tl additional x w dyn H). exact I. }
      intros ev. unfold full_value. rewrite EI.
      destruct (serial_pools_ok m d s r tl additional x w dyn H) as (P1 & P2 & P3 & P4).
      transitivity (ceval (amp_env ev (m_amplitudes M)) (fun _ => 0)
        (CSum (CAbs2 (aligned_expr s terms)) (map (fun n => (hel_sym n, spin_range2 (spin4 s n))) [0; 1; 2; 3]))).
      { unfold serial_intensity. destruct cl; [|reflexivity].
        rewrite cleanup_value by auto. cbn [ceval map]. rewrite !psum_product4. apply Csum_ext. intros l _.
        do 3 f_equal. apply cleanup_value; auto. }
      cbn [ceval map]. rewrite psum_product4, <- tuples_spin4.
      unfold intensity_value. rewrite <- Csum_RtoC. apply Csum_ext. intros l Hl'.
      change (upd (upd (upd (upd (fun _ => 0) (hel_sym 0) (at4 l 0)) (hel_sym 1) (at4 l 1))
              (hel_sym 2) (at4 l 2)) (hel_sym 3) (at4 l 3)) with (upd4 hel_sym (fun _ => 0) l).
      rewrite (aligned_value s r ks terms [] zdefs Hk AT) by (rewrite hs_upd4; apply tuples_In; auto).
      rewrite hs_upd4. do 3 f_equal. unfold aligned_amplitude. apply Csum_ext. intros l' Hl2. apply Csum_ext. intros k Ik.
      f_equal. unfold amp_env. cbn [e_idx]. unfold amp_value.
      destruct (dget (amp_name k, amp_index l') (m_amplitudes M)) eqn:Ed; auto.
      exfalso. apply dget_None in Ed. apply Ed. apply serial_amplitude_keys. exists k, l'. split; auto.
      split; [apply tuples_In; auto|]. apply K3. exact Ik.
    Qed.
  End Model.
End Serial.
