(** Deserialised amplitudes and the helicity formalism; closed models; the order of the chains. *)
From Coq Require Import String ZArith QArith Qcanon Qreals List Bool Reals Lia Lra Permutation Sorted.
From Coquelicot Require Import Complex.
From Verif Require Import Prelude Spin SpinFacts Decay DecayProofs Expr Angles AnglesFacts Sums Wigner WignerFacts CG CExpr CExprFacts OccFacts SpecDPD SpecBuilder Builder BuilderFacts
  ModelFacts BuilderProofs Dynamics SerFormat SerDynamics SerAmplitude SpecSerial SerDecay SerAmpFacts SerModel SerProofs SerDyn SerTotal.
From Verif Require QrulesConvert.
Import ListNotations.
Local Open Scope string_scope.
Local Open Scope Z_scope.
Local Open Scope list_scope.

(** ** C52, C53 *)
Lemma term_parent x wt dn th l l' : Permutation [ct_i x; ct_j x; ct_k x] [1; 2; 3] ->
  (forall n, In n [1; 2; 3] -> at4 l n = at4 l' n) -> serial_term x wt dn th l = serial_term x wt dn th l'.
Proof.
  intros P E. destruct (perm_in _ _ _ P) as (Pi & Pj & Pk & _). unfold serial_term.
  rewrite !E by assumption. reflexivity.
Qed.
Lemma coupling_nonzero f a b a0 b0 : coupling_of f a b a0 b0 <> 0%R ->
  (a = a0 /\ b = b0) \/ (f <> 0 /\ a = - a0 /\ b = - b0).
Proof.
  unfold coupling_of. intros N.
  destruct (Z.eqb_spec a a0), (Z.eqb_spec b b0), (Z.eqb_spec a (- a0)), (Z.eqb_spec b (- b0)), (Z.eq_dec f 0) as [->|F];
    cbn [andb] in N; auto; exfalso; apply N; ring.
Qed.
Lemma term_helicities x wt dn th l : serial_term x wt dn th l <> RtoC 0 ->
  (at4 l (ct_k x) = ct_lk x \/ (ct_fp x <> 0 /\ ct_r x = 0 /\ at4 l (ct_k x) = - ct_lk x)) /\
  ((at4 l (ct_i x) = ct_li x /\ at4 l (ct_j x) = ct_lj x) \/
   (ct_fd x <> 0 /\ at4 l (ct_i x) = - ct_li x /\ at4 l (ct_j x) = - ct_lj x)).
Proof.
  unfold serial_term. intros N.
  assert (A : coupling_of (ct_fp x) (ct_r x) (at4 l (ct_k x)) (ct_r x) (ct_lk x) <> 0%R).
  { intros E. apply N. rewrite E. ring. }
  assert (B : coupling_of (ct_fd x) (at4 l (ct_i x)) (at4 l (ct_j x)) (ct_li x) (ct_lj x) <> 0%R).
  { intros E. apply N. rewrite E. ring. }
  split; [|apply coupling_nonzero; exact B].
  apply coupling_nonzero in A. destruct A as [[_ A]|(F & A1 & A2)]; [auto|]. right. split; [exact F|]. split; [lia|exact A2].
Qed.
Lemma term_formalism x wt dn th l : In (ct_r x) (helicities (ct_spin x)) -> at4 l 0 = ct_r x - at4 l (ct_k x) ->
  (ct_fd x = 0 \/ ct_li x = ct_lj x) -> serial_term x wt dn th l = helicity_formalism_term x wt dn th l.
Proof.
  intros I E0 FD. unfold helicity_formalism_term.
  rewrite (Csum_single _ (ct_r x)).
  - rewrite E0, Z.eqb_refl. unfold serial_term.
    destruct (Req_dec (coupling_of (ct_fd x) (at4 l (ct_i x)) (at4 l (ct_j x)) (ct_li x) (ct_lj x)) 0) as [Z0|NZ].
    + rewrite Z0. ring.
    + apply coupling_nonzero in NZ.
      assert (ct_li x - ct_lj x = at4 l (ct_i x) - at4 l (ct_j x)) as -> by lia. reflexivity.
  - rewrite helicities_range. apply spin_range2_NoDup.
  - exact I.
  - intros r _ N. destruct (Z.eqb_spec (at4 l 0) (r - at4 l (ct_k x))); [lia|reflexivity].
Qed.
Lemma formalism_elsewhere x wt dn th l : (ct_fp x = 0 \/ ct_r x = 0) -> at4 l 0 <> ct_r x - at4 l (ct_k x) ->
  helicity_formalism_term x wt dn th l = RtoC 0.
Proof.
  intros FP N. unfold helicity_formalism_term. apply Csum_zero. intros r _.
  destruct (Z.eqb_spec (at4 l 0) (r - at4 l (ct_k x))) as [E|E]; [|reflexivity].
  destruct (Req_dec (coupling_of (ct_fp x) r (at4 l (ct_k x)) (ct_r x) (ct_lk x)) 0) as [Z0|NZ].
  - rewrite Z0. ring.
  - apply coupling_nonzero in NZ. exfalso. destruct NZ as [[A _]|(A & B & _)]; [|destruct FP as [FP|FP]; [auto|]]; lia.
Qed.
(** the term with flipped helicities *)
Lemma term_flipped x wt dn th l : (ct_li x <> 0 \/ ct_lj x <> 0) ->
  at4 l (ct_k x) = ct_lk x -> (ct_fp x = 0 \/ ct_r x <> 0 \/ ct_lk x <> 0) ->
  at4 l (ct_i x) = - ct_li x -> at4 l (ct_j x) = - ct_lj x ->
  serial_term x wt dn th l = (wt * RtoC (IZR (ct_fd x)) * RtoC (wigner_d (ct_spin x) (ct_r x) (ct_li x - ct_lj x) th) * dn)%C.
Proof.
  intros NZ EK NP EI EJ. unfold serial_term, coupling_of. rewrite EK, EI, EJ, !Z.eqb_refl. cbn [andb].
  assert ((- ct_li x =? ct_li x) && (- ct_lj x =? ct_lj x) = false) as ->.
  { destruct (Z.eqb_spec (- ct_li x) (ct_li x)), (Z.eqb_spec (- ct_lj x) (ct_lj x)); auto. lia. }
  assert ((1 + IZR (ct_fp x) * (if (ct_r x =? - ct_r x) && (ct_lk x =? - ct_lk x) then 1 else 0))%R = 1%R) as ->.
  { destruct (Z.eqb_spec (ct_r x) (- ct_r x)), (Z.eqb_spec (ct_lk x) (- ct_lk x)); cbn [andb]; try ring.
    destruct NP as [->|NP]; [ring|lia]. }
  replace (0 + IZR (ct_fd x) * 1)%R with (IZR (ct_fd x)) by ring. ring.
Qed.
Lemma in_chains_in (x : chain_def -> content) d k c : In c (chains_in x d k) -> In c (di_chains d) /\ ct_k (x c) = k.
Proof. intros I. apply filter_In in I. destruct I as [I E]. apply Z.eqb_eq in E. auto. Qed.

Section Model.
  Variables (m : model_def) (d : distribution) (s : Z -> state) (r : Z)
    (tl : string -> string) (additional : option (dict string prop_builder))
    (x : chain_def -> content) (w : chain_def -> symbol) (dyn : chain_def -> defexpr).
  Hypothesis H : helicity_definition m d s r tl additional x w dyn.
  Variables (cl : bool) (M : model).
  Hypothesis F : SerAmplitude.formulate m cl tl additional = Ok M.

  (** the helicity of the initial state is ignored *)
  Lemma c52_parent ev k l l' : helicity_tuple s l -> helicity_tuple s l' -> In k [1; 2; 3] ->
    (forall n, In n [1; 2; 3] -> at4 l n = at4 l' n) -> amp_value ev M k l = amp_value ev M k l'.
  Proof.
    intros Hl Hl' Hk E. rewrite !(serial_amplitude_value m d s r tl additional x w dyn H cl M F) by assumption.
    apply Csum_ext. intros c I. apply in_chains_in in I. destruct I as [I _].
    apply term_parent; [|exact E]. apply (hd_perm m d s r tl additional x w dyn H c I).
  Qed.
  Lemma c52_formalism ev k l : helicity_tuple s l -> In k [1; 2; 3] ->
    (forall c, In c (di_chains d) -> ct_k (x c) = k -> In (ct_r (x c)) (helicities (ct_spin (x c))) /\
       at4 l 0 = ct_r (x c) - at4 l k /\ (ct_fd (x c) = 0 \/ ct_li (x c) = ct_lj (x c))) ->
    amp_value ev M k l = Csum (chains_in x d k) (formalism_contribution x w dyn ev l).
  Proof.
    intros Hl Hk C. rewrite (serial_amplitude_value m d s r tl additional x w dyn H cl M F) by assumption.
    apply Csum_ext. intros c I. apply in_chains_in in I. destruct I as [I E].
    destruct (C c I E) as (C1 & C2 & C3). apply term_formalism; auto. rewrite E. exact C2.
  Qed.
  Lemma c52_helicities ev k l : helicity_tuple s l -> In k [1; 2; 3] -> amp_value ev M k l <> RtoC 0 ->
    exists c, In c (di_chains d) /\ ct_k (x c) = k /\
      (at4 l k = ct_lk (x c) \/ (ct_fp (x c) <> 0 /\ ct_r (x c) = 0 /\ at4 l k = - ct_lk (x c))) /\
      ((at4 l (ct_i (x c)) = ct_li (x c) /\ at4 l (ct_j (x c)) = ct_lj (x c)) \/
       (ct_fd (x c) <> 0 /\ at4 l (ct_i (x c)) = - ct_li (x c) /\ at4 l (ct_j (x c)) = - ct_lj (x c))) /\
      Z.abs (ct_r (x c)) <= ct_spin (x c) /\ Z.abs (ct_li (x c) - ct_lj (x c)) <= ct_spin (x c).
  Proof.
    intros Hl Hk. rewrite (serial_amplitude_value m d s r tl additional x w dyn H cl M F) by assumption. intros N.
    assert (G : forall (A : Type) (l : list A) f, Csum l f <> RtoC 0 -> exists a, In a l /\ f a <> RtoC 0).
    { intros A q f. induction q as [|a q IH]; intros N'; [exfalso; apply N'; reflexivity|].
      destruct (Ceq_dec (f a) (RtoC 0)) as [Z|Z].
      - destruct IH as (a' & I & Ha'); [|exists a'; split; [right; auto|auto]].
        intros E. apply N'. cbn [Csum]. rewrite Z, E. ring.
      - exists a. split; [left; auto|auto]. }
    apply G in N. destruct N as (c & I & N). apply in_chains_in in I. destruct I as [I E]. exists c. split; [exact I|].
    split; [exact E|]. unfold chain_contribution in N. destruct (term_helicities _ _ _ _ _ N) as (A & B). rewrite E in A.
    split; [exact A|]. split; [exact B|].
    match type of N with serial_term _ _ _ ?th _ <> _ =>
      assert (W : wigner_d (ct_spin (x c)) (ct_r (x c)) (ct_li (x c) - ct_lj (x c)) th <> 0%R) by
        (intros Z; apply N; unfold serial_term; rewrite Z; ring) end.
    destruct (is_projection (ct_spin (x c)) (ct_r (x c))) eqn:P1; [|rewrite wigner_d_out_l in W by auto; congruence].
    destruct (is_projection (ct_spin (x c)) (ct_li (x c) - ct_lj (x c))) eqn:P2; [|rewrite wigner_d_out_r in W by auto; congruence].
    apply is_projection_spec in P1, P2. lia.
  Qed.

  (** C56: the weight *)
  Theorem serial_weight c : In c (di_chains d) ->
    (forall n, In n [0; 1; 2; 3] -> KSym (w c) <> mass_key n) ->
    (forall c', In c' (di_chains d) -> ~ In (KSym (w c)) (dkeys (de_params (dyn c')))) ->
    (forall c', In c' (di_chains d) -> w c' = w c -> cd_weight c' = cd_weight c) ->
    dget (KSym (w c)) (m_params M) = Some (cd_weight c).
  Proof.
    intros I N K A. apply (serial_parameters_agree m d s r tl additional x w dyn H cl M F).
    - exact N.
    - exists c. split; [exact I|]. right. split; [apply K; exact I|]. auto.
    - intros c' v' I' [O|(_ & E & ->)].
      + exfalso. apply (K c' I'). apply dget_In. eauto.
      + apply A; [exact I'|congruence].
  Qed.

  (** ** C73 *)
  Lemma fold_keys (P : chain_def -> dict pkey pval) y (q : list ((Z * Z * Z * Z) * nat)) (g : nat -> chain_def) : forall p : dict pkey pval,
    (In y (dkeys p) \/ exists ln, In ln q /\ In y (dkeys (P (g (snd ln))))) ->
    In y (dkeys (fold_left (fun p ln => dupdate p (P (g (snd ln)))) q p)).
  Proof.
    induction q as [|ln q IH]; intros p I; cbn [fold_left].
    - destruct I as [I|(? & [] & _)]. exact I.
    - apply IH. destruct I as [I|(ln' & [->|I] & J)].
      + left. apply dupdate_keys. auto.
      + left. apply dupdate_keys. auto.
      + right. eauto.
  Qed.
  Lemma own_in_params c y : In c (di_chains d) -> (y = KSym (w c) \/ In y (dkeys (de_params (dyn c)))) ->
    exists v, dget y (m_params M) = Some v.
  Proof.
    intros I Y. apply dget_In.
    destruct (serial_model m d s r tl additional x w dyn H cl)
      as (M' & ks & terms & zdefs & amps & vars & F' & _ & _ & _ & _ & _ & _ & _ & _ & EP & _).
    assert (M' = M) by congruence. subst M'. rewrite EP. apply dupdate_keys. left.
    destruct (chain_index d c I) as (n & Ln & En).
    assert (Tn : exists l, In l (tuples s)).
    { destruct (tuples s) as [|l q] eqn:Et; [|exists l; left; auto]. exfalso.
      destruct (c51_decay None _ _ _ _ (hd_states _ _ _ _ _ _ _ _ _ H) (hd_three_body m d s r tl additional x w dyn H)) as (D & _ & SD & _).
      exact (tuples_nonempty _ s SD Et). }
    destruct Tn as (l & Il). unfold all_params. apply (fold_keys (params_at w dyn) y (work d s) (chain_at d)). right.
    exists (l, n). split.
    - apply work_In. split; [apply tuples_In; exact Il|exact Ln].
    - cbn [snd]. rewrite En. unfold params_at, chain_params. rewrite dupdate_keys.
      destruct Y as [->|Y]; auto. left. left. reflexivity.
  Qed.
  Lemma mass_in_params n : In n [0; 1; 2; 3] -> exists v, dget (mass_key n) (m_params M) = Some v.
  Proof.
    intros I. exists (real_val (p_mass (s n))).
    apply (serial_parameters m d s r tl additional x w dyn H cl M F). left. exists n. auto.
  Qed.
  Theorem serial_closed : (forall c, In c (di_chains d) -> closed_expression (dyn c)) ->
    (forall y, occurs_in_amplitudes M (OVar y) ->
       (exists v, dget (KSym y) (m_params M) = Some v) \/ exists k e, In k [1; 2; 3] /\ y = SpecSerial.sigma_sym k /\ dget y (m_invariants M) = Some e) /\
    (forall base idx, ~ occurs_in_amplitudes M (OIdx base idx)) /\
    (forall y, occurs_in_amplitudes M (OAngle y) \/ occurs_in_intensity M (OAngle y) ->
       exists e, dget y (m_variables M) = Some e) /\
    (forall base idx, occurs_in_intensity M (OIdx base idx) -> exists e, dget (base, idx) (m_amplitudes M) = Some e) /\
    (forall y, ~ occurs_in_intensity M (OVar y)) /\
    (forall y e, dget y (m_variables M) = Some e ->
       (exists c, In c (di_chains d) /\ formulate_scattering_angle (ct_i (x c)) (ct_j (x c)) = Ok (y, e)) \/
       (exists i k c, In i [0; 1; 2; 3] /\ In c (di_chains d) /\ k = ct_k (x c) /\ p_spin (s i) <> 0 /\
          formulate_zeta_angle i k r = Ok (y, e))).
  Proof.
    intros CL.
    destruct (serial_model m d s r tl additional x w dyn H cl)
      as (M' & ks & terms & zdefs & amps & vars & F' & K & AT & L & _ & SD & EA & EV & EI & EP & _ & EN).
    assert (M' = M) by congruence. subst M'.
    destruct (loop_ok m d s r tl additional x w dyn H (work d s)) with (amps := @nil (akey * cexpr)) (vars := @nil (symbol * rexpr)) (params := @nil (pkey * pval))
      as (amps' & vars' & L' & _ & I2 & I3 & I4 & I5 & I6 & I7).
    { intros [l' n] I. apply work_In in I. apply I. }
    assert (amps' = amps) by (unfold dict, akey in *; congruence). subst amps'.
    assert (vars' = vars) by (unfold dict, akey in *; congruence). subst vars'.
    destruct (subsystems_ok m d s r tl additional x w dyn H) as (ks' & K1 & K2 & K3 & K4).
    assert (ks' = ks) by congruence. subst ks'.
    assert (Hk : forall k, In k ks -> In k [1; 2; 3]).
    { intros k I. apply K3 in I. destruct I as (c & I & <-). apply (hd_k m d s r tl additional x w dyn H). exact I. }
    destruct (aligned_terms_facts s r ks Hk _ _ _ AT) as (_ & O & Z1 & Z2 & _ & Z3 & Z4).
    assert (NZ : NoDup (dkeys zdefs)) by (apply Z4; constructor).
    assert (OA : forall o, occurs_in_amplitudes M o -> exists c, In c (di_chains d) /\ allowed x w dyn c o).
    { intros o (key & e & G & X). rewrite EA in G. destruct (I5 key e o G X) as [(e0 & E0 & _)|(ln & Iln & _ & A)]; [discriminate E0|].
      exists (chain_at d (snd ln)). split; [|exact A]. apply chain_at_In. destruct ln. apply work_In in Iln. apply Iln. }
    assert (OI : forall o, occurs_in_intensity M o -> exists k, In k ks /\
      ((exists l, helicity_tuple s l /\ o = OIdx (amp_name k) (amp_index l)) \/
       (exists i, In i [0; 1; 2; 3] /\ spin4 s i <> 0 /\ o = OAngle (zeta_symbol i k r)))).
    { intros o. unfold occurs_in_intensity. rewrite EI. unfold serial_intensity. cbv zeta.
      destruct (serial_pools_ok m d s r tl additional x w dyn H) as (P1 & P2 & P3 & P4).
      assert (OA' : forall h, In o (occ h (aligned_expr s terms)) -> exists k, In k ks /\
        ((exists l, helicity_tuple s l /\ o = OIdx (amp_name k) (amp_index l)) \/
         (exists i, In i [0; 1; 2; 3] /\ spin4 s i <> 0 /\ o = OAngle (zeta_symbol i k r)))).
      { intros h. unfold aligned_expr.
        change (map (fun n => (hel_prime n, spin_range2 (spin4 s n))) [0; 1; 2; 3]) with
          [(hel_prime 0, spin_range2 (spin4 s 0)); (hel_prime 1, spin_range2 (spin4 s 1));
           (hel_prime 2, spin_range2 (spin4 s 2)); (hel_prime 3, spin_range2 (spin4 s 3))].
        cbn [occ]. rewrite pool_flat_product4, <- (tuples_spin4 s).
        intros (l & Hl & X). apply O in X. destruct X as (k & Hk' & X). exists k. split; auto.
        change (upd (upd (upd (upd h (hel_prime 0) (at4 l 0)) (hel_prime 1) (at4 l 1)) (hel_prime 2) (at4 l 2))
                  (hel_prime 3) (at4 l 3)) with (upd4 hel_prime h l) in X. rewrite hp_upd4 in X.
        destruct X as [X|(i & Hi & Si & X)].
        - left. exists l. split; auto. apply tuples_In; auto.
        - right. exists i. auto. }
      assert (OC : forall h, occ h (if cl then cleanup (aligned_expr s terms) else aligned_expr s terms)
                     = occ h (aligned_expr s terms)).
      { intros h. destruct cl; auto. unfold aligned_expr. apply cleanup_occ; auto. }
      intros X.
      assert (X' : In o (occ (fun _ => 0) (CSum (CAbs2 (if cl then cleanup (aligned_expr s terms) else aligned_expr s terms))
        (map (fun n => (hel_sym n, spin_range2 (spin4 s n))) [0; 1; 2; 3])))).
      { destruct cl; [|exact X]. rewrite cleanup_occ in X by auto. exact X. }
      clear X. change (map (fun n => (hel_sym n, spin_range2 (spin4 s n))) [0; 1; 2; 3]) with
        [(hel_sym 0, spin_range2 (spin4 s 0)); (hel_sym 1, spin_range2 (spin4 s 1));
         (hel_sym 2, spin_range2 (spin4 s 2)); (hel_sym 3, spin_range2 (spin4 s 3))] in X'.
      cbn [occ] in X'. rewrite pool_flat_product4 in X'. destruct X' as (l & _ & X). rewrite OC in X. exact (OA' _ X). }
    assert (ZV : forall i k, In k ks -> In i [0; 1; 2; 3] -> spin4 s i <> 0 -> exists e, dget (zeta_symbol i k r) (m_variables M) = Some e).
    { intros i k Ik Ii S. apply dget_In. rewrite EV. apply dupdate_keys. right. apply (Z2 i k Ik Ii S). }
    split; [|split; [|split; [|split; [|split]]]].
    - intros y Oy. destruct (OA _ Oy) as (c & Ic & [A|[A|(z & A & S)]]); [|discriminate A|].
      + left. apply (own_in_params c _ Ic). left. congruence.
      + assert (z = y) by congruence. subst z. destruct (CL c Ic y S) as [X|[(n & In' & ->)|(k & Ik & ->)]].
        * left. apply (own_in_params c _ Ic). auto.
        * left. exact (mass_in_params n In').
        * right. destruct (std_invariants _ _ SD) as (e1 & e2 & e3 & INV & _).
          rewrite INV in EN. injection EN as EN. rewrite <- EN.
          rewrite In_123 in Ik. destruct Ik as [->|[->| ->]]; [exists 1, e1|exists 2, e2|exists 3, e3];
            (split; [cbn; auto|]); (split; [reflexivity|]); reflexivity.
    - intros base idx Oy. destruct (OA _ Oy) as (c & Ic & [A|[A|(z & A & S)]]); discriminate A.
    - intros y [Oy|Oy].
      + destruct (OA _ Oy) as (c & Ic & [A|[A|(z & A & S)]]); [discriminate A| |discriminate A].
        apply dget_In. rewrite EV. apply dupdate_keys. left. apply I3. right.
        destruct (chain_index d c Ic) as (n & Ln & En).
        assert (Tn : exists l, In l (tuples s)).
        { destruct (tuples s) as [|l q] eqn:Et; [|exists l; left; auto]. exfalso. exact (tuples_nonempty _ s SD Et). }
        destruct Tn as (l & Il). exists (l, n). split; [apply work_In; split; [apply tuples_In; exact Il|exact Ln]|].
        cbn [snd]. rewrite En. congruence.
      + destruct (OI _ Oy) as (k & Ik & [(l & _ & A)|(i & Ii & S & A)]); [discriminate A|].
        assert (y = zeta_symbol i k r) as -> by congruence. exact (ZV i k Ik Ii S).
    - intros base idx Oy. destruct (OI _ Oy) as (k & Ik & [(l & Hl & A)|(i & Ii & S & A)]); [|discriminate A].
      assert (base = amp_name k) as -> by congruence. assert (idx = amp_index l) as -> by congruence.
      apply dget_In. rewrite EA. apply I2. right. apply K3 in Ik. destruct Ik as (c & Ic & <-).
      destruct (chain_index d c Ic) as (n & Ln & En). exists (l, n). split; [apply work_In; auto|].
      unfold key_of. cbn [fst snd]. rewrite En. reflexivity.
    - intros y Oy. destruct (OI _ Oy) as (k & Ik & [(l & Hl & A)|(i & Ii & S & A)]); discriminate A.
    - intros y e E. rewrite EV in E. rewrite dget_dupdate_nodup in E by exact NZ.
      destruct (dget y zdefs) as [e'|] eqn:Ez.
      + assert (e' = e) by congruence. subst e'. right.
        destruct (Z3 ks (incl_refl _) (fun x e Hx => ltac:(discriminate Hx)) _ _ Ez) as (i & k & Hi & Hk' & S & -> & Fz).
        apply K3 in Hk'. destruct Hk' as (c & Ic & Ec). exists i, k, c. split; [exact Hi|]. split; [exact Ic|].
        split; [symmetry; exact Ec|]. split; [rewrite <- (spin4_eq s) by exact Hi; exact S|exact Fz].
      + destruct (I4 y e E) as [X|(c & Ic & X & _)]; [discriminate X|]. left. exists c. auto.
  Qed.
End Model.

(** ** The order of the chains *)
Lemma filter_perm {A} (f : A -> bool) (l l' : list A) : Permutation l l' -> Permutation (filter f l) (filter f l').
Proof.
  intros P. induction P as [|a l l' P IH|a b l|l1 l2 l3 P1 IH1 P2 IH2]; cbn [filter].
  - constructor.
  - destruct (f a); [constructor|]; exact IH.
  - destruct (f a), (f b); try reflexivity. constructor.
  - exact (Permutation_trans IH1 IH2).
Qed.
Theorem serial_order m m' d d' s r tl additional x w dyn cl cl' M M' :
  helicity_definition m d s r tl additional x w dyn -> helicity_definition m' d' s r tl additional x w dyn ->
  Permutation (di_chains d) (di_chains d') ->
  SerAmplitude.formulate m cl tl additional = Ok M -> SerAmplitude.formulate m' cl' tl additional = Ok M' ->
  (forall ev k l, helicity_tuple s l -> In k [1; 2; 3] -> amp_value ev M k l = amp_value ev M' k l) /\
  (forall ev, full_value ev M = full_value ev M').
Proof.
  intros H H' P F F'.
  assert (A : forall ev k l, helicity_tuple s l -> In k [1; 2; 3] -> amp_value ev M k l = amp_value ev M' k l).
  { intros ev k l Hl Hk. rewrite (serial_amplitude_value m d s r tl additional x w dyn H cl M F) by assumption.
    rewrite (serial_amplitude_value m' d' s r tl additional x w dyn H' cl' M' F') by assumption.
    apply Csum_perm. apply filter_perm. exact P. }
  split; [exact A|]. intros ev.
  destruct (serial_intensity_value m d s r tl additional x w dyn H cl M F) as (ks & N1 & S1 & I1 & ->).
  destruct (serial_intensity_value m' d' s r tl additional x w dyn H' cl' M' F') as (ks' & N2 & S2 & I2 & ->).
  assert (E : ks = ks').
  { assert (PK : Permutation ks ks').
    { apply NoDup_Permutation; auto. intros k. rewrite I1, I2. split; intros (c & I & E); exists c; split; auto;
        [apply (Permutation_in _ P)|apply (Permutation_in _ (Permutation_sym P))]; exact I. }
    clear -S1 S2 PK. revert ks' S2 PK. induction S1 as [|a l S IH Fa]; intros l' S2 PK.
    - apply Permutation_nil in PK. congruence.
    - destruct l' as [|b l']; [symmetry in PK; apply Permutation_nil in PK; discriminate PK|].
      inversion S2 as [|? ? S2' Fb]; subst. rewrite Forall_forall in Fa, Fb.
      assert (a = b).
      { destruct (Permutation_in a PK (or_introl eq_refl)) as [X|X]; [auto|].
        destruct (Permutation_in b (Permutation_sym PK) (or_introl eq_refl)) as [Y|Y]; [auto|].
        pose proof (Fa _ Y). pose proof (Fb _ X). lia. }
      subst b. f_equal. apply IH; [exact S2'|]. eapply Permutation_cons_inv. exact PK. }
  subst ks'. f_equal. unfold intensity_value.
  assert (K : forall k, In k ks -> In k [1; 2; 3]).
  { intros k I. apply I1 in I. destruct I as (c & I & <-). apply (hd_k m d s r tl additional x w dyn H c I). }
  apply Rsum_ext. intros l Hl. do 2 f_equal. unfold aligned_amplitude. apply Csum_ext. intros l' Hl'.
  apply Csum_ext. intros k Ik. rewrite A; [reflexivity|apply tuples_In; exact Hl'|apply K; exact Ik].
Qed.
Theorem c51_order m m' d d' s r r' f : describes_states (apply_latex f) m d s r -> describes_states (apply_latex f) m' d' s r' ->
  (forall c, In c (di_chains d) -> three_body_chain c) -> di_final d = di_final d' ->
  (forall c, In c (di_chains d) <-> In c (di_chains d')) -> to_decay m f = to_decay m' f.
Proof.
  intros D D' T EF EC.
  destruct (c51_decay f m d s r D T) as (X & E & _ & ES & SS & ND & IC).
  destruct (c51_decay f m' d' s r' D') as (X' & E' & _ & ES' & SS' & ND' & IC').
  { intros c I. apply T, EC, I. }
  rewrite E, E'. f_equal. destruct X as [st ch], X' as [st' ch']. cbn [d_states d_chains] in *. f_equal.
  - rewrite ES, ES'. unfold final_dict. rewrite EF. reflexivity.
  - apply StronglySorted_unique.
    + revert SS. clear. intros SS. induction SS as [|a l S IH Fa]; constructor; auto. rewrite Forall_forall in *. intros b I. left. exact (Fa b I).
    + revert SS'. clear. intros SS'. induction SS' as [|a l S IH Fa]; constructor; auto. rewrite Forall_forall in *. intros b I. left. exact (Fa b I).
    + apply NoDup_Permutation; auto. intros c. rewrite IC, IC'.
      split; intros (c0 & q); exists c0; destruct q as (spin & i & j & k & vp & vd & I & Q);
        exists spin, i, j, k, vp, vd; (split; [apply EC; exact I|exact Q]).
Qed.
