(** The models that [SerAmplitude.formulate] builds from helicity definitions. *)
From Coq Require Import String ZArith QArith Qcanon Qreals List Bool Reals Lia Lra Permutation Sorted.
From Coquelicot Require Import Complex.
From Verif Require Import Prelude Spin SpinFacts Decay DecayFacts Expr Angles AnglesFacts Sums Wigner WignerFacts CG CExpr
  CExprFacts OccFacts SpecDPD Builder BuilderFacts ModelFacts RefFacts BuilderProofs SerFormat SerDynamics SerAmplitude SpecSerial SerDecay SerAmpFacts.
From Verif Require QrulesConvert.
Import ListNotations.
Local Open Scope string_scope.
Local Open Scope Z_scope.
Local Open Scope list_scope.

Definition no_chain : chain_def := ChainDef "" [] [] [] (real_val (Qc_of_Z 0)).
Lemma map_nth_seq {A} (l : list A) (d : A) : map (fun n => nth n l d) (seq 0 (length l)) = l.
Proof.
  assert (G : forall l p, map (fun n => nth n (p ++ l) d) (seq (length p) (length l)) = l).
  { clear l. induction l as [|a l IH]; intros p; [reflexivity|]. cbn [length seq map]. f_equal.
    - rewrite app_nth2, Nat.sub_diag by lia. reflexivity.
    - specialize (IH (p ++ [a])). rewrite <- app_assoc in IH. rewrite app_length in IH. cbn in IH.
      replace (length p + 1)%nat with (S (length p)) in IH by lia. exact IH. }
  exact (G l []).
Qed.
(** The value of an entry in a table of amplitudes *)
Definition aval (ev : env) (amps : dict akey cexpr) (y : akey) : C :=
  match dget y amps with Some e => ceval ev (fun _ => 0) e | None => RtoC 0 end.

Section Amp.
  Variables (m : model_def) (d : distribution) (s : Z -> state) (r : Z)
    (tl : string -> string) (additional : option (dict string prop_builder))
    (x : chain_def -> content) (w : chain_def -> symbol) (dyn : chain_def -> defexpr).
  Hypothesis H : helicity_definition m d s r tl additional x w dyn.

  Definition chain_at (n : nat) : chain_def := nth n (di_chains d) no_chain.
  Definition weight_of (c : chain_def) : pval := cd_weight c.
  Definition params_at (c : chain_def) : dict pkey pval := chain_params (w c) (cd_weight c) (de_params (dyn c)).
  Definition term_of (ev : env) (l : Z * Z * Z * Z) (c : chain_def) : C :=
    serial_term (x c) (e_sym ev (w c)) (ceval ev (fun _ => 0) (de_expr (dyn c)))
      (Re (e_sym ev (theta_name (ct_i (x c)) (ct_j (x c))))) l.
  Definition theta_of (c : chain_def) : symbol := theta_name (ct_i (x c)) (ct_j (x c)).
  Definition allowed (c : chain_def) (o : okey) : Prop :=
    o = OVar (w c) \/ o = OAngle (theta_of c) \/ exists z, o = OVar z /\ In z (symbols_of (de_expr (dyn c))).
  Definition key_of (ln : (Z * Z * Z * Z) * nat) : akey :=
    (amp_name (ct_k (x (chain_at (snd ln)))), amp_index (fst ln)).

  Lemma get_weight_value c y : get_weight c tl = Ok y -> snd y = cd_weight c.
  Proof.
    unfold get_weight. intros X. inv_bind X. destruct v. inv_bind X. ok_inj X. subst. reflexivity.
  Qed.
  Lemma chain_at_In n : (n < length (di_chains d))%nat -> In (chain_at n) (di_chains d).
  Proof. intros L. apply nth_In. exact L. Qed.

  Lemma loop_ok work : (forall ln, In ln work -> (snd ln < length (di_chains d))%nat) -> forall amps vars params,
    exists amps' vars', SerAmplitude.formulate_loop m tl additional work (amps, vars, params) =
      Ok (amps', vars', fold_left (fun p ln => dupdate p (params_at (chain_at (snd ln)))) work params) /\
    (forall ev y, aval ev amps' y =
       (aval ev amps y + Csum work (fun ln => if eq_dec (key_of ln) y then term_of ev (fst ln) (chain_at (snd ln)) else RtoC 0))%C) /\
    (forall y, In y (dkeys amps') <-> In y (dkeys amps) \/ exists ln, In ln work /\ y = key_of ln) /\
    (forall y, In y (dkeys vars') <-> In y (dkeys vars) \/ exists ln, In ln work /\ y = theta_of (chain_at (snd ln))) /\
    (forall y e, dget y vars' = Some e -> dget y vars = Some e \/
       exists c, In c (di_chains d) /\ formulate_scattering_angle (ct_i (x c)) (ct_j (x c)) = Ok (y, e) /\ y = theta_of c) /\
    (forall y e o, dget y amps' = Some e -> In o (occ (fun _ => 0) e) ->
       (exists e0, dget y amps = Some e0 /\ In o (occ (fun _ => 0) e0)) \/
       exists ln, In ln work /\ y = key_of ln /\ allowed (chain_at (snd ln)) o) /\
    (NoDup (dkeys amps) -> NoDup (dkeys amps')) /\ (NoDup (dkeys vars) -> NoDup (dkeys vars')).
  Proof.
    induction work as [|[l n] work IH]; intros B amps vars params.
    { exists amps, vars. cbn [SerAmplitude.formulate_loop fold_left]. split; [reflexivity|]. split.
      - intros ev y. cbn [Csum]. ring.
      - split; [intros y; split; [auto|intros [?|(? & [] & _)]; auto]|].
        split; [intros y; split; [auto|intros [?|(? & [] & _)]; auto]|].
        split; [auto|]. split; [|auto]. intros y e o E O. left. eauto. }
    assert (Ln : (n < length (di_chains d))%nat) by (apply (B (l, n)); left; auto).
    assert (Hn : nth_error (di_chains d) n = Some (chain_at n)) by (apply nth_error_nth'; exact Ln).
    destruct (chain_amp m d s r tl additional x w dyn H n (chain_at n) l Hn) as (th & e & v & Th & Hw & FA & FV & FO).
    assert (v = cd_weight (chain_at n)) as -> by (apply get_weight_value in Hw; exact Hw).
    cbn [SerAmplitude.formulate_loop]. rewrite FA. cbn [bind ca_key ca_expr ca_params ca_theta ca_theta_expr].
    set (key := (amp_name (ct_k (x (chain_at n))), amp_index l) : akey).
    set (old := match dget key amps with Some e0 => e0 | None => CNum 0 end).
    destruct (IH (fun ln I => B ln (or_intror I)) (dset key (CAdd old (subs_helicities l e)) amps)
      (dset (theta_name (ct_i (x (chain_at n))) (ct_j (x (chain_at n)))) th vars)
      (dupdate params (chain_params (w (chain_at n)) (cd_weight (chain_at n)) (de_params (dyn (chain_at n))))))
      as (amps' & vars' & E & I1 & I2 & I3 & I4 & I5 & I6 & I7).
    exists amps', vars'. split; [exact E|].
    assert (KE : key_of (l, n) = key) by reflexivity.
    assert (OV : forall ev, ceval ev (fun _ => 0) old = aval ev amps key).
    { intros ev. unfold old, aval. destruct (dget key amps); [reflexivity|]. exact (f_equal RtoC (Q2R_Z 0)). }
    split.
    { intros ev y. rewrite I1. cbn [Csum fst snd]. rewrite KE. unfold aval at 1. rewrite dget_dset.
      destruct (eq_dec y key) as [->|N].
      - destruct (eq_dec key key) as [_|N]; [|congruence]. cbn [ceval]. rewrite FV, OV.
        fold (term_of ev l (chain_at n)). ring.
      - destruct (eq_dec key y) as [->|_]; [congruence|]. fold (aval ev amps y). ring. }
    split.
    { intros y. rewrite I2, dset_keys. split.
      - intros [[->|X]|(ln & X & ->)]; auto; right; [exists (l, n)|exists ln]; split; auto; [left; auto|right; auto].
      - intros [X|(ln & [<-|X] & ->)]; auto. right. exists ln. auto. }
    split.
    { intros y. rewrite I3, dset_keys. split.
      - intros [[->|X]|(ln & X & ->)]; auto; right; [exists (l, n)|exists ln]; split; auto; [left; auto|right; auto].
      - intros [X|(ln & [<-|X] & ->)]; auto. right. exists ln. auto. }
    split.
    { intros y e0 E0. destruct (I4 y e0 E0) as [X|X]; auto. rewrite dget_dset in X.
      destruct (eq_dec y _) as [->|N]; auto. right. exists (chain_at n). split; [apply chain_at_In; auto|].
      assert (e0 = th) as -> by congruence. split; [exact Th|reflexivity]. }
    split.
    { intros y e0 o E0 O. destruct (I5 y e0 o E0 O) as [(e1 & X & Y)|(ln & X & Y & Z0)].
      - rewrite dget_dset in X. destruct (eq_dec y key) as [->|N]; [|left; eauto].
        assert (e1 = CAdd old (subs_helicities l e)) as -> by congruence. cbn [occ] in Y. apply in_app_or in Y.
        destruct Y as [Y|Y].
        + left. unfold old in Y. destruct (dget key amps) as [e1|] eqn:Ek; [eauto|]. destruct Y.
        + right. exists (l, n). split; [left; auto|]. split; auto. apply FO in Y. exact Y.
      - right. exists ln. split; [right; auto|]. auto. }
    split; intros; [apply I6|apply I7]; apply dset_NoDup; auto.
  Qed.

  Let D0 : describes_states (apply_latex None) m d s r := hd_states _ _ _ _ _ _ _ _ _ H.
  Lemma hd_three_body c : In c (di_chains d) -> three_body_chain c.
  Proof.
    intros I. destruct (hd_content _ _ _ _ _ _ _ _ _ H c I) as (vp & vd & T & _).
    exists (ct_spin (x c)), (ct_i (x c)), (ct_j (x c)), (ct_k (x c)), vp, vd. exact T.
  Qed.
  Lemma hd_perm c : In c (di_chains d) -> Permutation [ct_i (x c); ct_j (x c); ct_k (x c)] [1; 2; 3].
  Proof.
    intros I. destruct (hd_content _ _ _ _ _ _ _ _ _ H c I) as (vp & vd & T & _).
    exact (tb_ids _ _ _ _ _ _ _ T).
  Qed.
  Lemma hd_k c : In c (di_chains d) -> In (ct_k (x c)) [1; 2; 3].
  Proof. intros I. apply (Permutation_in _ (hd_perm c I)). cbn; auto. Qed.
  Lemma hd_topology c : In c (di_chains d) -> get_spectator_id (cd_topology c) = Ok (ct_k (x c)).
  Proof.
    intros I. destruct (hd_content _ _ _ _ _ _ _ _ _ H c I) as (vp & vd & T & _).
    destruct (tb_topology _ _ _ _ _ _ _ T) as (lt & Wt). exact (with_pair_spectator _ _ _ Wt).
  Qed.
  (** the subsystems *)
  Lemma subsystems_ok : exists ks, get_existing_subsystem_ids m = Ok ks /\ NoDup ks /\
    (forall k, In k ks <-> exists c, In c (di_chains d) /\ ct_k (x c) = k) /\ StronglySorted Z.lt ks.
  Proof.
    unfold get_existing_subsystem_ids. rewrite (hd_chains _ _ _ _ _ _ _ _ _ H). cbn [bind].
    rewrite (mapM_ok_all _ (fun c => ct_k (x c))) by (intros c I; apply hd_topology; exact I). cbn [bind].
    destruct (sorted_Z (to_set (map (fun c => ct_k (x c)) (di_chains d)))) as (ks & E & P).
    exists ks. split; [exact E|].
    assert (N : NoDup ks) by (apply (Permutation_NoDup P), to_set_NoDup).
    split; [exact N|]. split.
    - intros k. transitivity (In k (to_set (map (fun c => ct_k (x c)) (di_chains d)))).
      + split; apply Permutation_in; [symmetry|]; exact P.
      + rewrite to_set_In, in_map_iff. split; intros (c & A & B); exists c; auto.
    - apply (sorted_Z_lt _ _ (to_set_NoDup _) E).
  Qed.
  Definition work : list ((Z * Z * Z * Z) * nat) :=
    flat_map (fun l => map (fun n => (l, n)) (seq 0 (length (di_chains d)))) (tuples s).
  Lemma work_In l n : In (l, n) work <-> helicity_tuple s l /\ (n < length (di_chains d))%nat.
  Proof.
    unfold work. rewrite in_flat_map, <- tuples_In. split.
    - intros (l' & A & B). apply in_map_iff in B. destruct B as (n' & E & B). apply in_seq in B.
      injection E as E1 E2. subst. split; [auto|lia].
    - intros [A B]. exists l. split; auto. apply in_map. apply in_seq. lia.
  Qed.
  Lemma chain_index c : In c (di_chains d) -> exists n, (n < length (di_chains d))%nat /\ chain_at n = c.
  Proof. intros I. apply (In_nth _ _ no_chain) in I. exact I. Qed.
  Lemma serial_pools_ok : NoDup (map fst (map (fun n => (hel_prime n, spin_range2 (spin4 s n))) [0; 1; 2; 3])) /\
    Forall (fun p : symbol * list Z => snd p <> []) (map (fun n => (hel_prime n, spin_range2 (spin4 s n))) [0; 1; 2; 3]) /\
    NoDup (map fst (map (fun n => (hel_sym n, spin_range2 (spin4 s n))) [0; 1; 2; 3])) /\
    Forall (fun p : symbol * list Z => snd p <> []) (map (fun n => (hel_sym n, spin_range2 (spin4 s n))) [0; 1; 2; 3]).
  Proof.
    assert (X : forall i, In i [0; 1; 2; 3] -> spin_range2 (spin4 s i) <> []).
    { intros i Hi E. rewrite spin4_eq in E by auto. pose proof (std_spin_s _ _ _ _ _ D0 i Hi) as Hs.
      assert (Hin : In (- p_spin (s i)) (spin_range2 (p_spin (s i)))).
      { apply spin_range2_In. split; [lia|]. apply Z.even_spec. exists (p_spin (s i)). lia. }
      rewrite E in Hin. destruct Hin. }
    split; [repeat constructor; simpl; intuition discriminate|]. split; [repeat constructor; simpl; apply X; simpl; auto|].
    split; [repeat constructor; simpl; intuition discriminate|repeat constructor; simpl; apply X; simpl; auto].
  Qed.
  Lemma sorted_states : sorted (dkeys ((0, s 0) :: final_dict d s)) = Ok [0; 1; 2; 3].
  Proof.
    apply (QrulesConvert.sorted_perm_eq [0; 1; 2; 3]); [reflexivity|].
    apply Permutation_sym. exact (Permutation_map fst (states_perm _ _ _ _ _ D0)).
  Qed.
  Lemma state_item i : In i [0; 1; 2; 3] -> dgetitem i ((0, s 0) :: final_dict d s) = Ok (s i).
  Proof.
    intros I. apply dgetitem_ok. apply In_dget.
    - apply (Permutation_NoDup (l := [0; 1; 2; 3])); [|repeat constructor; simpl; intuition discriminate].
      apply Permutation_sym. exact (Permutation_map fst (states_perm _ _ _ _ _ D0)).
    - apply (Permutation_in _ (Permutation_sym (states_perm _ _ _ _ _ D0))).
      rewrite In_0123 in I. destruct I as [->|[->|[->| ->]]]; cbn; auto.
  Qed.

  Definition serial_intensity (cl : bool) (terms : list cexpr) : cexpr :=
    let al := if cl then cleanup (aligned_expr s terms) else aligned_expr s terms in
    let i := CSum (CAbs2 al) (map (fun n => (hel_sym n, spin_range2 (spin4 s n))) [0; 1; 2; 3]) in
    if cl then cleanup i else i.
  Definition all_params (params : dict pkey pval) : dict pkey pval :=
    fold_left (fun p ln => dupdate p (params_at (chain_at (snd ln)))) work params.

  Theorem serial_model cl : exists M ks terms zdefs amps vars,
    SerAmplitude.formulate m cl tl additional = Ok M /\
    get_existing_subsystem_ids m = Ok ks /\
    aligned_terms r (spin4 s) lam_sym lam_prime ks [] = Ok (terms, zdefs) /\
    SerAmplitude.formulate_loop m tl additional work ([], [], []) = Ok (amps, vars, all_params []) /\
    to_decay m None = Ok (m_decay M) /\ std_decay (m_decay M) s /\
    m_amplitudes M = amps /\ m_variables M = dupdate vars zdefs /\
    m_intensity M = serial_intensity cl terms /\
    m_params M = dupdate (all_params []) (map (fun n => (KSym (m_sym n), real_val (p_mass (s n)))) [0; 1; 2; 3]) /\
    m_masses M = map (fun n => (m_sym n, p_mass (s n))) [0; 1; 2; 3] /\
    formulate_invariants (m_decay M) = Ok (m_invariants M).
  Proof.
    destruct subsystems_ok as (ks & K1 & K2 & K3 & K4).
    assert (Hr : In r [1; 2; 3]) by apply (ds_reference _ _ _ _ _ D0).
    assert (Hk : forall k, In k ks -> In k [1; 2; 3]).
    { intros k I. apply K3 in I. destruct I as (c & I & <-). apply hd_k. exact I. }
    destruct (aligned_terms_total r (spin4 s) lam_sym lam_prime ks Hr Hk []) as [[terms zdefs] AT].
    destruct (loop_ok work) with (amps := @nil (akey * cexpr)) (vars := @nil (symbol * rexpr)) (params := @nil (pkey * pval))
      as (amps & vars & L & _).
    { intros [l n] I. apply work_In in I. apply I. }
    destruct (c51_decay _ _ _ _ _ D0 hd_three_body) as (D & TD & SD & _).
    destruct (std_invariants _ _ SD) as (e1 & e2 & e3 & INV & _).
    eexists. exists ks, terms, zdefs, amps, vars. split.
    { unfold SerAmplitude.formulate. rewrite (states_ok _ _ _ _ _ D0). cbn [bind].
      rewrite !state_item by (cbn; auto). cbn [bind]. rewrite (hd_chains _ _ _ _ _ _ _ _ _ H). cbn [bind].
      match goal with |- context [SerAmplitude.formulate_loop m tl additional ?W] => replace W with work end.
      2: { unfold work. rewrite tuples_spin4. reflexivity. }
      match goal with |- context [SerAmplitude.formulate_loop m tl additional work ?a] =>
        replace (SerAmplitude.formulate_loop m tl additional work a) with (Ok (amps, vars, all_params [])) by (symmetry; exact L) end.
      cbn [bind]. unfold SerAmplitude.formulate_aligned_amplitude, get_reference_topology.
      rewrite (dist_ok _ _ _ _ _ D0). cbn [bind].
      destruct (ds_reference _ _ _ _ _ D0) as (_ & lr & Wr). rewrite (with_pair_spectator _ _ _ Wr). cbn [bind].
      rewrite (states_ok _ _ _ _ _ D0). cbn [bind]. rewrite sorted_states. cbn [bind mapM].
      rewrite !state_item by (cbn; auto). cbn [bind]. rewrite K1. cbn [bind].
      change (aligned_terms r _ _ _ ks []) with (aligned_terms r (spin4 s) lam_sym lam_prime ks []). rewrite AT. cbn [bind].
      rewrite TD. cbn [bind]. rewrite (std_masses _ _ SD). cbn [bind]. rewrite INV. cbn [bind].
      reflexivity. }
    cbn [m_decay m_amplitudes m_variables m_intensity m_params m_masses m_invariants].
    repeat (split; [first [exact K1|exact AT|exact L|exact TD|exact SD|reflexivity|destruct cl; reflexivity]|]).
    exact INV.
  Qed.
End Amp.
