(** The amplitudes that [SerAmplitude.formulate] builds from helicity definitions. *)
From Coq Require Import String ZArith QArith Qcanon Qreals List Bool Reals Lia Lra Permutation Sorted.
From Coquelicot Require Import Complex.
From Verif Require Import Prelude Spin SpinFacts Decay DecayFacts Expr Angles AnglesFacts Sums Wigner WignerFacts CG CExpr
  CExprFacts OccFacts SpecDPD Builder BuilderFacts ModelFacts BuilderProofs SerFormat SerDynamics SerAmplitude SpecSerial SerDecay.
Import ListNotations.
Local Open Scope string_scope.
Local Open Scope Z_scope.
Local Open Scope list_scope.

(** ** Vertices *)
Lemma sign_value_cases s f : In (s, f) [(None, 1); (Some "+", 1); (Some "-", -1); (Some "", 0)] ->
  sign_to_value (match s with Some t => t | None => "+" end) = Ok f.
Proof.
  cbn. intros [E|[E|[E|[E|[]]]]]; injection E as <- <-; reflexivity.
Qed.
Lemma recoupling_ok m ci vi c v a b a0 b0 f :
  nth_chain m ci = Ok c -> length (cd_vertices c) = 2%nat -> In vi [0%nat; 1%nat] ->
  nth_vertex c vi = Ok v -> v_node v = [a; b] -> v_helicities v = Some [a0; b0] -> flip_factor v f ->
  exists e, formulate_recoupling m ci vi = Ok e /\
    (forall ev h, ceval ev h e = RtoC (coupling_of f (h (helicity_symbol a)) (h (helicity_symbol b)) a0 b0)) /\
    (forall h, occ h e = []).
Proof.
  intros Hc L Iv Hv N Hh F. unfold formulate_recoupling. rewrite Hc. cbn [bind]. rewrite L. cbn [Nat.eqb negb].
  rewrite (proj2 (memb_In vi _) Iv). cbn [negb]. rewrite Hv. cbn [bind]. rewrite N. cbn [map unpack2 bind].
  unfold coupling_of.
  destruct F as [[T ->]|[T P]]; rewrite T.
  - rewrite Hh. cbn [bind opt_key unpack2]. eexists. split; [reflexivity|]. split.
    + intros ev h. unfold helicity_recoupling. cbn [ceval heval].
      destruct (_ =? a0), (_ =? b0); cbn [andb]; rewrite <- RtoC_mult; f_equal; ring.
    + intros h. unfold helicity_recoupling. cbn [occ]. destruct (_ || _); reflexivity.
  - rewrite Hh. cbn [bind opt_key unpack2].
    change (eqb "parity" "helicity" || eqb "parity" "parity") with true. cbn iota.
    change (eqb "parity" "parity") with true. cbn iota.
    rewrite (sign_value_cases _ _ P). cbn [bind]. eexists. split; [reflexivity|]. split.
    + intros ev h. unfold parity_recoupling, CNum. cbn [ceval heval]. rewrite Q2R_Z.
      destruct (_ =? a0), (_ =? b0), (_ =? - a0), (_ =? - b0); cbn [andb]; rewrite <- ?RtoC_mult, <- ?RtoC_plus; f_equal; ring.
    + intros h. unfold parity_recoupling, CNum. cbn [occ vanishes].
      repeat match goal with |- context [if ?c then _ else _] => destruct c end; reflexivity.
Qed.

Lemma theta_any i j k : Permutation [i; j; k] [1; 2; 3] ->
  exists e, formulate_scattering_angle i j = Ok (theta_name i j, e).
Proof.
  intros P. apply perm_123 in P. cbn in P.
  repeat (destruct P as [E|P]; [injection E as <- <- <-; eexists; reflexivity|]). destruct P.
Qed.
Lemma with_pair_spectator k l t : with_pair k l t -> get_spectator_id t = Ok k.
Proof.
  intros [->| ->]; apply c59_spectator; cbn.
  - split; auto. intros i [E|[E|[]]]; congruence.
  - split; auto. intros i [E|[E|[]]]; congruence.
Qed.
Lemma hel_sym_neq_R i : hel_sym i <> lambda_R.
Proof. intros E. apply (f_equal (fun x => String.get 0 (sname x))) in E. discriminate E. Qed.

Definition chain_params (w : symbol) (v : pval) (ps : dict pkey pval) : dict pkey pval :=
  dupdate [(KSym w, v)] ps.

Lemma subs_value ev l e : forall h, ceval ev h (subs_helicities l e) =
  ceval ev (upd4 hel_sym h l) e.
Proof.
  intros h. unfold subs_helicities. cbn [fold_left]. rewrite !ceval_csub.
  apply ceval_ext. intros x. unfold upd4, upd.
  rewrite !lam4_at4 by (cbn; auto).
  destruct (eqb x (hel_sym 3)) eqn:E3; [|destruct (eqb x (hel_sym 2)) eqn:E2; [|destruct (eqb x (hel_sym 1)) eqn:E1;
    [|destruct (eqb x (hel_sym 0)) eqn:E0]]]; rewrite ?Prelude.eqb_eq in *; subst; reflexivity.
Qed.
Lemma subs_occ l e : forall h, occ h (subs_helicities l e) = occ (upd4 hel_sym h l) e.
Proof.
  intros h. unfold subs_helicities. cbn [fold_left]. rewrite !occ_csub.
  apply occ_ext. intros x. unfold upd4, upd.
  rewrite !lam4_at4 by (cbn; auto).
  destruct (eqb x (hel_sym 3)) eqn:E3; [|destruct (eqb x (hel_sym 2)) eqn:E2; [|destruct (eqb x (hel_sym 1)) eqn:E1;
    [|destruct (eqb x (hel_sym 0)) eqn:E0]]]; rewrite ?Prelude.eqb_eq in *; subst; reflexivity.
Qed.
Lemma upd4_hel h l i : In i [0; 1; 2; 3] -> upd4 hel_sym h l (hel_sym i) = at4 l i.
Proof. rewrite In_0123. intros [->|[->|[->| ->]]]; reflexivity. Qed.

Section Amp.
  Variables (m : model_def) (d : distribution) (s : Z -> state) (r : Z)
    (tl : string -> string) (additional : option (dict string prop_builder))
    (x : chain_def -> content) (w : chain_def -> symbol) (dyn : chain_def -> defexpr).
  Hypothesis H : helicity_definition m d s r tl additional x w dyn.

  Lemma hd_chains : get_decay_chains m = Ok (di_chains d).
  Proof. exact (chains_ok None _ _ _ _ (hd_states _ _ _ _ _ _ _ _ _ H)). Qed.

  Lemma decay_product_helicities_ok c vp vd i j li lj k a b :
    (cd_vertices c = [vp; vd] \/ cd_vertices c = [vd; vp]) -> v_node vd = [It i; It j] ->
    v_helicities vd = Some [li; lj] -> with_pair k [It a; It b] (v_node vp) ->
    decay_product_helicities (cd_vertices c) = Ok [(i, li); (j, lj)].
  Proof.
    intros V N Hh W. assert (A : all_int (v_node vp) = false) by (destruct W as [->| ->]; reflexivity).
    destruct V as [->| ->]; cbn [decay_product_helicities]; rewrite ?A, N; cbn [all_int forallb is_int andb];
      rewrite Hh; reflexivity.
  Qed.
  Lemma resonance_helicity_ok c vp vd i j k pair rr lk :
    (cd_vertices c = [vp; vd] \/ cd_vertices c = [vd; vp]) -> v_node vd = [It i; It j] ->
    (exists a b, pair = [It a; It b]) ->
    ((v_node vp = [Sub pair; It k] /\ v_helicities vp = Some [rr; lk]) \/
     (v_node vp = [It k; Sub pair] /\ v_helicities vp = Some [lk; rr])) ->
    resonance_helicity (cd_vertices c) = Ok (pair, rr).
  Proof.
    intros V N (a & b & ->) W.
    destruct V as [->| ->]; cbn [resonance_helicity]; rewrite ?N; cbn [all_int forallb is_int andb];
      destruct W as [[E1 E2]|[E1 E2]]; rewrite E1, E2; reflexivity.
  Qed.

  Lemma chain_amp n c l : nth_error (di_chains d) n = Some c -> exists th e v,
    formulate_scattering_angle (ct_i (x c)) (ct_j (x c)) = Ok (theta_name (ct_i (x c)) (ct_j (x c)), th) /\
    get_weight c tl = Ok (w c, v) /\
    formulate_chain_amplitude l m n tl additional =
      Ok (ChainAmp (amp_name (ct_k (x c)), amp_index l) e (chain_params (w c) v (de_params (dyn c)))
            (theta_name (ct_i (x c)) (ct_j (x c))) th) /\
    (forall ev h, ceval ev h (subs_helicities l e) =
       serial_term (x c) (e_sym ev (w c)) (ceval ev (fun _ => 0) (de_expr (dyn c)))
         (Re (e_sym ev (theta_name (ct_i (x c)) (ct_j (x c))))) l) /\
    (forall h y, In y (occ h (subs_helicities l e)) ->
       y = OVar (w c) \/ y = OAngle (theta_name (ct_i (x c)) (ct_j (x c))) \/
       exists z, y = OVar z /\ In z (symbols_of (de_expr (dyn c)))).
  Proof.
    intros Hn. assert (Ic : In c (di_chains d)) by (eapply nth_error_In; eauto).
    destruct (hd_content _ _ _ _ _ _ _ _ _ H c Ic) as (vp & vd & T & Hd & (pair & Hp) & Fp & Fd).
    destruct (hd_weight _ _ _ _ _ _ _ _ _ H c Ic) as (v & Hw).
    destruct (hd_dynamics _ _ _ _ _ _ _ _ _ H c Ic) as (y & Y1 & Y2).
    pose proof (hd_lineshape _ _ _ _ _ _ _ _ _ H c Ic) as LS.
    pose proof (tb_ids _ _ _ _ _ _ _ T) as P. pose proof (tb_decay _ _ _ _ _ _ _ T) as N.
    pose proof (tb_vertices _ _ _ _ _ _ _ T) as V.
    destruct (tb_production _ _ _ _ _ _ _ T) as (a & b & W & _).
    destruct (tb_propagator _ _ _ _ _ _ _ T) as (p & _ & _ & Ep & Es & _).
    destruct (tb_topology _ _ _ _ _ _ _ T) as (lt & Wt).
    destruct (theta_any _ _ _ P) as (th & Th). exists th.
    assert (pair = [It a; It b]) as ->.
    { destruct Hp as [[E _]|[E _]], W as [E'|E']; rewrite E in E'; congruence. }
    assert (I3 : forall i, In i [ct_i (x c); ct_j (x c); ct_k (x c)] -> In i [1; 2; 3]) by (intros i; apply Permutation_in; exact P).
    assert (NC : nth_chain m n = Ok c) by (unfold nth_chain; rewrite hd_chains; cbn [bind]; rewrite Hn; reflexivity).
    assert (L2 : length (cd_vertices c) = 2%nat) by (destruct V as [->| ->]; reflexivity).
    set (cp := fun h : symbol -> Z => coupling_of (ct_fp (x c)) (h lambda_R) (h (hel_sym (ct_k (x c)))) (ct_r (x c)) (ct_lk (x c))).
    set (cd := fun h : symbol -> Z => coupling_of (ct_fd (x c)) (h (hel_sym (ct_i (x c)))) (h (hel_sym (ct_j (x c)))) (ct_li (x c)) (ct_lj (x c))).
    assert (R : exists e0 e1, formulate_recoupling m n 0 = Ok e0 /\ formulate_recoupling m n 1 = Ok e1 /\
      (forall ev h, (ceval ev h e0 * ceval ev h e1 = RtoC (cp h) * RtoC (cd h))%C) /\
      (forall h, occ h e0 = [] /\ occ h e1 = [])).
    { assert (RP : forall vi, In vi [0%nat; 1%nat] -> nth_vertex c vi = Ok vp -> exists e, formulate_recoupling m n vi = Ok e /\
        (forall ev h, ceval ev h e = RtoC (cp h)) /\ forall h, occ h e = []).
      { intros vi Iv Hv. destruct Hp as [[E1 E2]|[E1 E2]].
        - exact (recoupling_ok m n vi c vp _ _ _ _ _ NC L2 Iv Hv E1 E2 Fp).
        - destruct (recoupling_ok m n vi c vp _ _ _ _ _ NC L2 Iv Hv E1 E2 Fp) as (e & A1 & A2 & A3). exists e. split; auto. split; auto.
          intros ev h. rewrite A2. unfold cp, coupling_of. cbn [helicity_symbol]. f_equal.
          rewrite (andb_comm (h (hel_sym _) =? _)), (andb_comm (h (hel_sym _) =? _) (_ =? - ct_r _)). reflexivity. }
      assert (RD : forall vi, In vi [0%nat; 1%nat] -> nth_vertex c vi = Ok vd -> exists e, formulate_recoupling m n vi = Ok e /\
        (forall ev h, ceval ev h e = RtoC (cd h)) /\ forall h, occ h e = []).
      { intros vi Iv Hv. exact (recoupling_ok m n vi c vd _ _ _ _ _ NC L2 Iv Hv N Hd Fd). }
      unfold nth_vertex in RP, RD.
      destruct V as [E|E]; rewrite E in RP, RD.
      - destruct (RP 0%nat) as (e0 & A1 & A2 & A3); [cbn; auto|reflexivity|].
        destruct (RD 1%nat) as (e1 & B1 & B2 & B3); [cbn; auto|reflexivity|].
        exists e0, e1. repeat (split; auto). intros ev h. rewrite A2, B2. reflexivity.
      - destruct (RD 0%nat) as (e0 & A1 & A2 & A3); [cbn; auto|reflexivity|].
        destruct (RP 1%nat) as (e1 & B1 & B2 & B3); [cbn; auto|reflexivity|].
        exists e0, e1. repeat (split; auto). intros ev h. rewrite A2, B2. ring. }
    destruct R as (e0 & e1 & R0 & R1 & RV & RO).
    eexists. exists v. split; [exact Th|]. split; [exact Hw|]. split.
    { unfold formulate_chain_amplitude. rewrite NC. cbn [bind]. rewrite Y1. cbn [bind]. rewrite Y2. cbn [bind].
      rewrite Hw. cbn [bind]. rewrite (decay_product_helicities_ok c vp vd _ _ _ _ _ _ _ V N Hd W). cbn [bind unpack2].
      rewrite Th. cbn [bind]. rewrite Ep, Es, spin_value_half. cbn [bind].
      rewrite (resonance_helicity_ok c vp vd _ _ _ _ _ _ V N (ex_intro _ a (ex_intro _ b eq_refl)) Hp). cbn [bind].
      rewrite (with_pair_spectator _ _ _ Wt). cbn [bind]. rewrite R0, R1. cbn [bind].
      rewrite (amp_base_name (ct_k (x c))) by (apply I3; cbn; auto). cbn [bind].
      destruct l as [[[l0 l1] l2] l3]. reflexivity. }
    split.
    - intros ev h. rewrite subs_value, ceval_csub. set (h' := upd (upd4 hel_sym h l) (helicity_symbol (Sub [It a; It b])) (ct_r (x c))).
      cbn [ceval heval]. unfold serial_term.
      rewrite <- (Cmult_assoc (e_sym ev (w c))), RV, Cmult_assoc.
      assert (EH : forall i, In i [1; 2; 3] -> h' (hel_sym i) = at4 l i).
      { intros i Ii. unfold h', upd. destruct (eqb (hel_sym i) _) eqn:E.
        - rewrite Prelude.eqb_eq in E. exfalso. exact (hel_sym_neq_R i E).
        - apply upd4_hel. right; auto. }
      assert (ER : h' lambda_R = ct_r (x c)).
      { unfold h', upd. cbn [helicity_symbol]. rewrite eqb_refl. reflexivity. }
      assert (ER' : h' (helicity_symbol (Sub [It a; It b])) = ct_r (x c)) by exact ER.
      assert (EP : cp h' = coupling_of (ct_fp (x c)) (ct_r (x c)) (at4 l (ct_k (x c))) (ct_r (x c)) (ct_lk (x c))).
      { unfold cp. rewrite ER, EH by (apply I3; cbn; auto). reflexivity. }
      assert (ED : cd h' = coupling_of (ct_fd (x c)) (at4 l (ct_i (x c))) (at4 l (ct_j (x c))) (ct_li (x c)) (ct_lj (x c))).
      { unfold cd. rewrite !EH by (apply I3; cbn; auto). reflexivity. }
      assert (EY : ceval ev h' (de_expr (dyn c)) = ceval ev (fun _ => 0) (de_expr (dyn c))) by (apply lineshape_eval; auto).
      rewrite EP, ED, ER', EY. reflexivity.
    - intros h z. rewrite subs_occ, occ_csub. cbn [occ vanishes].
      set (h' := upd _ _ _). destruct (RO h') as [O0 O1]. rewrite (lineshape_occ h' _ LS), O0, O1, !app_nil_r.
      intros Hz. assert (Hz' : In z ((OVar (w c) :: [OAngle (theta_name (ct_i (x c)) (ct_j (x c)))]) ++ map OVar (symbols_of (de_expr (dyn c))))).
      { repeat match type of Hz with context [if ?q then _ else _] => destruct q end; cbn [app] in *;
          repeat first [destruct Hz as [Hz|Hz]; [cbn; auto|] | destruct Hz | apply in_app_or in Hz]; cbn; auto. }
      apply in_app_or in Hz'. destruct Hz' as [[<-|[<-|[]]]|Hz']; auto.
      apply in_map_iff in Hz'. destruct Hz' as (t & <- & Ht). right. right. exists t. auto.
  Qed.
End Amp.
