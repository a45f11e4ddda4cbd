(** Rates of parts with different partial waves (proofs for C144) *)
From Coq Require Import String ZArith List Bool Reals Lra Lia Psatz Permutation.
From Coquelicot Require Import Coquelicot.
From Verif Require Import Prelude Spin Decay Expr Sums CExpr SpecKin SpecDPD Builder SpecBuilder SpecFractions SpecObs SpecBounded SpecNormal NormalKin NormalFacts NormalProofs
  SpecProjection ProjectionFacts RateFacts.
Import ListNotations.
Local Open Scope R_scope.

(** ** Sums over partial waves *)
Section Waves.
  Context (F : wave -> C -> R) (F0 : forall q, F q (RtoC 0) = 0) (g : chain -> C).
  Let part_sum (cs : list chain) (q : wave) : R := F q (Csum (filter (fun c => eqb (wave_of c) q) cs) g).
  Lemma no_wave cs q : ~ In q (map wave_of cs) -> filter (fun c => eqb (wave_of c) q) cs = [].
  Proof.
    induction cs as [|c cs IH]; intros H; [reflexivity|]. cbn [filter map] in *. destruct (eqb (wave_of c) q) eqn:E.
    - exfalso. apply H. left. apply (proj1 (eqb_eq _ _)) in E. exact E.
    - apply IH. intros Q. apply H. right. exact Q.
  Qed.
  Lemma sum_more ws ws' (f : wave -> R) : NoDup ws -> NoDup ws' -> incl ws ws' -> (forall q, ~ In q ws -> f q = 0) -> Rsum ws f = Rsum ws' f.
  Proof.
    intros N N' I Z.
    assert (P : Permutation ws (filter (fun q => if in_dec (@eq_dec wave _) q ws then true else false) ws')).
    { apply NoDup_Permutation; [exact N|apply NoDup_filter; exact N'|]. intros q. rewrite filter_In. destruct (in_dec (@eq_dec wave _) q ws) as [H|H].
      - split; [intros _; split; [apply I; exact H|reflexivity]|intros _; exact H].
      - split; [contradiction|intros [_ Q]; discriminate Q]. }
    rewrite (Rsum_perm _ _ f P), Rsum_filter. apply Rsum_ext. intros q _. destruct (in_dec (@eq_dec wave _) q ws) as [H|H]; [reflexivity|]. symmetry. exact (Z q H).
  Qed.
  Lemma split_wave {A} (ps : list A) (ch : A -> list chain) q :
    (forall pq, In pq (pairs ps) -> forall c c', In c (ch (fst pq)) -> In c' (ch (snd pq)) -> wave_of c <> wave_of c') ->
    F q (Csum (flat_map (fun p => filter (fun c => eqb (wave_of c) q) (ch p)) ps) g) = Rsum ps (fun p => part_sum (ch p) q).
  Proof.
    induction ps as [|p ps IH]; intros H; cbn [flat_map Rsum Csum]; [apply F0|].
    assert (IH' := IH (fun pq Q => H pq (in_or_app _ _ _ (or_intror Q)))). rewrite Csum_app. unfold part_sum at 1.
    destruct (in_dec (@eq_dec wave _) q (map wave_of (ch p))) as [W|W].
    - apply in_map_iff in W. destruct W as (c & Wc & Hc).
      assert (Z : forall p', In p' ps -> filter (fun c => eqb (wave_of c) q) (ch p') = []).
      { intros p' Hp. apply no_wave. intros Q. apply in_map_iff in Q. destruct Q as (c' & Wc' & Hc').
        apply (H (p, p') (in_or_app _ _ _ (or_introl (in_map (fun y => (p, y)) _ _ Hp))) c c' Hc Hc'). congruence. }
      rewrite (Rsum_zero ps) by (intros p' Hp; unfold part_sum; rewrite (Z p' Hp); apply F0).
      replace (flat_map (fun p => filter (fun c => eqb (wave_of c) q) (ch p)) ps) with (@nil chain).
      + cbn [Csum]. rewrite Rplus_0_r. f_equal. ring.
      + clear - Z. induction ps as [|a ps IH]; [reflexivity|]. cbn [flat_map]. rewrite (Z a (or_introl eq_refl)), <- IH; [reflexivity|]. intros; apply Z; right; assumption.
    - rewrite (no_wave _ _ W). cbn [Csum]. rewrite F0, Rplus_0_l, <- IH'. f_equal. ring.
  Qed.
  Lemma filter_flat {A} (ps : list A) (ch : A -> list chain) (t : chain -> bool) : filter t (flat_map ch ps) = flat_map (fun p => filter t (ch p)) ps.
  Proof. induction ps as [|p ps IH]; cbn [flat_map]; [reflexivity|]. rewrite filter_app, IH. reflexivity. Qed.
  Lemma filter_perm (t : chain -> bool) l l' : Permutation l l' -> Permutation (filter t l) (filter t l').
  Proof.
    induction 1; cbn [filter]; [constructor|destruct (t x); auto| |eapply Permutation_trans; eassumption].
    destruct (t x), (t y); try apply Permutation_refl. apply perm_swap.
  Qed.
  Lemma sum_waves {A} (d : decay) (ps : list A) (dp : A -> decay) : Permutation (d_chains d) (flat_map (fun p => d_chains (dp p)) ps) ->
    (forall pq, In pq (pairs ps) -> forall c c', In c (d_chains (dp (fst pq))) -> In c' (d_chains (dp (snd pq))) -> wave_of c <> wave_of c') ->
    Rsum (waves d) (fun q => F q (Csum (chains_of_wave d q) g)) = Rsum ps (fun p => Rsum (waves (dp p)) (fun q => F q (Csum (chains_of_wave (dp p) q) g))).
  Proof.
    intros P H.
    transitivity (Rsum (waves d) (fun q => Rsum ps (fun p => part_sum (d_chains (dp p)) q))).
    - apply Rsum_ext. intros q _. rewrite <- (split_wave ps (fun p => d_chains (dp p)) q H). f_equal. apply Csum_perm. rewrite <- filter_flat. apply filter_perm. exact P.
    - rewrite Rsum_swap. apply Rsum_ext. intros p Hp. symmetry. apply sum_more; try apply NoDup_nodup.
      + intros q Q. apply nodup_In in Q. apply nodup_In. apply in_map_iff in Q. destruct Q as (c & <- & Hc). apply in_map.
        apply (Permutation_in _ (Permutation_sym P)). apply in_flat_map. exists p. split; [exact Hp|exact Hc].
      + intros q Q. unfold part_sum, chains_of_wave. cbn beta. rewrite no_wave by (intros X; apply Q; apply nodup_In; exact X). apply F0.
  Qed.
End Waves.

(** ** The total rate *)
Theorem c144_waves b s dyn ref cl uc m r ps base cpl i j k N0 N : std_decay (b_decay b) s -> dynamics_of b dyn -> plain_resonances (b_decay b) ->
  formulate b ref cl uc = Ok m -> b_prod_helicity b = false -> b_dec_helicity b = false ->
  (forall c, In c (d_chains (b_decay b)) -> allowed_chain c) -> one_subsystem (b_decay b) k -> cyclic i j k ->
  (forall c, In c (d_chains (b_decay b)) ->
     ~ In (sigma_at i) (symbols_of (de_expr (dyn c))) /\ ~ In (sigma_at j) (symbols_of (de_expr (dyn c)))) ->
  Permutation (d_chains (b_decay b)) (flat_map (fun p => d_chains (b_decay (pt_builder p))) ps) ->
  (forall p, In p ps -> is_part b s dyn uc r p /\ d_chains (b_decay (pt_builder p)) <> []) ->
  (forall pq, In pq (pairs ps) -> forall c c', In c (d_chains (b_decay (pt_builder (fst pq)))) -> In c' (d_chains (b_decay (pt_builder (snd pq)))) ->
     wave_of c <> wave_of c') ->
  open_phase_space base -> integrates_to base (intensity_at m cpl) i j k N0 ->
  (forall p, In p ps -> integrates_to base (intensity_at (pt_model p) cpl) i j k (N p)) -> N0 = Rsum ps N.
Proof.
  intros D Y PR F HP HD Al One Cy Sy Pm Ps Ws Op H0 HN.
  assert (Sub : forall p c, In p ps -> In c (d_chains (b_decay (pt_builder p))) -> In c (d_chains (b_decay b))).
  { intros p c Hp Hc. apply (Permutation_in _ (Permutation_sym Pm)). apply in_flat_map. exists p. split; [exact Hp|exact Hc]. }
  assert (Tot : integrates_to base (fun pt => Rsum ps (fun p => intensity_at (pt_model p) cpl pt)) i j k (Rsum ps N)) by exact (rate_sum base i j k Cy Op ps _ N HN).
  destruct H0 as (P0 & J0 & K0). destruct Tot as (P1 & J1 & K1).
  rewrite <- (is_RInt_unique _ _ _ _ K0), <- (is_RInt_unique _ _ _ _ K1). pose proof (line_open base i j k Cy Op) as O.
  apply RInt_ext. intros s0. rewrite Rmin_left, Rmax_right by lra. intros Hs.
  pose proof (projects_line base i j k Cy Op _ P0 s0 J0 Hs) as L0. pose proof (projects_line base i j k Cy Op _ P1 s0 J1 Hs) as L1.
  destruct (line_ends_at base i j k Cy Op s0 Hs) as [E Rg].
  pose proof (line_between base i j k Cy Op s0 Hs) as Bt.
  pose proof (c138 b s dyn ref cl uc m i j k (with_sigma base k s0) cpl _ _ D Y PR F HP HD Al One Cy Sy Bt Rg) as W0.
  set (lo := line_at base i j k s0 (-1)) in *. set (hi := line_at base i j k s0 1) in *.
  set (g := fun c => (RtoC (cyclic_sign c) * (ceval (Env (with_sigma base k s0) cpl) (fun _ => 0%Z) (de_expr (dyn c))
        * (if uc then coefficient else coupling_product) (Env (with_sigma base k s0) cpl) false false c 0%Z 0%Z 0%Z 0%Z))%C).
  set (G := fun (q : wave) (z : C) => / IZR (wave_spin q + 1) * Cmod z ^ 2).
  assert (Wp : forall p, In p ps -> is_RInt (fun x => intensity_at (pt_model p) cpl (dalitz_line (with_sigma base k s0) i j k x)) lo hi
    ((hi - lo) * Rsum (waves (b_decay (pt_builder p))) (fun q => G q (Csum (chains_of_wave (b_decay (pt_builder p)) q) g)))).
  { intros p Hp. destruct (Ps p Hp) as [[d1 d2 d3 d4 d5 d6] Ne].
    refine (c138 (pt_builder p) s dyn (pt_reference p) (pt_cleanup p) uc (pt_model p) i j k (with_sigma base k s0) cpl _ _ d1 d2 _ d5 _ _ _ _ Cy _ Bt Rg).
    - intros c Hc. exact (PR c (Sub p c Hp Hc)).
    - rewrite d3. exact HP.
    - rewrite d4. exact HD.
    - intros c Hc. exact (Al c (Sub p c Hp Hc)).
    - split; [exact Ne|]. intros c Hc. exact (proj2 One c (Sub p c Hp Hc)).
    - intros c Hc. exact (Sy c (Sub p c Hp Hc)). }
  assert (Ws1 : forall qs, incl qs ps -> is_RInt (fun x => Rsum qs (fun p => intensity_at (pt_model p) cpl (dalitz_line (with_sigma base k s0) i j k x))) lo hi
    (Rsum qs (fun p => (hi - lo) * Rsum (waves (b_decay (pt_builder p))) (fun q => G q (Csum (chains_of_wave (b_decay (pt_builder p)) q) g))))).
  { induction qs as [|p qs IH]; intros I; cbn [Rsum].
    - pose proof (is_RInt_const lo hi 0) as Q. change (is_RInt (fun _ : R => 0) lo hi ((hi - lo) * 0)) in Q. rewrite Rmult_0_r in Q. exact Q.
    - exact (is_RInt_plus _ _ _ _ _ _ (Wp p (I p (or_introl eq_refl))) (IH (fun x X => I x (or_intror X)))). }
  pose proof (Ws1 ps (fun x X => X)) as W1.
  transitivity ((hi - lo) * Rsum (waves (b_decay b)) (fun q => G q (Csum (chains_of_wave (b_decay b) q) g))).
  { exact (eq_trans (eq_sym (is_RInt_unique _ _ _ _ L0)) (is_RInt_unique _ _ _ _ W0)). }
  transitivity (Rsum ps (fun p => (hi - lo) * Rsum (waves (b_decay (pt_builder p))) (fun q => G q (Csum (chains_of_wave (b_decay (pt_builder p)) q) g)))).
  2:{ exact (eq_trans (eq_sym (is_RInt_unique _ _ _ _ W1)) (is_RInt_unique _ _ _ _ L1)). }
  rewrite Rsum_scal_l. f_equal. refine (sum_waves G _ g (b_decay b) ps (fun p => b_decay (pt_builder p)) Pm Ws).
  intros q. unfold G. rewrite Cmod_0. ring.
Qed.
