(** C130: the definition of a serialised model with new labels; its lineshapes *)
From Coq Require Import String ZArith QArith Qcanon Qreals List Bool Reals Lia Lra Permutation Sorted.
From Coquelicot Require Import Complex.
From Verif Require Import Prelude Spin Decay Expr Angles Sums CExpr SpecKin SpecDPD Builder Dynamics SpecDynamics LineshapeFacts LineshapeProofs
  SpinFacts DecayFacts CExprFacts BuilderFacts ModelFacts SpecRelabel RelabelFacts RelabelProofs HankelFacts
  SerFormat SerDynamics SerAmplitude SpecSerial SpecSerialShapes SerDecay SerModel SerProofs SerDyn SerShapes SerTotal SpecPropagators SerPropagators
  SerWeights SpecSerPoints SerPoints SpecSerRelabel SerRelabel.
Import ListNotations.
Local Open Scope string_scope.
Local Open Scope Z_scope.
Local Open Scope list_scope.

(** ** Values of built-in lineshapes *)
Definition wave_of (d : dict string Qc) : Z := match dget "l" d with Some v => int_of v | None => 0 end.
Definition width_value (f : func_def) (name : string) (k a b : Z) (ev : env) : C :=
  if eqb (fd_type f) "BreitWigner"
  then running_width two_body_phsp (wave_of (fd_numbers f)) (e_sym ev (sigma_sym k)) (e_sym ev (named "m" name)) (e_sym ev (named "\Gamma" name))
            (e_sym ev (mass_sym a)) (e_sym ev (mass_sym b)) (e_sym ev radius_sym)
  else match fd_channels f with
  | Some (c0 :: rest) => (channel_formula (wave_of c0) (e_sym ev (sigma_sym k)) (e_sym ev (named "m" name)) (e_sym ev (named "\Gamma" name))
              (e_sym ev (mass_sym a)) (e_sym ev (mass_sym b)) (e_sym ev (named "R" name)) + further_widths ev k name 2 (map wave_of rest))%C
  | _ => RtoC 0
  end.
Definition vertex_wave (m : model_def) (v : vertex) : Z :=
  match v_formfactor v with
  | Some name => if eqb name "" then 0 else match get_function_definition name m with Ok f => wave_of (fd_numbers f) | Err _ => 0 end
  | None => 0
  end.

Lemma propagator_value m p a b k name f l1 : pr_node p = [It a; It b] -> Permutation [a; b; k] [1; 2; 3] ->
  function_of m (pr_parametrization p) f -> complete_breit_wigner f \/ complete_multichannel f -> lineshape_of m name None p l1 ->
  forall ev h, ceval ev h (de_expr l1) = bw_simple (e_sym ev (sigma_sym k)) (e_sym ev (named "m" name)) (width_value f name k a b ev).
Proof.
  intros N P Ff' Co (f0 & b0 & Ff & Bf & E) ev h.
  assert (f0 = f) by (apply function_ok in Ff, Ff'; congruence). subst f0.
  destruct Bf as [(aa & Q & _)|(_ & Bf)]; [discriminate Q|]. unfold width_value.
  destruct Co as [(Ty & HN)|Co].
  - destruct Bf as [[_ ->]|[Q _]]; [|rewrite Q in Ty; discriminate Ty].
    destruct (HN "l") as (vl & E1); [cbn; auto 10|]. destruct (HN "mass") as (vm & E2); [cbn; auto 10|].
    destruct (HN "width") as (vw & E3); [cbn; auto 10|]. destruct (HN "ma") as (va & E4); [cbn; auto 10|].
    destruct (HN "mb") as (vb & E5); [cbn; auto 10|]. destruct (HN "d") as (vd & E6); [cbn; auto 10|].
    rewrite (bw_ok m p a b k name f N P Ff _ _ _ _ _ _ E1 E2 E3 E4 E5 E6) in E. injection E as <-. cbn [de_expr].
    rewrite Ty. replace (eqb "BreitWigner" "BreitWigner") with true by reflexivity. unfold wave_of. rewrite E1.
    refine (eq_trans (c38_running ev h _ _ _ _ _ _ _ _ _ phase_space_factor_value _) _); [right; left|]; reflexivity.
  - destruct Bf as [[Q _]|[Ty ->]]; [destruct Co as (Ty & _); rewrite Q in Ty; discriminate Ty|].
    destruct (multi_ok m p a b k name f N P Ff Co)
      as (e & c0' & rest' & chs & vm' & vl & va & vb & vg & vd & E' & EC' & E1' & El & Ea & Eb & Eg & Ed & EE & LC & NC & _).
    rewrite E' in E. injection E as <-. rewrite Ty, EC'. replace (eqb "MultichannelBreitWigner" "BreitWigner") with false by reflexivity.
    rewrite EE, c38_multichannel, Csum_eq_cons. cbn [ceval]. f_equal. f_equal.
    + unfold wave_of. rewrite El. reflexivity.
    + apply channels_value; [rewrite map_length; exact LC|]. intros q L Eq.
      rewrite nth_error_map in Eq. destruct (nth_error rest' q) as [c|] eqn:Ec; [|discriminate Eq]. injection Eq as <-.
      destruct (NC q c Ec) as (vl' & ? & ? & ? & Xl' & _ & _ & _ & Y & _). unfold wave_of. rewrite Xl'. exact Y.
Qed.

Lemma decay_vertex_value m v i j k e : complete_form_factor m v -> formulate_form_factor v m = Ok e ->
  v_node v = [It i; It j] -> Permutation [i; j; k] [1; 2; 3] ->
  forall ev h, ceval ev h (de_expr e) = form_factor (vertex_wave m v) (e_sym ev (sigma_sym k)) (e_sym ev (mass_sym i)) (e_sym ev (mass_sym j)) (e_sym ev radius_sym).
Proof.
  assert (U : forall ev h, ceval ev h (de_expr de_unit) = RtoC 1) by (intros; cbn [de_unit de_expr]; apply CNum_value).
  intros Co E N P ev h. unfold vertex_wave.
  destruct Co as [Q|[Q|(nm & f & V & NE & Ff & Ty & HN)]].
  1, 2: rewrite (form_factor_none m v ltac:(auto)) in E; injection E as <-; rewrite U, Q; symmetry; apply form_factor_zero.
  destruct (HN "l") as (vl & E1); [cbn; auto|]. destruct (HN "radius") as (vr & E2); [cbn; auto|].
  destruct (c57_decay_value m v nm f vl vr i j k ev h V NE Ff Ty E1 E2 N P) as (e' & E3 & X & _).
  assert (e' = e) by congruence. subst e'. rewrite X, V, (function_ok _ _ _ Ff).
  destruct (eqb nm "") eqn:Q; [apply (proj1 (Prelude.eqb_eq _ _)) in Q; contradiction|]. unfold wave_of. rewrite E1. reflexivity.
Qed.
Lemma production_vertex_value m d s r v a b k e : describes_states (fun n => n) m d s r -> complete_form_factor m v -> formulate_form_factor v m = Ok e ->
  with_pair k [It a; It b] (v_node v) -> Permutation [a; b; k] [1; 2; 3] ->
  forall ev h, ceval ev h (de_expr e) = form_factor (vertex_wave m v) (e_sym ev (mass_sym 0)) (e_sym ev (sigma_sym k)) (e_sym ev (mass_sym k))
    (e_sym ev (named "R" (p_latex (s 0)))).
Proof.
  assert (U : forall ev h, ceval ev h (de_expr de_unit) = RtoC 1) by (intros; cbn [de_unit de_expr]; apply CNum_value).
  intros D Co E N P ev h. unfold vertex_wave.
  destruct Co as [Q|[Q|(nm & f & V & NE & Ff & Ty & HN)]].
  1, 2: rewrite (form_factor_none m v ltac:(auto)) in E; injection E as <-; rewrite U, Q; symmetry; apply form_factor_zero.
  destruct (HN "l") as (vl & E1); [cbn; auto|]. destruct (HN "radius") as (vr & E2); [cbn; auto|].
  destruct (c57_production_value m d s r v nm f vl vr a b k ev h D V NE Ff Ty E1 E2 N P) as (e' & E3 & X & _).
  assert (e' = e) by congruence. subst e'. rewrite X, V, (function_ok _ _ _ Ff).
  destruct (eqb nm "") eqn:Q; [apply (proj1 (Prelude.eqb_eq _ _)) in Q; contradiction|]. unfold wave_of. rewrite E1. reflexivity.
Qed.
(** The dynamics of a chain of a complete definition *)
Lemma builtin_value m d s r tl c e spin i j k vp vd q a b f : describes_states (fun n => n) m d s r ->
  dynamics_of_chain m tl None c e -> complete_chain m c -> three_body c spin i j k vp vd ->
  cd_propagators c = [q] -> pr_node q = [It a; It b] -> function_of m (pr_parametrization q) f ->
  forall ev h, ceval ev h (de_expr e) =
    (bw_simple (e_sym ev (sigma_sym k)) (e_sym ev (named "m" (tl (cd_name c)))) (width_value f (tl (cd_name c)) k a b ev)
     * (form_factor (vertex_wave m vp) (e_sym ev (mass_sym 0)) (e_sym ev (sigma_sym k)) (e_sym ev (mass_sym k)) (e_sym ev (named "R" (p_latex (s 0))))
        * form_factor (vertex_wave m vd) (e_sym ev (sigma_sym k)) (e_sym ev (mass_sym i)) (e_sym ev (mass_sym j)) (e_sym ev radius_sym)))%C.
Proof.
  intros D Dy Cc T Ep N Ff ev h.
  destruct (c70_dynamics m tl None c e) as (ls & fs & L & Fs & V & _).
  { intros aa Q. discriminate Q. }
  { exact Dy. }
  pose proof (tb_ids _ _ _ _ _ _ _ T) as P.
  assert (Pk : forall a b, Permutation [a; b] [i; j] -> Permutation [a; b; k] [1; 2; 3]).
  { intros a' b' Q. apply (Permutation_trans (l' := [i; j; k])); [|exact P]. exact (Permutation_app_tail [k] Q). }
  destruct (tb_propagator _ _ _ _ _ _ _ T) as (q' & a0 & b0 & Ep' & _ & N' & Pab).
  rewrite Ep in Ep'. injection Ep' as <-. rewrite N in N'. injection N' as <- <-.
  rewrite Ep in L. inversion L as [|? l1 ? ? L1 L2]; subst. inversion L2; subst.
  destruct (proj1 Cc q) as (f' & Ff' & Co); [rewrite Ep; left; reflexivity|].
  assert (f' = f) by (apply function_ok in Ff, Ff'; congruence). subst f'.
  pose proof (propagator_value m q a b k (tl (cd_name c)) f l1 N (Pk _ _ Pab) Ff Co L1 ev h) as VW.
  destruct (tb_production _ _ _ _ _ _ _ T) as (a' & b' & Np & Pp).
  assert (Iv : In vp (cd_vertices c) /\ In vd (cd_vertices c)) by (destruct (tb_vertices _ _ _ _ _ _ _ T) as [Ev|Ev]; rewrite Ev; cbn; auto).
  destruct Iv as [Ivp Ivd].
  assert (Y : exists ep ed, formulate_form_factor vp m = Ok ep /\ formulate_form_factor vd m = Ok ed /\
    product (map (fun y => ceval ev h (de_expr y)) fs) = (ceval ev h (de_expr ep) * ceval ev h (de_expr ed))%C).
  { destruct (tb_vertices _ _ _ _ _ _ _ T) as [Ev|Ev]; rewrite Ev in Fs; inversion Fs as [|? f1 ? ? X1 X2]; subst;
      inversion X2 as [|? f2 ? ? X3 X4]; subst; inversion X4; subst; [exists f1, f2|exists f2, f1]; (split; [assumption|]); (split; [assumption|]);
      cbn [map product]; ring. }
  destruct Y as (ep & ed & Fp & Fd & Y). rewrite V. cbn [app map product]. rewrite Y, VW.
  rewrite (production_vertex_value m d s r vp a' b' k ep D (proj2 Cc vp Ivp) Fp Np (Pk _ _ Pp)).
  rewrite (decay_vertex_value m vd i j k ed (proj2 Cc vd Ivd) Fd (tb_decay _ _ _ _ _ _ _ T) P). ring.
Qed.

(** ** Definitions with new labels *)
Lemma relabel_with_pair p k l n : with_pair k l n -> with_pair (p k) (relabel_node p l) (relabel_node p n).
Proof. intros [-> | ->]; [left|right]; reflexivity. Qed.
Definition new_vertex (p : Z -> Z) (turn swap : bool) (v : vertex) : vertex :=
  (if swap then exchange_products else fun v => v) (relabel_vertex p turn v).
Lemma new_vertex_pair p turn swap v k l : with_pair k l (v_node v) -> new_vertex p turn swap v = relabel_vertex p turn v.
Proof.
  intros W. unfold new_vertex. destruct swap; [|reflexivity]. unfold exchange_products, relabel_vertex. cbn [v_node].
  destruct W as [-> | ->]; reflexivity.
Qed.
Lemma relabel_ids p i j k : relabelling p -> Permutation [i; j; k] [1; 2; 3] -> Permutation [p i; p j; p k] [1; 2; 3].
Proof.
  intros [_ P] Q. apply (Permutation_trans (l' := [p 1; p 2; p 3])); [|exact P].
  exact (Permutation_map p Q).
Qed.
Lemma relabel_three_body p turn swap c spin i j k vp vd : relabelling p -> three_body c spin i j k vp vd ->
  three_body (relabel_chain_def p turn swap c) spin (p (if swap then j else i)) (p (if swap then i else j)) (p k)
    (relabel_vertex p turn vp) (new_vertex p turn swap vd).
Proof.
  intros P T. destruct T as [I (q & a & b & E & S & N & Q) Vs D (a' & b' & W & Q') (l & To)].
  assert (Pm : forall a b, Permutation [a; b] [i; j] -> Permutation [p a; p b] [p (if swap then j else i); p (if swap then i else j)]).
  { intros x y X. apply (Permutation_map p) in X. destruct swap; [|exact X]. apply (Permutation_trans X). apply perm_swap. }
  constructor.
  - pose proof (relabel_ids p i j k P I) as X. destruct swap; [|exact X]. apply (Permutation_trans (l' := [p i; p j; p k])); [apply perm_swap|exact X].
  - exists (relabel_propagator p q), (p a), (p b). unfold relabel_chain_def. cbn [cd_propagators]. rewrite E. split; [reflexivity|].
    split; [exact S|]. split; [unfold relabel_propagator; cbn [pr_node]; rewrite N; reflexivity|apply Pm; exact Q].
  - unfold relabel_chain_def. cbn [cd_vertices]. fold (new_vertex p turn swap). rewrite <- (new_vertex_pair p turn swap vp k _ W).
    destruct Vs as [-> | ->]; [left|right]; reflexivity.
  - unfold new_vertex. destruct swap; unfold exchange_products, relabel_vertex; cbn [v_node]; rewrite D; reflexivity.
  - exists (p a'), (p b'). split; [exact (relabel_with_pair p k _ _ W)|apply Pm; exact Q'].
  - exists (relabel_node p l). apply relabel_with_pair. exact To.
Qed.
Lemma relabel_flip p turn v f h : final_helicities v = h -> flip_factor v f ->
  flip_factor (relabel_vertex p turn v) ((if turn then spinor_sign h else 1) * f).
Proof.
  intros <- Fl. unfold relabel_vertex, flip_factor, spinor_sign in *. cbn [v_type v_parity_factor]. rewrite <- Z.negb_even.
  destruct Fl as [[T ->]|[T I]]; [left; split; [exact T|lia]|right; split; [exact T|]].
  destruct turn; [|rewrite Z.mul_1_l; exact I]. cbn [andb]. destruct (Z.even _); cbn [negb]; [rewrite Z.mul_1_l; exact I|].
  cbn [In] in I. destruct I as [E|[E|[E|[E|[]]]]]; apply pair_equal_spec in E; destruct E as [<- <-]; cbn; auto.
Qed.
Lemma relabel_has_content p turn swap c a : relabelling p -> has_content c a -> has_content (relabel_chain_def p turn swap c) (relabelled_content p turn swap a).
Proof.
  intros P (vp & vd & T & Hd & (pair & Hp) & Fp & Fd). exists (relabel_vertex p turn vp), (new_vertex p turn swap vd).
  split; [exact (relabel_three_body p turn swap c _ _ _ _ _ _ P T)|].
  pose proof (tb_decay _ _ _ _ _ _ _ T) as N. unfold relabelled_content. cbn [ct_spin ct_i ct_j ct_k ct_r ct_lk ct_li ct_lj ct_fp ct_fd].
  split; [|split; [|split]].
  - unfold new_vertex. destruct swap; unfold exchange_products, relabel_vertex; cbn [v_node v_helicities]; [|exact Hd].
    rewrite N. cbn. rewrite Hd. reflexivity.
  - exists (relabel_node p pair). unfold relabel_vertex. cbn [v_node v_helicities].
    destruct Hp as [[-> ->]|[-> ->]]; [left|right]; split; reflexivity.
  - apply relabel_flip; [|exact Fp]. unfold final_helicities. destruct Hp as [[-> ->]|[-> ->]]; reflexivity.
  - apply (relabel_flip p turn vd _ (ct_li a + ct_lj a)) in Fd; [|unfold final_helicities; rewrite N, Hd; reflexivity].
    unfold new_vertex. destruct swap; [|exact Fd]. unfold exchange_products. destruct (all_int _); exact Fd.
Qed.
Lemma half_inj a b : half a = half b -> a = b.
Proof. unfold half. intros E. apply Q2Qc_eq_iff in E. unfold Qeq in E. cbn in E. lia. Qed.
Lemma flip_fun v f g : flip_factor v f -> flip_factor v g -> f = g.
Proof.
  intros [[T ->]|[T I]] [[T' ->]|[T' I']]; try reflexivity; try (rewrite T in T'; discriminate T').
  cbn [In] in I, I'.
  destruct I as [E|[E|[E|[E|[]]]]], I' as [E'|[E'|[E'|[E'|[]]]]]; apply pair_equal_spec in E, E'; destruct E as [E <-], E' as [E' <-];
    try reflexivity; rewrite <- E in E'; discriminate E'.
Qed.
Lemma content_fun c a b : has_content c a -> has_content c b -> a = b.
Proof.
  intros (vp & vd & T & Hd & (pr & Hp) & Fp & Fd) (vp' & vd' & T' & Hd' & (pr' & Hp') & Fp' & Fd').
  assert (X : vp = vp' /\ vd = vd').
  { assert (W : forall v v' i j k l, v_node v = [It i; It j] -> with_pair k l (v_node v') -> v <> v').
    { intros v v' i j k l N [W|W] E; rewrite E, W in N; discriminate N. }
    destruct (tb_production _ _ _ _ _ _ _ T) as (x & y & W1 & _). destruct (tb_production _ _ _ _ _ _ _ T') as (x' & y' & W1' & _).
    pose proof (W _ _ _ _ _ _ (tb_decay _ _ _ _ _ _ _ T) W1') as N1. pose proof (W _ _ _ _ _ _ (tb_decay _ _ _ _ _ _ _ T') W1) as N2.
    destruct (tb_vertices _ _ _ _ _ _ _ T) as [E|E], (tb_vertices _ _ _ _ _ _ _ T') as [E'|E']; rewrite E in E'; injection E' as E1 E2; try (split; assumption);
      exfalso; congruence. }
  destruct X as [<- <-].
  destruct (tb_propagator _ _ _ _ _ _ _ T) as (q & x & y & Eq & Sq & _). destruct (tb_propagator _ _ _ _ _ _ _ T') as (q' & x' & y' & Eq' & Sq' & _).
  assert (q' = q) by congruence. subst q'. assert (S : ct_spin a = ct_spin b) by (apply half_inj; congruence).
  pose proof (tb_decay _ _ _ _ _ _ _ T) as N. rewrite (tb_decay _ _ _ _ _ _ _ T') in N. injection N as Ei Ej.
  rewrite Hd in Hd'. injection Hd' as El Em.
  assert (G : ct_k a = ct_k b /\ ct_r a = ct_r b /\ ct_lk a = ct_lk b).
  { destruct Hp as [[N1 H1]|[N1 H1]], Hp' as [[N2 H2]|[N2 H2]]; rewrite N1 in N2; try discriminate N2; rewrite H1 in H2; injection N2 as ? ?; injection H2 as ? ?; auto. }
  destruct G as (G1 & G2 & G3). pose proof (flip_fun _ _ _ Fp Fp') as G4. pose proof (flip_fun _ _ _ Fd Fd') as G5.
  destruct a, b. cbn in *. congruence.
Qed.
Section NewLabels.
  Variables (p : Z -> Z) (turn : bool) (swap : chain_def -> bool) (m m' : model_def) (d d' : distribution).
  Hypothesis P : relabelling p.
  Hypothesis RD : relabelled_definition p turn swap m d m' d'.
  Let T (c : chain_def) : chain_def := relabel_chain_def p turn (swap c) c.

  Lemma function_kept name f : function_of m name f <-> function_of m' name f.
  Proof. unfold function_of. rewrite (rd_functions _ _ _ _ _ _ _ RD). tauto. Qed.
  Lemma wave_kept v : vertex_wave m' v = vertex_wave m v.
  Proof. unfold vertex_wave, get_function_definition. rewrite (rd_functions _ _ _ _ _ _ _ RD). reflexivity. Qed.
  Lemma new_formfactor sw v : v_formfactor (new_vertex p turn sw v) = v_formfactor v.
  Proof. unfold new_vertex. destruct sw; [|reflexivity]. unfold exchange_products. destruct (all_int _); reflexivity. Qed.
  Lemma relabel_complete c : complete_chain m c -> complete_chain m' (T c).
  Proof.
    intros [A B]. unfold T, relabel_chain_def. split; cbn [cd_propagators cd_vertices].
    - intros q' I. apply in_map_iff in I. destruct I as (q & <- & I). cbn [relabel_propagator pr_parametrization].
      destruct (A q I) as (f & Ff & Co). exists f. split; [apply function_kept; exact Ff|exact Co].
    - intros v' I. apply in_map_iff in I. destruct I as (v & <- & I). fold (new_vertex p turn (swap c) v).
      unfold complete_form_factor. rewrite new_formfactor. destruct (B v I) as [Q|[Q|(nm & f & E & NE & Ff & R)]]; auto.
      right; right. exists nm, f. split; [exact E|]. split; [exact NE|]. split; [apply function_kept; exact Ff|exact R].
  Qed.
  Lemma relabel_describes tl s r : describes_states tl m d s r ->
    describes_states tl m' d' (fun n => if n =? 0 then s 0 else relabel_state p (s (unlabel p n))) (p r) /\
    forall i, In i [1; 2; 3] -> relabel_state p (s (unlabel p (p i))) = relabel_state p (s i).
  Proof.
    intros [_ I0 Pi Fi (Rr & l & W)].
    assert (U : forall i, In i [1; 2; 3] -> unlabel p (p i) = i).
    { intros i Hi. pose proof (proj2 (proj2 (relabelling_cases p P)) i Hi) as Hp. destruct (unlabel_ok p (p i) P Hp) as [X Y].
      apply (relabelling_inj p _ _ P) in Y; [exact Y|right; exact X|right; exact Hi]. }
    split; [|intros i Hi; rewrite (U i Hi); reflexivity].
    assert (NZ : forall i, In i [1; 2; 3] -> p i <> 0).
    { intros i Hi E. pose proof (proj2 (proj2 (relabelling_cases p P)) i Hi) as Hp. rewrite E in Hp. cbn in Hp. lia. }
    constructor.
    - exact (rd_distribution _ _ _ _ _ _ _ RD).
    - rewrite (rd_initial _ _ _ _ _ _ _ RD). exact I0.
    - apply (Permutation_trans (Permutation_map sd_index (rd_final _ _ _ _ _ _ _ RD))). rewrite map_map. cbn [relabel_state_def sd_index].
      rewrite <- (map_map sd_index p). apply (Permutation_trans (Permutation_map p Pi)). exact (proj2 P).
    - intros x I. apply (Permutation_in _ (rd_final _ _ _ _ _ _ _ RD)) in I. apply in_map_iff in I. destruct I as (y & <- & I).
      cbn [relabel_state_def sd_index].
      assert (Iy : In (sd_index y) [1; 2; 3]) by (apply (Permutation_in _ Pi); apply in_map; exact I).
      destruct (Z.eqb_spec (p (sd_index y)) 0) as [E|_]; [destruct (NZ _ Iy E)|]. rewrite (U _ Iy).
      destruct (Fi y I) as (j & J0 & J1 & J2). exists j. split; [exact J0|]. split; [exact J1|]. rewrite J2. reflexivity.
    - split; [apply (relabelling_cases p P); exact Rr|]. exists (relabel_node p l). rewrite (rd_reference _ _ _ _ _ _ _ RD). apply relabel_with_pair. exact W.
  Qed.
End NewLabels.

(** ** The particles of the two definitions *)
Lemma state_of_definition tl m d s r i : describes_states tl m d s r -> In i [0; 1; 2; 3] ->
  exists y j, (y = di_initial d \/ In y (di_final d)) /\ sd_index y = i /\ sd_spin y = half j /\ s i = state_of tl y j.
Proof.
  intros [_ [E0 (j0 & _ & S0 & I0)] Pi Fi _] [<-|Hi].
  - exists (di_initial d), j0. auto.
  - apply (Permutation_in _ (Permutation_sym Pi)) in Hi. apply in_map_iff in Hi. destruct Hi as (y & E & I).
    destruct (Fi y I) as (j & _ & S & X). exists y, j. rewrite <- E. auto.
Qed.
Lemma same_particles p turn swap m d m' d' tl s s' r r' : relabelling p -> relabelled_definition p turn swap m d m' d' ->
  describes_states tl m d s r -> describes_states tl m' d' s' r' ->
  forall i, In i [0; 1; 2; 3] -> st_particle (s' (p i)) = st_particle (s i).
Proof.
  intros P RD D D' i Hi.
  assert (G : forall y j j', sd_spin y = half j -> sd_spin y = half j' -> j = j') by (intros; apply half_inj; congruence).
  destruct Hi as [<-|Hi].
  - destruct P as [-> _]. destruct (ds_initial _ _ _ _ _ D) as [_ (j & _ & S & ->)]. destruct (ds_initial _ _ _ _ _ D') as [_ (j' & _ & S' & ->)].
    rewrite (rd_initial _ _ _ _ _ _ _ RD) in *. rewrite (G _ _ _ S' S). reflexivity.
  - apply (Permutation_in _ (Permutation_sym (ds_indices _ _ _ _ _ D))) in Hi. apply in_map_iff in Hi. destruct Hi as (y & <- & I).
    destruct (ds_final _ _ _ _ _ D y I) as (j & _ & S & ->).
    destruct (ds_final _ _ _ _ _ D' (relabel_state_def p y)) as (j' & _ & S' & X).
    { apply (Permutation_in _ (Permutation_sym (rd_final _ _ _ _ _ _ _ RD))). apply in_map. exact I. }
    cbn [relabel_state_def sd_index sd_spin] in S', X. rewrite X, (G _ _ _ S' S). reflexivity.
Qed.

(** ** Built-in lineshapes at relabelled points *)
Lemma further_widths_kept ev ev' k k' name Ls : forall n,
  e_sym ev' (sigma_sym k') = e_sym ev (sigma_sym k) -> e_sym ev' (named "m" name) = e_sym ev (named "m" name) -> e_sym ev' (named "R" name) = e_sym ev (named "R" name) ->
  (forall n, e_sym ev' (channel_width_sym name n) = e_sym ev (channel_width_sym name n) /\
     e_sym ev' (channel_mass_sym "a" n) = e_sym ev (channel_mass_sym "a" n) /\ e_sym ev' (channel_mass_sym "b" n) = e_sym ev (channel_mass_sym "b" n)) ->
  further_widths ev' k' name n Ls = further_widths ev k name n Ls.
Proof.
  induction Ls as [|L Ls IH]; intros n S M R G; [reflexivity|]. cbn [further_widths]. rewrite (IH (n + 1) S M R G).
  destruct (G n) as (-> & -> & ->). rewrite S, M, R. reflexivity.
Qed.
Section Strength.
  Variables (p : Z -> Z) (turn : bool) (swap : chain_def -> bool) (m m' : model_def) (d d' : distribution) (s s' : Z -> state) (r : Z)
    (tl : string -> string) (x x' : chain_def -> content) (w w' : chain_def -> symbol) (dyn dyn' : chain_def -> defexpr).
  Hypothesis P : relabelling p.
  Hypothesis RD : relabelled_definition p turn swap m d m' d'.
  Hypothesis H : helicity_definition m d s r tl None x w dyn.
  Hypothesis H' : helicity_definition m' d' s' (p r) tl None x' w' dyn'.
  Let T (c : chain_def) : chain_def := relabel_chain_def p turn (swap c) c.
  Variables (sign : chain_def -> R) (base base' : symbol -> C) (cpl cpl' : string -> list ival -> C).
  Hypothesis RP : relabelled_point p base base'.
  Hypothesis SV : same_parameters tl s (di_chains d) T w w' sign base base'.

  Lemma new_content c : In c (di_chains d) -> x' (T c) = relabelled_content p turn (swap c) (x c).
  Proof.
    intros Hc. apply (content_fun (T c)).
    - apply (hd_content _ _ _ _ _ _ _ _ _ H'). apply (Permutation_in _ (Permutation_sym (rd_chains _ _ _ _ _ _ _ RD))).
      apply (in_map (fun c => relabel_chain_def p turn (swap c) c)). exact Hc.
    - apply relabel_has_content; [exact P|]. apply (hd_content _ _ _ _ _ _ _ _ _ H). exact Hc.
  Qed.
  Lemma strength_relabelled c : In c (di_chains d) -> complete_chain m c ->
    chain_strength w' dyn' base' cpl' (T c) = (RtoC (sign c) * chain_strength w dyn base cpl c)%C.
  Proof.
    intros Hc Cc. unfold chain_strength. destruct SV as [R0 SC]. destruct (SC c Hc) as [Wc Y]. rewrite Wc, <- Cmult_assoc. f_equal. f_equal.
    destruct (hd_content _ _ _ _ _ _ _ _ _ H c Hc) as (vp & vd & Tb & _).
    destruct (tb_propagator _ _ _ _ _ _ _ Tb) as (q & a & b & Eq & _ & N & Pab).
    destruct (proj1 Cc q) as (f & Ff & _); [rewrite Eq; left; reflexivity|].
    assert (Ic' : In (T c) (di_chains d')).
    { apply (Permutation_in _ (Permutation_sym (rd_chains _ _ _ _ _ _ _ RD))). apply (in_map (fun c => relabel_chain_def p turn (swap c) c)). exact Hc. }
    rewrite (builtin_value m d s r tl c (dyn c) _ _ _ _ vp vd q a b f (hd_states _ _ _ _ _ _ _ _ _ H) (hd_dynamics _ _ _ _ _ _ _ _ _ H c Hc) Cc Tb Eq N Ff).
    rewrite (builtin_value m' d' s' (p r) tl (T c) (dyn' (T c)) _ _ _ _ _ _ (relabel_propagator p q) (p a) (p b) f (hd_states _ _ _ _ _ _ _ _ _ H')
      (hd_dynamics _ _ _ _ _ _ _ _ _ H' (T c) Ic') (relabel_complete p turn swap m m' d d' RD c Cc) (relabel_three_body p turn (swap c) c _ _ _ _ _ _ P Tb)).
    2:{ unfold T, relabel_chain_def. cbn [cd_propagators]. rewrite Eq. reflexivity. }
    2:{ unfold relabel_propagator. cbn [pr_node]. rewrite N. reflexivity. }
    2:{ apply (function_kept p turn swap m m' d d' RD). exact Ff. }
    change (cd_name (T c)) with (cd_name c). rewrite !(wave_kept p turn swap m m' d d' RD).
    assert (W1 : vertex_wave m (new_vertex p turn (swap c) vd) = vertex_wave m vd) by (unfold vertex_wave; rewrite new_formfactor; reflexivity).
    assert (W2 : vertex_wave m (relabel_vertex p turn vp) = vertex_wave m vp) by reflexivity. rewrite W1, W2.
    assert (L0 : p_latex (s' 0) = p_latex (s 0)).
    { pose proof (same_particles p turn swap m d m' d' _ s s' r (p r) P RD (hd_states _ _ _ _ _ _ _ _ _ H) (hd_states _ _ _ _ _ _ _ _ _ H') 0 (or_introl eq_refl)) as X.
      destruct P as [P0 _]. rewrite P0 in X. rewrite X. reflexivity. }
    rewrite L0. cbn [e_sym].
    pose proof (hd_perm m d s r tl None x w dyn H c Hc) as Pc.
    assert (In3 : In (ct_i (x c)) [1; 2; 3] /\ In (ct_j (x c)) [1; 2; 3] /\ In (ct_k (x c)) [1; 2; 3]).
    { split; [|split]; apply (Permutation_in _ Pc); cbn; auto. }
    destruct In3 as (Ii & Ij & Ik).
    assert (Iab : In a [1; 2; 3] /\ In b [1; 2; 3]).
    { assert (Ia : In a [ct_i (x c); ct_j (x c)]) by (apply (Permutation_in _ Pab); cbn; auto).
      assert (Ib : In b [ct_i (x c); ct_j (x c)]) by (apply (Permutation_in _ Pab); cbn; auto).
      cbn [In] in Ia, Ib. destruct Ia as [<-|[<-|[]]], Ib as [<-|[<-|[]]]; split; assumption. }
    destruct Iab as [Ia Ib]. destruct RP as [M0 MS].
    assert (Mk : forall n, In n [1; 2; 3] -> base' (mass_sym (p n)) = base (mass_sym n)) by (intros n Hn; exact (proj1 (MS n Hn))).
    assert (Sk : base' (sigma_sym (p (ct_k (x c)))) = base (sigma_sym (ct_k (x c)))) by exact (proj2 (MS _ Ik)).
    assert (M0' : base' (mass_sym 0) = base (mass_sym 0)) by exact M0.
    set (name := tl (cd_name c)) in *.
    assert (N1 : base' (named "m" name) = base (named "m" name)) by (apply Y; left; left; reflexivity).
    assert (N2 : base' (named "\Gamma" name) = base (named "\Gamma" name)) by (apply Y; right; left; left; reflexivity).
    assert (N3 : base' (named "R" name) = base (named "R" name)) by (apply Y; right; right; right; reflexivity).
    assert (N4 : base' radius_sym = base radius_sym) by (apply Y; right; right; left; reflexivity).
    rewrite Sk, N1, M0', (Mk _ Ik), R0, N4. f_equal; [f_equal|f_equal].
    - unfold width_value. cbn [e_sym]. rewrite Sk, N1, N2, N3, N4, (Mk _ Ia), (Mk _ Ib).
      destruct (eqb (fd_type f) "BreitWigner"); [reflexivity|]. destruct (fd_channels f) as [[|c0 rest]|]; try reflexivity. f_equal.
      apply further_widths_kept; cbn [e_sym]; try assumption. intros n. split; [|split]; apply Y; [right; left; right|left; right|left; right]; eauto.
    - destruct (swap c); rewrite (Mk _ Ii), (Mk _ Ij); [apply form_factor_sym|reflexivity].
  Qed.
End Strength.

(** ** Models with new labels *)
Section Results.
  Variables (p : Z -> Z) (turn : bool) (swap : chain_def -> bool) (m m' : model_def) (d d' : distribution) (s s' : Z -> state) (r : Z)
    (tl tl' : string -> string) (additional additional' : option (dict string prop_builder))
    (x x' : chain_def -> content) (w w' : chain_def -> symbol) (dyn dyn' : chain_def -> defexpr).
  Hypothesis P : relabelling p.
  Hypothesis O : if turn then exchanges p else keeps_order p.
  Hypothesis RD : relabelled_definition p turn swap m d m' d'.
  Hypothesis H : helicity_definition m d s r tl additional x w dyn.
  Hypothesis H' : helicity_definition m' d' s' (p r) tl' additional' x' w' dyn'.
  Variables (cl cl' : bool) (M M' : model).
  Hypothesis F : SerAmplitude.formulate m cl tl additional = Ok M.
  Hypothesis F' : SerAmplitude.formulate m' cl' tl' additional' = Ok M'.
  Let T (c : chain_def) : chain_def := relabel_chain_def p turn (swap c) c.
  Variables (base base' : symbol -> C) (cpl cpl' : string -> list ival -> C).
  Hypothesis RP : relabelled_point p base base'.
  Hypothesis Ph : (exists c, In c (di_chains d) /\ swap c = true) -> physical (fun y => Re (base y)) /\ nonsingular (fun y => Re (base y)).
  Hypothesis V : forall c, In c (di_chains d) ->
    chain_strength w' dyn' base' cpl' (T c) = (RtoC (label_sign s turn (swap c) (x c)) * chain_strength w dyn base cpl c)%C.

  Lemma contents_relabelled c : In c (di_chains d) -> x' (T c) = relabelled_content p turn (swap c) (x c).
  Proof.
    intros Hc. apply (content_fun (T c)).
    - apply (hd_content _ _ _ _ _ _ _ _ _ H'). apply (Permutation_in _ (Permutation_sym (rd_chains _ _ _ _ _ _ _ RD))).
      apply (in_map (fun c => relabel_chain_def p turn (swap c) c)). exact Hc.
    - apply relabel_has_content; [exact P|]. apply (hd_content _ _ _ _ _ _ _ _ _ H). exact Hc.
  Qed.
  Theorem new_labels :
    (forall k l l', In k [1; 2; 3] -> helicity_tuple s l -> relabelled_helicities p l l' ->
       amp_value (at_point (m_variables M') base' cpl') M' (p k) l'
       = (RtoC (if turn then final_sign s l else 1) * amp_value (at_point (m_variables M) base cpl) M k l)%C) /\
    full_value (at_point (m_variables M') base' cpl') M' = full_value (at_point (m_variables M) base cpl) M.
  Proof.
    assert (SP := same_particles p turn swap m d m' d' _ s s' r (p r) P RD (hd_states _ _ _ _ _ _ _ _ _ H) (hd_states _ _ _ _ _ _ _ _ _ H')).
    assert (V' : forall c, In c (di_chains d) ->
      chain_strength w' dyn' base' cpl' (T c) = (RtoC (1 * label_sign s turn (swap c) (x c)) * chain_strength w dyn base cpl c)%C).
    { intros c Hc. rewrite Rmult_1_l. apply V. exact Hc. }
    split.
    - intros k l l' Hk Hl Hl'.
      rewrite (relabelled_amplitude m m' d d' s s' r p tl tl' additional additional' x x' w w' dyn dyn' H H' cl cl' M M' F F' turn swap T 1 base base' cpl cpl'
        P O SP (rd_chains _ _ _ _ _ _ _ RD) contents_relabelled RP Ph (or_introl eq_refl) V' k l l' Hk Hl Hl').
      rewrite Rmult_1_l. reflexivity.
    - exact (relabelled_intensity m m' d d' s s' r p tl tl' additional additional' x x' w w' dyn dyn' H H' cl cl' M M' F F' turn swap T 1 base base' cpl cpl'
        P O SP (rd_chains _ _ _ _ _ _ _ RD) contents_relabelled RP Ph (or_introl eq_refl) V').
  Qed.
End Results.
Theorem new_labels_builtin p turn swap m m' d d' s s' r tl x x' w w' dyn dyn' cl cl' M M' base base' cpl cpl' :
  relabelling p -> (if turn : bool then exchanges p else keeps_order p) -> relabelled_definition p turn swap m d m' d' ->
  helicity_definition m d s r tl None x w dyn -> helicity_definition m' d' s' (p r) tl None x' w' dyn' ->
  (forall c, In c (di_chains d) -> complete_chain m c) ->
  SerAmplitude.formulate m cl tl None = Ok M -> SerAmplitude.formulate m' cl' tl None = Ok M' ->
  relabelled_point p base base' ->
  same_parameters tl s (di_chains d) (fun c => relabel_chain_def p turn (swap c) c) w w' (fun c => label_sign s turn (swap c) (x c)) base base' ->
  ((exists c, In c (di_chains d) /\ swap c = true) -> physical (fun y => Re (base y)) /\ nonsingular (fun y => Re (base y))) ->
  full_value (at_point (m_variables M') base' cpl') M' = full_value (at_point (m_variables M) base cpl) M.
Proof.
  intros P O RD H H' Cc F F' RP SV Ph.
  exact (proj2 (new_labels p turn swap m m' d d' s s' r tl tl None None x x' w w' dyn dyn' P O RD H H' cl cl' M M' F F' base base' cpl cpl' RP Ph
    (fun c Hc => strength_relabelled p turn swap m m' d d' s s' r tl x x' w w' dyn dyn' P RD H H' _ base base' cpl cpl' RP SV c Hc (Cc c Hc)))).
Qed.
Theorem new_definition p turn swap m m' d d' s r tl : relabelling p -> relabelled_definition p turn swap m d m' d' -> describes_states tl m d s r ->
  (exists s', describes_states tl m' d' s' (p r) /\ forall i, In i [0; 1; 2; 3] -> s' (p i) = relabel_state p (s i)) /\
  (forall c x, In c (di_chains d) -> has_content c x ->
     In (relabel_chain_def p turn (swap c) c) (di_chains d') /\ has_content (relabel_chain_def p turn (swap c) c) (relabelled_content p turn (swap c) x)) /\
  (forall c, complete_chain m c -> complete_chain m' (relabel_chain_def p turn (swap c) c)).
Proof.
  intros P RD D. split; [|split].
  - destruct (relabel_describes p turn swap m m' d d' P RD tl s r D) as [A B]. eexists. split; [exact A|]. cbv beta.
    intros i [<-|Hi].
    + destruct (ds_initial _ _ _ _ _ D) as [E0 (j & _ & _ & X)]. destruct P as [P0 _]. rewrite P0. cbn [Z.eqb]. rewrite X. unfold relabel_state, state_of. cbn [st_particle st_index].
      rewrite E0, P0. reflexivity.
    + destruct (Z.eqb_spec (p i) 0) as [E|_]; [|apply B; exact Hi]. pose proof (proj2 (proj2 (relabelling_cases p P)) i Hi) as Hp. rewrite E in Hp. cbn in Hp. lia.
  - intros c x I Hx. split; [|apply relabel_has_content; assumption]. apply (Permutation_in _ (Permutation_sym (rd_chains _ _ _ _ _ _ _ RD))).
    apply (in_map (fun c => relabel_chain_def p turn (swap c) c)). exact I.
  - exact (relabel_complete p turn swap m m' d d' RD).
Qed.
