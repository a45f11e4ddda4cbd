(** C130: serialised models with new labels of the final state and other order of decay products *)
From Coq Require Import String ZArith QArith Qcanon Qreals List Bool Reals Lia Lra Permutation Sorted.
From Coquelicot Require Import Complex.
From Verif Require Import Prelude AnglesFacts Spin Decay Expr Angles Sums Wigner CG CExpr SpecKin SpecDPD Builder
  SpinFacts CGFacts DecayFacts WignerFacts CExprFacts BuilderFacts ModelFacts RefFacts LSProofs ParityProofs KinFacts AnglesProofs SpecRelabel RelabelFacts RelabelProofs
  SerFormat SerDynamics SerAmplitude SpecSerial SerDecay SerModel SerProofs SerFormal SerWeights SerPoints SpecSerPoints SpecSerRelabel.
Import ListNotations.
Local Open Scope string_scope.
Local Open Scope Z_scope.
Local Open Scope list_scope.

(** ** The helicity of the parent may be reversed *)
Definition mirror0 (l : Z * Z * Z * Z) : Z * Z * Z * Z := (- at4 l 0, at4 l 1, at4 l 2, at4 l 3).
Lemma mirror0_tuple s l : helicity_tuple s l -> helicity_tuple s (mirror0 l).
Proof.
  destruct l as [[[a b] c] e]. unfold helicity_tuple, mirror0. cbn [at4]. intros (A & R). split; [|exact R]. rewrite helicities_range in *. rewrite spin_range2_In in *.
  destruct A as (A1 & A2). split; [lia|]. apply even_half in A2. destruct A2 as [n N].
  apply Z.even_spec. exists (p_spin (s 0) - n). lia.
Qed.
Lemma mirror0_mirror0 l : mirror0 (mirror0 l) = l.
Proof. destruct l as [[[a b] c] e]. unfold mirror0. cbn [at4]. rewrite Z.opp_involutive. reflexivity. Qed.
Lemma tuples_mirror0 s : Permutation (tuples s) (map mirror0 (tuples s)).
Proof.
  apply NoDup_Permutation; [apply tuples_NoDup| |].
  - apply map_NoDup_in; [|apply tuples_NoDup]. intros x y _ _ E. rewrite <- (mirror0_mirror0 x), E. apply mirror0_mirror0.
  - intros l. rewrite in_map_iff. split.
    + intros I. exists (mirror0 l). split; [apply mirror0_mirror0|]. apply tuples_In, mirror0_tuple, tuples_In. exact I.
    + intros (l0 & <- & I). apply tuples_In, mirror0_tuple, tuples_In. exact I.
Qed.
Lemma parent_mirrored s (ks : list Z) A (zeta zeta' : Z -> Z -> R) : (forall k l, In k ks -> helicity_tuple s l -> A k (mirror0 l) = A k l) ->
  (forall k, In k ks -> zeta' 0 k = (- zeta 0%Z k)%R /\ zeta' 1 k = zeta 1 k /\ zeta' 2 k = zeta 2 k /\ zeta' 3 k = zeta 3 k) ->
  intensity_value s ks A zeta = intensity_value s ks A zeta'.
Proof.
  intros HA HZ. unfold intensity_value. rewrite (Rsum_perm _ _ _ (tuples_mirror0 s)), Rsum_map. apply Rsum_ext. intros l Hl.
  f_equal. f_equal. unfold aligned_amplitude. rewrite (Csum_perm _ _ _ (tuples_mirror0 s)), Csum_map. apply Csum_ext. intros l' Hl'.
  apply Csum_ext. intros k Hk. rewrite (HA k l' Hk) by (apply tuples_In; exact Hl'). f_equal. f_equal.
  destruct (HZ k Hk) as (Z0 & Z1 & Z2 & Z3). destruct l as [[[a b] c] e], l' as [[[a' b'] c'] e']. unfold alignment, mirror0. cbn [at4].
  rewrite Z0, Z1, Z2, Z3. rewrite wigner_d_neg, wigner_d_flip. reflexivity.
Qed.

(** ** Angles *)
Section Theta.
  Variables (p : Z -> Z) (env env' : symbol -> R).
  Hypothesis P : relabelling p.
  Hypothesis E0 : env' (Sym "m0" ANonneg) = env (Sym "m0" ANonneg).
  Hypothesis EM : forall i, In i [1; 2; 3] ->
    env' (Sym ("m" ++ str_of_Z (p i))%string ANonneg) = env (Sym ("m" ++ str_of_Z i)%string ANonneg) /\
    env' (Sym ("sigma" ++ str_of_Z (p i))%string ANonneg) = env (Sym ("sigma" ++ str_of_Z i)%string ANonneg).
  Lemma theta_any i j : In i [1; 2; 3] -> In j [1; 2; 3] -> i <> j ->
    rv env' (formulate_scattering_angle (p i) (p j)) = rv env (formulate_scattering_angle i j).
  Proof.
    intros Hi Hj N.
    pose proof (env_at p env env' P EM 1 ltac:(cbn [In]; auto)) as [A1 B1]. pose proof (env_at p env env' P EM 2 ltac:(cbn [In]; auto)) as [A2 B2].
    pose proof (env_at p env env' P EM 3 ltac:(cbn [In]; auto)) as [A3 B3]. assert (A0 : at_m0 env' = at_m0 env) by exact E0.
    destruct (proj1 (relabelling_cases p P)) as [K|K]; unfold keeps_order, exchanges in K;
      destruct K as [K|[K|[K|[]]]]; apply pair_equal_spec in K; destruct K as [K K3]; apply pair_equal_spec in K; destruct K as [K1 K2];
      (first [rewrite <- K1 in A1, B1; rewrite <- K2 in A2, B2|rewrite <- K1 in A2, B2; rewrite <- K2 in A1, B1]); rewrite <- K3 in A3, B3; cbn in A1, B1, A2, B2, A3, B3;
      destruct Hi as [<-|[<-|[<-|[]]]], Hj as [<-|[<-|[<-|[]]]]; try (destruct (N eq_refl)); rewrite <- ?K1, <- ?K2, <- ?K3;
      rewrite ?th_12, ?th_23, ?th_31, ?th_21, ?th_32, ?th_13; rewrite A0, A1, A2, A3, ?B1, ?B2, ?B3; reflexivity.
  Qed.
End Theta.
Lemma theta_swapped env i j : physical env -> nonsingular env -> In i [1; 2; 3] -> In j [1; 2; 3] -> i <> j ->
  rv env (formulate_scattering_angle j i) = (PI - rv env (formulate_scattering_angle i j))%R.
Proof.
  intros Ph NS Hi Hj N. destruct Hi as [<-|[<-|[<-|[]]]], Hj as [<-|[<-|[<-|[]]]]; try (destruct (N eq_refl));
    first [exact (c20 env 1 2 _ _ _ _ Ph NS eq_refl eq_refl)|exact (c20 env 2 3 _ _ _ _ Ph NS eq_refl eq_refl)
      |exact (c20 env 3 1 _ _ _ _ Ph NS eq_refl eq_refl)|exact (c20 env 2 1 _ _ _ _ Ph NS eq_refl eq_refl)
      |exact (c20 env 3 2 _ _ _ _ Ph NS eq_refl eq_refl)|exact (c20 env 1 3 _ _ _ _ Ph NS eq_refl eq_refl)].
Qed.

(** ** Couplings *)
Lemma coupling_swap f a b a0 b0 : coupling_of f a b a0 b0 = coupling_of f b a b0 a0.
Proof. unfold coupling_of. rewrite (andb_comm (a =? a0)), (andb_comm (a =? - a0)). reflexivity. Qed.
Lemma spinor_parity h j : Z.even (j - h) = true -> parity_sign (j - - h) = (IZR (spinor_sign h) * parity_sign (j - h))%R.
Proof.
  intros E. apply even_half in E. destruct E as [n N]. unfold spinor_sign, parity_sign.
  replace (j - - h) with ((n + h) * 2) by lia. replace (j - h) with (n * 2) by lia. rewrite !Z.div_mul by lia.
  rewrite Z.even_add. destruct (Z.even n), (Z.even h); cbn; ring.
Qed.
Lemma spinor_add a b : spinor_sign (a + b) = spinor_sign a * spinor_sign b.
Proof. unfold spinor_sign. rewrite Z.even_add. destruct (Z.even a), (Z.even b); reflexivity. Qed.
Lemma parity_unit z : (parity_sign z = 1 \/ parity_sign z = -1)%R.
Proof. unfold parity_sign. destruct (Z.even _); auto. Qed.
(** two particles, with spins [j1], [j2] *)
Lemma coupling_turned f a b a0 b0 j1 j2 : Z.even (j1 - a) = true -> Z.even (j2 - b) = true ->
  (coupling_of (spinor_sign (a0 + b0) * f) a b a0 b0 * (parity_sign (j1 - a0) * parity_sign (j2 - b0))
   = coupling_of f a b a0 b0 * (parity_sign (j1 - a) * parity_sign (j2 - b)))%R.
Proof.
  intros Ea Eb. unfold coupling_of. rewrite mult_IZR, spinor_add, mult_IZR.
  destruct ((a =? a0) && (b =? b0)) eqn:Q1.
  - apply andb_true_iff in Q1. rewrite !Z.eqb_eq in Q1. destruct Q1 as [-> ->].
    destruct ((a0 =? - a0) && (b0 =? - b0)) eqn:Q2; [|ring].
    apply andb_true_iff in Q2. rewrite !Z.eqb_eq in Q2. destruct Q2 as [Q2 Q3]. assert (a0 = 0) by lia. assert (b0 = 0) by lia. subst. cbn. ring.
  - destruct ((a =? - a0) && (b =? - b0)) eqn:Q2; [|ring].
    apply andb_true_iff in Q2. rewrite !Z.eqb_eq in Q2. destruct Q2 as [-> ->].
    assert (Ea' : Z.even (j1 - a0) = true) by (apply even_half in Ea; destruct Ea as [n ?]; apply Z.even_spec; exists (n - a0); lia).
    assert (Eb' : Z.even (j2 - b0) = true) by (apply even_half in Eb; destruct Eb as [n ?]; apply Z.even_spec; exists (n - b0); lia).
    rewrite !spinor_parity by assumption. ring.
Qed.
(** one particle: the helicity [r] of the resonance is that of the definition *)
Lemma coupling_turned1 f r b b0 j : Z.even (j - b) = true ->
  (coupling_of (spinor_sign b0 * f) r b r b0 * parity_sign (j - b0) = coupling_of f r b r b0 * parity_sign (j - b))%R.
Proof.
  intros Eb. unfold coupling_of. rewrite mult_IZR, Z.eqb_refl. cbn [andb].
  destruct (Z.eqb_spec b b0) as [->|N].
  - destruct ((r =? - r) && (b0 =? - b0)) eqn:Q2; [|ring].
    apply andb_true_iff in Q2. rewrite !Z.eqb_eq in Q2. destruct Q2 as [_ Q3]. assert (b0 = 0) by lia. subst. cbn. ring.
  - destruct ((r =? - r) && (b =? - b0)) eqn:Q2; [|ring].
    apply andb_true_iff in Q2. rewrite !Z.eqb_eq in Q2. destruct Q2 as [_ ->].
    assert (Eb' : Z.even (j - b0) = true) by (apply even_half in Eb; destruct Eb as [n ?]; apply Z.even_spec; exists (n - b0); lia).
    rewrite spinor_parity by assumption. ring.
Qed.

(** ** Models *)
Section Models.
  Variables (m m' : model_def) (d d' : distribution) (s s' : Z -> state) (r : Z) (p : Z -> Z)
    (tl tl' : string -> string) (additional additional' : option (dict string prop_builder))
    (x x' : chain_def -> content) (w w' : chain_def -> symbol) (dyn dyn' : chain_def -> defexpr).
  Hypothesis H : helicity_definition m d s r tl additional x w dyn.
  Hypothesis H' : helicity_definition m' d' s' (p r) tl' additional' x' w' dyn'.
  Variables (cl cl' : bool) (M M' : model).
  Hypothesis F : SerAmplitude.formulate m cl tl additional = Ok M.
  Hypothesis F' : SerAmplitude.formulate m' cl' tl' additional' = Ok M'.
  Variables (turn : bool) (swap : chain_def -> bool) (T : chain_def -> chain_def) (e : R).
  Variables (base base' : symbol -> C) (cpl cpl' : string -> list ival -> C).
  Hypothesis P : relabelling p.
  Hypothesis O : if turn then exchanges p else keeps_order p.
  Hypothesis SP : forall i, In i [0; 1; 2; 3] -> st_particle (s' (p i)) = st_particle (s i).
  Hypothesis PC : Permutation (di_chains d') (map T (di_chains d)).
  Hypothesis CT : forall c, In c (di_chains d) -> x' (T c) = relabelled_content p turn (swap c) (x c).
  Hypothesis RP : relabelled_point p base base'.
  Hypothesis Ph : (exists c, In c (di_chains d) /\ swap c = true) -> physical (fun y => Re (base y)) /\ nonsingular (fun y => Re (base y)).
  Hypothesis Ee : (e = 1 \/ e = -1)%R.
  Hypothesis V : forall c, In c (di_chains d) ->
    chain_strength w' dyn' base' cpl' (T c) = (RtoC (e * label_sign s turn (swap c) (x c)) * chain_strength w dyn base cpl c)%C.

  Let ev := at_point (m_variables M) base cpl.
  Let ev' := at_point (m_variables M') base' cpl'.
  Let sgn (l : Z * Z * Z * Z) : R := if turn then final_sign s l else 1%R.

  Lemma kin_env0 : let env := fun x => Re (base x) in let env' := fun x => Re (base' x) in
    env' (Sym "m0" ANonneg) = env (Sym "m0" ANonneg) /\
    forall i, In i [1; 2; 3] ->
      env' (Sym ("m" ++ str_of_Z (p i))%string ANonneg) = env (Sym ("m" ++ str_of_Z i)%string ANonneg) /\
      env' (Sym ("sigma" ++ str_of_Z (p i))%string ANonneg) = env (Sym ("sigma" ++ str_of_Z i)%string ANonneg).
  Proof. cbv zeta. destruct RP as [A B]. rewrite A. split; [reflexivity|]. intros i Hi. destruct (B i Hi) as [-> ->]. split; reflexivity. Qed.

  Lemma final_split l i j k : Permutation [i; j; k] [1; 2; 3] -> final_sign s l =
    (parity_sign (p_spin (s i) - at4 l i) * parity_sign (p_spin (s j) - at4 l j) * parity_sign (p_spin (s k) - at4 l k))%R.
  Proof.
    intros Q. apply perm_123 in Q. cbn [In] in Q. unfold final_sign.
    repeat (destruct Q as [E|Q]; [injection E as <- <- <-; ring|]). destruct Q.
  Qed.
  Lemma chain_ids c : In c (di_chains d) -> Permutation [ct_i (x c); ct_j (x c); ct_k (x c)] [1; 2; 3] /\
    In (ct_i (x c)) [1; 2; 3] /\ In (ct_j (x c)) [1; 2; 3] /\ In (ct_k (x c)) [1; 2; 3] /\ ct_i (x c) <> ct_j (x c).
  Proof.
    intros Hc. pose proof (hd_perm m d s r tl additional x w dyn H c Hc) as Q. split; [exact Q|].
    split; [apply (Permutation_in _ Q); cbn; auto|]. split; [apply (Permutation_in _ Q); cbn; auto|]. split; [apply (Permutation_in _ Q); cbn; auto|].
    intros E. assert (N : NoDup [ct_i (x c); ct_j (x c); ct_k (x c)]).
    { apply (Permutation_NoDup (Permutation_sym Q)). repeat constructor; cbn [In]; intuition discriminate. }
    inversion N as [|? ? N1 _]; subst. apply N1. rewrite E. left. reflexivity.
  Qed.
  Lemma new_chain c : In c (di_chains d) -> In (T c) (di_chains d').
  Proof. intros Hc. apply (Permutation_in _ (Permutation_sym PC)). apply in_map. exact Hc. Qed.

  Lemma contribution_relabelled c l l' : In c (di_chains d) -> helicity_tuple s l -> relabelled_helicities p l l' ->
    chain_contribution x' w' dyn' ev' l' (T c) = (RtoC (e * sgn l) * chain_contribution x w dyn ev l c)%C.
  Proof.
    intros Hc Hl Hl'. unfold ev, ev'.
    rewrite (contribution_at m' d' s' (p r) tl' additional' x' w' dyn' H' cl' M' F' base' cpl' l' (T c) (new_chain c Hc)).
    rewrite (contribution_at m d s r tl additional x w dyn H cl M F base cpl l c Hc).
    rewrite (V c Hc), (CT c Hc). destruct (chain_ids c Hc) as (Pc & Ii & Ij & Ik & Nij).
    destruct kin_env0 as [K0 KM].
    set (a := x c) in *. unfold relabelled_content. cbn [ct_spin ct_i ct_j ct_k ct_r ct_lk ct_li ct_lj ct_fp ct_fd].
    set (q := chain_strength w dyn base cpl c).
    assert (Li : at4 l' (p (ct_i a)) = at4 l (ct_i a)) by (apply Hl'; right; exact Ii).
    assert (Lj : at4 l' (p (ct_j a)) = at4 l (ct_j a)) by (apply Hl'; right; exact Ij).
    assert (Lk : at4 l' (p (ct_k a)) = at4 l (ct_k a)) by (apply Hl'; right; exact Ik).
    assert (Ei := helicity_even s l (ct_i a) Hl (or_intror Ii)). assert (Ej := helicity_even s l (ct_j a) Hl (or_intror Ij)).
    assert (Ek := helicity_even s l (ct_k a) Hl (or_intror Ik)).
    rewrite Lk.
    (* the Wigner function and the decay coupling *)
    set (fd' := (if turn then spinor_sign (ct_li a + ct_lj a) else 1) * ct_fd a).
    assert (X : (coupling_of fd' (at4 l' (p (if swap c then ct_j a else ct_i a))) (at4 l' (p (if swap c then ct_i a else ct_j a)))
         (if swap c then ct_lj a else ct_li a) (if swap c then ct_li a else ct_lj a)
       * wigner_d (ct_spin a) (ct_r a) ((if swap c then ct_lj a else ct_li a) - (if swap c then ct_li a else ct_lj a))
           (rv (fun y => Re (base' y)) (formulate_scattering_angle (p (if swap c then ct_j a else ct_i a)) (p (if swap c then ct_i a else ct_j a))))
       = (if swap c then parity_sign (ct_spin a + ct_r a) else 1)
         * (coupling_of fd' (at4 l (ct_i a)) (at4 l (ct_j a)) (ct_li a) (ct_lj a)
            * wigner_d (ct_spin a) (ct_r a) (ct_li a - ct_lj a) (rv (fun y => Re (base y)) (formulate_scattering_angle (ct_i a) (ct_j a)))))%R).
    { destruct (swap c) eqn:Sc.
      - rewrite Li, Lj, (coupling_swap _ (at4 l (ct_j a))).
        rewrite (theta_any p (fun y => Re (base y)) (fun y => Re (base' y)) P K0 KM (ct_j a) (ct_i a) Ij Ii (fun E => Nij (eq_sym E))).
        destruct (Ph (ex_intro _ c (conj Hc Sc))) as [Ph1 Ph2].
        rewrite (theta_swapped _ (ct_i a) (ct_j a) Ph1 Ph2 Ii Ij Nij).
        replace (ct_lj a - ct_li a) with (- (ct_li a - ct_lj a)) by lia. rewrite wigner_d_pi_minus. ring.
      - rewrite Li, Lj, (theta_any p (fun y => Re (base y)) (fun y => Re (base' y)) P K0 KM (ct_i a) (ct_j a) Ii Ij Nij). ring. }
    (* the signs *)
    set (wd := wigner_d (ct_spin a) (ct_r a) (ct_li a - ct_lj a) _) in *.
    set (fp' := (if turn then spinor_sign (ct_lk a) else 1) * ct_fp a).
    set (D := coupling_of fd' (at4 l (ct_i a)) _ _ _) in *.
    set (Q := coupling_of fp' _ _ _ _).
    rewrite (Rmult_assoc Q), X. unfold label_sign. fold a. set (sw := if swap c then _ else _).
    assert (Q2 : (sw * sw = 1)%R).
    { unfold sw. destruct (swap c); [|ring]. destruct (parity_unit (ct_spin a + ct_r a)) as [-> | ->]; ring. }
    assert (Y : (Q * D * (if turn then parity_sign (p_spin (s (ct_i a)) - ct_li a) * parity_sign (p_spin (s (ct_j a)) - ct_lj a)
        * parity_sign (p_spin (s (ct_k a)) - ct_lk a) else 1)
      = sgn l * (coupling_of (ct_fp a) (ct_r a) (at4 l (ct_k a)) (ct_r a) (ct_lk a)
          * coupling_of (ct_fd a) (at4 l (ct_i a)) (at4 l (ct_j a)) (ct_li a) (ct_lj a)))%R).
    { unfold Q, D, fp', fd', sgn. destruct turn.
      - rewrite (final_split l _ _ _ Pc).
        match goal with |- (?q1 * ?q2 * (?u1 * ?u2 * ?u3))%R = _ => transitivity ((q1 * u3) * (q2 * (u1 * u2)))%R; [ring|] end.
        rewrite coupling_turned, coupling_turned1 by assumption. ring.
      - rewrite !Z.mul_1_l. ring. }
    rewrite Cmult_assoc, <- RtoC_mult, Cmult_assoc, <- RtoC_mult. f_equal. f_equal.
    match type of Y with (_ * _ * ?u = _)%R => set (tu := u) in * end.
    transitivity (e * (sw * sw) * (Q * D * tu) * wd)%R; [ring|]. rewrite Q2, Y. ring.
  Qed.

  Lemma new_subsystem c : In c (di_chains d) -> ct_k (x' (T c)) = p (ct_k (x c)).
  Proof. intros Hc. rewrite (CT c Hc). reflexivity. Qed.

  Theorem relabelled_amplitude k l l' : In k [1; 2; 3] -> helicity_tuple s l -> relabelled_helicities p l l' ->
    amp_value ev' M' (p k) l' = (RtoC (e * sgn l) * amp_value ev M k l)%C.
  Proof.
    intros Hk Hl Hl'.
    assert (Hp : In (p k) [1; 2; 3]) by (apply (relabelling_cases p P); exact Hk).
    assert (T' : helicity_tuple s' l') by (apply (tuple_relabelled p s s' P SP l l' Hl'); exact Hl).
    unfold ev, ev'.
    rewrite (serial_amplitude_value m' d' s' (p r) tl' additional' x' w' dyn' H' cl' M' F' _ (p k) l' T' Hp).
    rewrite (serial_amplitude_value m d s r tl additional x w dyn H cl M F _ k l Hl Hk). fold ev ev'.
    unfold chains_in. rewrite (Csum_perm _ _ _ (Permutation_filter _ _ _ PC)), filter_map_comm, Csum_map, <- Csum_scal_l, !Csum_filter.
    apply Csum_ext. intros c Hc. rewrite (new_subsystem c Hc). destruct (chain_ids c Hc) as (_ & _ & _ & Ik & _).
    destruct (Z.eqb_spec (ct_k (x c)) k) as [Ek|Nk].
    - rewrite Ek, Z.eqb_refl. apply contribution_relabelled; assumption.
    - destruct (Z.eqb_spec (p (ct_k (x c))) (p k)) as [Q|_]; [|reflexivity].
      exfalso. apply Nk. apply (relabelling_inj p _ _ P); [right; exact Ik|right; exact Hk|exact Q].
  Qed.

  Lemma sgn_sign l : (sgn l = 1 \/ sgn l = -1)%R.
  Proof.
    unfold sgn. destruct turn; [|left; reflexivity]. unfold final_sign, parity_sign.
    repeat match goal with |- context [if ?x then _ else _] => destruct x end; (left; ring) || (right; ring).
  Qed.
  Lemma spin_kept i : In i [0; 1; 2; 3] -> p_spin (s' (p i)) = p_spin (s i).
  Proof. intros Hi. f_equal. apply (SP i Hi). Qed.

  (** the angles of the second model; that of the parent has the other sign if the labels change their cyclic order *)
  Let zeta i k := Re (e_sym ev (zeta_symbol i k r)).
  Let zeta0 i k := if turn then (if i =? 0 then (- zeta i k)%R else zeta i k) else zeta i k.
  Lemma rotation_relabelled c i a b : In c (di_chains d) -> In i [0; 1; 2; 3] ->
    Z.even (p_spin (s i) - a) = true -> Z.even (p_spin (s i) - b) = true ->
    wigner_d (p_spin (s' (p i))) a b (Re (e_sym ev' (zeta_symbol (p i) (p (ct_k (x c))) (p r))))
    = ((if turn then if i =? 0 then 1 else parity_sign (p_spin (s i) - a) * parity_sign (p_spin (s i) - b) else 1)
       * wigner_d (p_spin (s i)) a b (zeta0 i (ct_k (x c))))%R.
  Proof.
    intros Hc Hi Ea Eb. rewrite (spin_kept i Hi).
    assert (PS : (parity_sign (p_spin (s i) - a) * parity_sign (p_spin (s i) - b))%R = parity_sign (a - b)).
    { rewrite <- parity_sign_add by exact Ea. apply even_half in Ea, Eb. destruct Ea as [n A], Eb as [n' B].
      apply (parity_sign_4 _ _ n). lia. }
    destruct (Z.eq_dec (p_spin (s i)) 0) as [Z0|NZ].
    - unfold zeta0. destruct turn; [|rewrite Rmult_1_l; apply spin0_any; exact Z0].
      destruct (i =? 0); [rewrite Rmult_1_l; apply spin0_any; exact Z0|].
      rewrite (spin0_any _ _ _ _ (- zeta i (ct_k (x c)))%R Z0), wigner_d_neg, PS. reflexivity.
    - assert (Ip : In (p i) [0; 1; 2; 3]) by (apply (relabelling_cases p P); exact Hi).
      assert (NZ' : p_spin (s' (p i)) <> 0) by (rewrite spin_kept by exact Hi; exact NZ).
      destruct kin_env0 as [K0 KM].
      assert (ZI : zeta_ids i (ct_k (x c)) r).
      { destruct (hd_states _ _ _ _ _ _ _ _ _ H) as [_ _ _ _ [Hr _]]. destruct (chain_ids c Hc) as (_ & _ & _ & Ik & _).
        apply In_0123 in Hi. cbn [In] in Hr, Ik. unfold zeta_ids. lia. }
      unfold zeta0, zeta, ev, ev'. rewrite <- (new_subsystem c Hc).
      rewrite (zeta_point s' tl' additional' x' w' dyn' m' d' (p r) cl' M' H' F' base' cpl' (p i) (T c) Ip (new_chain c Hc) NZ').
      rewrite (zeta_point s tl additional x w dyn m d r cl M H F base cpl i c Hi Hc NZ). rewrite (new_subsystem c Hc).
      destruct turn.
      + rewrite (zeta_exchanged p (fun x => Re (base x)) (fun x => Re (base' x)) P K0 KM i _ r O ZI).
        destruct (i =? 0); [ring|]. rewrite wigner_d_neg, PS. reflexivity.
      + rewrite (zeta_kept p (fun x => Re (base x)) (fun x => Re (base' x)) P K0 KM i _ r O ZI). ring.
  Qed.
  Lemma alignment_relabelled c l1 l2 l1' l2' : In c (di_chains d) -> helicity_tuple s l1 -> helicity_tuple s l2 ->
    relabelled_helicities p l1 l1' -> relabelled_helicities p l2 l2' ->
    alignment s' (fun i => Re (e_sym ev' (zeta_symbol i (p (ct_k (x c))) (p r)))) l1' l2'
    = (sgn l1 * sgn l2 * alignment s (fun i => zeta0 i (ct_k (x c))) l1 l2)%R.
  Proof.
    intros Hc H1 H2 G1 G2. unfold alignment. set (k := ct_k (x c)).
    set (f := fun i => wigner_d (p_spin (s' i)) (at4 l2' i) (at4 l1' i) (Re (e_sym ev' (zeta_symbol i (p k) (p r))))).
    transitivity (wigner_d (p_spin (s' (p 0))) (at4 l1' (p 0)) (at4 l2' (p 0)) (Re (e_sym ev' (zeta_symbol (p 0%Z) (p k) (p r)))) * (f (p 1%Z) * f (p 2%Z) * f (p 3%Z)))%R.
    { rewrite (prod3 p f P). destruct P as [-> _]. unfold f. ring. }
    pose proof (helicity_even s l1) as V1. pose proof (helicity_even s l2) as V2.
    unfold f, k. rewrite (G1 0), (G2 0), (G1 1), (G2 1), (G1 2), (G2 2), (G1 3), (G2 3) by (cbn [In]; auto).
    rewrite !(rotation_relabelled c) by first [exact Hc|solve [cbn [In]; auto]|solve [apply V1; [exact H1|cbn [In]; auto]]|solve [apply V2; [exact H2|cbn [In]; auto]]].
    unfold sgn. destruct turn; [unfold final_sign; cbn [Z.eqb]|]; ring.
  Qed.

  Lemma amplitude_mirrored k l : In k [1; 2; 3] -> helicity_tuple s l -> amp_value ev M k (mirror0 l) = amp_value ev M k l.
  Proof.
    intros Hk Hl. unfold ev.
    rewrite !(serial_amplitude_value m d s r tl additional x w dyn H cl M F _ k _) by first [exact Hl|apply mirror0_tuple; exact Hl|exact Hk].
    apply Csum_ext. intros c Hc. apply in_chains_in in Hc. destruct Hc as [Hc _]. destruct (chain_ids c Hc) as (_ & Ii & Ij & Ik & _).
    assert (X : forall n, In n [1; 2; 3] -> at4 (mirror0 l) n = at4 l n) by (intros n [<-|[<-|[<-|[]]]]; reflexivity).
    unfold chain_contribution, serial_term. rewrite !X by assumption. reflexivity.
  Qed.
  Lemma mirrored_zeta ks : (forall k, In k ks -> In k [1; 2; 3]) ->
    intensity_value s ks (amp_value ev M) zeta0 = intensity_value s ks (amp_value ev M) zeta.
  Proof.
    intros R3. assert (A := fun k l (Hk : In k ks) => amplitude_mirrored k l (R3 k Hk)).
    assert (G : forall t, intensity_value s ks (amp_value ev M) (fun i k => if t : bool then (if i =? 0 then (- zeta i k)%R else zeta i k) else zeta i k)
      = intensity_value s ks (amp_value ev M) zeta).
    { intros [|]; [|reflexivity]. symmetry. apply parent_mirrored; [exact A|]. intros k Hk. cbn [Z.eqb]. repeat split; reflexivity. }
    exact (G turn).
  Qed.

  Theorem relabelled_intensity : full_value ev' M' = full_value ev M.
  Proof.
    destruct (serial_intensity_value m d s r tl additional x w dyn H cl M F) as (ks & N & _ & K & I).
    destruct (serial_intensity_value m' d' s' (p r) tl' additional' x' w' dyn' H' cl' M' F') as (ks' & N' & _ & K' & I').
    rewrite I, I'. f_equal.
    assert (R3 : forall k, In k ks -> In k [1; 2; 3]) by (intros k Hk; exact (subsystem_range m d s r tl additional x w dyn H ks K k Hk)).
    transitivity (intensity_value s ks (amp_value ev M) zeta0).
    - apply (intensity_relabelled p s s' P SP ks ks' _ _ _ _ sgn e).
      + apply NoDup_Permutation; [exact N'| |].
        * apply map_NoDup_in; [|exact N]. intros a b Ha Hb Q. apply (relabelling_inj p a b P); [right; auto|right; auto|exact Q].
        * intros k. rewrite in_map_iff, K'. split.
          -- intros (c' & Hc & <-). apply (Permutation_in _ PC) in Hc. apply in_map_iff in Hc. destruct Hc as (c & <- & Hc).
             exists (ct_k (x c)). split; [symmetry; apply new_subsystem; exact Hc|]. apply K. eauto.
          -- intros (k0 & <- & Hk). apply K in Hk. destruct Hk as (c & Hc & <-). exists (T c). split; [apply new_chain; exact Hc|apply new_subsystem; exact Hc].
      + exact sgn_sign.
      + exact Ee.
      + intros k l l' Hk Hl Hl'. apply relabelled_amplitude; [apply R3; exact Hk|exact Hl|exact Hl'].
      + intros k l1 l2 l1' l2' Hk H1 H2 G1 G2. apply K in Hk. destruct Hk as (c & Hc & <-). exact (alignment_relabelled c l1 l2 l1' l2' Hc H1 H2 G1 G2).
    - exact (mirrored_zeta ks R3).
  Qed.
End Models.
