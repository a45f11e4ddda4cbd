(** Facts about expression values. *)
From Coq Require Import String ZArith QArith Qcanon Qreals List Bool Reals Lia Lra.
From Coquelicot Require Import Complex.
From Verif Require Import Prelude Spin Expr Sums Wigner CG CExpr SpecDPD SpinFacts.
Import ListNotations.
Local Open Scope Z_scope.
Local Open Scope list_scope.

Lemma upd_same h s z : upd h s z s = z.
Proof. unfold upd. rewrite eqb_refl. reflexivity. Qed.
Lemma upd_other h s z s' : s' <> s -> upd h s z s' = h s'.
Proof. intros N. unfold upd. apply eqb_neq in N. rewrite N. reflexivity. Qed.

Lemma helicities_range j : helicities j = spin_range2 j.
Proof.
  unfold helicities, spin_range2. apply map_ext. intros. lia.
Qed.

Lemma Q2R_Q2Qc q : Q2R (Q2Qc q) = Q2R q.
Proof. apply Qeq_eqR. cbn [this Q2Qc]. apply Qred_correct. Qed.
Lemma Q2R_Z z : Q2R (Qc_of_Z z) = IZR z.
Proof. unfold Qc_of_Z. rewrite Q2R_Q2Qc. unfold Q2R, inject_Z. cbn [Qnum Qden]. field. Qed.
Lemma Q2R_div a b : b <> 0 -> Q2R (Qcdiv (Qc_of_Z a) (Qc_of_Z b)) = (IZR a / IZR b)%R.
Proof.
  intros Hb. unfold Qcdiv, Qcmult, Qcinv. rewrite Q2R_Q2Qc, Q2R_mult, Q2R_Z, Q2R_Q2Qc.
  rewrite Q2R_inv, Q2R_Z; [reflexivity|]. intros E. apply Qeq_eqR in E. rewrite Q2R_Z in E.
  apply Hb, eq_IZR. rewrite E. unfold Q2R. cbn [Qnum Qden]. field.
Qed.

Lemma csqrt_nonneg x : (0 <= x)%R -> csqrt (RtoC x) = RtoC (sqrt x).
Proof.
  intros Hx. unfold csqrt. rewrite Cmod_R, Rabs_pos_eq by auto. unfold RtoC. simpl.
  destruct (Rlt_dec 0 0); [lra|].
  replace ((x + x) / 2)%R with x by field. replace ((x - x) / 2)%R with 0%R by field.
  rewrite sqrt_0. reflexivity.
Qed.
Lemma csqrt_square z : (csqrt z * csqrt z = z)%C.
Proof.
  destruct z as [a b]. unfold csqrt, Cmult. simpl.
  pose proof (Cmod_ge_0 (a, b)) as M0. set (m := Cmod (a, b)) in *.
  assert (MM : (m * m = a * a + b * b)%R).
  { unfold m, Cmod. simpl. rewrite sqrt_sqrt by nra. ring. }
  assert (A1 : (0 <= (m + a) / 2)%R) by nra. assert (A2 : (0 <= (m - a) / 2)%R) by nra.
  assert (P : (sqrt ((m + a) / 2) * sqrt ((m - a) / 2) = Rabs b / 2)%R).
  { rewrite <- sqrt_mult_alt by auto.
    replace ((m + a) / 2 * ((m - a) / 2))%R with ((Rabs b / 2) * (Rabs b / 2))%R.
    - rewrite sqrt_square; auto. pose proof (Rabs_pos b). lra.
    - pose proof (Rsqr_abs b) as Q. unfold Rsqr in Q. nra. }
  pose proof (sqrt_sqrt _ A1) as S1. pose proof (sqrt_sqrt _ A2) as S2.
  destruct (Rlt_dec b 0) as [Hb|Hb].
  - rewrite Rabs_left in P by auto. f_equal; nra.
  - rewrite Rabs_pos_eq in P by lra. f_equal; nra.
Qed.

Lemma csign_even z : Z.even z = true -> csign z = RtoC (parity_sign z).
Proof.
  intros H. apply Z.even_spec in H. destruct H as [q ->]. unfold csign, parity_sign.
  replace (2 * q / 2) with q by (rewrite Z.mul_comm, Z.div_mul; lia).
  pose proof (Z.div_mod q 2 ltac:(lia)) as D. pose proof (Z.mod_pos_bound q 2 ltac:(lia)) as B.
  set (p := q / 2) in *.
  destruct (Z.eqb_spec (q mod 2) 0) as [E|E].
  - replace (2 * q) with (0 + p * 4) by lia. rewrite Z_mod_plus_full. simpl.
    replace q with (2 * p) by lia. rewrite Z.even_mul. reflexivity.
  - replace (2 * q) with (2 + p * 4) by lia. rewrite Z_mod_plus_full. simpl.
    replace q with (1 + p * 2) by lia. rewrite Z.even_add, Z.even_mul, orb_true_r. simpl.
    unfold RtoC, Copp. simpl. f_equal; lra.
Qed.

(** ** Lineshapes do not depend on helicities, angles or couplings *)
Lemma lineshape_eval ev ev' h h' e : lineshape e = true ->
  (forall s, sassume s <> AReal -> In s (symbols_of e) -> e_sym ev s = e_sym ev' s) ->
  ceval ev h e = ceval ev' h' e.
Proof.
  induction e; cbn [lineshape symbols_of ceval]; intros LS E; try discriminate; auto;
    rewrite ?andb_true_iff in LS;
    repeat match goal with H : _ /\ _ |- _ => destruct H end;
    try (rewrite IHe1, IHe2; auto; intros; apply E; auto; rewrite ?in_app_iff; tauto);
    try (rewrite IHe; auto).
  - apply E; [|left; auto]. destruct (sassume s); congruence.
  - rewrite IHe1, IHe2, IHe3, IHe4; auto; intros; apply E; auto; rewrite ?in_app_iff; tauto.
  - rewrite IHe1, IHe2, IHe3; auto; intros; apply E; auto; rewrite ?in_app_iff; tauto.
Qed.

(** ** Pool sums *)
Lemma psum_ext f g pools : forall h, (forall h, f h = g h) -> psum f pools h = psum g pools h.
Proof.
  induction pools as [|[s vals] ps IH]; cbn [psum]; intros h H; auto.
  apply Csum_ext. intros v _. apply IH; auto.
Qed.
Lemma ceval_CAddL ev h l : ceval ev h (CAddL l) = Csum l (ceval ev h).
Proof.
  induction l; cbn [CAddL ceval Csum]; [|rewrite IHl; reflexivity].
  unfold CNum. cbn [ceval]. rewrite Q2R_Z. reflexivity.
Qed.

(** ** Substitution and cleanup *)
Lemma heval_ext h h' e : (forall s, h s = h' s) -> heval h e = heval h' e.
Proof. intros H. induction e; simpl; congruence. Qed.
Lemma heval_hsub h s z e : heval h (hsub s z e) = heval (upd h s z) e.
Proof.
  induction e; simpl; try congruence. unfold upd.
  destruct (eqb s0 s); reflexivity.
Qed.
Lemma upd_ext h h' s z : (forall x, h x = h' x) -> forall x, upd h s z x = upd h' s z x.
Proof. intros H x. unfold upd. destruct (eqb x s); auto. Qed.
Lemma upd_comm h s z s' z' : s <> s' -> forall x, upd (upd h s z) s' z' x = upd (upd h s' z') s z x.
Proof.
  intros N x. unfold upd. destruct (eqb_spec x s'), (eqb_spec x s); auto. congruence.
Qed.
Lemma upd_shadow h s z z' : forall x, upd (upd h s z) s z' x = upd h s z' x.
Proof. intros x. unfold upd. destruct (eqb x s); auto. Qed.
Lemma ieval_ext h h' i : (forall s, h s = h' s) -> ieval h i = ieval h' i.
Proof. intros H. destruct i; simpl; auto. rewrite (heval_ext h h'); auto. Qed.
Lemma psum_h f pools : (forall h h', (forall s, h s = h' s) -> f h = f h') ->
  forall h h', (forall s, h s = h' s) -> psum f pools h = psum f pools h'.
Proof.
  intros F. induction pools as [|[s vals] ps IH]; cbn [psum]; intros h h' H; auto.
  apply Csum_ext. intros v _. apply IH. apply upd_ext; auto.
Qed.
Lemma ceval_ext ev e : forall h h', (forall s, h s = h' s) -> ceval ev h e = ceval ev h' e.
Proof.
  induction e; cbn [ceval]; intros h h' H;
    repeat match goal with
    | IH : forall h h', _ -> ceval ev h ?e = ceval ev h' ?e |- context [ceval ev h ?e] =>
        rewrite (IH h h' H)
    end; rewrite ?(heval_ext h h' _ H); auto;
    repeat match goal with |- context [heval h ?e] => rewrite (heval_ext h h' e H) end; auto.
  - f_equal. apply map_ext. intros. apply ieval_ext; auto.
  - apply psum_h; auto.
Qed.
Lemma psum_upd f s z pools : (forall h h', (forall s, h s = h' s) -> f h = f h') ->
  ~ In s (map fst pools) -> forall h,
  psum f pools (upd h s z) = psum (fun h => f (upd h s z)) pools h.
Proof.
  intros F. induction pools as [|[t vals] ps IH]; cbn [psum map fst]; intros N h; auto.
  apply Csum_ext. intros v _. rewrite <- IH by (intros X; apply N; right; auto).
  apply psum_h; auto. apply upd_comm. intros ->. apply N. left; auto.
Qed.
Lemma psum_shadow f s z pools : (forall h h', (forall s, h s = h' s) -> f h = f h') ->
  In s (map fst pools) -> forall h, psum f pools (upd h s z) = psum f pools h.
Proof.
  intros F. induction pools as [|[t vals] ps IH]; cbn [psum map fst]; intros N h; [destruct N|].
  apply Csum_ext. intros v _. destruct (eqb_spec t s) as [->|D].
  - apply psum_h; auto. apply upd_shadow.
  - destruct N as [E|N]; [congruence|].
    rewrite <- (IH N (upd h t v)). apply psum_h; auto. apply upd_comm. congruence.
Qed.
Lemma ceval_csub ev s z e : forall h, ceval ev h (csub s z e) = ceval ev (upd h s z) e.
Proof.
  induction e; intros h; cbn [csub ceval];
    repeat match goal with IH : forall h, ceval ev h (csub s z ?e) = _ |- _ => rewrite IH end;
    rewrite ?heval_hsub; auto.
  - f_equal. rewrite map_map. apply map_ext. intros [t|x]; simpl; auto. rewrite heval_hsub. auto.
  - destruct (memb s (map fst pools)) eqn:M; cbn [ceval].
    + apply memb_In in M. symmetry. apply psum_shadow; auto. intros; apply ceval_ext; auto.
    + apply memb_notIn in M. rewrite psum_upd; auto; [|intros; apply ceval_ext; auto].
      apply psum_ext. auto.
Qed.

(** Pools that are not empty: cleaning up does not change the value. *)
Lemma cleanup_pools_value ev e pools : NoDup (map fst pools) ->
  Forall (fun p => snd p <> []) pools -> forall e' ps, cleanup_pools e pools = (e', ps) ->
  incl (map fst ps) (map fst pools) /\
  forall h, psum (fun h => ceval ev h e') ps h = psum (fun h => ceval ev h e) pools h.
Proof.
  induction pools as [|[s vals] pools IH]; intros ND NE e' ps E.
  - inversion E; subst. split; [intros x []|reflexivity].
  - cbn [cleanup_pools] in E. destruct (cleanup_pools e pools) as [e1 ps1] eqn:E1.
    inversion ND as [|? ? N ND']; subst. inversion NE as [|? ? V NE']; subst.
    destruct (IH ND' NE' _ _ eq_refl) as [I Q].
    destruct vals as [|z [|z2 vals]].
    + exfalso. apply V. reflexivity.
    + inversion E; subst. split; [intros x Hx; right; apply I; auto|]. intros h.
      cbn [psum Csum]. rewrite Cplus_0_r, <- Q, psum_upd.
      * apply psum_ext. intros. apply ceval_csub.
      * intros; apply ceval_ext; auto.
      * intros X. apply N, I, X.
    + inversion E; subst. split.
      * intros x [<-|Hx]; [left; auto|right; apply I; auto].
      * intros h. cbn [psum]. apply Csum_ext. intros v _. apply Q.
Qed.
Lemma cleanup_value ev e pools : NoDup (map fst pools) -> Forall (fun p => snd p <> []) pools ->
  forall h, ceval ev h (cleanup (CSum e pools)) = ceval ev h (CSum e pools).
Proof.
  intros ND NE h. unfold cleanup. destruct (cleanup_pools e pools) as [e' ps] eqn:E.
  destruct (cleanup_pools_value ev e pools ND NE _ _ E) as [_ Q].
  cbn [ceval]. rewrite <- Q. destruct ps; reflexivity.
Qed.
