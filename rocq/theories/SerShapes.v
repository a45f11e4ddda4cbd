(** C74: the lineshapes of deserialised models *)
From Coq Require Import String ZArith QArith Qcanon Qreals List Bool Reals Lia Lra Permutation.
From Coquelicot Require Import Complex.
From Verif Require Import Prelude Spin SpinFacts Expr Sums CExpr CExprFacts Builder BuilderProofs Dynamics SpecDynamics DynamicsProofs LineshapeFacts LineshapeProofs
  SerFormat SerDynamics SpecSerial SpecSerialShapes SerDecay SerDyn.
Import ListNotations.
Local Open Scope string_scope.
Local Open Scope Z_scope.
Local Open Scope list_scope.

Lemma int_of_Z z : int_of (Qc_of_Z z) = z.
Proof.
  unfold int_of, Qc_of_Z. cbn [this Q2Qc]. unfold inject_Z.
  assert (E : Qred (z # 1) = (z # 1)).
  { unfold Qred. pose proof (Z.ggcd_correct_divisors z 1) as Hd. pose proof (Z.ggcd_gcd z 1) as Hg.
    destruct (Z.ggcd z 1) as [g [aa bb]]. cbn [fst snd] in *. rewrite Z.gcd_1_r in Hg. subst g.
    destruct Hd as [A B]. rewrite Z.mul_1_l in A, B. subst. reflexivity. }
  rewrite E. cbn [Qnum Qden]. apply Z.quot_1_r.
Qed.
Section Propagator.
  Variables (m : model_def) (p : propagator) (a b k : Z) (name : string) (f : func_def).
  Hypothesis N : pr_node p = [It a; It b].
  Hypothesis P : Permutation [a; b; k] [1; 2; 3].
  Hypothesis F : function_of m (pr_parametrization p) f.

  Theorem c74_breit_wigner L vm vw va vb vd :
    dget "l" (fd_numbers f) = Some (Qc_of_Z L) -> dget "mass" (fd_numbers f) = Some vm -> dget "width" (fd_numbers f) = Some vw ->
    dget "ma" (fd_numbers f) = Some va -> dget "mb" (fd_numbers f) = Some vb -> dget "d" (fd_numbers f) = Some vd ->
    exists e, formulate_breit_wigner p name m = Ok e /\
      (forall ev h, ceval ev h (de_expr e) =
         bw_simple (e_sym ev (sigma_sym k)) (e_sym ev (named "m" name))
           (running_width two_body_phsp L (e_sym ev (sigma_sym k)) (e_sym ev (named "m" name)) (e_sym ev (named "\Gamma" name))
              (e_sym ev (mass_sym a)) (e_sym ev (mass_sym b)) (e_sym ev radius_sym))) /\
      (forall y v, dget y (de_params e) = Some v <->
         In (y, v) [(KSym (named "m" name), real_val vm); (KSym (named "\Gamma" name), real_val vw);
           (KSym (mass_sym a), real_val va); (KSym (mass_sym b), real_val vb); (KSym radius_sym, real_val vd)]).
  Proof.
    intros E1 E2 E3 E4 E5 E6. eexists. split; [apply (bw_ok m p a b k name f N P F _ _ _ _ _ _ E1 E2 E3 E4 E5 E6)|].
    cbn [de_expr de_params]. split.
    - intros ev h. rewrite (c38_running ev h _ _ _ _ _ _ _ _ _ phase_space_factor_value) by (right; left; reflexivity).
      rewrite int_of_Z. reflexivity.
    - intros y v. apply (proj2 (entries_dict_of _ (bw_functional a b k name P vm vw va vb vd)) y v).
  Qed.

  Lemma channels_value ev h : forall chs Ls n,
    (length chs = length Ls) ->
    (forall q L, nth_error Ls q = Some L -> nth_error chs q = Some (nth_channel name (sigma_sym k) (named "m" name) (named "R" name) (n + Z.of_nat q) L)) ->
    Csum chs (channel_value ev h) = further_widths ev k name n Ls.
  Proof.
    induction chs as [|c chs IH]; intros [|L Ls] n LE Q; try discriminate LE; [reflexivity|].
    rewrite Csum_eq_cons. cbn [further_widths]. f_equal.
    - specialize (Q 0%nat L eq_refl). cbn [nth_error] in Q. injection Q as ->. rewrite Z.add_0_r. reflexivity.
    - apply IH; [cbn in LE; lia|]. intros q L' Eq. specialize (Q (S q) L' Eq). cbn [nth_error] in Q.
      rewrite Q. f_equal. f_equal; rewrite Nat2Z.inj_succ; lia.
  Qed.
  Theorem c74_multichannel vm c0 rest L0 Ls : fd_type f = "MultichannelBreitWigner" ->
    dget "mass" (fd_numbers f) = Some vm -> fd_channels f = Some (c0 :: rest) -> rest <> [] -> has_numbers ["d"] c0 ->
    (forall c, In c (c0 :: rest) -> has_numbers ["ma"; "mb"; "gsq"] c) ->
    dget "l" c0 = Some (Qc_of_Z L0) -> Forall2 (fun c L => dget "l" c = Some (Qc_of_Z L)) rest Ls ->
    exists e, formulate_multichannel_breit_wigner p name m = Ok e /\
      (forall ev h, ceval ev h (de_expr e) =
         bw_simple (e_sym ev (sigma_sym k)) (e_sym ev (named "m" name))
           (channel_formula L0 (e_sym ev (sigma_sym k)) (e_sym ev (named "m" name)) (e_sym ev (named "\Gamma" name))
              (e_sym ev (mass_sym a)) (e_sym ev (mass_sym b)) (e_sym ev (named "R" name))
            + further_widths ev k name 2 Ls)%C) /\
      (not_a_channel name -> forall v, dget (KSym (named "m" name)) (de_params e) = Some v <-> v = real_val vm) /\
      (forall key y, In (key, y) [("gsq", named "\Gamma" name); ("ma", mass_sym a); ("mb", mass_sym b); ("d", named "R" name)] ->
         exists v, dget key c0 = Some v /\ dget (KSym y) (de_params e) = Some (real_val v)) /\
      (forall q c key y, nth_error rest q = Some c ->
         In (key, y) [("ma", channel_mass_sym "a" (2 + Z.of_nat q)); ("mb", channel_mass_sym "b" (2 + Z.of_nat q));
                      ("gsq", channel_width_sym name (2 + Z.of_nat q))] ->
         exists v, dget key c = Some v /\ dget (KSym y) (de_params e) = Some (real_val v)).
  Proof.
    intros T E1 EC NE HD HN E0 FL.
    assert (CM : complete_multichannel f).
    { split; [exact T|]. split; [intros key [<-|[]]; eauto|]. destruct rest as [|c1 cs]; [contradiction|].
      exists c0, c1, cs. split; [exact EC|]. split; [exact HD|]. intros c I key K. cbn [In] in K.
      destruct K as [<-|K]; [|apply (HN c I key); exact K].
      destruct I as [<-|I]; [eauto|]. clear -FL I. induction FL as [|c' L' l l' X _ IH]; [destruct I|].
      destruct I as [<-|I]; [eauto|auto]. }
    destruct (multi_ok m p a b k name f N P F CM) as (e & c0' & rest' & chs & vm' & vl & va & vb & vg & vd & E & EC' & E1' & El & Ea & Eb & Eg & Ed & EE & LC & NC & KE & _ & _ & _).
    rewrite EC in EC'. injection EC' as <- <-. assert (vm' = vm) by congruence. assert (vl = Qc_of_Z L0) by congruence. subst vm' vl.
    rewrite int_of_Z in EE. exists e. split; [exact E|]. split.
    { intros ev h. rewrite EE, c38_multichannel, Csum_eq_cons. cbn [ceval]. f_equal. f_equal.
      apply channels_value.
      - rewrite LC. clear -FL. induction FL; cbn; congruence.
      - intros q L Eq.
        assert (X : exists c, nth_error rest q = Some c /\ dget "l" c = Some (Qc_of_Z L)).
        { clear -FL Eq. revert q Eq. induction FL as [|c L' l l' X _ IH]; intros [|q] Eq; try discriminate Eq; cbn in Eq.
          - injection Eq as ->. exists c. auto.
          - exact (IH q Eq). }
        destruct X as (c & Ec & Xl). destruct (NC q c Ec) as (vl & ? & ? & ? & Xl' & _ & _ & _ & Y & _).
        assert (vl = Qc_of_Z L) as -> by congruence. rewrite int_of_Z in Y. exact Y. }
    destruct (perm_in _ _ _ P) as (Ia & Ib & _ & Nab).
    assert (M1 : forall n c n', In n [1; 2; 3] -> c = "a" \/ c = "b" -> mass_sym n <> channel_mass_sym c n').
    { intros n c n' I Hc X. pose proof (mass_length n (in_0 _ I)) as Y. rewrite X in Y. unfold channel_mass_sym in Y. cbn [sname] in Y.
      rewrite !app_length_str in Y. destruct Hc as [-> | ->]; cbn in Y; lia. }
    assert (M2 : forall n n', In n [1; 2; 3] -> mass_sym n <> channel_width_sym name n').
    { intros n n' I X. pose proof (mass_length n (in_0 _ I)) as Y. rewrite X in Y. unfold channel_width_sym in Y. cbn [sname] in Y.
      rewrite !app_length_str in Y. cbn in Y. lia. }
    assert (G1 : forall n', named "\Gamma" name <> channel_width_sym name n').
    { intros n' X. pose proof (named_length "\Gamma" name) as Y. rewrite X in Y. unfold channel_width_sym in Y. cbn [sname] in Y.
      rewrite !app_length_str in Y. cbn [String.length] in Y. lia. }
    set (five := [(KSym (named "m" name), real_val vm); (KSym (named "\Gamma" name), real_val vg);
           (KSym (mass_sym a), real_val va); (KSym (mass_sym b), real_val vb); (KSym (named "R" name), real_val vd)]) in *.
    assert (FF : functional five).
    { assert (X1 : forall base, mass_sym a <> named base name) by (intros; apply mass_not_named, in_0; auto).
      assert (X2 : forall base, mass_sym b <> named base name) by (intros; apply mass_not_named, in_0; auto).
      assert (X3 : mass_sym a <> mass_sym b) by (intros X; apply Nab; apply mass_sym_inj; auto using in_0).
      assert (X8 : named "m" name <> named "\Gamma" name) by (intros X; discriminate X).
      assert (X9 : named "m" name <> named "R" name) by (intros X; discriminate X).
      assert (X10 : named "\Gamma" name <> named "R" name) by (intros X; discriminate X).
      clear -X1 X2 X3 X8 X9 X10. pose proof (X1 "m"). pose proof (X1 "\Gamma"). pose proof (X1 "R"). pose proof (X2 "m"). pose proof (X2 "\Gamma"). pose proof (X2 "R").
      intros y v v'. unfold five. cbn [In].
      intros [E|[E|[E|[E|[E|[]]]]]] [E'|[E'|[E'|[E'|[E'|[]]]]]]; congruence. }
    pose proof (proj2 (entries_dict_of _ FF)) as EN.
    split; [|split].
    - intros NA v. rewrite KE.
      + rewrite EN. unfold five. split.
        * intros I. apply (FF (KSym (named "m" name))); [exact I|left; reflexivity].
        * intros ->. left. reflexivity.
      + intros n Hn [X|[X|X]]; [exact (proj1 (NA n Hn) X)|exact (proj2 (NA n Hn) X)|discriminate X].
    - intros key y I. cbn [In] in I.
      assert (NK : forall n, 2 <= n -> ~ channel_key name n y).
      { intros n Hn. destruct I as [I|[I|[I|[I|[]]]]]; injection I as _ <-; intros [X|[X|X]].
        - discriminate X.
        - discriminate X.
        - exact (G1 _ X).
        - exact (M1 a "a" n Ia (or_introl eq_refl) X).
        - exact (M1 a "b" n Ia (or_intror eq_refl) X).
        - exact (M2 a n Ia X).
        - exact (M1 b "a" n Ib (or_introl eq_refl) X).
        - exact (M1 b "b" n Ib (or_intror eq_refl) X).
        - exact (M2 b n Ib X).
        - discriminate X.
        - discriminate X.
        - discriminate X. }
      rewrite (KE y NK).
      destruct I as [I|[I|[I|[I|[]]]]]; injection I as <- <-; eexists; (split; [eassumption|]); apply EN; unfold five; cbn [In]; auto 10.
    - intros q c key y Ec I. destruct (NC q c Ec) as (vl & va' & vb' & vg' & _ & Xa & Xb & Xg & _ & D1 & D2 & D3).
      cbn [In] in I. destruct I as [I|[I|[I|[]]]]; injection I as <- <-; eauto.
  Qed.
End Propagator.
