(** Lineshapes, form factors and weights of deserialised chains. *)
From Coq Require Import String ZArith QArith Qcanon Qreals List Bool Reals Lia Lra Permutation Sorted.
From Coq Require DecimalZ DecimalString.
From Coquelicot Require Import Complex.
From Verif Require Import Prelude Spin SpinFacts Decay Expr Sums CExpr CExprFacts SpecDPD Builder BuilderFacts BuilderProofs
  Dynamics SpecDynamics DynamicsProofs LineshapeFacts LineshapeProofs SerFormat SerDynamics SerAmplitude SpecSerial SerDecay SerAmpFacts.
Import ListNotations.
Local Open Scope string_scope.
Local Open Scope Z_scope.
Local Open Scope list_scope.

Lemma function_ok m name f : function_of m name f -> get_function_definition name m = Ok f.
Proof. intros F. apply c50_function. exact F. Qed.
Lemma number_ok (key : string) (d : dict string Qc) v : dget key d = Some v -> dgetitem key d = Ok v.
Proof. intros E. apply dgetitem_ok. exact E. Qed.
Lemma str_digit n : In n [0; 1; 2; 3] -> exists a, str_of_Z n = String a "".
Proof. rewrite In_0123. intros [->|[->|[->| ->]]]; eexists; reflexivity. Qed.
Lemma app_length_str a b : String.length (a ++ b) = (String.length a + String.length b)%nat.
Proof. induction a as [|c a IH]; cbn; [reflexivity|rewrite IH; reflexivity]. Qed.
Lemma mass_length n : In n [0; 1; 2; 3] -> String.length (sname (mass_sym n)) = 2%nat.
Proof. intros I. destruct (str_digit n I) as (a & E). unfold mass_sym. rewrite E. reflexivity. Qed.
Lemma named_length base label : String.length (sname (named base label)) = (String.length base + String.length label + 3)%nat.
Proof. unfold named. cbn [sname]. rewrite !app_length_str. cbn [String.length]. lia. Qed.
Lemma mass_not_named n base label : In n [0; 1; 2; 3] -> mass_sym n <> named base label.
Proof. intros I E. pose proof (mass_length n I). rewrite E, named_length in H. lia. Qed.
Lemma mass_sym_inj i j : In i [0; 1; 2; 3] -> In j [0; 1; 2; 3] -> mass_sym i = mass_sym j -> i = j.
Proof.
  rewrite !In_0123. intros [->|[->|[->| ->]]] [->|[->|[->| ->]]]; intros E; try reflexivity; discriminate E.
Qed.
Lemma perm_in i j k : Permutation [i; j; k] [1; 2; 3] -> In i [1; 2; 3] /\ In j [1; 2; 3] /\ In k [1; 2; 3] /\ i <> j.
Proof.
  intros P. apply perm_123 in P. cbn in P.
  repeat (destruct P as [E|P]; [injection E as <- <- <-; cbn; repeat split; auto; lia|]). destruct P.
Qed.
Lemma in_0 n : In n [1; 2; 3] -> In n [0; 1; 2; 3]. Proof. cbn. tauto. Qed.

Lemma to_int_nonnil z : Z.to_int z <> Decimal.Pos Decimal.Nil /\ Z.to_int z <> Decimal.Neg Decimal.Nil.
Proof.
  assert (E : Decimal.norm (Z.to_int z) = Z.to_int z).
  { rewrite <- DecimalZ.to_of, DecimalZ.of_to. reflexivity. }
  split; intros X; rewrite X in E; discriminate E.
Qed.
Lemma str_of_Z_inj a b : str_of_Z a = str_of_Z b -> a = b.
Proof.
  unfold str_of_Z. intros E. apply (f_equal DecimalString.NilZero.int_of_string) in E.
  rewrite !DecimalString.NilZero.isi in E by apply to_int_nonnil.
  rewrite <- (DecimalZ.of_to a), <- (DecimalZ.of_to b). congruence.
Qed.
Lemma app_inj_r (a b c : string) : (a ++ c = b ++ c)%string -> a = b.
Proof.
  revert b. induction a as [|x a IH]; intros [|y b] E; auto.
  - apply (f_equal String.length) in E. rewrite app_length_str in E. cbn [append String.length] in E.
    rewrite ?app_length_str in E. cbn [String.length] in E. lia.
  - apply (f_equal String.length) in E. cbn [append String.length] in E. rewrite ?app_length_str in E. lia.
  - cbn [append] in E. injection E as -> E. f_equal. apply IH. exact E.
Qed.

(** ** Breit-Wigner *)
Section Propagator.
  Variables (m : model_def) (p : propagator) (a b k : Z) (name : string) (f : func_def).
  Hypothesis N : pr_node p = [It a; It b].
  Hypothesis P : Permutation [a; b; k] [1; 2; 3].
  Hypothesis F : function_of m (pr_parametrization p) f.

  Definition bw_entries (vm vw va vb vd : Qc) : list (pkey * pval) :=
    [(KSym (named "m" name), real_val vm); (KSym (named "\Gamma" name), real_val vw);
     (KSym (mass_sym a), real_val va); (KSym (mass_sym b), real_val vb); (KSym radius_sym, real_val vd)].
  Lemma bw_functional vm vw va vb vd : functional (bw_entries vm vw va vb vd).
  Proof.
    destruct (perm_in _ _ _ P) as (Ia & Ib & _ & Nab).
    assert (X1 : forall base, mass_sym a <> named base name) by (intros; apply mass_not_named, in_0; auto).
    assert (X2 : forall base, mass_sym b <> named base name) by (intros; apply mass_not_named, in_0; auto).
    assert (X3 : mass_sym a <> mass_sym b).
    { intros E. apply Nab. apply mass_sym_inj; auto using in_0. }
    assert (X4 : radius_sym <> mass_sym a) by (intros E; pose proof (mass_length a (in_0 _ Ia)) as X; rewrite <- E in X; discriminate X).
    assert (X5 : radius_sym <> mass_sym b) by (intros E; pose proof (mass_length b (in_0 _ Ib)) as X; rewrite <- E in X; discriminate X).
    assert (X6 : radius_sym <> named "m" name) by (intros E; discriminate E).
    assert (X7 : radius_sym <> named "\Gamma" name) by (intros E; discriminate E).
    assert (X8 : named "m" name <> named "\Gamma" name) by (intros E; discriminate E).
    clear -X1 X2 X3 X4 X5 X6 X7 X8. pose proof (X1 "m"). pose proof (X1 "\Gamma"). pose proof (X2 "m"). pose proof (X2 "\Gamma").
    intros y v v'. unfold bw_entries. cbn [In].
    intros [E|[E|[E|[E|[E|[]]]]]] [E'|[E'|[E'|[E'|[E'|[]]]]]]; congruence.
  Qed.
  Lemma bw_ok vl vm vw va vb vd :
    dget "l" (fd_numbers f) = Some vl -> dget "mass" (fd_numbers f) = Some vm -> dget "width" (fd_numbers f) = Some vw ->
    dget "ma" (fd_numbers f) = Some va -> dget "mb" (fd_numbers f) = Some vb -> dget "d" (fd_numbers f) = Some vd ->
    formulate_breit_wigner p name m = Ok (DefExpr
      (breit_wigner (CVar (sigma_sym k)) (CVar (named "m" name)) (CVar (named "\Gamma" name)) (CVar (mass_sym a))
         (CVar (mass_sym b)) (int_of vl) (CVar radius_sym) phase_space_factor)
      (dict_of (bw_entries vm vw va vb vd))).
  Proof.
    intros H1 H2 H3 H4 H5 H6. unfold formulate_breit_wigner. rewrite (function_ok _ _ _ F). cbn [bind].
    rewrite N. cbn [unpack2 bind]. rewrite (c59_mandelstam _ _ _ P). cbn [bind to_mass_symbol].
    rewrite (number_ok _ _ _ H1), (number_ok _ _ _ H2), (number_ok _ _ _ H3), (number_ok _ _ _ H4), (number_ok _ _ _ H5), (number_ok _ _ _ H6).
    reflexivity.
  Qed.
  Lemma bw_symbols L y : In y (symbols_of (breit_wigner (CVar (sigma_sym k)) (CVar (named "m" name)) (CVar (named "\Gamma" name)) (CVar (mass_sym a))
         (CVar (mass_sym b)) L (CVar radius_sym) phase_space_factor)) ->
    y = sigma_sym k \/ In y [named "m" name; named "\Gamma" name; mass_sym a; mass_sym b; radius_sym].
  Proof.
    unfold breit_wigner, breit_wigner_width. cbn [is_zero]. rewrite andb_false_r. cbn [andb].
    unfold simple_breit_wigner, energy_dependent_width, phase_space_factor, CNum. cbn [symbols_of app].
    cbn [In]. clear. intuition.
  Qed.
  Lemma bw_entries_keys vm vw va vb vd y : In y [named "m" name; named "\Gamma" name; mass_sym a; mass_sym b; radius_sym] ->
    In (KSym y) (dkeys (dict_of (bw_entries vm vw va vb vd))).
  Proof.
    intros I. destruct (entries_dict_of _ (bw_functional vm vw va vb vd)) as [_ E].
    assert (X : exists v, In (KSym y, v) (bw_entries vm vw va vb vd)).
    { unfold bw_entries. cbn in I. destruct I as [<-|[<-|[<-|[<-|[<-|[]]]]]]; eexists; cbn [In]; eauto 10. }
    destruct X as (v & X). apply E in X. apply dget_Some_In in X. apply (in_map fst) in X. exact X.
  Qed.
  (** the further channels *)
  Lemma channel_mass_inj l l' n n' : In l ["a"; "b"] -> In l' ["a"; "b"] ->
    channel_mass_symbol l n = channel_mass_symbol l' n' -> l = l' /\ n = n'.
  Proof.
    unfold channel_mass_symbol. intros I I' E. apply (f_equal sname) in E. cbn [sname] in E.
    cbn in I, I'. destruct I as [<-|[<-|[]]], I' as [<-|[<-|[]]]; cbn [append] in E; injection E as E;
      try discriminate E; split; auto; apply str_of_Z_inj; apply (app_inj_r _ _ "}"); exact E.
  Qed.
  Lemma channel_width_inj n n' : channel_width_symbol name n = channel_width_symbol name n' -> n = n'.
  Proof.
    unfold channel_width_symbol. intros E. apply (f_equal sname) in E. cbn [sname] in E.
    apply append_inj_l, append_inj_l, append_inj_l in E. apply str_of_Z_inj. apply (app_inj_r _ _ "}"). exact E.
  Qed.
  Lemma channel_mass_width l n n' : channel_mass_symbol l n <> channel_width_symbol name n'.
  Proof. intros E. apply (f_equal sname) in E. discriminate E. Qed.
  Definition channel_key (n : Z) (y : symbol) : Prop :=
    y = channel_mass_sym "a" n \/ y = channel_mass_sym "b" n \/ y = channel_width_sym name n.
  Lemma channel_key_inj n n' y : channel_key n y -> channel_key n' y -> n = n'.
  Proof.
    unfold channel_key. intros [->|[->| ->]] [E|[E|E]];
      try (apply (channel_mass_inj _ _ _ _) in E; [apply E|cbn; auto|cbn; auto]);
      try (exfalso; exact (channel_mass_width _ _ _ E)); try (exfalso; exact (channel_mass_width _ _ _ (eq_sym E))).
    apply channel_width_inj. exact E.
  Qed.
  Definition nth_channel (s mass d : symbol) (n L : Z) : channel :=
    Channel (CVar s) (CVar mass) (CVar (channel_width_sym name n)) (CVar (channel_mass_sym "a" n)) (CVar (channel_mass_sym "b" n)) L (CVar d).
  Lemma further_ok s mass d : forall defs n params, (forall c, In c defs -> has_numbers ["l"; "ma"; "mb"; "gsq"] c) ->
    NoDup (dkeys params) ->
    exists cs params', further_channels s mass name d n defs params = Ok (cs, params') /\
      NoDup (dkeys params') /\ incl (dkeys params) (dkeys params') /\ length cs = length defs /\
      (forall q c, nth_error defs q = Some c -> exists vl va vb vg,
         dget "l" c = Some vl /\ dget "ma" c = Some va /\ dget "mb" c = Some vb /\ dget "gsq" c = Some vg /\
         nth_error cs q = Some (nth_channel s mass d (n + Z.of_nat q) (int_of vl)) /\
         dget (KSym (channel_mass_sym "a" (n + Z.of_nat q))) params' = Some (real_val va) /\
         dget (KSym (channel_mass_sym "b" (n + Z.of_nat q))) params' = Some (real_val vb) /\
         dget (KSym (channel_width_sym name (n + Z.of_nat q))) params' = Some (real_val vg)) /\
      (forall y, (forall n', n <= n' -> ~ channel_key n' y) -> dget (KSym y) params' = dget (KSym y) params).
  Proof.
    induction defs as [|c defs IH]; intros n params HN ND.
    - exists [], params. split; [reflexivity|]. split; auto. split; [intros ? X; exact X|]. split; auto.
      split; [intros [|q] c X; discriminate X|reflexivity].
    - cbn [further_channels].
      destruct (HN c (or_introl eq_refl) "l") as (vl & E1); [cbn; auto|].
      destruct (HN c (or_introl eq_refl) "ma") as (va & E2); [cbn; auto|].
      destruct (HN c (or_introl eq_refl) "mb") as (vb & E3); [cbn; auto|].
      destruct (HN c (or_introl eq_refl) "gsq") as (vg & E4); [cbn; auto|].
      rewrite (number_ok _ _ _ E1), (number_ok _ _ _ E2), (number_ok _ _ _ E3), (number_ok _ _ _ E4). cbn [bind].
      set (new := [(KSym (channel_mass_symbol "a" n), real_val va); (KSym (channel_mass_symbol "b" n), real_val vb);
         (KSym (channel_width_symbol name n), real_val vg)]).
      assert (NN : NoDup (dkeys new)).
      { assert (channel_mass_symbol "a" n <> channel_mass_symbol "b" n) by (intros E; discriminate E).
        pose proof (channel_mass_width "a" n n). pose proof (channel_mass_width "b" n n).
        unfold new, dkeys. cbn [map fst]. clear -H H0 H1.
        repeat constructor; cbn; intuition congruence. }
      destruct (IH (n + 1) (dupdate params new)) as (cs & params' & -> & N' & I' & L' & C' & K').
      { intros c' I'. apply HN. right; auto. }
      { apply dupdate_NoDup. exact ND. }
      cbn [bind]. eexists _, _. split; [reflexivity|]. split; auto. split.
      { intros y I. apply I'. apply dupdate_keys. auto. }
      split; [cbn [length]; congruence|].
      assert (G : forall y, channel_key n y -> dget (KSym y) params' = dget (KSym y) new).
      { intros y Ky. rewrite K' by (intros n' Ln Ky'; pose proof (channel_key_inj _ _ _ Ky Ky'); lia).
        rewrite dget_dupdate_nodup by exact NN. destruct (dget (KSym y) new) eqn:E; auto.
        exfalso. apply dget_None in E. apply E. unfold new, dkeys, channel_key in *. cbn.
        destruct Ky as [->|[->| ->]]; auto. }
      split.
      + intros [|q] c0 Ec; cbn [nth_error] in Ec.
        * injection Ec as <-. exists vl, va, vb, vg. rewrite Z.add_0_r. split; auto. split; auto. split; auto. split; auto.
          split; [reflexivity|]. split; [|split]; rewrite G by (unfold channel_key; auto); apply In_dget; auto;
            unfold new; cbn; auto.
        * destruct (C' q c0 Ec) as (vl' & va' & vb' & vg' & X). exists vl', va', vb', vg'.
          rewrite Nat2Z.inj_succ. replace (n + Z.succ (Z.of_nat q)) with (n + 1 + Z.of_nat q) by lia. exact X.
      + intros y Ky. rewrite K' by (intros n' Ln; apply Ky; lia). rewrite dget_dupdate_nodup by exact NN.
        destruct (dget (KSym y) new) eqn:E; auto. exfalso. apply dget_Some_In in E.
        apply (Ky n); [lia|]. unfold new in E. unfold channel_key. cbn in E.
        destruct E as [E|[E|[E|[]]]]; injection E as <- _; auto.
  Qed.
  Lemma multi_symbols s mass cs y : In y (symbols_of (multichannel_breit_wigner (CVar s) (CVar mass) cs)) ->
    y = s \/ y = mass \/ exists c, In c cs /\ In y (symbols_of (channel_width c)).
  Proof.
    unfold multichannel_breit_wigner, breit_wigner, breit_wigner_width. cbn [is_zero CNum]. 
    replace (is_zero (CNum 0)) with true by reflexivity. cbn [Z.eqb andb].
    unfold simple_breit_wigner, CNum. cbn [symbols_of app]. intros I. cbn [In] in I.
    rewrite ?in_app_iff in I. destruct I as [I|[I|[I|[I|[]]]]]; auto.
    right; right. induction cs as [|c cs IH]; [destruct I|].
    cbn [map CAddL symbols_of] in I. apply in_app_or in I. destruct I as [I|I].
    - exists c. split; [left; auto|exact I].
    - destruct (IH I) as (c' & I' & Y). exists c'. split; [right; auto|exact Y].
  Qed.
  Lemma channel_symbols c s mass w ma mb L d y : c = Channel (CVar s) (CVar mass) (CVar w) (CVar ma) (CVar mb) L (CVar d) ->
    In y (symbols_of (channel_width c)) -> In y [s; mass; w; ma; mb; d].
  Proof. intros ->. unfold channel_width. cbn. clear. intuition. Qed.
  Lemma multi_lineshape s mass cs : sassume s = ANonneg -> sassume mass = ANonneg ->
    (forall c, In c cs -> lineshape (channel_width c) = true) ->
    lineshape (multichannel_breit_wigner (CVar s) (CVar mass) cs) = true.
  Proof.
    intros A B X. unfold multichannel_breit_wigner, breit_wigner, breit_wigner_width.
    replace (is_zero (CNum 0)) with true by reflexivity. cbn [Z.eqb andb].
    unfold simple_breit_wigner, CNum. cbn [lineshape]. rewrite A, B. cbn [andb]. rewrite andb_true_r.
    induction cs as [|c cs IH]; [reflexivity|]. cbn [map CAddL lineshape]. rewrite X by (left; auto).
    rewrite IH; [reflexivity|]. intros c' I. apply X. right; auto.
  Qed.
  Lemma multi_ok : complete_multichannel f ->
    exists e c0 rest chs vm vl va vb vg vd, formulate_multichannel_breit_wigner p name m = Ok e /\
      fd_channels f = Some (c0 :: rest) /\ dget "mass" (fd_numbers f) = Some vm /\
      dget "l" c0 = Some vl /\ dget "ma" c0 = Some va /\ dget "mb" c0 = Some vb /\ dget "gsq" c0 = Some vg /\ dget "d" c0 = Some vd /\
      de_expr e = multichannel_breit_wigner (CVar (sigma_sym k)) (CVar (named "m" name))
        (Channel (CVar (sigma_sym k)) (CVar (named "m" name)) (CVar (named "\Gamma" name)) (CVar (mass_sym a)) (CVar (mass_sym b))
           (int_of vl) (CVar (named "R" name)) :: chs) /\
      length chs = length rest /\
      (forall q c, nth_error rest q = Some c -> exists vl va vb vg,
         dget "l" c = Some vl /\ dget "ma" c = Some va /\ dget "mb" c = Some vb /\ dget "gsq" c = Some vg /\
         nth_error chs q = Some (nth_channel (sigma_sym k) (named "m" name) (named "R" name) (2 + Z.of_nat q) (int_of vl)) /\
         dget (KSym (channel_mass_sym "a" (2 + Z.of_nat q))) (de_params e) = Some (real_val va) /\
         dget (KSym (channel_mass_sym "b" (2 + Z.of_nat q))) (de_params e) = Some (real_val vb) /\
         dget (KSym (channel_width_sym name (2 + Z.of_nat q))) (de_params e) = Some (real_val vg)) /\
      (forall y, (forall n, 2 <= n -> ~ channel_key n y) -> dget (KSym y) (de_params e) =
         dget (KSym y) (dict_of [(KSym (named "m" name), real_val vm); (KSym (named "\Gamma" name), real_val vg);
           (KSym (mass_sym a), real_val va); (KSym (mass_sym b), real_val vb); (KSym (named "R" name), real_val vd)])) /\
      NoDup (dkeys (de_params e)) /\ lineshape (de_expr e) = true /\ closed_expression e.
  Proof.
    intros (T & HN & c0 & c1 & cs & Ch & Hd & Hc). unfold formulate_multichannel_breit_wigner.
    rewrite (function_ok _ _ _ F). cbn [bind]. rewrite Ch, N. cbn [unpack2 bind].
    rewrite (c59_mandelstam _ _ _ P). cbn [bind to_mass_symbol].
    destruct (Hc c0 (or_introl eq_refl) "l") as (vl & E1); [cbn; auto|].
    destruct (Hc c0 (or_introl eq_refl) "ma") as (va & E2); [cbn; auto|].
    destruct (Hc c0 (or_introl eq_refl) "mb") as (vb & E3); [cbn; auto|].
    destruct (Hc c0 (or_introl eq_refl) "gsq") as (vg & E4); [cbn; auto|].
    destruct (HN "mass") as (vm & E5); [cbn; auto|].
    destruct (Hd "d") as (vd & E6); [cbn; auto|].
    rewrite (number_ok _ _ _ E1), (number_ok _ _ _ E2), (number_ok _ _ _ E3), (number_ok _ _ _ E4), (number_ok _ _ _ E5), (number_ok _ _ _ E6).
    cbn [bind]. unfold in_braces. fold (named "m" name) (named "\Gamma" name) (named "R" name) (mass_sym a) (mass_sym b) (sigma_sym k).
    match goal with |- context [further_channels _ _ _ _ _ _ ?x] => set (ps := x) end.
    destruct (further_ok (sigma_sym k) (named "m" name) (named "R" name) (c1 :: cs) 2 ps) as (chs & ps' & E & ND & I & LC & C & KE).
    { intros c Ic. apply Hc. right; auto. }
    { apply dict_of_NoDup. }
    rewrite E. cbn [bind]. eexists. exists c0, (c1 :: cs), chs, vm, vl, va, vb, vg, vd. split; [reflexivity|]. cbn [de_params de_expr].
    split; [reflexivity|]. do 6 (split; [assumption|]). split; [reflexivity|]. split; [exact LC|]. split; [exact C|]. split; [exact KE|].
    split; [exact ND|].
    assert (K : forall y, In y [named "m" name; named "\Gamma" name; mass_sym a; mass_sym b; named "R" name] -> In (KSym y) (dkeys ps')).
    { intros y Iy. apply I. unfold ps, dict_of. apply dupdate_keys. right. cbn in Iy |- *. clear -Iy. intuition congruence. }
    assert (CW : forall c, In c (Channel (CVar (sigma_sym k)) (CVar (named "m" name)) (CVar (named "\Gamma" name)) (CVar (mass_sym a)) (CVar (mass_sym b)) (int_of vl) (CVar (named "R" name)) :: chs) ->
      exists w ma mb L, c = Channel (CVar (sigma_sym k)) (CVar (named "m" name)) (CVar w) (CVar ma) (CVar mb) L (CVar (named "R" name)) /\
        forall y, In y [w; ma; mb] -> In (KSym y) (dkeys ps') /\ sassume y = ANonneg).
    { intros c [<-|Ic].
      - eexists _, _, _, _. split; [reflexivity|]. intros y Iy. split.
        + apply K. cbn in Iy |- *. clear -Iy. tauto.
        + cbn in Iy. destruct Iy as [<-|[<-|[<-|[]]]]; reflexivity.
      - apply In_nth_error in Ic. destruct Ic as (q & Eq).
        assert (Lq : (q < length (c1 :: cs))%nat) by (rewrite <- LC; apply nth_error_Some; congruence).
        destruct (nth_error (c1 :: cs) q) as [cd|] eqn:Ecd; [|apply nth_error_None in Ecd; lia].
        destruct (C q cd Ecd) as (vl' & va' & vb' & vg' & _ & _ & _ & _ & Eq' & D1 & D2 & D3).
        rewrite Eq in Eq'. injection Eq' as ->. unfold nth_channel. eexists _, _, _, _. split; [reflexivity|].
        intros y Iy. cbn [In] in Iy. destruct Iy as [<-|[<-|[<-|[]]]]; (split; [|reflexivity]); apply dget_In; eauto. }
    split.
    - apply multi_lineshape; try reflexivity. intros c Ic. destruct (CW c Ic) as (w & ma & mb & L & -> & Y).
      unfold channel_width. cbn [cn_s cn_m0 cn_width cn_m1 cn_m2 cn_radius lineshape].
      rewrite (proj2 (Y w (or_introl eq_refl))), (proj2 (Y ma (or_intror (or_introl eq_refl)))),
        (proj2 (Y mb (or_intror (or_intror (or_introl eq_refl))))). reflexivity.
    - intros y Iy. cbn [de_expr de_params] in *. apply multi_symbols in Iy.
      assert (S : In (KSym y) (dkeys ps') \/ y = sigma_sym k).
      { destruct Iy as [->|[->|(c & Ic & Iy)]]; auto.
        - left. apply K. cbn; auto.
        - destruct (CW c Ic) as (w & ma & mb & L & Ec & Y). apply (channel_symbols _ _ _ _ _ _ _ _ _ Ec) in Iy.
          cbn in Iy. destruct Iy as [<-|[<-|[<-|[<-|[<-|[<-|[]]]]]]]; auto;
            first [left; apply Y; cbn; tauto | left; apply K; cbn; tauto]. }
      destruct S as [S|S]; auto. right; right. exists k. split; auto. apply (perm_in _ _ _ P).
  Qed.
  Lemma bw_complete : complete_breit_wigner f ->
    exists e, formulate_breit_wigner p name m = Ok e /\ NoDup (dkeys (de_params e)) /\
      lineshape (de_expr e) = true /\ closed_expression e.
  Proof.
    intros (T & HN).
    destruct (HN "l") as (vl & E1); [cbn; auto 10|]. destruct (HN "mass") as (vm & E2); [cbn; auto 10|].
    destruct (HN "width") as (vw & E3); [cbn; auto 10|]. destruct (HN "ma") as (va & E4); [cbn; auto 10|].
    destruct (HN "mb") as (vb & E5); [cbn; auto 10|]. destruct (HN "d") as (vd & E6); [cbn; auto 10|].
    eexists. split; [apply bw_ok; eassumption|]. cbn [de_params de_expr]. split; [apply dict_of_NoDup|]. split.
    - unfold breit_wigner, breit_wigner_width. cbn [is_zero]. rewrite andb_false_r. reflexivity.
    - intros y I. cbn [de_expr de_params] in *. apply bw_symbols in I. destruct I as [->|I].
      + right; right. exists k. split; auto. apply (perm_in _ _ _ P).
      + left. apply bw_entries_keys. exact I.
  Qed.
End Propagator.

(** ** Form factors *)
Section FormFactor.
  Variables (m : model_def) (v : vertex).
  Lemma form_factor_none : v_formfactor v = None \/ v_formfactor v = Some "" -> formulate_form_factor v m = Ok de_unit.
  Proof. unfold formulate_form_factor. intros [->| ->]; reflexivity. Qed.
  Variables (name : string) (f : func_def) (vl vr : Qc).
  Hypothesis V : v_formfactor v = Some name.
  Hypothesis NE : name <> "".
  Hypothesis F : function_of m name f.
  Hypothesis T : fd_type f = "BlattWeisskopf".
  Hypothesis L : dget "l" (fd_numbers f) = Some vl.
  Hypothesis RR : dget "radius" (fd_numbers f) = Some vr.
  Lemma form_factor_decay i j k : v_node v = [It i; It j] -> Permutation [i; j; k] [1; 2; 3] ->
    formulate_form_factor v m = Ok (DefExpr
      (CFormFactor (CVar (sigma_sym k)) (CVar (mass_sym i)) (CVar (mass_sym j)) (int_of vl) (CVar radius_sym))
      [(KSym radius_sym, real_val vr)]).
  Proof.
    intros N P. unfold formulate_form_factor. rewrite V. destruct name as [|a n] eqn:En; [contradiction|].
    rewrite (function_ok _ _ _ F). cbn [bind]. rewrite T. change (eqb "BlattWeisskopf" "BlattWeisskopf") with true. cbn iota.
    rewrite N, (c59_mandelstam _ _ _ P). cbn [bind mapM to_mass_symbol unpack2 all_int forallb is_int andb].
    rewrite (number_ok _ _ _ L). cbn [bind]. rewrite (number_ok _ _ _ RR). reflexivity.
  Qed.
  Lemma form_factor_production i j k d s r : describes_states (fun n => n) m d s r ->
    with_pair k [It i; It j] (v_node v) -> Permutation [i; j; k] [1; 2; 3] ->
    exists m1 m2, formulate_form_factor v m = Ok (DefExpr
      (CFormFactor (CVar (mass_sym 0)) (CVar m1) (CVar m2) (int_of vl) (CVar (named "R" (p_latex (s 0)))))
      [(KSym (named "R" (p_latex (s 0))), real_val vr)]) /\
      ((v_node v = [Sub [It i; It j]; It k] /\ m1 = sigma_sym k /\ m2 = mass_sym k) \/
       (v_node v = [It k; Sub [It i; It j]] /\ m1 = mass_sym k /\ m2 = sigma_sym k)).
  Proof.
    intros D N P. unfold formulate_form_factor. rewrite V. destruct name as [|a n] eqn:En; [contradiction|].
    rewrite (function_ok _ _ _ F). cbn [bind]. rewrite T. change (eqb "BlattWeisskopf" "BlattWeisskopf") with true. cbn iota.
    assert (SK : to_mass_symbol (Sub [It i; It j]) = Ok (sigma_sym k)) by exact (c59_mandelstam _ _ _ P).
    rewrite (initial_ok None _ _ _ _ D).
    destruct N as [N|N]; rewrite N; cbn [to_mandelstam_symbol all_int forallb is_int andb mapM]; rewrite SK;
      cbn [bind to_mass_symbol unpack2]; rewrite (number_ok _ _ _ L); cbn [bind]; rewrite (number_ok _ _ _ RR); cbn [bind];
      eexists _, _; (split; [reflexivity|]); auto.
  Qed.
End FormFactor.
