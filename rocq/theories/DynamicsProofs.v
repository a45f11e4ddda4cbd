(** Proofs about dynamics/__init__.py and dynamics/builder.py. *)
From Coq Require Import String ZArith QArith Qcanon List Bool Reals Permutation Lia Lra.
From Coquelicot Require Import Complex.
From Verif Require Import Prelude Spin Decay DecayFacts Expr CExpr Builder SpecDPD SpecBuilder Dynamics SpecDynamics Sums CExprFacts
  BuilderFacts BuilderProofs.
Import ListNotations.
Local Open Scope string_scope.
Local Open Scope Z_scope.
Local Open Scope list_scope.

(** ** Dictionaries *)
Lemma dget_fun {K V} `{EqDec K} (l : list (K * V)) : forall d,
  (forall k v v', In (k, v) (d ++ l) -> In (k, v') (d ++ l) -> v = v') ->
  NoDup (dkeys d) ->
  forall k v, dget k (dupdate d l) = Some v <-> In (k, v) (d ++ l).
Proof.
  intros d F ND k v. rewrite dget_dupdate.
  destruct (dget k (rev l)) as [u|] eqn:G.
  - apply dget_Some_In, in_rev in G. split.
    + intros E; inversion E; subst. apply in_or_app; auto.
    + intros I. f_equal. apply (F k); auto. apply in_or_app; auto.
  - apply dget_None in G.
    assert (G' : forall u, ~ In (k, u) l).
    { intros u I. apply G. apply in_map_iff. exists (k, u). split; auto. apply in_rev in I. auto. }
    split.
    + intros E. apply dget_Some_In in E. apply in_or_app; auto.
    + intros I. apply in_app_or in I. destruct I as [I|I]; [|destruct (G' _ I)]. apply In_dget; auto.
Qed.
Lemma dict_of_fun {K V} `{EqDec K} (l : list (K * V)) :
  (forall k v v', In (k, v) l -> In (k, v') l -> v = v') ->
  forall k v, dget k (dict_of l) = Some v <-> In (k, v) l.
Proof. intros F. apply (dget_fun l []); auto. constructor. Qed.
Lemma dict_of_NoDup {K V} `{EqDec K} (l : list (K * V)) : NoDup (dkeys (dict_of l)).
Proof. apply dupdate_NoDup. constructor. Qed.

(** Membership in a dictionary, for dictionaries that agree with a functional list *)
Definition entries {K V} `{EqDec K} (d : dict K V) (l : list (K * V)) : Prop :=
  NoDup (dkeys d) /\ forall k v, dget k d = Some v <-> In (k, v) l.
Definition functional {K V} (l : list (K * V)) : Prop := forall k v v', In (k, v) l -> In (k, v') l -> v = v'.
Lemma functional_incl {K V} (l l' : list (K * V)) : incl l l' -> functional l' -> functional l.
Proof. intros I F k v v' A B. apply (F k); auto. Qed.
Lemma entries_dict_of {K V} `{EqDec K} (l : list (K * V)) : functional l -> entries (dict_of l) l.
Proof. intros F. split; [apply dict_of_NoDup|]. intros k v. apply dict_of_fun, F. Qed.
Lemma entries_update {K V} `{EqDec K} (d d' : dict K V) l l' : functional (l ++ l') ->
  entries d l -> entries d' l' -> entries (dupdate d d') (l ++ l').
Proof.
  intros F [N A] [N' A']. split; [apply dupdate_NoDup; auto|].
  intros k v. rewrite dget_dupdate_nodup by auto. rewrite in_app_iff. destruct (dget k d') as [u|] eqn:G.
  - apply A' in G. split.
    + intros E. inversion E; subst. auto.
    + intros I. f_equal. apply (F k); apply in_or_app; tauto.
  - rewrite A. split; auto. intros [I|I]; auto. apply A' in I. congruence.
Qed.
Lemma entries_dset {K V} `{EqDec K} (d : dict K V) k v l : functional (l ++ [(k, v)]) ->
  entries d l -> entries (dset k v d) (l ++ [(k, v)]).
Proof.
  intros F E. apply (entries_update d [(k, v)] l [(k, v)] F E).
  split; [repeat constructor; intros []|]. intros k' v'. simpl. destruct (eq_dec k' k) as [->|N].
  - split; [intros E'; inversion E'; auto|intros [E'|[]]; inversion E'; auto].
  - split; [discriminate|intros [E'|[]]; inversion E'; congruence].
Qed.
Lemma entries_ext {K V} `{EqDec K} (d : dict K V) l l' :
  (forall x, In x l <-> In x l') -> entries d l -> entries d l'.
Proof. intros I [N E]. split; auto. intros k v. rewrite E. apply I. Qed.

(** ** The builder *)
Section Builder.
  Context (w : bw_builder) (p0 : state) (r : particle) (a b k : state) (i j : option ls_coupling).
  Context (I0 : st_index p0 = 0) (P : Permutation [st_index a; st_index b; st_index k] [1; 2; 3]).
  Let node := Node (PPart r) (Leaf (PSt a)) (Leaf (PSt b)) j.

  Lemma index_cases : (st_index a = 1 /\ st_index b = 2 /\ st_index k = 3) \/
    (st_index a = 1 /\ st_index b = 3 /\ st_index k = 2) \/
    (st_index a = 2 /\ st_index b = 1 /\ st_index k = 3) \/
    (st_index a = 2 /\ st_index b = 3 /\ st_index k = 1) \/
    (st_index a = 3 /\ st_index b = 1 /\ st_index k = 2) \/
    (st_index a = 3 /\ st_index b = 2 /\ st_index k = 1).
  Proof.
    assert (ND : NoDup [st_index a; st_index b; st_index k]).
    { apply (Permutation_NoDup (Permutation_sym P)). repeat constructor; cbn; intuition discriminate. }
    assert (In (st_index a) [1; 2; 3] /\ In (st_index b) [1; 2; 3] /\ In (st_index k) [1; 2; 3]) as (A & B & C)
      by (repeat split; apply (Permutation_in _ P); simpl; auto).
    inversion ND as [|? ? N1 ND1]; subst. inversion ND1 as [|? ? N2 _]; subst.
    clear node ND ND1 P. cbn [In] in N1, N2, A, B, C. clear I0.
    destruct A as [A|[A|[A|[]]]], B as [B|[B|[B|[]]]], C as [C|[C|[C|[]]]]; rewrite <- A, <- B, <- C in *;
      try (exfalso; clear - N1 N2; intuition congruence); auto 10.
  Qed.

  Lemma mandelstam_ok : get_mandelstam_s node = Ok (sigma_of k).
  Proof.
    unfold get_mandelstam_s, node, sigma_of. cbn [children bind mapM child_index].
    destruct index_cases as [(-> & -> & ->)|[(-> & -> & ->)|[(-> & -> & ->)|[(-> & -> & ->)|[(-> & -> & ->)|(-> & -> & ->)]]]]];
      reflexivity.
  Qed.

  Definition kv (l : list (symbol * Qc)) : list (pkey * pval) := map (fun x => (KSym (fst x), real_val (snd x))) l.
  Definition all_params : list (symbol * Qc) :=
    [(resonance_mass r, p_mass r); (resonance_width r, p_width r); (resonance_radius, Spin.Qc_of_Z 1);
     (outer_mass a, p_mass a); (outer_mass b, p_mass b);
     (parent_radius p0, Spin.Qc_of_Z 1); (outer_mass k, p_mass k); (outer_mass p0, p_mass p0)].
  Lemma all_functional : functional (kv all_params).
  Proof.
    intros x v v' A B. unfold kv, all_params in A, B. cbn [map fst snd In] in A, B.
    destruct index_cases as [(Ea & Eb & Ek)|[(Ea & Eb & Ek)|[(Ea & Eb & Ek)|[(Ea & Eb & Ek)|[(Ea & Eb & Ek)|(Ea & Eb & Ek)]]]]];
    unfold outer_mass, parent_radius, resonance_mass, resonance_width, resonance_radius in A, B;
    rewrite Ea, Eb, Ek, I0 in *;
    repeat (destruct A as [A|A]; [inversion A; subst; clear A;
      repeat (destruct B as [B|B]; [inversion B; subst; auto|]); contradiction|]); contradiction.
  Qed.
  Lemma kv_app l l' : kv (l ++ l') = kv l ++ kv l'.
  Proof. apply map_app. Qed.
  Lemma kv_incl l l' : incl l l' -> incl (kv l) (kv l').
  Proof. apply incl_map. Qed.
  Ltac fun_tac := eapply functional_incl; [|exact all_functional]; unfold kv, all_params;
    intros ?x; cbn [map app fst snd In]; tauto.

  Definition bw_expr (s : symbol) (L : Z) (rho : phsp) : cexpr :=
    relativistic_breit_wigner (CVar s) (CVar (resonance_mass r)) (CVar (resonance_width r))
      (CVar (outer_mass a)) (CVar (outer_mass b)) L (CVar resonance_radius) rho.
  Lemma base_ok : exists e,
    (if bw_energy_dependent_width w then create_breit_wigner (sigma_of k) node (bw_phsp_factor w)
     else create_simple_breit_wigner (sigma_of k) node) = e /\
    (bw_energy_dependent_width w = true -> j = None -> e = Err ValueError) /\
    ((bw_energy_dependent_width w = true -> j <> None) -> exists x, e = Ok x /\
       de_expr x = (if bw_energy_dependent_width w then bw_expr (sigma_of k) (orbital j) (bw_phsp_factor w)
                    else simple_breit_wigner (CVar (sigma_of k)) (CVar (resonance_mass r)) (CVar (resonance_width r))) /\
       entries (de_params x) (kv [(resonance_mass r, p_mass r); (resonance_width r, p_width r); (resonance_radius, Spin.Qc_of_Z 1)])).
  Proof.
    eexists. split; [reflexivity|]. unfold create_breit_wigner, create_simple_breit_wigner, node.
    destruct (bw_energy_dependent_width w).
    - split.
      + intros _ ->. reflexivity.
      + intros N. destruct j as [c|]; [|destruct (N eq_refl eq_refl)]. cbn [get_angular_momentum bind].
        eexists. split; [reflexivity|]. split; [reflexivity|]. cbn [de_params].
        apply entries_dict_of. fun_tac.
    - split; [discriminate|]. intros _. eexists. split; [reflexivity|]. split; [reflexivity|]. cbn [de_params].
      apply entries_dict_of. fun_tac.
  Qed.

  Lemma decay_ff_ok : (j = None -> create_form_factor node = Err ValueError) /\
    (j <> None -> exists x, create_form_factor node = Ok x /\
       de_expr x = CFormFactor (CSqr (CVar (sigma_of k))) (CVar (outer_mass a)) (CVar (outer_mass b)) (orbital j) (CVar resonance_radius) /\
       entries (de_params x) (kv [(resonance_radius, Spin.Qc_of_Z 1); (outer_mass a, p_mass a); (outer_mass b, p_mass b)])).
  Proof.
    pose proof mandelstam_ok as M. unfold create_form_factor. rewrite M. unfold node. cbn [bind]. split.
    - intros ->. reflexivity.
    - intros N. destruct j as [c|]; [|destruct N; auto]. cbn [get_angular_momentum bind].
      assert (starts_with_s (sigma_of k) = true) as -> by reflexivity. cbn [negb].
      eexists. split; [reflexivity|]. split; [reflexivity|]. cbn [de_params]. apply entries_dict_of. fun_tac.
  Qed.

  Definition production_expr (e : cexpr) (c : chain) : Prop :=
    (c = Node (PSt p0) node (Leaf (PSt k)) i /\
     e = CFormFactor (CSqr (CVar (outer_mass p0))) (CVar (resonance_mass r)) (CVar (outer_mass k)) (orbital i) (CVar (parent_radius p0))) \/
    (c = Node (PSt p0) (Leaf (PSt k)) node i /\
     e = CFormFactor (CSqr (CVar (outer_mass p0))) (CVar (outer_mass k)) (CVar (resonance_mass r)) (orbital i) (CVar (parent_radius p0))).
  Lemma production_ff_ok c : (c = Node (PSt p0) node (Leaf (PSt k)) i \/ c = Node (PSt p0) (Leaf (PSt k)) node i) ->
    (i = None -> create_form_factor c = Err ValueError) /\
    (i <> None -> exists x, create_form_factor c = Ok x /\ production_expr (de_expr x) c /\
       entries (de_params x) (kv [(parent_radius p0, Spin.Qc_of_Z 1); (resonance_mass r, p_mass r);
                                  (outer_mass k, p_mass k); (outer_mass p0, p_mass p0)])).
  Proof.
    assert (E0 : Sym "m0" ANonneg = outer_mass p0) by (unfold outer_mass; rewrite I0; reflexivity).
    unfold production_expr. intros [->| ->]; unfold create_form_factor; cbn [bind]; (split; [intros ->; reflexivity|]);
      intros N; (destruct i as [c|]; [|destruct N; auto]); cbn [get_angular_momentum bind];
      rewrite E0; assert (starts_with_s (outer_mass p0) = false) as -> by reflexivity; cbn [negb];
      (eexists; split; [reflexivity|]; split; [first [left; split; reflexivity|right; split; reflexivity]|]).
    - cbn [de_params].
      apply (entries_dset _ _ _ (kv [(parent_radius p0, Spin.Qc_of_Z 1); (resonance_mass r, p_mass r); (outer_mass k, p_mass k)])).
      + fun_tac.
      + apply entries_dict_of. fun_tac.
    - cbn [de_params].
      apply (entries_ext _ (kv [(parent_radius p0, Spin.Qc_of_Z 1); (outer_mass k, p_mass k); (resonance_mass r, p_mass r)]
        ++ [(KSym (outer_mass p0), real_val (p_mass p0))])).
      + intros x. cbn [kv map app In fst snd]. tauto.
      + apply entries_dset; [fun_tac|]. apply entries_dict_of. fun_tac.
  Qed.

  Lemma bw_call_spec c : (c = Node (PSt p0) node (Leaf (PSt k)) i \/ c = Node (PSt p0) (Leaf (PSt k)) node i) ->
    (((needs_decay_ls w = true /\ j = None) \/ (needs_production_ls w = true /\ i = None)) ->
       bw_call w c = Err ValueError) /\
    ((needs_decay_ls w = true -> j <> None) -> (needs_production_ls w = true -> i <> None) ->
     exists x fp, bw_call w c = Ok x /\ entries (de_params x) (kv (bw_parameters w p0 r a b k)) /\
       production_expr fp c /\
       let e0 := if bw_energy_dependent_width w then bw_expr (sigma_of k) (orbital j) (bw_phsp_factor w)
                 else simple_breit_wigner (CVar (sigma_of k)) (CVar (resonance_mass r)) (CVar (resonance_width r)) in
       let e1 := if bw_decay_form_factor w
                 then CMul e0 (CFormFactor (CSqr (CVar (sigma_of k))) (CVar (outer_mass a)) (CVar (outer_mass b)) (orbital j) (CVar resonance_radius))
                 else e0 in
       de_expr x = if bw_production_form_factor w then CMul e1 fp else e1).
  Proof.
    intros Hc. unfold bw_call.
    assert (decay_node_r c = Ok node) as -> by (destruct Hc as [->| ->]; reflexivity).
    cbn [bind]. rewrite mandelstam_ok. cbn [bind].
    destruct base_ok as (e & -> & B1 & B2). destruct decay_ff_ok as [D1 D2]. destruct (production_ff_ok c Hc) as [P1 P2].
    unfold needs_decay_ls, needs_production_ls, bw_parameters.
    split.
    - intros H.
      assert (Jd : j = None \/ j <> None) by (clear; destruct j; [right; discriminate|auto]).
      destruct (bw_energy_dependent_width w) eqn:W1.
      + destruct Jd as [Ej|Ej]; [rewrite (B1 eq_refl Ej); reflexivity|].
        destruct B2 as (x & -> & _); [auto|]. cbn [bind].
        destruct (D2 Ej) as (y & Dy & _). rewrite Dy.
        destruct H as [[_ H]|[H Ei]]; [contradiction|]. rewrite H, (P1 Ei).
        destruct (bw_decay_form_factor w); reflexivity.
      + destruct B2 as (x & -> & _); [discriminate|]. cbn [bind orb] in *.
        destruct (bw_decay_form_factor w) eqn:W2.
        * destruct Jd as [Ej|Ej]; [rewrite (D1 Ej); reflexivity|].
          destruct (D2 Ej) as (y & Dy & _). rewrite Dy. cbn [bind].
          destruct H as [[_ H]|[H Ei]]; [contradiction|]. rewrite H, (P1 Ei). reflexivity.
        * destruct H as [[H _]|[H Ei]]; [discriminate|]. rewrite H, (P1 Ei). reflexivity.
    - intros Hj Hi.
      destruct B2 as (x & -> & Ex & Px); [intros H; apply Hj; rewrite H; reflexivity|]. cbn [bind].
      assert (FP : exists fp, production_expr fp c).
      { unfold production_expr. destruct Hc as [H|H]; eexists; [left|right]; eauto. }
      destruct FP as [fp0 FP0].
      assert (Dec : exists y, (if bw_decay_form_factor w then let* f := create_form_factor node in Ok (de_mul x (MulDef f)) else Ok x) = Ok y /\
        de_expr y = (if bw_decay_form_factor w
                 then CMul (de_expr x) (CFormFactor (CSqr (CVar (sigma_of k))) (CVar (outer_mass a)) (CVar (outer_mass b)) (orbital j) (CVar resonance_radius))
                 else de_expr x) /\
        entries (de_params y) (kv ([(resonance_mass r, p_mass r); (resonance_width r, p_width r); (resonance_radius, Spin.Qc_of_Z 1)]
          ++ (if bw_decay_form_factor w then [(outer_mass a, p_mass a); (outer_mass b, p_mass b)] else [])))).
      { destruct (bw_decay_form_factor w) eqn:W2.
        - destruct D2 as (y & -> & Ey & Py).
          { intros H. apply Hj; auto. rewrite orb_true_r. reflexivity. }
          cbn [bind]. eexists. split; [reflexivity|]. cbn [de_mul de_expr de_params]. split; [rewrite Ey; reflexivity|].
          eapply entries_ext; [|eapply entries_update; [|exact Px|exact Py]].
          + intros z. cbn [kv map app In fst snd]. tauto.
          + fun_tac.
        - exists x. split; [reflexivity|]. split; [reflexivity|]. rewrite app_nil_r. auto. }
      destruct Dec as (y & -> & Ey & Py). cbn [bind].
      destruct (bw_production_form_factor w) eqn:W3.
      + destruct P2 as (z & -> & Ez & Pz); [auto|]. cbn [bind]. exists (de_mul y (MulDef z)), (de_expr z).
        split; [reflexivity|]. split; [|split; [auto|]].
        * cbn [de_mul de_params]. eapply entries_ext; [|eapply entries_update; [|exact Py|exact Pz]].
          -- intros q. destruct (bw_decay_form_factor w); cbn [kv map app In fst snd]; tauto.
          -- destruct (bw_decay_form_factor w); fun_tac.
        * cbn [de_mul de_expr]. rewrite Ey, Ex. reflexivity.
      + exists y, fp0. split; [reflexivity|]. split; [|split; [auto|]].
        * rewrite app_nil_r. auto.
        * rewrite Ey, Ex. reflexivity.
  Qed.
End Builder.

(** *** C36 *)
Lemma c36_total w c p0 r a b k i j : isobar_chain c p0 r a b k i j ->
  ((needs_decay_ls w = true -> j <> None) /\ (needs_production_ls w = true -> i <> None)
   -> exists e, bw_call w c = Ok e) /\
  ((needs_decay_ls w = true /\ j = None) \/ (needs_production_ls w = true /\ i = None)
   -> bw_call w c = Err ValueError).
Proof.
  intros (Hc & I0 & P). destruct (bw_call_spec w p0 r a b k i j I0 P c Hc) as [A B]. split; auto.
  intros [H1 H2]. destruct (B H1 H2) as (x & _ & E & _). eauto.
Qed.
Lemma bw_ok_inv w c p0 r a b k i j e : isobar_chain c p0 r a b k i j -> bw_call w c = Ok e ->
  (needs_decay_ls w = true -> j <> None) /\ (needs_production_ls w = true -> i <> None).
Proof.
  intros H E. destruct (c36_total w c p0 r a b k i j H) as [_ N].
  split; intros Hn ->; rewrite N in E; try discriminate; auto.
Qed.
Lemma c36_defaults w c p0 r a b k i j e : isobar_chain c p0 r a b k i j -> bw_call w c = Ok e ->
  forall key v, dget key (de_params e) = Some v <->
    exists x q, key = KSym x /\ v = real_val q /\ In (x, q) (bw_parameters w p0 r a b k).
Proof.
  intros H E. destruct (bw_ok_inv _ _ _ _ _ _ _ _ _ _ H E) as [H1 H2]. destruct H as (Hc & I0 & P).
  destruct (bw_call_spec w p0 r a b k i j I0 P c Hc) as [_ B]. destruct (B H1 H2) as (x & _ & E' & [_ En] & _).
  rewrite E in E'. inversion E'; subst x. intros key v. rewrite En. unfold kv. rewrite in_map_iff. split.
  - intros ([s q] & Eq & I). cbn [fst snd] in Eq. inversion Eq. eauto.
  - intros (s & q & -> & -> & I). exists (s, q). auto.
Qed.
Lemma c36_symbols w c p0 r a b k i j e : closed_phsp (bw_phsp_factor w) ->
  isobar_chain c p0 r a b k i j -> bw_call w c = Ok e ->
  lineshape (de_expr e) = true /\
  forall x, In x (symbols_of (de_expr e)) ->
    x = sigma_of k \/ (exists s, In s [p0; a; b; k] /\ x = outer_mass s) \/
    exists v, dget (KSym x) (de_params e) = Some v.
Proof.
  intros Ph H E. pose proof (c36_defaults w c p0 r a b k i j e H E) as Df.
  destruct (bw_ok_inv _ _ _ _ _ _ _ _ _ _ H E) as [H1 H2]. destruct H as (Hc & I0 & P).
  destruct (bw_call_spec w p0 r a b k i j I0 P c Hc) as [_ B]. destruct (B H1 H2) as (x & fp & E' & _ & Hp & Ex).
  rewrite E in E'. inversion E'; subst x. cbv zeta in Ex. rewrite Ex.
  assert (Par : forall x, In x (map fst (bw_parameters w p0 r a b k)) -> exists v, dget (KSym x) (de_params e) = Some v).
  { intros x Hx. apply in_map_iff in Hx. destruct Hx as ([y q] & <- & I). exists (real_val q). apply Df. eauto. }
  destruct (Ph (CVar (sigma_of k)) (CVar (outer_mass a)) (CVar (outer_mass b))) as [S1 L1].
  destruct (Ph (CSqr (CVar (resonance_mass r))) (CVar (outer_mass a)) (CVar (outer_mass b))) as [S2 L2].
  assert (Q0 : forall s, lineshape (CVar (outer_mass s)) = true) by reflexivity.
  assert (BW : forall e0, e0 = (if bw_energy_dependent_width w then bw_expr r a b (sigma_of k) (orbital j) (bw_phsp_factor w)
                 else simple_breit_wigner (CVar (sigma_of k)) (CVar (resonance_mass r)) (CVar (resonance_width r))) ->
     lineshape e0 = true /\ forall x, In x (symbols_of e0) -> x = sigma_of k \/ x = outer_mass a \/ x = outer_mass b \/
       In x [resonance_mass r; resonance_width r; resonance_radius]).
  { intros e0 ->. destruct (bw_energy_dependent_width w).
    - unfold bw_expr, relativistic_breit_wigner, energy_dependent_width. split.
      + cbn [lineshape]. rewrite L1, L2 by reflexivity. reflexivity.
      + intros x. cbn [symbols_of app]. cbn [symbols_of] in S1, S2.
        repeat (rewrite ?in_app_iff; cbn [In]).
        specialize (S1 x). specialize (S2 x). cbn [In] in S1, S2. intuition (subst; auto 10).
    - split; [reflexivity|]. unfold simple_breit_wigner. intros x. cbn. intuition. }
  destruct (BW _ eq_refl) as [BL BS]. clear BW. set (e0 := if bw_energy_dependent_width w then _ else _) in *. clearbody e0.
  assert (FL : lineshape fp = true /\ forall x, In x (symbols_of fp) ->
     In x [outer_mass p0; outer_mass k; resonance_mass r; parent_radius p0]).
  { destruct Hp as [[_ ->]|[_ ->]]; (split; [reflexivity|]); intros x; cbn; intuition. }
  destruct FL as [FL FS].
  assert (G0 : forall x, In x (symbols_of e0) -> x = sigma_of k \/ (exists s, In s [p0; a; b; k] /\ x = outer_mass s) \/
    exists v, dget (KSym x) (de_params e) = Some v).
  { intros x Hx. destruct (BS x Hx) as [Y|[Y|[Y|Y]]].
    - auto.
    - right; left. exists a. cbn; auto.
    - right; left. exists b. cbn; auto.
    - right; right. apply Par. unfold bw_parameters. cbn [app map fst]. cbn in *. tauto. }
  split.
  - destruct (bw_decay_form_factor w), (bw_production_form_factor w); cbn [lineshape]; rewrite ?BL, ?FL; reflexivity.
  - intros x Hx.
    assert (Hx' : In x (symbols_of e0) \/ x = sigma_of k \/ x = outer_mass a \/ x = outer_mass b \/ x = resonance_radius \/
      (bw_production_form_factor w = true /\ In x (symbols_of fp))).
    { destruct (bw_decay_form_factor w), (bw_production_form_factor w); cbn [symbols_of app] in Hx;
      repeat (rewrite ?in_app_iff in Hx; cbn [In] in Hx); intuition. }
    destruct Hx' as [Y|[Y|[Y|[Y|[Y|[Y1 Y2]]]]]]; auto.
    + right; left. exists a. cbn; auto.
    + right; left. exists b. cbn; auto.
    + right; right. apply Par. unfold bw_parameters. rewrite Y. cbn. auto.
    + specialize (FS x Y2). cbn [In] in FS. destruct FS as [F|[F|[F|[F|[]]]]]; subst x.
      * right; left. exists p0. cbn; auto.
      * right; left. exists k. cbn; auto 10.
      * right; right. apply Par. cbn; auto.
      * right; right. apply Par. unfold bw_parameters. rewrite Y1. rewrite !map_app, !in_app_iff. cbn. auto.
Qed.

(** the chains of a decay are isobar chains *)
Lemma std_isobar d s c : std_decay d s -> plain_resonances d -> In c (d_chains d) ->
  (exists a b, match ch_decay_node c with Node _ x y _ => x = Leaf a /\ y = Leaf b | _ => False end) ->
  exists r a b k, isobar_chain c (s 0) r a b k (ch_incoming_ls c) (ch_outgoing_ls c) /\ ch_spectator c = k /\
    ch_resonance c = r /\ (forall x, In x [a; b; k] -> In (st_index x) [1; 2; 3] /\ x = s (st_index x)).
Proof.
  intros D Pl Hc (oa & ob & Lf). pose proof (std_valid d s D c Hc) as V.
  pose proof (std_parent d s D c Hc) as Pr. pose proof (fun x => std_chain_state d s D c x Hc) as St.
  destruct (Pl c Hc) as [r0 Er].
  destruct (valid_chain_shape c V) as (t0 & c1 & c2 & i & R & d1 & d2 & j & sp & s1 & s2 & Ec & Sh & E1 & E2 & ND).
  destruct (valid_chain_nodes c V) as (t0' & R' & d1' & d2' & i' & j' & sp' & s1' & s2' & Hc' & _ & _ & Ep & En & Erc & Esp & Edp & Ei & Ej & _).
  assert (Sm : t0' = t0 /\ R' = R /\ d1' = d1 /\ d2' = d2 /\ i' = i /\ j' = j /\ sp' = sp).
  { destruct Hc' as [Hc'|Hc']; rewrite Ec in Hc'; destruct Sh as [[-> ->]|[-> ->]]; inversion Hc'; auto 10. }
  destruct Sm as (-> & -> & -> & -> & -> & -> & ->).
  rewrite En in Lf. destruct Lf as [-> ->]. cbn [to_particle] in E1, E2. subst oa ob.
  rewrite En in Er. cbn [to_particle] in Er. subst R.
  assert (Es : s1' = s1 /\ s2' = s2).
  { clear - Hc' Edp. destruct Hc' as [->| ->]; vm_compute in Edp; inversion Edp; auto. }
  destruct Es as [-> ->].
  rewrite Edp, Esp in St. cbn [fst snd] in St.
  exists r0, s1, s2, sp. split; [|split; [auto|split; [auto|]]].
  - rewrite Ei, Ej. split; [|split].
    + rewrite <- Pr, Ep. exact Hc'.
    + apply (sd_index _ _ D). cbn; auto.
    + inversion ND as [|? ? N0 ND0]; subst. inversion ND0 as [|? ? N1 ND1]; subst. inversion ND1 as [|? ? N2 _]; subst.
      apply NoDup_Permutation_bis; [exact ND0|cbn; lia|].
      intros z Hz. cbn [In] in Hz. destruct Hz as [<-|[<-|[<-|[]]]]; apply St; cbn; auto.
  - intros x Hx. apply St. cbn in *. tauto.
Qed.

Lemma c36_entries w c p0 r a b k i j e : isobar_chain c p0 r a b k i j -> bw_call w c = Ok e ->
  forall key v, In (key, v) (de_params e) ->
    exists x q, key = KSym x /\ v = real_val q /\ In (x, q) (bw_parameters w p0 r a b k).
Proof.
  intros H E key v I. apply (c36_defaults _ _ _ _ _ _ _ _ _ _ H E).
  destruct (bw_ok_inv _ _ _ _ _ _ _ _ _ _ H E) as [H1 H2]. destruct H as (Hc & I0 & P).
  destruct (bw_call_spec w p0 r a b k i j I0 P c Hc) as [_ B]. destruct (B H1 H2) as (x & _ & E' & [N _] & _).
  apply In_dget; auto. congruence.
Qed.

Lemma latex_name_inj (p : string) x y : Sym (p ++ x ++ "}")%string ANonneg = Sym (p ++ y ++ "}")%string ANonneg -> x = y.
Proof.
  intros E. apply (f_equal sname) in E. cbn [sname] in E.
  induction p as [|z p IH]; cbn [append] in E; [|inversion E; auto].
  clear - E. revert y E. induction x as [|z x IH]; intros [|u y]; cbn; intros E; inversion E; auto.
  - destruct y; discriminate.
  - destruct x; discriminate.
  - f_equal. auto.
Qed.

Lemma c36_model b s dyn ref cl uc m : std_decay (b_decay b) s -> two_body_resonances (b_decay b) ->
  dynamics_of b dyn -> breit_wigner_dynamics (b_decay b) dyn -> formulate b ref cl uc = Ok m ->
  (forall x, occurs_in_amplitudes m (OVar x) -> (exists v, dget (KSym x) (m_params m) = Some v) \/ mandelstam x) /\
  (latex_determines (b_decay b) -> forall c v, In c (d_chains (b_decay b)) ->
     (dget (KSym (resonance_mass (ch_resonance c))) (m_params m) = Some v -> v = real_val (p_mass (ch_resonance c))) /\
     (dget (KSym (resonance_width (ch_resonance c))) (m_params m) = Some v -> v = real_val (p_width (ch_resonance c)))) /\
  (forall v, dget (KSym resonance_radius) (m_params m) = Some v \/ dget (KSym (parent_radius (s 0))) (m_params m) = Some v ->
     v = one_val).
Proof.
  intros D Tb Dyn Bw F.
  assert (Iso : forall c, In c (d_chains (b_decay b)) -> exists r x y k, isobar_chain c (s 0) r x y k (ch_incoming_ls c) (ch_outgoing_ls c) /\
    ch_spectator c = k /\ ch_resonance c = r /\ (forall z, In z [x; y; k] -> In (st_index z) [1; 2; 3] /\ z = s (st_index z))).
  { intros c Hc. apply (std_isobar _ _ _ D); auto.
    - intros c' Hc'. destruct (Tb c' Hc') as (r & x & y & j & ->). cbn. eauto.
    - destruct (Tb c Hc) as (r & x & y & j & ->). eauto. }
  assert (Ent : forall c key v, In c (d_chains (b_decay b)) -> In (key, v) (de_params (dyn c)) ->
    exists w x y k, In x [1;2;3] /\ In y [1;2;3] /\ In k [1;2;3] /\
      exists z q, key = KSym z /\ v = real_val q /\ In (z, q) (bw_parameters w (s 0) (ch_resonance c) (s x) (s y) (s k))).
  { intros c key v Hc I. destruct (Bw c Hc) as [E|(w & _ & E)]; [rewrite E in I; destruct I|].
    destruct (Iso c Hc) as (r & x & y & k & Is & _ & Er & St).
    destruct (c36_entries _ _ _ _ _ _ _ _ _ _ Is E _ _ I) as (z & q & Ek & Ev & Iq).
    destruct (St x) as [X1 X2]; [cbn; auto|]. destruct (St y) as [Y1 Y2]; [cbn; auto|]. destruct (St k) as [K1 K2]; [cbn; auto|].
    exists w, (st_index x), (st_index y), (st_index k). rewrite <- X2, <- Y2, <- K2, Er. repeat (split; auto). eauto. }
  destruct (c64 b s dyn ref cl uc m D Dyn) as (_ & _ & _ & Par); [|exact F|].
  { intros c y Hc Hy. apply in_map_iff in Hy. destruct Hy as ([key v] & <- & I).
    destruct (Ent c _ _ Hc I) as (_ & _ & _ & _ & _ & _ & _ & z & q & -> & _). cbn. eauto. }
  assert (Om : forall i, In i [0; 1; 2; 3] -> outer_mass (s i) = Sym ("m" ++ str_of_Z i)%string ANonneg).
  { intros i Hi. unfold outer_mass. rewrite (sd_index _ _ D i Hi). reflexivity. }
  split; [|split].
  - apply (proj1 (proj2 (proj2 (c23 b s dyn ref cl uc m D Dyn F)))).
    intros c x Hc Hx. destruct (Bw c Hc) as [E|(w & Ph & E)]; [rewrite E in Hx; destruct Hx|].
    destruct (Iso c Hc) as (r & y & z & k & Is & _ & Er & St).
    destruct (c36_symbols _ _ _ _ _ _ _ _ _ _ Ph Is E) as [_ Sy].
    destruct (Sy x Hx) as [->|[(q & Hq & ->)|Hd]].
    + right; right. destruct (St k) as [K _]; [cbn; auto|]. unfold sigma_of, mandelstam.
      apply In_123 in K. destruct K as [->|[->| ->]]; cbn; auto.
    + right; left. assert (Q : In (st_index q) [0; 1; 2; 3]).
      { destruct Hq as [<-|Hq]; [rewrite (sd_index _ _ D) by (cbn; auto); cbn; auto|].
        destruct (St q Hq) as [Q _]. cbn in *; tauto. }
      unfold outer_mass, mass_symbol. apply In_0123 in Q. destruct Q as [->|[->|[->| ->]]]; cbn; auto.
    + left. apply dget_In. exact Hd.
  - intros Lx c v Hc.
    assert (Not : forall i p (x : string), In i [0;1;2;3] -> p = "m_{" \/ p = "\Gamma_{" -> Sym (p ++ x)%string ANonneg <> outer_mass (s i)).
    { intros i p x Hi Hp E. rewrite (Om i Hi) in E. apply (f_equal sname) in E. cbn [sname] in E.
      apply In_0123 in Hi. destruct Hp as [-> | ->], Hi as [->|[->|[->| ->]]]; discriminate. }
    split; intros G; apply Par in G; destruct G as [G|(c' & Hc' & G)].
    + unfold mass_symbol, resonance_mass in G. cbn in G. destruct G as [G|[G|[G|[G|[]]]]]; discriminate.
    + destruct (Ent c' _ _ Hc' G) as (w & x & y & k & Hx & Hy & Hk & z & q & Ez & -> & I). injection Ez as Ez. f_equal.
      unfold bw_parameters in I. rewrite !in_app_iff in I. cbn [In] in I.
      destruct I as [[I|[I|[I|[]]]]|[I|I]].
      * injection I as E1 E2. rewrite <- E2. rewrite <- Ez in E1. unfold resonance_mass in E1. rewrite (Lx c c'); auto.
        symmetry. apply (latex_name_inj "m_{"); auto.
      * exfalso. injection I as E1 E2. rewrite <- Ez in E1. discriminate E1.
      * exfalso. injection I as E1 E2. rewrite <- Ez in E1. discriminate E1.
      * exfalso. destruct (bw_decay_form_factor w); [|destruct I]. cbn [In] in I.
        destruct I as [I|[I|[]]]; injection I as E1 E2; rewrite <- Ez in E1; symmetry in E1; revert E1; apply (Not _ "m_{"); auto; cbn in *; tauto.
      * exfalso. destruct (bw_production_form_factor w); [|destruct I]. cbn [In] in I.
        destruct I as [I|[I|[I|[]]]]; injection I as E1 E2; rewrite <- Ez in E1; symmetry in E1; [discriminate E1| |];
          revert E1; apply (Not _ "m_{"); auto; cbn in *; tauto.
    + unfold mass_symbol, resonance_width in G. cbn in G. destruct G as [G|[G|[G|[G|[]]]]]; discriminate.
    + destruct (Ent c' _ _ Hc' G) as (w & x & y & k & Hx & Hy & Hk & z & q & Ez & -> & I). injection Ez as Ez. f_equal.
      unfold bw_parameters in I. rewrite !in_app_iff in I. cbn [In] in I.
      destruct I as [[I|[I|[I|[]]]]|[I|I]].
      * exfalso. injection I as E1 E2. rewrite <- Ez in E1. discriminate E1.
      * injection I as E1 E2. rewrite <- E2. rewrite <- Ez in E1. unfold resonance_width in E1. rewrite (Lx c c'); auto.
        symmetry. apply (latex_name_inj "\Gamma_{"); auto.
      * exfalso. injection I as E1 E2. rewrite <- Ez in E1. discriminate E1.
      * exfalso. destruct (bw_decay_form_factor w); [|destruct I]. cbn [In] in I.
        destruct I as [I|[I|[]]]; injection I as E1 E2; rewrite <- Ez in E1; symmetry in E1; revert E1; apply (Not _ "\Gamma_{"); auto; cbn in *; tauto.
      * exfalso. destruct (bw_production_form_factor w); [|destruct I]. cbn [In] in I.
        destruct I as [I|[I|[I|[]]]]; injection I as E1 E2; rewrite <- Ez in E1; symmetry in E1; [discriminate E1| |];
          revert E1; apply (Not _ "\Gamma_{"); auto; cbn in *; tauto.
  - assert (Rad : forall n v, n = resonance_radius \/ n = parent_radius (s 0) -> dget (KSym n) (m_params m) = Some v -> v = one_val).
    { intros n v Hn G. apply Par in G. destruct G as [G|(c' & Hc' & G)].
      - exfalso. unfold mass_symbol in G. cbn in G. destruct Hn as [-> | ->], G as [G|[G|[G|[G|[]]]]]; discriminate.
      - destruct (Ent c' _ _ Hc' G) as (w & x & y & k & Hx & Hy & Hk & z & q & Ez & -> & I). injection Ez as Ez.
        unfold one_val. f_equal. unfold bw_parameters in I. rewrite !in_app_iff in I. cbn [In] in I.
        destruct I as [[I|[I|[I|[]]]]|[I|I]].
        + exfalso. injection I as E1 E2. rewrite <- Ez in E1. destruct Hn as [-> | ->]; discriminate.
        + exfalso. injection I as E1 E2. rewrite <- Ez in E1. destruct Hn as [-> | ->]; discriminate.
        + inversion I. reflexivity.
        + exfalso. destruct (bw_decay_form_factor w); [|destruct I]. cbn [In] in I.
          destruct I as [I|[I|[]]]; injection I as E1 E2; rewrite <- Ez in E1; destruct Hn as [-> | ->]; discriminate.
        + destruct (bw_production_form_factor w); [|destruct I]. cbn [In] in I.
          destruct I as [I|[I|[I|[]]]]; injection I as E1 E2; [congruence| |];
            exfalso; rewrite <- Ez in E1; destruct Hn as [-> | ->]; discriminate. }
    intros v [G|G]; [apply (Rad resonance_radius)|apply (Rad (parent_radius (s 0)))]; auto.
Qed.
