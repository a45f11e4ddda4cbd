(** Models with any choice of LS and helicity couplings for production and decay are the same family of models. *)
From Coq Require Import String ZArith QArith Qcanon Qreals List Bool Reals Lia Lra Permutation Sorted.
From Coquelicot Require Import Complex.
From Verif Require Import Prelude Spin Decay Expr Angles Sums Wigner CG CExpr SpecKin SpecDPD Builder
  SpinFacts DecayFacts AnglesFacts WignerFacts CExprFacts BuilderFacts ModelFacts RefFacts CGFacts LSBasis SpecLS LSProofs
  SpecBasis SpecBases ChainProofs BasisProofs.
Import ListNotations.
Local Open Scope string_scope.
Local Open Scope Z_scope.
Local Open Scope list_scope.

Definition PFo (ph : bool) (c : chain) (p : option ls_coupling) (r lk : Z) : R :=
  if ph then 1%R else match p with Some p => PF c p r lk | None => 0%R end.
Definition DFo (dh : bool) (c : chain) (q : option ls_coupling) (li lj : Z) : R :=
  if dh then 1%R else match q with Some q => DF c q li lj | None => 0%R end.

Lemma with_choice_facts c p q : valid_chain c ->
  ch_resonance (with_choice p q c) = ch_resonance c /\ ch_spectator (with_choice p q c) = ch_spectator c /\
  ch_parent (with_choice p q c) = ch_parent c /\ ch_decay_products (with_choice p q c) = ch_decay_products c /\
  resonance_first (with_choice p q c) = resonance_first c /\
  (forall x, p = Some x -> ch_incoming_ls (with_choice p q c) = p) /\
  (forall x, q = Some x -> ch_outgoing_ls (with_choice p q c) = q).
Proof.
  intros V. destruct (valid_chain_nodes c V) as (s0 & R & d1 & d2 & i & j & sp & s1 & s2 & [->| ->] & _);
    repeat split; intros x ->; reflexivity.
Qed.
Lemma choice_cases hel cs p : In p (choices hel cs) -> (hel = true /\ p = None) \/ (hel = false /\ exists x, In x cs /\ p = Some x).
Proof.
  unfold choices. destruct hel.
  - intros [<-|[]]. left. auto.
  - intros H. apply in_map_iff in H. destruct H as (x & <- & I). right. split; [reflexivity|]. exists x. auto.
Qed.
Lemma choice_prod ph c p q cs r lk : valid_chain c -> In p (choices ph cs) ->
  prod_factor ph (with_choice p q c) r lk = PFo ph c p r lk /\
  coupling_index ph (ch_incoming_ls (with_choice p q c)) r lk = coupling_index ph p r lk.
Proof.
  intros V I. destruct (with_choice_facts c p q V) as (A & B & C & _ & D & E & _).
  destruct (choice_cases _ _ _ I) as [[-> ->]|[-> (x & _ & ->)]]; [split; reflexivity|].
  rewrite (E x eq_refl). split; [|reflexivity]. unfold prod_factor, PFo, PF. rewrite (E x eq_refl), D, A, B, C. reflexivity.
Qed.

Section Vertices.
  Variables (d : decay) (s : Z -> state).
  Hypothesis D : std_decay d s.
  Variables (i j k : Z).
  Hypothesis Cy : cyclic i j k.
  Variable c : chain.
  Hypothesis Ic : In c (d_chains d).
  Hypothesis Ek : ch_spectator c = s k.
  Lemma choice_dec dh p q cs lam : In q (choices dh cs) ->
    dec_factor dh (with_choice p q c) lam = DFo dh c q (lam i) (lam j) /\
    forall l1 l2, coupling_index dh (ch_outgoing_ls (with_choice p q c)) l1 l2 = coupling_index dh q l1 l2.
  Proof.
    intros I. destruct (with_choice_facts c p q (std_valid d s D c Ic)) as (A & _ & _ & B & _ & _ & E).
    destruct (choice_cases _ _ _ I) as [[-> ->]|[-> (x & _ & ->)]]; [split; reflexivity|].
    rewrite (E x eq_refl). split; [|reflexivity].
    destruct (cyclic_in _ _ _ Cy) as (Hi & Hj & _).
    unfold dec_factor, DFo, DF. rewrite (E x eq_refl), A, B.
    destruct (products_order d s D i j k Cy c Ic Ek) as [[-> ->]|[-> ->]];
      rewrite (idx d s D i Hi), (idx d s D j Hj); reflexivity.
  Qed.
End Vertices.

Lemma names_differ ph dh : String.eqb (decay_name dh) (production_name ph) = false.
Proof. destruct dh, ph; reflexivity. Qed.

Section Basis.
  Variables (ph dh : bool) (d d' : decay) (s : Z -> state) (ps qs : chain -> list ls_coupling).
  Hypothesis D : std_decay d s.
  Hypothesis D' : std_decay d' s.
  Hypothesis Cs : forall c, In c (d_chains d') ->
    (ph = false -> all_couplings c (ps c)) /\ (dh = false -> all_couplings (ch_decay_node c) (qs c)).
  Notation cp c := (choices ph (ps c)).
  Notation cd c := (choices dh (qs c)).
  Hypothesis Pm : Permutation (d_chains d)
      (flat_map (fun c => flat_map (fun p => map (fun q => with_choice p q c) (cd c)) (cp c)) (d_chains d')).
  Notation lab c := (p_latex (ch_resonance c)).

  Lemma choice_In x : In x (d_chains d) <-> exists c p q, In c (d_chains d') /\ In p (cp c) /\ In q (cd c) /\ x = with_choice p q c.
  Proof.
    transitivity (In x (flat_map (fun c => flat_map (fun p => map (fun q => with_choice p q c) (cd c)) (cp c)) (d_chains d'))).
    { split; intros I; (eapply Permutation_in; [|exact I]); [exact Pm|apply Permutation_sym; exact Pm]. }
    rewrite in_flat_map. split.
    - intros (c & I & X). apply in_flat_map in X. destruct X as (p & Ip & X). apply in_map_iff in X. destruct X as (q & <- & Iq).
      exists c, p, q. auto.
    - intros (c & p & q & I & Ip & Iq & ->). exists c. split; [exact I|]. apply in_flat_map. exists p. split; [exact Ip|].
      apply in_map_iff. exists q. auto.
  Qed.
  Lemma choices_nonempty hel t cs : (hel = false -> all_couplings t cs) -> exists p, In p (choices hel cs).
  Proof.
    intros H. destruct hel; [exists None; left; reflexivity|]. destruct (all_couplings_nonempty t cs (H eq_refl)) as [p I].
    exists (Some p). apply in_map. exact I.
  Qed.
  Lemma choice_ids k : In k (get_subsystem_ids d) <-> In k (get_subsystem_ids d').
  Proof.
    rewrite !get_subsystem_ids_In. split.
    - intros (x & I & E). apply choice_In in I. destruct I as (c & p & q & I & _ & _ & ->).
      exists c. split; [exact I|]. destruct (with_choice_facts c p q (std_valid d' s D' c I)) as (_ & B & _). rewrite <- B. exact E.
    - intros (c & I & E). destruct (Cs c I) as [A B].
      destruct (choices_nonempty _ _ _ A) as [p Ip]. destruct (choices_nonempty _ _ _ B) as [q Iq].
      exists (with_choice p q c). split; [apply choice_In; exists c, p, q; auto|].
      destruct (with_choice_facts c p q (std_valid d' s D' c I)) as (_ & X & _). rewrite X. exact E.
  Qed.

  (** The helicity couplings [cpl'] are those of the couplings [cpl]. *)
  Definition related (cpl cpl' : string -> list ival -> C) : Prop := forall c i j k, In c (d_chains d') ->
    ch_spectator c = s k -> cyclic i j k ->
    (forall r lk, In r (helicities (p_spin (ch_resonance c))) -> In lk (helicities (p_spin (s k))) -> Z.abs (r - lk) <= p_spin (s 0) ->
       cpl' (production_name true) [IStr (lab c); IHel r; IHel lk]
       = Csum (cp c) (fun p => cpl (production_name ph) (IStr (lab c) :: coupling_index ph p r lk) * RtoC (PFo ph c p r lk))%C) /\
    (forall li lj, In li (helicities (p_spin (s i))) -> In lj (helicities (p_spin (s j))) -> Z.abs (li - lj) <= p_spin (ch_resonance c) ->
       cpl' (decay_name true) [IStr (lab c); IHel li; IHel lj]
       = Csum (cd c) (fun q => cpl (decay_name dh) (IStr (lab c) :: coupling_index dh q li lj) * RtoC (DFo dh c q li lj))%C).

  Variables X X' : chain -> C.
  Hypothesis HX : forall c p q, In c (d_chains d') -> In p (cp c) -> In q (cd c) -> X (with_choice p q c) = X' c.

  Lemma amplitude_related sym cpl cpl' theta l i j k : related cpl cpl' -> cyclic i j k -> helicity_tuple s l ->
    dpd_amplitude ph dh s (d_chains d)
      (fun c r => coupling_product (Env sym cpl) ph dh c r (at4 l k) (at4 l i) (at4 l j)) X theta (at4 l) i j k
    = dpd_amplitude true true s (d_chains d')
      (fun c r => coupling_product (Env sym cpl') true true c r (at4 l k) (at4 l i) (at4 l j)) X' theta (at4 l) i j k.
  Proof.
    intros Rel Cy Hl. unfold dpd_amplitude. rewrite !Csum_filter, (Csum_perm _ _ _ Pm), Csum_flat_map.
    apply Csum_ext. intros c Ic. rewrite Csum_flat_map. pose proof (std_valid d' s D' c Ic) as V.
    assert (Hn : forall n, In n [0; 1; 2; 3] -> In (at4 l n) (helicities (p_spin (s n)))).
    { intros n Hn. destruct l as [[[l0 l1] l2] l3]. destruct Hl as (H0 & H1 & H2 & H3). apply In_0123 in Hn.
      destruct Hn as [->|[->|[->| ->]]]; cbn [at4]; assumption. }
    destruct (cyclic_in _ _ _ Cy) as (Hi & Hj & Hk).
    destruct (Z.eqb_spec (st_index (ch_spectator c)) k) as [E|E].
    2:{ apply Csum_zero. intros p Ip. rewrite Csum_map. apply Csum_zero. intros q Iq.
        destruct (with_choice_facts c p q V) as (_ & B & _). rewrite B.
        destruct (Z.eqb_spec (st_index (ch_spectator c)) k); [contradiction|reflexivity]. }
    assert (Ek : ch_spectator c = s k).
    { destruct (subsystem_chains d' s D' k c) as (_ & Y & _); [|exact Y]. apply filter_In. split; [exact Ic|]. apply Z.eqb_eq. exact E. }
    set (K := fun r => (RtoC (parity_sign (p_spin (s k) - at4 l k) * parity_sign (p_spin (s j) - at4 l j)) * X' c
         * RtoC (wigner_d (p_spin (ch_resonance c)) r (at4 l i - at4 l j) theta))%C).
    set (A := fun p r => (cpl (production_name ph) (IStr (lab c) :: coupling_index ph p r (at4 l k)) * RtoC (PFo ph c p r (at4 l k)))%C).
    set (B := fun q => (cpl (decay_name dh) (IStr (lab c) :: coupling_index dh q (at4 l i) (at4 l j)) * RtoC (DFo dh c q (at4 l i) (at4 l j)))%C).
    transitivity (Csum (cp c) (fun p => Csum (cd c) (fun q => Csum (helicities (p_spin (ch_resonance c))) (fun r =>
      if at4 l 0 =? r - at4 l k then (K r * A p r * B q)%C else RtoC 0)))).
    - apply Csum_ext. intros p Ip. rewrite Csum_map. apply Csum_ext. intros q Iq.
      destruct (with_choice_facts c p q V) as (W1 & W2 & _). rewrite W2, W1.
      destruct (Z.eqb_spec (st_index (ch_spectator c)) k) as [_|]; [|contradiction].
      apply Csum_ext. intros r Hr. destruct (_ =? _); [|reflexivity].
      destruct (choice_prod ph c p q (ps c) r (at4 l k) V Ip) as [F1 F2].
      destruct (choice_dec d' s D' i j k Cy c Ic Ek dh p q (qs c) (at4 l) Iq) as [F3 F4].
      rewrite F1, F3. rewrite (HX c p q Ic Ip Iq).
      unfold coupling_product. rewrite W1, F2, F4. unfold K, A, B. cbn [e_idx]. rewrite !RtoC_mult. ring.
    - rewrite (Csum_ext _ _ (fun p => Csum (helicities (p_spin (ch_resonance c))) (fun r => Csum (cd c) (fun q => 
        if at4 l 0 =? r - at4 l k then (K r * A p r * B q)%C else RtoC 0))))
        by (intros p _; apply Csum_swap).
      rewrite Csum_swap. apply Csum_ext. intros r Hr. 
      destruct (Z.eqb_spec (at4 l 0) (r - at4 l k)) as [H0|H0].
      2:{ apply Csum_zero. intros p _. apply Csum_zero. reflexivity. }
      transitivity (K r * Csum (cp c) (fun p => A p r) * Csum (cd c) B)%C.
      { transitivity (Csum (cp c) (fun p => (K r * A p r) * Csum (cd c) B))%C.
        - apply Csum_ext. intros p _. apply Csum_scal_l.
        - rewrite Csum_scal_r, Csum_scal_l. reflexivity. }
      destruct (Rel c i j k Ic Ek Cy) as [RP RD].
      assert (H0' : Z.abs (r - at4 l k) <= p_spin (s 0)).
      { rewrite <- H0. pose proof (Hn 0 ltac:(simpl; auto)) as Y.
        rewrite helicities_range, <- is_projection_In, is_projection_spec in Y. lia. }
      unfold A. rewrite <- (RP r (at4 l k) Hr (Hn k (or_intror Hk)) H0').
      unfold coupling_product. cbn [prod_factor dec_factor coupling_index e_idx]. rewrite Rmult_1_l, Cmult_1_r.
      destruct (Z.leb_spec (Z.abs (at4 l i - at4 l j)) (p_spin (ch_resonance c))) as [L|L].
      + unfold B. rewrite <- (RD (at4 l i) (at4 l j) (Hn i (or_intror Hi)) (Hn j (or_intror Hj)) L). unfold K. ring.
      + unfold K. rewrite wigner_d_out_r; [ring|].
        destruct (is_projection (p_spin (ch_resonance c)) (at4 l i - at4 l j)) eqn:Y; [|reflexivity].
        apply is_projection_spec in Y. lia.
  Qed.

  (** *** Related couplings exist *)
  Hypothesis Labels : NoDup (map (fun c => lab c) (d_chains d')).
  Notation chain_of := (BasisProofs.chain_of d').
  Definition to_hel (cpl : string -> list ival -> C) (name : string) (ix : list ival) : C :=
    match ix with
    | [IStr n; IHel x; IHel y] =>
        match chain_of n with
        | Some c =>
            if String.eqb name (production_name true)
            then Csum (cp c) (fun p => cpl (production_name ph) (IStr n :: coupling_index ph p x y) * RtoC (PFo ph c p x y))%C
            else Csum (cd c) (fun q => cpl (decay_name dh) (IStr n :: coupling_index dh q x y) * RtoC (DFo dh c q x y))%C
        | None => RtoC 0
        end
    | _ => RtoC 0
    end.
  Lemma to_hel_related cpl : related cpl (to_hel cpl).
  Proof.
    intros c i j k Ic Ek Cy. split; intros; unfold to_hel; rewrite (chain_of_lab d' Labels c Ic).
    - rewrite String.eqb_refl. reflexivity.
    - change (String.eqb (decay_name true) (production_name true)) with false. reflexivity.
  Qed.
  Definition to_basis (cpl' : string -> list ival -> C) (name : string) (ix : list ival) : C :=
    match ix with
    | [IStr n; IHel x; IHel y] =>
        match chain_of n with
        | Some c =>
            if String.eqb name (production_name ph) then
              if ph then cpl' (production_name true) ix
              else prod_coef c (fun r lk => cpl' (production_name true) [IStr n; IHel r; IHel lk]) (LS (x / 2) y)
            else if dh then cpl' (decay_name true) ix
              else dec_coef c (fun li lj => cpl' (decay_name true) [IStr n; IHel li; IHel lj]) (LS (x / 2) y)
        | None => RtoC 0
        end
    | _ => RtoC 0
    end.
  Lemma to_basis_related cpl' : related (to_basis cpl') cpl'.
  Proof.
    clear HX X X' Pm. intros c i j k Ic Ek Cy. destruct (Cs c Ic) as [CP CD].
    split; intros a b Ha Hb B.
    - destruct ph eqn:Eph.
      + cbn [choices Csum PFo coupling_index]. unfold to_basis. rewrite (chain_of_lab d' Labels c Ic), Eph, String.eqb_refl. ring.
      + unfold choices. rewrite Csum_map. cbn [coupling_index PFo].
        rewrite (prod_expand d' s D' k c Ic Ek (fun r lk => cpl' (production_name true) [IStr (lab c); IHel r; IHel lk]) (ps c) a b (CP eq_refl) Ha Hb B).
        apply Csum_ext. intros p _. unfold to_basis. rewrite (chain_of_lab d' Labels c Ic), Eph, String.eqb_refl, half_2. destruct p; reflexivity.
    - pose proof (names_differ ph dh) as ND. destruct dh eqn:Edh.
      + cbn [choices Csum DFo coupling_index]. unfold to_basis. rewrite (chain_of_lab d' Labels c Ic), Edh, ND. ring.
      + unfold choices. rewrite Csum_map. cbn [coupling_index DFo].
        rewrite (dec_expand d' s D' i j k Cy c Ic Ek (fun li lj => cpl' (decay_name true) [IStr (lab c); IHel li; IHel lj]) (qs c) a b (CD eq_refl) Ha Hb B).
        apply Csum_ext. intros p _. unfold to_basis. rewrite (chain_of_lab d' Labels c Ic), Edh, ND, half_2. destruct p; reflexivity.
  Qed.
End Basis.

Section Models.
  Variables (b b' : builder) (s : Z -> state) (dyn dyn' : chain -> defexpr).
  Variables (ref : option Z) (cl : bool) (m : model) (ref' : option Z) (cl' : bool) (m' : model) (r : Z).
  Hypothesis D : std_decay (b_decay b) s.
  Hypothesis D' : std_decay (b_decay b') s.
  Hypothesis Y : dynamics_of b dyn.
  Hypothesis Y' : dynamics_of b' dyn'.
  Hypothesis P : b_prod_helicity b = false -> plain_resonances (b_decay b).
  Hypothesis E3 : b_prod_helicity b' = true.
  Hypothesis E4 : b_dec_helicity b' = true.
  Hypothesis Eall : b_all_subsystems b = b_all_subsystems b'.
  Hypothesis F : formulate b ref cl false = Ok m.
  Hypothesis F' : formulate b' ref' cl' false = Ok m'.
  Hypothesis Rf : resolve_reference (b_decay b) ref = Ok r.
  Hypothesis Rf' : resolve_reference (b_decay b') ref' = Ok r.
  Hypothesis Ex : basis_expansion (b_prod_helicity b) (b_dec_helicity b) (b_decay b) (b_decay b').
  Hypothesis Labels : NoDup (map (fun c => p_latex (ch_resonance c)) (d_chains (b_decay b'))).
  Hypothesis HX : forall c p q, In c (d_chains (b_decay b')) -> In (with_choice p q c) (d_chains (b_decay b)) ->
    de_expr (dyn (with_choice p q c)) = de_expr (dyn' c).

  Lemma c120 :
    (forall x, dget x (m_variables m) = dget x (m_variables m')) /\
    (forall cpl, exists cpl', forall base,
       full_value (Env base cpl) m = full_value (Env base cpl') m' /\
       forall k l, In k [1; 2; 3] -> helicity_tuple s l -> amp_value (Env base cpl) m k l = amp_value (Env base cpl') m' k l) /\
    (forall cpl', exists cpl, forall base,
       full_value (Env base cpl) m = full_value (Env base cpl') m' /\
       forall k l, In k [1; 2; 3] -> helicity_tuple s l -> amp_value (Env base cpl) m k l = amp_value (Env base cpl') m' k l).
  Proof.
    destruct Ex as (ps & qs & Cs & Pm).
    set (ph := b_prod_helicity b) in *. set (dh := b_dec_helicity b) in *.
    pose proof (choice_ids ph dh (b_decay b) (b_decay b') s ps qs D' Cs Pm) as Ids.
    assert (P' : b_prod_helicity b' = false -> plain_resonances (b_decay b')) by (rewrite E3; discriminate).
    assert (A : forall cpl cpl' base, related ph dh (b_decay b') s ps qs cpl cpl' -> forall k l, In k [1; 2; 3] -> helicity_tuple s l ->
      amp_value (Env base cpl) m k l = amp_value (Env base cpl') m' k l).
    { intros cpl cpl' base Rel k l Hk Hl. destruct (cyclic_ex k Hk) as (i & j & Cy).
      rewrite (amplitude_total b s dyn ref cl false m D Y P F l i j k (Env base cpl) Hl Cy).
      rewrite (amplitude_total b' s dyn' ref' cl' false m' D' Y' P' F' l i j k (Env base cpl') Hl Cy).
      rewrite E3, E4. cbv iota.
      refine (amplitude_related ph dh (b_decay b) (b_decay b') s ps qs D' Pm _ _ _ base cpl cpl' _ l i j k Rel Cy Hl).
      intros c p q Ic Ip Iq.
      assert (I : In (with_choice p q c) (d_chains (b_decay b))).
      { apply (choice_In ph dh (b_decay b) (b_decay b') ps qs Pm). exists c, p, q. auto. }
      rewrite (HX c p q Ic I). apply lineshape_env; [|reflexivity]. apply (Y' c Ic). }
    assert (T : forall cpl cpl', related ph dh (b_decay b') s ps qs cpl cpl' -> forall base,
       full_value (Env base cpl) m = full_value (Env base cpl') m' /\
       forall k l, In k [1; 2; 3] -> helicity_tuple s l -> amp_value (Env base cpl) m k l = amp_value (Env base cpl') m' k l).
    { intros cpl cpl' Rel base. split; [|apply A; exact Rel].
      exact (intensity_sub b b' s dyn' false false ref ref' cl cl' m m' r D D' Y' P' F F' Rf Rf' (fun k => proj2 (Ids k))
        (Env base cpl) (Env base cpl') (fun x => eq_refl) (A cpl cpl' base Rel)). }
    split; [|split].
    - intros x. destruct (dget x (m_variables m')) as [e|] eqn:G.
      + exact (sub_variables b b' s dyn dyn' false false ref ref' cl cl' m m' r D D' Y Y' P P' F F' Rf Rf' (fun k => proj2 (Ids k)) x e (eq_sym Eall) G).
      + destruct (dget x (m_variables m)) as [e|] eqn:G'; [|reflexivity].
        pose proof (sub_variables b' b s dyn' dyn false false ref' ref cl' cl m' m r D' D Y' Y P' P F' F Rf' Rf (fun k => proj1 (Ids k)) x e Eall G') as Z.
        congruence.
    - intros cpl. exists (to_hel ph dh (b_decay b') ps qs cpl). apply T. apply to_hel_related. exact Labels.
    - intros cpl'. exists (to_basis ph dh (b_decay b') cpl'). apply T. apply to_basis_related; assumption.
  Qed.
End Models.

(** Two models in any bases *)
Section Two.
  Variables (b1 b2 b' : builder) (s : Z -> state) (dyn1 dyn2 dyn' : chain -> defexpr).
  Variables (ref1 ref2 ref' : option Z) (cl1 cl2 cl' : bool) (m1 m2 m' : model) (r : Z).
  Hypothesis D1 : std_decay (b_decay b1) s.
  Hypothesis D2 : std_decay (b_decay b2) s.
  Hypothesis D' : std_decay (b_decay b') s.
  Hypothesis Y1 : dynamics_of b1 dyn1.
  Hypothesis Y2 : dynamics_of b2 dyn2.
  Hypothesis Y' : dynamics_of b' dyn'.
  Hypothesis P1 : b_prod_helicity b1 = false -> plain_resonances (b_decay b1).
  Hypothesis P2 : b_prod_helicity b2 = false -> plain_resonances (b_decay b2).
  Hypothesis E3 : b_prod_helicity b' = true.
  Hypothesis E4 : b_dec_helicity b' = true.
  Hypothesis Eall1 : b_all_subsystems b1 = b_all_subsystems b'.
  Hypothesis Eall2 : b_all_subsystems b2 = b_all_subsystems b'.
  Hypothesis F1 : formulate b1 ref1 cl1 false = Ok m1.
  Hypothesis F2 : formulate b2 ref2 cl2 false = Ok m2.
  Hypothesis F' : formulate b' ref' cl' false = Ok m'.
  Hypothesis Rf1 : resolve_reference (b_decay b1) ref1 = Ok r.
  Hypothesis Rf2 : resolve_reference (b_decay b2) ref2 = Ok r.
  Hypothesis Rf' : resolve_reference (b_decay b') ref' = Ok r.
  Hypothesis Ex1 : basis_expansion (b_prod_helicity b1) (b_dec_helicity b1) (b_decay b1) (b_decay b').
  Hypothesis Ex2 : basis_expansion (b_prod_helicity b2) (b_dec_helicity b2) (b_decay b2) (b_decay b').
  Hypothesis Labels : NoDup (map (fun c => p_latex (ch_resonance c)) (d_chains (b_decay b'))).
  Hypothesis HX1 : forall c p q, In c (d_chains (b_decay b')) -> In (with_choice p q c) (d_chains (b_decay b1)) ->
    de_expr (dyn1 (with_choice p q c)) = de_expr (dyn' c).
  Hypothesis HX2 : forall c p q, In c (d_chains (b_decay b')) -> In (with_choice p q c) (d_chains (b_decay b2)) ->
    de_expr (dyn2 (with_choice p q c)) = de_expr (dyn' c).
  Lemma c120_two :
    (forall x, dget x (m_variables m1) = dget x (m_variables m2)) /\
    (forall cpl1, exists cpl2, forall base,
       full_value (Env base cpl1) m1 = full_value (Env base cpl2) m2 /\
       forall k l, In k [1; 2; 3] -> helicity_tuple s l -> amp_value (Env base cpl1) m1 k l = amp_value (Env base cpl2) m2 k l).
  Proof.
    destruct (c120 b1 b' s dyn1 dyn' ref1 cl1 m1 ref' cl' m' r D1 D' Y1 Y' P1 E3 E4 Eall1 F1 F' Rf1 Rf' Ex1 Labels HX1) as (V1 & T1 & _).
    destruct (c120 b2 b' s dyn2 dyn' ref2 cl2 m2 ref' cl' m' r D2 D' Y2 Y' P2 E3 E4 Eall2 F2 F' Rf2 Rf' Ex2 Labels HX2) as (V2 & _ & T2).
    split; [intros x; rewrite V1, V2; reflexivity|]. intros cpl1. destruct (T1 cpl1) as (cpl' & H1). destruct (T2 cpl') as (cpl2 & H2).
    exists cpl2. intros base. destruct (H1 base) as [A1 B1], (H2 base) as [A2 B2]. split; [congruence|].
    intros k l Hk Hl. rewrite (B1 k l Hk Hl), (B2 k l Hk Hl). reflexivity.
  Qed.
End Two.
