(** Serialised and built models of decays with a spinless initial state *)
From Coq Require Import String ZArith QArith Qcanon Qreals List Bool Reals Lia Lra Permutation Sorted.
From Coquelicot Require Import Complex.
From Verif Require Import Prelude Spin Decay Expr Angles Sums Wigner CG CExpr SpecKin SpecDPD SpecBuilder Builder
  SpinFacts DecayFacts BuilderFacts ModelFacts RefFacts BuilderProofs ChainProofs InterferenceFacts
  SerFormat SerDynamics SerAmplitude SpecSerial SerDecay SerModel SerProofs SerTotal SerFormal Dynamics SpecDynamics LineshapeFacts DynamicsProofs LineshapeProofs SerShapes SpecAgree.
From Verif Require CExprFacts CGComplete IdenticalProofs RelabelProofs OccFacts.
Import ListNotations.
Local Open Scope string_scope.
Local Open Scope Z_scope.
Local Open Scope list_scope.

Section Agree.
  Variables (b : builder) (s s' : Z -> state) (dyn : chain -> defexpr) (ref : option Z) (cl cl' uc : bool) (m M : model) (r : Z).
  Variables (md : model_def) (d : distribution) (tl : string -> string) (additional : option (dict string prop_builder))
    (x : chain_def -> content) (w : chain_def -> symbol) (dyn' : chain_def -> defexpr) (term : chain -> Z * Z * Z * Z -> chain_def).
  Hypothesis D : std_decay (b_decay b) s.
  Hypothesis Y : dynamics_of b dyn.
  Hypothesis PR : b_prod_helicity b = false -> plain_resonances (b_decay b).
  Hypothesis F : Builder.formulate b ref cl uc = Ok m.
  Hypothesis R : resolve_reference (b_decay b) ref = Ok r.
  Hypothesis J0 : p_spin (s 0) = 0.
  Hypothesis H : helicity_definition md d s' r tl additional x w dyn'.
  Hypothesis F' : SerAmplitude.formulate md cl' tl additional = Ok M.
  Hypothesis SE : forall i, In i [0; 1; 2; 3] -> p_spin (s' i) = p_spin (s i).
  Hypothesis SC : serial_copy s (d_chains (b_decay b)) d x term.

  Lemma tuples_eq : tuples s' = tuples s.
  Proof. unfold tuples. rewrite (SE 0), (SE 1), (SE 2), (SE 3) by (cbn; auto). reflexivity. Qed.
  Lemma tuple_eq l : helicity_tuple s' l <-> helicity_tuple s l.
  Proof.
    destruct l as [[[a c] e] f]. cbn [helicity_tuple]. rewrite (SE 0), (SE 1), (SE 2), (SE 3) by (cbn; auto). reflexivity.
  Qed.
  Lemma parent_zero l : helicity_tuple s l -> at4 l 0 = 0.
  Proof. destruct l as [[[a c] e] f]. cbn [helicity_tuple at4]. rewrite J0. intros ([X|[]] & _). symmetry. exact X. Qed.

  Lemma allowed_iff c l k : ch_spectator c = s k -> In k [1; 2; 3] ->
    (In l (allowed_helicities s c) <-> helicity_tuple s l /\ In (at4 l k) (helicities (p_spin (ch_resonance c)))).
  Proof.
    intros E Hk. unfold allowed_helicities. rewrite filter_In, tuples_In, E, (SpecDPD.sd_index _ _ D k) by (right; exact Hk).
    rewrite existsb_exists. split; intros [A B]; (split; [exact A|]).
    - destruct B as (y & I & Q). apply Z.eqb_eq in Q. rewrite Q. exact I.
    - exists (at4 l k). split; [exact B|apply Z.eqb_refl].
  Qed.

  Section Values.
    Variable ev : env.
    Hypothesis V : forall c l i j k, In c (d_chains (b_decay b)) -> In l (allowed_helicities s c) -> ch_spectator c = s k -> cyclic i j k ->
      (e_sym ev (w (term c l)) * ceval ev (fun _ => 0) (de_expr (dyn' (term c l)))
       = weight_of uc ev b s c l i j k * ceval ev (fun _ => 0) (de_expr (dyn c)))%C.

    Lemma agree_amplitude k l : In k [1; 2; 3] -> helicity_tuple s l -> amp_value ev M k l = amp_value ev m k l.
    Proof.
      intros Hk Hl. destruct (cyclic_ex k Hk) as (i & j & C). destruct (cyclic_in _ _ _ C) as (Ii & Ij & _).
      rewrite (amplitude_total b s dyn ref cl uc m D Y PR F l i j k ev Hl C).
      rewrite (serial_amplitude_value md d s' r tl additional x w dyn' H cl' M F' ev k l (proj2 (tuple_eq l) Hl) Hk).
      unfold chains_in, dpd_amplitude. rewrite !Csum_filter, (Csum_perm _ _ _ (sc_chains _ _ _ _ _ SC)), Csum_flat_map.
      apply Csum_ext. intros c Hc. rewrite Csum_map.
      assert (I : In (st_index (ch_spectator c)) [1; 2; 3]).
      { apply (ids_range b s D). apply get_subsystem_ids_In. exists c. split; [exact Hc|reflexivity]. }
      set (k0 := st_index (ch_spectator c)) in *.
      assert (Esp : ch_spectator c = s k0).
      { destruct (subsystem_chains _ _ D k0 c) as (_ & Q & _); [|exact Q]. apply filter_In. split; [exact Hc|]. apply Z.eqb_refl. }
      destruct (cyclic_ex k0 I) as (i0 & j0 & C0).
      destruct (Z.eqb_spec k0 k) as [Ek|Nk].
      2:{ apply Csum_zero. intros l' Hl'. rewrite (sc_content _ _ _ _ _ SC c l' i0 j0 k0 Hc Hl' Esp C0). cbn [ct_k].
          destruct (Z.eqb_spec k0 k); [contradiction|reflexivity]. }
      rewrite Ek in Esp.
      assert (Ct : forall l', In l' (allowed_helicities s c) ->
        x (term c l') = Content (p_spin (ch_resonance c)) i j k (at4 l' k) (at4 l' k) (at4 l' i) (at4 l' j) 0 0).
      { intros l' Hl'. apply (sc_content _ _ _ _ _ SC c l' i j k Hc Hl' Esp C). }
      assert (Z0 := parent_zero l Hl).
      assert (Dl : forall l', In l' (allowed_helicities s c) -> l' <> l ->
        ((at4 l k =? at4 l' k) && ((at4 l i =? at4 l' i) && (at4 l j =? at4 l' j)))%bool = false).
      { intros l' Hl' Ne. apply (allowed_iff c l' k Esp Hk) in Hl'. destruct Hl' as [Hl' _].
        pose proof (parent_zero l' Hl') as Z0'. apply not_true_is_false. intros Q. apply Ne.
        rewrite !andb_true_iff, !Z.eqb_eq in Q. destruct Q as (Q1 & Q2 & Q3).
        apply RelabelProofs.at4_ext. intros n Hn. destruct Hn as [<-|Hn]; [congruence|].
        destruct C as [C|[C|[C|[]]]]; apply pair_equal_spec in C; destruct C as [C C3]; apply pair_equal_spec in C; destruct C as [C1 C2];
          subst i j k; destruct Hn as [<-|[<-|[<-|[]]]]; congruence. }
      destruct (in_dec Z.eq_dec (at4 l k) (helicities (p_spin (ch_resonance c)))) as [Ih|Nh].
      - assert (La : In l (allowed_helicities s c)) by (apply (allowed_iff c l k Esp Hk); split; assumption).
        rewrite (Csum_single _ l).
        + rewrite (Csum_single _ (at4 l k)); [|rewrite CExprFacts.helicities_range; apply CGComplete.spin_range2_NoDup|exact Ih|].
          * pose proof (V c l i j k Hc La Esp C) as Vw. unfold chain_contribution. rewrite Ct by exact La.
            unfold serial_term, SpecSerial.coupling_of. cbn [ct_k ct_spin ct_i ct_j ct_r ct_lk ct_li ct_lj ct_fp ct_fd].
            rewrite !Z.eqb_refl, Z0. cbn [andb].
            replace (0 =? at4 l k - at4 l k) with true by (symmetry; apply Z.eqb_eq; lia).
            rewrite !Rmult_0_l, !Rplus_0_r.
            transitivity ((e_sym ev (w (term c l)) * ceval ev (fun _ => 0%Z) (de_expr (dyn' (term c l))))
              * RtoC (wigner_d (p_spin (ch_resonance c)) (at4 l k) (at4 l i - at4 l j) (Re (e_sym ev (theta_name i j)))))%C; [ring|].
            rewrite Vw. unfold weight_of. ring.
          * intros h Hh Nhh. rewrite Z0. destruct (Z.eqb_spec 0 (h - at4 l k)); [exfalso; apply Nhh; lia|reflexivity].
        + apply NoDup_filter, tuples_NoDup.
        + exact La.
        + intros l' Hl' Ne. rewrite Ct by exact Hl'. cbn [ct_k]. rewrite Z.eqb_refl.
          unfold chain_contribution. rewrite Ct by exact Hl'. unfold serial_term, SpecSerial.coupling_of.
          cbn [ct_k ct_spin ct_i ct_j ct_r ct_lk ct_li ct_lj ct_fp ct_fd].
          pose proof (Dl l' Hl' Ne) as Q. rewrite Z.eqb_refl. cbn [andb]. rewrite !Rmult_0_l, !Rplus_0_r.
          destruct (at4 l k =? at4 l' k); [|ring]. cbn [andb] in Q. rewrite Q. ring.
      - rewrite (Csum_zero (helicities _)).
        + apply Csum_zero. intros l' Hl'. rewrite Ct by exact Hl'. cbn [ct_k]. rewrite Z.eqb_refl.
          unfold chain_contribution. rewrite Ct by exact Hl'. unfold serial_term, SpecSerial.coupling_of.
          cbn [ct_k ct_spin ct_i ct_j ct_r ct_lk ct_li ct_lj ct_fp ct_fd].
          assert (Ne : l' <> l). { intros ->. apply Nh. apply (allowed_iff c l k Esp Hk). exact Hl'. }
          pose proof (Dl l' Hl' Ne) as Q. rewrite Z.eqb_refl. cbn [andb]. rewrite !Rmult_0_l, !Rplus_0_r.
          destruct (at4 l k =? at4 l' k); [|ring]. cbn [andb] in Q. rewrite Q. ring.
        + intros h Hh. rewrite Z0. destruct (Z.eqb_spec 0 (h - at4 l k)) as [E|_]; [|reflexivity].
          exfalso. apply Nh. replace (at4 l k) with h by lia. exact Hh.
    Qed.

    Lemma agree_intensity : full_value ev M = full_value ev m.
    Proof.
      rewrite (intensity_all b s dyn ref cl uc m r D Y PR F R ev).
      destruct (serial_intensity_value md d s' r tl additional x w dyn' H cl' M F') as (ks & N & _ & I & E). rewrite E. f_equal.
      assert (Hk : forall k, In k ks -> In k [1; 2; 3]).
      { intros k Hk. apply I in Hk. destruct Hk as (c & Hc & <-).
        destruct (hd_content _ _ _ _ _ _ _ _ _ H c Hc) as (vp & vd & T & _).
        apply (Permutation_in _ (tb_ids _ _ _ _ _ _ _ T)). cbn. auto. }
      assert (Pm : Permutation ks (filter (fun k => if in_dec Z.eq_dec k ks then true else false) [1; 2; 3])).
      { apply NoDup_Permutation; [exact N|apply NoDup_filter; repeat constructor; cbn; intuition discriminate|].
        intros k. rewrite filter_In. destruct (in_dec Z.eq_dec k ks) as [J|J]; split.
        - intros _. split; [apply Hk, J|reflexivity].
        - intros _. exact J.
        - intros K. contradiction.
        - intros [_ K]. discriminate K. }
      unfold intensity_value. rewrite tuples_eq. apply Rsum_ext. intros l Hl. f_equal. f_equal.
      unfold aligned_amplitude. rewrite tuples_eq. apply Csum_ext. intros l' Hl'. apply tuples_In in Hl'.
      rewrite (Csum_perm _ _ _ Pm), Csum_filter. apply Csum_ext. intros k Kk.
      rewrite <- (agree_amplitude k l' Kk Hl').
      destruct (in_dec Z.eq_dec k ks) as [J|J].
      - f_equal. unfold alignment. rewrite (SE 0), (SE 1), (SE 2), (SE 3) by (cbn; auto). reflexivity.
      - rewrite (serial_amplitude_value md d s' r tl additional x w dyn' H cl' M F' ev k l' (proj2 (tuple_eq l') Hl') Kk).
        unfold chains_in. rewrite Csum_filter, Csum_zero; [ring|]. intros c Hc.
        destruct (Z.eqb_spec (ct_k (x c)) k) as [Q|_]; [|reflexivity]. exfalso. apply J. apply I. exists c. split; assumption.
    Qed.
  End Values.

  (** The angles have the same definitions. *)
  Lemma agree_variables y e : (forall c, In c (di_chains d) -> closed_expression (dyn' c)) ->
    dget y (m_variables M) = Some e -> dget y (m_variables m) = Some e.
  Proof.
    intros Cl G.
    assert (Kc : forall c', In c' (di_chains d) -> exists c i j k, In c (d_chains (b_decay b)) /\ ch_spectator c = s k /\ cyclic i j k /\
      ct_i (x c') = i /\ ct_j (x c') = j /\ ct_k (x c') = k /\ In k (get_subsystem_ids (b_decay b))).
    { intros c' Hc'. apply (Permutation_in _ (sc_chains _ _ _ _ _ SC)) in Hc'. apply in_flat_map in Hc'.
      destruct Hc' as (c & Hc & Hc'). apply in_map_iff in Hc'. destruct Hc' as (l & <- & Hl).
      assert (I : In (st_index (ch_spectator c)) (get_subsystem_ids (b_decay b))).
      { apply get_subsystem_ids_In. exists c. split; [exact Hc|reflexivity]. }
      set (k := st_index (ch_spectator c)) in *. destruct (cyclic_ex k (ids_range b s D k I)) as (i & j & C).
      assert (Esp : ch_spectator c = s k).
      { destruct (subsystem_chains _ _ D k c) as (_ & Q & _); [|exact Q]. apply filter_In. split; [exact Hc|]. apply Z.eqb_refl. }
      exists c, i, j, k. rewrite (sc_content _ _ _ _ _ SC c l i j k Hc Hl Esp C). repeat split; assumption. }
    destruct (serial_closed md d s' r tl additional x w dyn' H cl' M F' Cl) as (_ & _ & _ & _ & _ & S).
    destruct (IdenticalProofs.nonempty_in (tuples s)) as [l Hl]; [apply (OccFacts.tuples_nonempty (b_decay b) s D)|]. apply tuples_In in Hl.
    destruct (S y e G) as [(c' & Hc' & E)|(n & k' & c' & Hn & Hc' & -> & Sp & E)].
    - destruct (Kc c' Hc') as (c & i & j & k & Hc & Esp & C & E1 & E2 & E3 & Ik). rewrite E1, E2 in E.
      destruct (amplitude_formula b s D dyn ref cl uc m Y PR F l i j k Hl C (or_intror Ik)) as (_ & (th & T & G') & _).
      rewrite T in E. injection E as <- <-. exact G'.
    - destruct (Kc c' Hc') as (c & i & j & k & Hc & Esp & C & E1 & E2 & E3 & Ik). rewrite E3 in E. rewrite (SE n Hn) in Sp.
      destruct (zeta_variable b s D ref cl uc m r F R n k Hn Ik Sp) as (z & E' & G').
      assert (Q : Ok (y, e) = Ok (zeta_symbol n k r, z)) by congruence.
      injection Q as Q1 Q2. subst e. rewrite Q1. exact G'.
  Qed.
End Agree.

(** The Breit-Wigner functions differ by the product of mass and width. *)
Lemma agree_breit_wigner (c : chain) (p0 : state) (res : particle) (a b k : state) i L S e
  (md : model_def) (p : propagator) (f : func_def) vm vw va vb vd :
  isobar_chain c p0 res a b k i (Some (LS L S)) -> bw_call (BWBuilder true false false phase_space_factor) c = Ok e ->
  pr_node p = [It (st_index a); It (st_index b)] -> function_of md (pr_parametrization p) f ->
  dget "l" (fd_numbers f) = Some (Qc_of_Z L) -> dget "mass" (fd_numbers f) = Some vm -> dget "width" (fd_numbers f) = Some vw ->
  dget "ma" (fd_numbers f) = Some va -> dget "mb" (fd_numbers f) = Some vb -> dget "d" (fd_numbers f) = Some vd ->
  exists e', formulate_breit_wigner p (p_latex res) md = Ok e' /\
    forall ev h, ceval ev h (de_expr e)
      = (e_sym ev (named "m" (p_latex res)) * e_sym ev (named "\Gamma" (p_latex res)) * ceval ev h (de_expr e'))%C.
Proof.
  intros I E N Fn E1 E2 E3 E4 E5 E6.
  destruct (c74_breit_wigner md p (st_index a) (st_index b) (st_index k) (p_latex res) f N (proj2 (proj2 I)) Fn L vm vw va vb vd
    E1 E2 E3 E4 E5 E6) as (e' & F & X & _).
  exists e'. split; [exact F|]. intros ev h.
  rewrite (c36_value (BWBuilder true false false phase_space_factor) c p0 res a b k i (Some (LS L S)) e two_body_phsp ev h
    phase_space_factor_value I E), X.
  unfold chain_lineshape. cbn [bw_energy_dependent_width bw_decay_form_factor bw_production_form_factor orbital].
  rewrite !Cmult_1_r. reflexivity.
Qed.
