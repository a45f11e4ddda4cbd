(** The properties of as_markdown_table and aslatex: C60, C76, C77 *)
From Coq Require Import String Ascii ZArith QArith Qcanon List Bool Lia.
From Verif Require Import Prelude Spin Decay IO SpecIO IOProofs IOFloat.
Import ListNotations.
Local Open Scope list_scope.
Local Open Scope string_scope.
Local Open Scope Z_scope.

(** ** Which function is called *)
Lemma mapM_particles l : mapM as_particle (map IPart l) = Ok l.
Proof. induction l as [|o l IH]; [reflexivity|]. cbn [map mapM as_particle bind]. rewrite IH. reflexivity. Qed.
Lemma mapM_chains l : mapM as_chain (map IChain l) = Ok l.
Proof. induction l as [|o l IH]; [reflexivity|]. cbn [map mapM as_chain bind]. rewrite IH. reflexivity. Qed.
Lemma type_of_particles l : l <> [] ->
  exists t, determine_item_type issubclass (Sequence (map type_of (map IPart l))) = Ok t /\ (t = CParticle \/ t = CState).
Proof.
  intros N. destruct (existsb is_state l && forallb is_state l) eqn:E.
  - exists CState. split; [|right; reflexivity]. apply (c61_type issubclass classes). apply andb_true_iff in E. destruct E as [_ E].
    rewrite forallb_forall in E. rewrite map_map. split.
    + destruct l as [|o l]; [contradiction N; reflexivity|]. left. specialize (E o (or_introl eq_refl)). destruct o; [discriminate E|reflexivity].
    + intros u I. apply in_map_iff in I. destruct I as (o & <- & I). specialize (E o I). destruct o; [discriminate E|reflexivity].
  - exists CParticle. split; [|left; reflexivity]. apply (c61_type issubclass classes). rewrite map_map. split.
    + assert (X : forallb is_state l = false).
      { destruct (forallb is_state l) eqn:F; [|reflexivity]. rewrite andb_true_r in E. rewrite <- E.
        destruct l as [|o l]; [contradiction N; reflexivity|]. cbn in F |- *. apply andb_true_iff in F. destruct F as [-> _]. reflexivity. }
      clear N E. induction l as [|o l IH]; [discriminate X|]. cbn in X. destruct o as [p|s]; [left; reflexivity|].
      right. apply IH. exact X.
    + intros u I. apply in_map_iff in I. destruct I as (o & <- & I). destruct o; reflexivity.
Qed.
Lemma type_of_chains l : l <> [] -> determine_item_type issubclass (Sequence (map type_of (map IChain l))) = Ok CChain.
Proof.
  intros N. apply (c61_type issubclass classes). rewrite map_map. split.
  - destruct l; [contradiction N; reflexivity|left; reflexivity].
  - intros u I. apply in_map_iff in I. destruct I as (c & <- & _). reflexivity.
Qed.
Lemma table_of_particles l : l <> [] -> as_markdown_table (OfSequence (map IPart l)) = resonance_table l.
Proof.
  intros N. destruct (type_of_particles l N) as (t & E & T). unfold as_markdown_table. rewrite E. cbn [bind].
  destruct T as [-> | ->]; cbn; rewrite mapM_particles; reflexivity.
Qed.
Lemma table_of_chains l : l <> [] -> as_markdown_table (OfSequence (map IChain l)) = decay_table l.
Proof.
  intros N. unfold as_markdown_table. rewrite type_of_chains by exact N. cbn. rewrite mapM_chains. reflexivity.
Qed.
Lemma all_particles l : (forall x, In x l -> exists o, x = IPart o) -> exists os, l = map IPart os.
Proof.
  induction l as [|x l IH]; intros P; [exists []; reflexivity|].
  destruct (P x (or_introl eq_refl)) as (o & ->). destruct IH as (os & ->); [intros y I; apply P; right; exact I|].
  exists (o :: os). reflexivity.
Qed.
Lemma all_chains l : (forall x, In x l -> exists c, x = IChain c) -> exists cs, l = map IChain cs.
Proof.
  induction l as [|x l IH]; intros P; [exists []; reflexivity|].
  destruct (P x (or_introl eq_refl)) as (o & ->). destruct IH as (os & ->); [intros y I; apply P; right; exact I|].
  exists (o :: os). reflexivity.
Qed.

(** ** Rows *)
Lemma mapM_total {A B} (f : A -> res B) l : (forall x, In x l -> exists b, f x = Ok b) -> exists bs, mapM f l = Ok bs.
Proof.
  induction l as [|x l IH]; intros P; [exists []; reflexivity|]. cbn [mapM].
  destruct (P x (or_introl eq_refl)) as (b & ->). destruct IH as (bs & ->); [intros y I; apply P; right; exact I|].
  exists (b :: bs). reflexivity.
Qed.
Lemma mapM_nth {A B} (f : A -> res B) l bs i x : mapM f l = Ok bs -> nth_error l i = Some x ->
  exists b, nth_error bs i = Some b /\ f x = Ok b.
Proof.
  revert bs i. induction l as [|y l IH]; intros bs i M N; [destruct i; discriminate N|]. cbn [mapM] in M.
  destruct (f y) as [b|e] eqn:Ey; cbn [bind] in M; [|discriminate M].
  destruct (mapM f l) as [bs'|e]; cbn [bind] in M; [|discriminate M]. injection M as <-.
  destruct i as [|i]; cbn [nth_error] in N |- *.
  - injection N as <-. exists b. split; [reflexivity|exact Ey].
  - apply (IH bs' i eq_refl N).
Qed.
Lemma mapM_len {A B} (f : A -> res B) l bs : mapM f l = Ok bs -> length bs = length l.
Proof.
  revert bs. induction l as [|x l IH]; intros bs E; cbn [mapM] in E; [injection E as <-; reflexivity|].
  destruct (f x) as [b|e]; cbn [bind] in E; [|discriminate E].
  destruct (mapM f l) as [bs'|e]; cbn [bind] in E; [|discriminate E]. injection E as <-. cbn. rewrite (IH bs' eq_refl). reflexivity.
Qed.
Lemma mev_shows q : good_number q -> exists t, mev q = Ok t /\ shows_mev q t.
Proof.
  intros [F B]. destruct (c75_near q F B) as (n & t & E & D & G & _ & U & L). exists t. split; [exact E|].
  exists n. split; [exact D|]. split; [exact G|]. split; assumption.
Qed.
Lemma particle_row_total ri o : good_particle (pobj_particle o) -> exists m w,
  particle_row ri o = Ok ((if ri then [match o with PSt s => str_of_Z (st_index s) | PPart _ => " " end] else [])
    ++ particle_cells (pobj_particle o) (latex_particle false true (pobj_particle o)) m w)%list
  /\ shows_mev (p_mass (pobj_particle o)) m /\ shows_mev (p_width (pobj_particle o)) w.
Proof.
  intros [M W]. destruct (mev_shows _ M) as (m & Em & Sm). destruct (mev_shows _ W) as (w & Ew & Sw).
  exists m, w. unfold particle_row. rewrite Em, Ew. cbn [bind]. split; [|split; assumption]. destruct ri; reflexivity.
Qed.
Lemma resonance_table_total l : (forall o, In o l -> good_particle (pobj_particle o)) -> exists t, resonance_table l = Ok t.
Proof.
  intros P. destruct (mapM_total (particle_row (existsb is_state l)) l) as (rows & M).
  { intros o I. destruct (particle_row_total (existsb is_state l) o (P o I)) as (m & w & E & _). eexists. exact E. }
  unfold resonance_table. eexists. apply add_rows_ok. exists rows. split; [exact M|reflexivity].
Qed.
Lemma chain_row_total c : good_particle (ch_resonance c) -> exists m w,
  chain_row c = Ok (chain_cells c (latex_particle false true (ch_resonance c)) m w ++ L_cell (ch_outgoing_ls c) ++ L_cell (ch_incoming_ls c))%list
  /\ shows_mev (p_mass (ch_resonance c)) m /\ shows_mev (p_width (ch_resonance c)) w.
Proof.
  intros [M W]. destruct (mev_shows _ M) as (m & Em & Sm). destruct (mev_shows _ W) as (w & Ew & Sw).
  exists m, w. unfold chain_row, chain_cells. destruct (ch_decay_products c) as [c1 c2]. rewrite Em, Ew. cbn [bind].
  split; [reflexivity|split; assumption].
Qed.
Lemma decay_table_total l : (forall c, In c l -> good_particle (ch_resonance c)) -> exists t, decay_table l = Ok t.
Proof.
  intros P. destruct (mapM_total chain_row l) as (rows & M).
  { intros c I. destruct (chain_row_total c (P c I)) as (m & w & E & _). eexists. exact E. }
  unfold decay_table. eexists. apply add_rows_ok. exists rows. split; [exact M|reflexivity].
Qed.

(** ** C76: outcomes *)
Theorem c76_particles l : l <> [] -> (forall x, In x l -> exists o, x = IPart o /\ good_particle (pobj_particle o)) ->
  exists t, as_markdown_table (OfSequence l) = Ok t.
Proof.
  intros N P. destruct (all_particles l) as (os & ->); [intros x I; destruct (P x I) as (o & -> & _); exists o; reflexivity|].
  rewrite table_of_particles by (destruct os; [contradiction N; reflexivity|discriminate]). apply resonance_table_total.
  intros o I. destruct (P (IPart o) (in_map IPart _ _ I)) as (o' & E & G). injection E as <-. exact G.
Qed.
Theorem c76_chains l : l <> [] -> (forall x, In x l -> exists c, x = IChain c /\ good_particle (ch_resonance c)) ->
  exists t, as_markdown_table (OfSequence l) = Ok t.
Proof.
  intros N P. destruct (all_chains l) as (os & ->); [intros x I; destruct (P x I) as (o & -> & _); exists o; reflexivity|].
  rewrite table_of_chains by (destruct os; [contradiction N; reflexivity|discriminate]). apply decay_table_total.
  intros o I. destruct (P (IChain o) (in_map IChain _ _ I)) as (o' & E & G). injection E as <-. exact G.
Qed.
Theorem c76_decay d : (forall c, In c (d_chains d) -> good_particle (ch_resonance c)) ->
  exists t, as_markdown_table (OfDecay d) = Ok t.
Proof. intros P. apply decay_table_total. exact P. Qed.
Theorem c76_only l t : as_markdown_table (OfSequence l) = Ok t ->
  l <> [] /\ ((forall x, In x l -> exists o, x = IPart o) \/ (forall x, In x l -> exists c, x = IChain c)).
Proof.
  intros E. unfold as_markdown_table in E.
  destruct (determine_item_type issubclass (Sequence (map type_of l))) as [c|e] eqn:D; cbn [bind] in E; [|discriminate E].
  apply (c61_type issubclass classes) in D. destruct D as [I G]. split; [intros ->; destruct I|].
  assert (X : forall x, In x l -> issubclass (type_of x) c = true) by (intros x J; apply G; apply in_map; exact J).
  destruct c; cbn in E.
  - left. intros x J. specialize (X x J). destruct x as [o|y|p]; [exists o; reflexivity|discriminate X|discriminate X].
  - left. intros x J. specialize (X x J). destruct x as [o|y|p]; [exists o; reflexivity|discriminate X|discriminate X].
  - right. intros x J. specialize (X x J). destruct x as [[p|s]|y|p]; [discriminate X|discriminate X|exists y; reflexivity|discriminate X].
  - discriminate E.
Qed.
Theorem c76_empty : as_markdown_table (OfSequence []) = Err ValueError.
Proof. reflexivity. Qed.
Theorem c76_single x : as_markdown_table (Single x) =
  Err (match x with IOther _ => NotImplementedErr | _ => TypeError end).
Proof. destruct x as [[p|s]|c|p]; reflexivity. Qed.

Lemma no_common_type l : ~ (exists t, In t (map type_of l) /\ forall u, In u (map type_of l) -> issubclass u t = true) ->
  as_markdown_table (OfSequence l) = Err ValueError.
Proof.
  intros N. unfold as_markdown_table. rewrite (proj2 (c61_error issubclass classes (map type_of l) ValueError) (conj eq_refl N)). reflexivity.
Qed.
Theorem c76_mixed l x y : In x l -> In y l -> different_kinds x y -> as_markdown_table (OfSequence l) = Err ValueError.
Proof.
  intros X Y K. apply no_common_type. intros (t & _ & G). pose proof (G _ (in_map type_of _ _ X)) as Gx. pose proof (G _ (in_map type_of _ _ Y)) as Gy.
  destruct x as [[?|?]|?|?], y as [[?|?]|?|?], t; cbn in K, Gx, Gy; try contradiction; discriminate.
Qed.
Theorem c76_other l : l <> [] -> (forall x, In x l -> exists p, x = IOther p) ->
  (common_class l -> as_markdown_table (OfSequence l) = Err NotImplementedErr) /\
  (~ common_class l -> as_markdown_table (OfSequence l) = Err ValueError).
Proof.
  intros NE O. split.
  - intros (p & I & G). unfold as_markdown_table.
    rewrite (proj2 (c61_type issubclass classes (map type_of l) (COther p))); [reflexivity|]. split; [exact (in_map type_of _ _ I)|].
    intros u U. apply in_map_iff in U. destruct U as (x & <- & X). destruct (O x X) as (q & ->). exact (G q X).
  - intros N. apply no_common_type. intros (t & I & G). apply N. apply in_map_iff in I. destruct I as (x & <- & X). destruct (O x X) as (p & ->).
    exists p. split; [exact X|]. intros q Q. exact (G _ (in_map type_of _ _ Q)).
Qed.

(** ** C76: the rows *)
Theorem c76_particle_rows l t : as_markdown_table (OfSequence (map IPart l)) = Ok t ->
  (forall o, In o l -> good_particle (pobj_particle o) /\ particle_texts o) ->
  length (table_cells t) = (2 + length l)%nat /\
  forall i o, nth_error l i = Some o -> exists index m w,
    nth_error (table_cells t) (2 + i) = Some (index ++ particle_cells (pobj_particle o) (latex_particle false true (pobj_particle o)) m w)%list /\
    shows_mev (p_mass (pobj_particle o)) m /\ shows_mev (p_width (pobj_particle o)) w /\
    index = (if existsb is_state l then [match o with PSt s => str_of_Z (st_index s) | PPart _ => " " end] else []).
Proof.
  intros E P. assert (N : l <> []) by (intros ->; discriminate E).
  rewrite table_of_particles in E by exact N.
  destruct (resonance_table_cells l t E) as (rows & M & T & _); [intros o I; apply (P o I)|].
  rewrite T. split.
  - cbn [length]. rewrite (mapM_len _ _ _ M). reflexivity.
  - intros i o I. destruct (mapM_nth _ _ _ i o M I) as (row & Er & Eo). cbn [nth_error Nat.add].
    destruct (particle_row_total (existsb is_state l) o) as (m & w & R & Sm & Sw); [apply (P o), (nth_error_In _ _ I)|].
    eexists _, m, w. split; [|split; [exact Sm|split; [exact Sw|reflexivity]]]. rewrite Er. congruence.
Qed.
Theorem c76_chain_rows l t : decay_table l = Ok t ->
  (forall c, In c l -> good_particle (ch_resonance c) /\ chain_texts c) ->
  length (table_cells t) = (2 + length l)%nat /\
  forall i c, nth_error l i = Some c -> exists m w,
    nth_error (table_cells t) (2 + i) = Some (chain_cells c (latex_particle false true (ch_resonance c)) m w ++ L_cell (ch_outgoing_ls c) ++ L_cell (ch_incoming_ls c))%list /\
    shows_mev (p_mass (ch_resonance c)) m /\ shows_mev (p_width (ch_resonance c)) w.
Proof.
  intros E P. destruct (decay_table_cells l t E) as (rows & M & T & _); [intros o I; apply (P o I)|].
  rewrite T. split.
  - cbn [length]. rewrite (mapM_len _ _ _ M). reflexivity.
  - intros i o I. destruct (mapM_nth _ _ _ i o M I) as (row & Er & Eo). cbn [nth_error Nat.add].
    destruct (chain_row_total o) as (m & w & R & Sm & Sw); [apply (P o), (nth_error_In _ _ I)|].
    exists m, w. split; [|split; [exact Sm|exact Sw]]. rewrite Er. congruence.
Qed.

(** ** C60 *)
Theorem c60_particles l t : as_markdown_table (OfSequence (map IPart l)) = Ok t ->
  (forall o, In o l -> particle_texts o) -> rectangular t.
Proof.
  intros E P. assert (N : l <> []) by (intros ->; discriminate E).
  rewrite table_of_particles in E by exact N.
  destruct (resonance_table_cells l t E P) as (rows & _ & T & L). unfold rectangular. rewrite T. cbn [hd].
  intros r [<-|[<-|I]]; [reflexivity|apply map_length|apply L; exact I].
Qed.
Theorem c60_decay_table l t : decay_table l = Ok t -> (forall c, In c l -> chain_texts c) ->
  (rectangular t <-> forall c c', In c l -> In c' l ->
     (ch_outgoing_ls c = None <-> ch_outgoing_ls c' = None) /\ (ch_incoming_ls c = None <-> ch_incoming_ls c' = None)).
Proof.
  intros E P. destruct (decay_table_cells l t E P) as (rows & M & T & L). unfold rectangular. rewrite T. cbn [hd].
  assert (H : length (chain_header (any_dec l) (any_prod l)) = (4 + (if any_dec l then 1 else 0) + (if any_prod l then 1 else 0))%nat).
  { destruct (any_dec l), (any_prod l); reflexivity. }
  assert (A : forall c, In c l -> is_some (ch_outgoing_ls c) = true -> any_dec l = true).
  { intros c I X. apply existsb_exists. exists c. split; assumption. }
  assert (B : forall c, In c l -> is_some (ch_incoming_ls c) = true -> any_prod l = true).
  { intros c I X. apply existsb_exists. exists c. split; assumption. }
  assert (S : forall (x : option ls_coupling), x = None <-> is_some x = false).
  { intros [x|]; cbn; split; congruence. }
  split.
  - intros R.
    assert (Q : forall c, In c l -> is_some (ch_outgoing_ls c) = any_dec l /\ is_some (ch_incoming_ls c) = any_prod l).
    { intros c I. destruct (In_nth_error _ _ I) as (i & Ei).
      destruct (mapM_nth _ _ _ i c M Ei) as (row & Er & Ec).
      assert (Ir := nth_error_In _ _ Er). assert (R' := R row (or_intror (or_intror Ir))). rewrite H in R'.
      destruct (chain_row_cells c row (P c I) Ec) as (_ & _ & Lr). rewrite Lr in R'.
      specialize (A c I). specialize (B c I).
      destruct (is_some (ch_outgoing_ls c)), (is_some (ch_incoming_ls c)), (any_dec l), (any_prod l);
        try (split; reflexivity); try (specialize (A eq_refl); discriminate A); try (specialize (B eq_refl); discriminate B);
        cbn in R'; discriminate R'. }
    intros c c' I I'. destruct (Q c I) as [Q1 Q2]. destruct (Q c' I') as [Q3 Q4]. rewrite !S. rewrite Q1, Q2, Q3, Q4. tauto.
  - intros U r [<-|[<-|I]]; [reflexivity|apply map_length|].
    destruct (L r I) as (c & Ic & _ & Lr). rewrite Lr, H.
    assert (D : is_some (ch_outgoing_ls c) = any_dec l).
    { destruct (any_dec l) eqn:X.
      - apply existsb_exists in X. destruct X as (c' & I' & X). destruct (U c c' Ic I') as [U1 _]. rewrite !S in U1.
        destruct (is_some (ch_outgoing_ls c)) eqn:Y; [reflexivity|]. rewrite (proj1 U1 eq_refl) in X. discriminate X.
      - destruct (is_some (ch_outgoing_ls c)) eqn:Y; [|reflexivity]. discriminate (A c Ic Y). }
    assert (F : is_some (ch_incoming_ls c) = any_prod l).
    { destruct (any_prod l) eqn:X.
      - apply existsb_exists in X. destruct X as (c' & I' & X). destruct (U c c' Ic I') as [_ U1]. rewrite !S in U1.
        destruct (is_some (ch_incoming_ls c)) eqn:Y; [reflexivity|]. rewrite (proj1 U1 eq_refl) in X. discriminate X.
      - destruct (is_some (ch_incoming_ls c)) eqn:Y; [|reflexivity]. discriminate (B c Ic Y). }
    rewrite D, F. reflexivity.
Qed.
