(** Properties C60, C61, C75-C77: io/__init__.py.  Specification vocabulary: SpecIO.v *)
From Coq Require Import String Ascii ZArith QArith Qcanon List Bool.
From Verif Require Import Prelude Spin Decay IO SpecIO IOProofs IOFloat IOTables IOLatex.
Import ListNotations.
Local Open Scope list_scope.
Local Open Scope string_scope.
Local Open Scope Z_scope.

(** ** C60 *)
(** Full statement: every table is rectangular.  It is false for a decay in which only some chains
    have LS couplings; it holds for particles, and for chains exactly if they agree on having them. *)
Theorem C60_decay_refuted :
  ~ (forall d t, valid_decay d ->
  (forall c, In c (d_chains d) -> good_particle (ch_resonance c) /\ chain_texts c) ->
  as_markdown_table (OfDecay d) = Ok t -> rectangular t).
Proof. exact c60_refuted. Qed.
Print Assumptions C60_decay_refuted.

Theorem C60_particles_partial l t :
  as_markdown_table (OfSequence (map IPart l)) = Ok t ->
  (forall o, In o l -> particle_texts o) -> rectangular t.
Proof. exact (c60_particles l t). Qed.
Print Assumptions C60_particles_partial.

Theorem C60_decay_partial d t :
  as_markdown_table (OfDecay d) = Ok t -> (forall c, In c (d_chains d) -> chain_texts c) ->
  (rectangular t <-> forall c c', In c (d_chains d) -> In c' (d_chains d) ->
     (ch_outgoing_ls c = None <-> ch_outgoing_ls c' = None) /\ (ch_incoming_ls c = None <-> ch_incoming_ls c' = None)).
Proof. exact (c60_decay d t). Qed.
Print Assumptions C60_decay_partial.

Theorem C60_chains_partial l t :
  as_markdown_table (OfSequence (map IChain l)) = Ok t -> (forall c, In c l -> chain_texts c) ->
  (rectangular t <-> forall c c', In c l -> In c' l ->
     (ch_outgoing_ls c = None <-> ch_outgoing_ls c' = None) /\ (ch_incoming_ls c = None <-> ch_incoming_ls c' = None)).
Proof. exact (c60_chains l t). Qed.
Print Assumptions C60_chains_partial.
Example C60_example : valid_decay io_decay /\ (forall c, In c (d_chains io_decay) -> good_particle (ch_resonance c) /\ chain_texts c) /\
  (exists t, as_markdown_table (OfDecay io_decay) = Ok t) /\
  (exists t, as_markdown_table (OfSequence (map IPart [PSt s1; PPart io_l])) = Ok t) /\ particle_texts (PSt s1) /\ particle_texts (PPart io_l).
Proof.
  split; [apply io_valid|]. split; [exact io_texts|]. split; [eexists; vm_compute; reflexivity|].
  split; [eexists; vm_compute; reflexivity|]. split; split; apply cell_textb_spec; reflexivity.
Qed.

(** ** C61 *)
Theorem C61_single {C : Type} `{EqDec C} (sub : C -> C -> bool) c :
  determine_item_type sub (NotSequence c) = Ok c.
Proof. exact (c61_single sub c). Qed.
Print Assumptions C61_single.

Theorem C61_type {C : Type} `{EqDec C} (sub : C -> C -> bool) (Hs : hierarchy sub) l t :
  determine_item_type sub (Sequence l) = Ok t <->
  In t l /\ forall u, In u l -> sub u t = true.
Proof. exact (c61_type sub Hs l t). Qed.
Print Assumptions C61_type.

Theorem C61_error {C : Type} `{EqDec C} (sub : C -> C -> bool) (Hs : hierarchy sub) l e :
  determine_item_type sub (Sequence l) = Err e <->
  e = ValueError /\ ~ exists t, In t l /\ forall u, In u l -> sub u t = true.
Proof. exact (c61_error sub Hs l e). Qed.
Print Assumptions C61_error.
Example C61_example : hierarchy issubclass /\
  determine_item_type issubclass (Sequence [CState; CParticle; CState]) = Ok CParticle /\
  determine_item_type issubclass (Sequence [CState; CChain]) = Err ValueError.
Proof. split; [exact classes|]. split; reflexivity. Qed.

(** ** C75 *)
(** Full statement: the mass column shows a mass of n MeV as n.  It is false for 1.001 GeV. *)
Theorem C75_mass_refuted :
  ~ (forall p n t, nearest_float (p_mass p) (Q2Qc (n # 1000)) -> 0 <= n <= 1000000 ->
  good_particle p -> particle_texts (PPart p) -> as_markdown_table (OfSequence [IPart (PPart p)]) = Ok t ->
  exists jp m w, nth_error (table_cells t) 2 = Some (particle_cells p jp m w) /\ remove_commas m = str_of_Z n).
Proof. exact c75_table_refuted. Qed.
Print Assumptions C75_mass_refuted.

Theorem C75_mass_partial (p : particle) :
  good_particle p -> particle_texts (PPart p) ->
  exists t m w, as_markdown_table (OfSequence [IPart (PPart p)]) = Ok t /\
    nth_error (table_cells t) 2 = Some (particle_cells p (latex_particle false true p) m w) /\
    shows_mev (p_mass p) m /\ shows_mev (p_width p) w.
Proof. exact (c75_table p). Qed.
Print Assumptions C75_mass_partial.
Example C75_example : good_particle io_l /\ particle_texts (PPart io_l) /\ nearest_float f1001 (Q2Qc (1001 # 1000)).
Proof.
  split; [apply io_good; cbn; tauto|]. split; [split; apply cell_textb_spec; reflexivity|]. exact f1001_nearest.
Qed.

(** ** C76 *)
Theorem C76_particles l :
  l <> [] -> (forall x, In x l -> exists o, x = IPart o /\ good_particle (pobj_particle o)) ->
  exists t, as_markdown_table (OfSequence l) = Ok t.
Proof. exact (c76_particles l). Qed.
Print Assumptions C76_particles.

Theorem C76_chains l :
  l <> [] -> (forall x, In x l -> exists c, x = IChain c /\ good_particle (ch_resonance c)) ->
  exists t, as_markdown_table (OfSequence l) = Ok t.
Proof. exact (c76_chains l). Qed.
Print Assumptions C76_chains.

Theorem C76_decay d :
  (forall c, In c (d_chains d) -> good_particle (ch_resonance c)) ->
  exists t, as_markdown_table (OfDecay d) = Ok t.
Proof. exact (c76_decay d). Qed.
Print Assumptions C76_decay.

Theorem C76_only l t :
  as_markdown_table (OfSequence l) = Ok t ->
  l <> [] /\ ((forall x, In x l -> exists o, x = IPart o) \/ (forall x, In x l -> exists c, x = IChain c)).
Proof. exact (c76_only l t). Qed.
Print Assumptions C76_only.

Theorem C76_empty :
  as_markdown_table (OfSequence []) = Err ValueError.
Proof. exact c76_empty. Qed.
Print Assumptions C76_empty.

Theorem C76_single x :
  as_markdown_table (Single x) =
  Err (match x with IOther _ => NotImplementedErr | _ => TypeError end).
Proof. exact (c76_single x). Qed.
Print Assumptions C76_single.

Theorem C76_mixed l x y : In x l -> In y l -> different_kinds x y -> as_markdown_table (OfSequence l) = Err ValueError.
Proof. exact (c76_mixed l x y). Qed.
Print Assumptions C76_mixed.

(** Other objects: without a common class among their types they count as mixed. *)
Theorem C76_other l : l <> [] -> (forall x, In x l -> exists p, x = IOther p) ->
  (common_class l -> as_markdown_table (OfSequence l) = Err NotImplementedErr) /\
  (~ common_class l -> as_markdown_table (OfSequence l) = Err ValueError).
Proof. exact (c76_other l). Qed.
Print Assumptions C76_other.

Theorem C76_particle_rows l t :
  as_markdown_table (OfSequence (map IPart l)) = Ok t ->
  (forall o, In o l -> good_particle (pobj_particle o) /\ particle_texts o) ->
  length (table_cells t) = (2 + length l)%nat /\
  forall i o, nth_error l i = Some o -> exists index m w,
    nth_error (table_cells t) (2 + i) = Some (index ++ particle_cells (pobj_particle o) (latex_particle false true (pobj_particle o)) m w)%list /\
    shows_mev (p_mass (pobj_particle o)) m /\ shows_mev (p_width (pobj_particle o)) w /\
    index = (if existsb is_state l then [match o with PSt s => str_of_Z (st_index s) | PPart _ => " " end] else []).
Proof. exact (c76_particle_rows l t). Qed.
Print Assumptions C76_particle_rows.

Theorem C76_decay_rows d t :
  as_markdown_table (OfDecay d) = Ok t ->
  (forall c, In c (d_chains d) -> good_particle (ch_resonance c) /\ chain_texts c) ->
  length (table_cells t) = (2 + length (d_chains d))%nat /\
  forall i c, nth_error (d_chains d) i = Some c -> exists m w,
    nth_error (table_cells t) (2 + i) = Some (chain_cells c (latex_particle false true (ch_resonance c)) m w
      ++ L_cell (ch_outgoing_ls c) ++ L_cell (ch_incoming_ls c))%list /\
    shows_mev (p_mass (ch_resonance c)) m /\ shows_mev (p_width (ch_resonance c)) w.
Proof. exact (c76_decay_rows d t). Qed.
Print Assumptions C76_decay_rows.

Theorem C76_chain_rows l t :
  as_markdown_table (OfSequence (map IChain l)) = Ok t ->
  (forall c, In c l -> good_particle (ch_resonance c) /\ chain_texts c) ->
  length (table_cells t) = (2 + length l)%nat /\
  forall i c, nth_error l i = Some c -> exists m w,
    nth_error (table_cells t) (2 + i) = Some (chain_cells c (latex_particle false true (ch_resonance c)) m w
      ++ L_cell (ch_outgoing_ls c) ++ L_cell (ch_incoming_ls c))%list /\
    shows_mev (p_mass (ch_resonance c)) m /\ shows_mev (p_width (ch_resonance c)) w.
Proof. exact (c76_sequence_rows l t). Qed.
Print Assumptions C76_chain_rows.
Example C76_example : (forall c, In c (d_chains io_decay) -> good_particle (ch_resonance c) /\ chain_texts c) /\
  as_markdown_table (OfSequence [IPart (PSt s1); IChain io_chain1]) = Err ValueError /\
  as_markdown_table (OfSequence [IOther [3; 2]; IOther [2]]) = Err NotImplementedErr.
Proof. split; [exact io_texts|]. split; reflexivity. Qed.

(** ** C77 *)
Theorem C77_jp p q :
  (forall x, p_parity p = Some x -> x = 1 \/ x = -1) -> (forall x, p_parity q = Some x -> x = 1 \/ x = -1) ->
  latex_particle false true p = latex_particle false true q -> p_spin p = p_spin q /\ p_parity p = p_parity q.
Proof. exact (c77_injective p q). Qed.
Print Assumptions C77_jp.
Example C77_example : latex_particle false true io_l = "\frac{3}{2}^-" /\ latex_particle false true io_k = "0^-" /\
  (forall x, p_parity io_l = Some x -> x = 1 \/ x = -1).
Proof. split; [reflexivity|]. split; [reflexivity|]. intros x E. injection E as <-. right. reflexivity. Qed.
