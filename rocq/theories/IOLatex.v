(** C77: the J^P text determines spin and parity; examples for the properties of io/__init__.py *)
From Coq Require Import String Ascii ZArith QArith Qcanon List Bool Lia DecimalString DecimalZ.
From Verif Require Import Prelude Spin Decay IO SpecIO IOProofs IOFloat IOTables.
Import ListNotations.
Local Open Scope list_scope.
Local Open Scope string_scope.
Local Open Scope Z_scope.

Lemma number_nonnil z : Z.to_int z <> Decimal.Pos Decimal.Nil /\ Z.to_int z <> Decimal.Neg Decimal.Nil.
Proof.
  assert (E : Decimal.norm (Z.to_int z) = Z.to_int z).
  { rewrite <- DecimalZ.to_of, DecimalZ.of_to. reflexivity. }
  split; intros X; rewrite X in E; discriminate E.
Qed.
Lemma number_inj a b : str_of_Z a = str_of_Z b -> a = b.
Proof.
  unfold str_of_Z. intros E. apply (f_equal NilZero.int_of_string) in E.
  rewrite !NilZero.isi in E by apply number_nonnil.
  rewrite <- (DecimalZ.of_to a), <- (DecimalZ.of_to b). congruence.
Qed.
Lemma characters_inj a b : characters a = characters b -> a = b.
Proof.
  intros E. rewrite <- (string_of_list_ascii_of_string a), <- (string_of_list_ascii_of_string b).
  unfold characters in E. rewrite E. reflexivity.
Qed.
Lemma app_tail a b (c : string) : a ++ c = b ++ c -> a = b.
Proof.
  intros E. apply characters_inj. apply (f_equal characters) in E. rewrite !characters_app in E.
  apply app_inv_tail in E. exact E.
Qed.
Definition spin_text (z : Z) : string := if Z.even z then str_of_Z (z / 2) else "\frac{" ++ str_of_Z z ++ "}{2}".
Lemma number_head z c s : str_of_Z z = String c s -> c <> "\"%char /\ c <> "J"%char.
Proof.
  intros E. assert (I : In c (characters (str_of_Z z))) by (rewrite E; left; reflexivity).
  apply str_of_Z_chars in I. split; intros ->; revert I; cbn; intuition discriminate.
Qed.
Lemma spin_text_inj a b : spin_text a = spin_text b -> a = b.
Proof.
  unfold spin_text. intros E. destruct (Z.even a) eqn:A, (Z.even b) eqn:B.
  - apply number_inj in E. apply Z.even_spec in A, B. destruct A as (x & ->), B as (y & ->).
    rewrite !(Z.mul_comm 2), !Z.div_mul in E by lia. lia.
  - exfalso. exact (proj1 (number_head _ _ _ E) eq_refl).
  - exfalso. symmetry in E. exact (proj1 (number_head _ _ _ E) eq_refl).
  - injection E as E. apply app_tail in E. apply number_inj. exact E.
Qed.
Lemma spin_text_head z : exists c s, spin_text z = String c s /\ c <> "J"%char.
Proof.
  unfold spin_text. destruct (Z.even z).
  - destruct (str_of_Z (z / 2)) as [|c s] eqn:E; [destruct (number_nonempty _ E)|].
    exists c, s. split; [reflexivity|apply (number_head _ _ _ E)].
  - eexists _, _. split; [reflexivity|]. discriminate.
Qed.
Definition parity_text (x : Z) : string := if x <? 0 then "-" else "+".
Lemma jp_text p : latex_particle false true p =
  match p_parity p with None => "J=" ++ spin_text (p_spin p) | Some x => spin_text (p_spin p) ++ "^" ++ parity_text x end.
Proof. reflexivity. Qed.
Theorem c77_injective p q :
  (forall x, p_parity p = Some x -> x = 1 \/ x = -1) -> (forall x, p_parity q = Some x -> x = 1 \/ x = -1) ->
  latex_particle false true p = latex_particle false true q -> p_spin p = p_spin q /\ p_parity p = p_parity q.
Proof.
  intros P Q E. rewrite !jp_text in E. destruct (p_parity p) as [x|] eqn:X, (p_parity q) as [y|] eqn:Y.
  - specialize (P x eq_refl). specialize (Q y eq_refl).
    assert (T : forall z, z = 1 \/ z = -1 -> parity_text z = String (if z <? 0 then "-" else "+") "").
    { intros z [-> | ->]; reflexivity. }
    rewrite (T x P), (T y Q) in E. apply (f_equal characters) in E. rewrite !characters_app in E. cbn [characters list_ascii_of_string app] in E.
    change [("^")%char; if x <? 0 then "-"%char else "+"%char] with ([("^")%char] ++ [if x <? 0 then "-"%char else "+"%char])%list in E.
    change [("^")%char; if y <? 0 then "-"%char else "+"%char] with ([("^")%char] ++ [if y <? 0 then "-"%char else "+"%char])%list in E.
    rewrite !app_assoc in E. apply app_inj_tail in E. destruct E as [E F]. apply app_inj_tail in E. destruct E as [E _].
    apply characters_inj, spin_text_inj in E. split; [exact E|].
    destruct P as [-> | ->], Q as [-> | ->]; try reflexivity; discriminate F.
  - exfalso. destruct (spin_text_head (p_spin p)) as (c & s & H & N). rewrite H in E. injection E as -> _. apply N. reflexivity.
  - exfalso. destruct (spin_text_head (p_spin q)) as (c & s & H & N). rewrite H in E. injection E as <- _. apply N. reflexivity.
  - injection E as E. apply spin_text_inj in E. split; [exact E|reflexivity].
Qed.

(** ** Examples *)
Definition io_float (n : Z) (k : positive) : Qc := Q2Qc (n # k).
Definition io_lc : particle := Particle "Lambda(c)+" "\Lambda_{c}^{+}" 1 (Some 1) (io_float 37 16) (io_float 0 1).
Definition io_p : particle := Particle "p" "p" 1 (Some 1) (io_float 15 16) (io_float 0 1).
Definition io_k : particle := Particle "K-" "K^{-}" 0 (Some (-1)) (io_float 1 2) (io_float 0 1).
Definition io_pi : particle := Particle "pi+" "\pi^{+}" 0 (Some (-1)) (io_float 9 64) (io_float 0 1).
Definition io_l : particle := Particle "L(1520)" "\Lambda(1520)" 3 (Some (-1)) (io_float 97 64) (io_float 1 64).
Definition io_d : particle := Particle "D(1232)++" "\Delta(1232)^{++}" 3 (Some 1) (io_float 79 64) (io_float 7 64).
Definition s0 := State io_lc 0.
Definition s1 := State io_p 1.
Definition s2 := State io_pi 2.
Definition s3 := State io_k 3.
Definition io_chain1 : chain :=
  Node (PSt s0) (Node (PPart io_l) (Leaf (PSt s1)) (Leaf (PSt s3)) (Some (LS 4 1))) (Leaf (PSt s2)) (Some (LS 2 3)).
Definition io_chain2 : chain :=
  Node (PSt s0) (Node (PPart io_d) (Leaf (PSt s1)) (Leaf (PSt s2)) None) (Leaf (PSt s3)) None.
Definition io_decay : decay := Decay [(0, s0); (1, s1); (2, s2); (3, s3)] [io_chain1; io_chain2].
Definition io_decay1 : decay := Decay [(0, s0); (1, s1); (2, s2); (3, s3)] [io_chain1].

Lemma io_valid : valid_decay io_decay /\ valid_decay io_decay1.
Proof. split; (split; [repeat constructor|reflexivity]). Qed.
Lemma io_number n k : In (n, k) [(37, 16%positive); (0, 1%positive); (15, 16%positive); (1, 2%positive); (9, 64%positive);
    (97, 64%positive); (1, 64%positive); (79, 64%positive); (7, 64%positive)] ->
  good_number (io_float n k).
Proof.
  intros I. repeat (destruct I as [E|I]; [injection E as <- <-; split; [|split; vm_compute; discriminate]|]); [..|destruct I];
    [exists 37, (-4)|exists 0, 0|exists 15, (-4)|exists 1, (-1)|exists 9, (-6)|exists 97, (-6)|exists 1, (-6)|exists 79, (-6)|exists 7, (-6)];
    (split; [reflexivity|]; split; [lia|]; vm_compute; reflexivity).
Qed.
Lemma io_good p : In p [io_lc; io_p; io_k; io_pi; io_l; io_d] -> good_particle p.
Proof.
  intros I. repeat (destruct I as [<-|I]; [split; apply io_number; cbn; tauto|]). destruct I.
Qed.
Lemma io_texts c : In c [io_chain1; io_chain2] -> good_particle (ch_resonance c) /\ chain_texts c.
Proof.
  intros [<-|[<-|[]]]; (split; [apply io_good; cbn; tauto|split; [|split]; apply cell_textb_spec; reflexivity]).
Qed.
Theorem c60_refuted : ~ (forall d t, valid_decay d ->
  (forall c, In c (d_chains d) -> good_particle (ch_resonance c) /\ chain_texts c) ->
  as_markdown_table (OfDecay d) = Ok t -> rectangular t).
Proof.
  intros P. destruct (as_markdown_table (OfDecay io_decay)) as [t|e] eqn:E; [|vm_compute in E; discriminate E].
  specialize (P io_decay t (proj1 io_valid) io_texts E).
  rewrite (c60_decay_table _ _ E (fun c I => proj2 (io_texts c I))) in P.
  destruct (P io_chain1 io_chain2) as [[_ Q] _]; [left; reflexivity|right; left; reflexivity|]. discriminate (Q eq_refl).
Qed.
Theorem c60_decay d t : as_markdown_table (OfDecay d) = Ok t -> (forall c, In c (d_chains d) -> chain_texts c) ->
  (rectangular t <-> forall c c', In c (d_chains d) -> In c' (d_chains d) ->
     (ch_outgoing_ls c = None <-> ch_outgoing_ls c' = None) /\ (ch_incoming_ls c = None <-> ch_incoming_ls c' = None)).
Proof. exact (c60_decay_table (d_chains d) t). Qed.
Theorem c60_chains l t : as_markdown_table (OfSequence (map IChain l)) = Ok t -> (forall c, In c l -> chain_texts c) ->
  (rectangular t <-> forall c c', In c l -> In c' l ->
     (ch_outgoing_ls c = None <-> ch_outgoing_ls c' = None) /\ (ch_incoming_ls c = None <-> ch_incoming_ls c' = None)).
Proof.
  intros E. assert (N : l <> []) by (intros ->; discriminate E). rewrite table_of_chains in E by exact N.
  exact (c60_decay_table l t E).
Qed.
Theorem c76_decay_rows d t : as_markdown_table (OfDecay d) = Ok t ->
  (forall c, In c (d_chains d) -> good_particle (ch_resonance c) /\ chain_texts c) ->
  length (table_cells t) = (2 + length (d_chains d))%nat /\
  forall i c, nth_error (d_chains d) i = Some c -> exists m w,
    nth_error (table_cells t) (2 + i) = Some (chain_cells c (latex_particle false true (ch_resonance c)) m w
      ++ L_cell (ch_outgoing_ls c) ++ L_cell (ch_incoming_ls c))%list /\
    shows_mev (p_mass (ch_resonance c)) m /\ shows_mev (p_width (ch_resonance c)) w.
Proof. exact (c76_chain_rows (d_chains d) t). Qed.

Theorem c76_sequence_rows l t : as_markdown_table (OfSequence (map IChain l)) = Ok t ->
  (forall c, In c l -> good_particle (ch_resonance c) /\ chain_texts c) ->
  length (table_cells t) = (2 + length l)%nat /\
  forall i c, nth_error l i = Some c -> exists m w,
    nth_error (table_cells t) (2 + i) = Some (chain_cells c (latex_particle false true (ch_resonance c)) m w
      ++ L_cell (ch_outgoing_ls c) ++ L_cell (ch_incoming_ls c))%list /\
    shows_mev (p_mass (ch_resonance c)) m /\ shows_mev (p_width (ch_resonance c)) w.
Proof.
  intros E. assert (N : l <> []) by (intros ->; discriminate E). rewrite table_of_chains in E by exact N. exact (c76_chain_rows l t E).
Qed.

Theorem c75_table (p : particle) : good_particle p -> particle_texts (PPart p) ->
  exists t m w, as_markdown_table (OfSequence [IPart (PPart p)]) = Ok t /\
    nth_error (table_cells t) 2 = Some (particle_cells p (latex_particle false true p) m w) /\
    shows_mev (p_mass p) m /\ shows_mev (p_width p) w.
Proof.
  intros G T. destruct (c76_particles [IPart (PPart p)]) as (t & E); [discriminate|intros x [<-|[]]; exists (PPart p); split; [reflexivity|exact G]|].
  destruct (c76_particle_rows [PPart p] t E) as [_ R]; [intros o [<-|[]]; split; assumption|].
  destruct (R 0%nat (PPart p) eq_refl) as (ix & m & w & C & M & W & ->). exists t, m, w.
  split; [exact E|]. split; [exact C|]. split; assumption.
Qed.
Definition io_1001 : particle := Particle "x" "x" 0 None f1001 (io_float 0 1).
Theorem c75_table_refuted : ~ (forall p n t, nearest_float (p_mass p) (Q2Qc (n # 1000)) -> 0 <= n <= 1000000 ->
  good_particle p -> particle_texts (PPart p) -> as_markdown_table (OfSequence [IPart (PPart p)]) = Ok t ->
  exists jp m w, nth_error (table_cells t) 2 = Some (particle_cells p jp m w) /\ remove_commas m = str_of_Z n).
Proof.
  intros P. destruct (as_markdown_table (OfSequence [IPart (PPart io_1001)])) as [t|e] eqn:E; [|vm_compute in E; discriminate E].
  destruct (P io_1001 1001 t f1001_nearest) as (jp & m & w & R & M).
  - lia.
  - split; [split; [exact f1001_float|split; vm_compute; discriminate]|apply io_number; cbn; tauto].
  - split; apply cell_textb_spec; reflexivity.
  - exact E.
  - clear P. vm_compute in E. injection E as <-. vm_compute in R. injection R as _ Em _. rewrite <- Em in M. discriminate M.
Qed.
