(** Properties C90, C91: decay nodes and their LaTeX.  Specification vocabulary: SpecNodes.v, SpecIO.v *)
From Coq Require Import String Ascii ZArith QArith Qcanon List Bool.
From Verif Require Import Prelude Spin Decay IO SpecIO IOLatex SpecNodes NodeProofs.
Import ListNotations.
Local Open Scope list_scope.
Local Open Scope string_scope.
Local Open Scope Z_scope.

(** ** C90 *)
(** The words of the LaTeX of a chain: the decay of the resonance stands in parentheses, the decay of
    the initial state does not, and each arrow shows the coupling of its node. *)
Theorem C90_words w o first s0 r s1 s2 s3 i j :
  (forall p, In p [st_particle s0; r; st_particle s1; st_particle s2; st_particle s3] -> one_word (latex_particle w o p)) ->
  exists a b, arrow_text a i /\ arrow_text b j /\
  words (latex_tree w o (plain_chain first s0 r s1 s2 s3 i j)) =
  (if first
   then [latex_particle w o s0; a; "\left(" ++ latex_particle w o r; b; latex_particle w o s1;
         latex_particle w o s2 ++ "\right)"; latex_particle w o s3]
   else [latex_particle w o s0; a; latex_particle w o s3; "\left(" ++ latex_particle w o r; b; latex_particle w o s1;
         latex_particle w o s2 ++ "\right)"]).
Proof. exact (c90_reads w o first s0 r s1 s2 s3 i j). Qed.
Print Assumptions C90_words.
(** It shows the couplings of each node of a decay, however deep *)
Theorem C90_couplings w o t t' : same_decay t t' -> latex_tree w o t = latex_tree w o t' -> t = t'.
Proof. exact (c90_couplings w o t t'). Qed.
Print Assumptions C90_couplings.
(** It shows the particles and the couplings of a chain *)
Theorem C90_chain w o f s0 r s1 s2 s3 i j f' s0' r' s1' s2' s3' i' j' :
  (forall p, In p [st_particle s0; r; st_particle s1; st_particle s2; st_particle s3;
                   st_particle s0'; r'; st_particle s1'; st_particle s2'; st_particle s3'] ->
    one_word (latex_particle w o p) /\ prefix "\left(" (latex_particle w o p) = false) ->
  latex_tree w o (plain_chain f s0 r s1 s2 s3 i j) = latex_tree w o (plain_chain f' s0' r' s1' s2' s3' i' j') ->
  (f = f' /\ i = i' /\ j = j') /\
  latex_particle w o s0 = latex_particle w o s0' /\ latex_particle w o r = latex_particle w o r' /\
  latex_particle w o s1 = latex_particle w o s1' /\ latex_particle w o s2 = latex_particle w o s2' /\
  latex_particle w o s3 = latex_particle w o s3'.
Proof. exact (c90_chain w o f s0 r s1 s2 s3 i j f' s0' r' s1' s2' s3' i' j'). Qed.
Print Assumptions C90_chain.
Example C90_example :
  io_chain1 = plain_chain true s0 io_l s1 s3 s2 (Some (LS 2 3)) (Some (LS 4 1)) /\
  (forall w o p, In p [io_lc; io_l; io_p; io_k; io_pi] ->
    one_word (latex_particle w o p) /\ prefix "\left(" (latex_particle w o p) = false) /\
  latex_tree false false io_chain1 =
    "\Lambda_{c}^{+} \xrightarrow[S=3/2]{L=2} \left(\Lambda(1520) \xrightarrow[S=1/2]{L=4} p K^{-}\right) \pi^{+}" /\
  latex_tree true false io_chain2 =
    "\Lambda_{c}^{+}\left[\frac{1}{2}^+\right] \to \left(\Delta(1232)^{++}\left[\frac{3}{2}^+\right] \to p\left[\frac{1}{2}^+\right] \pi^{+}\left[0^-\right]\right) K^{-}\left[0^-\right]".
Proof.
  split; [reflexivity|]. split; [|split; reflexivity].
  intros w o p I. split.
  - intros X. destruct w, o; repeat (destruct I as [<-|I]; [vm_compute in X; repeat (destruct X as [X|X]; [discriminate X|]); exact X|]); destruct I.
  - destruct w, o; repeat (destruct I as [<-|I]; [reflexivity|]); destruct I.
Qed.

(** ** C91 *)
(** Particles accept exactly the integer and half-integer spins, and keep what they are given *)
Theorem C91_particle name latex q parity mass width :
  (spin_number q -> exists z, halves z = q /\
     mk_particle name latex q parity mass width = Ok (Particle name latex z parity mass width)) /\
  (~ spin_number q -> mk_particle name latex q parity mass width = Err ValueError).
Proof. exact (c91_particle name latex q parity mass width). Qed.
Print Assumptions C91_particle.
(** So do couplings *)
Theorem C91_coupling L q :
  (spin_number q -> exists c, mk_ls L q = Ok c /\ ls_L c = L /\ halves (ls_S c) = q) /\
  (~ spin_number q -> mk_ls L q = Err ValueError).
Proof. exact (c91_coupling L q). Qed.
Print Assumptions C91_coupling.
(** A node accepts exactly None, a coupling, or a pair (L, S) that makes a coupling *)
Theorem C91_node parent c1 c2 a :
  (forall t, mk_node parent c1 c2 a = Ok t <-> exists i, stands_for a i /\ t = Node parent c1 c2 i) /\
  (forall e, mk_node parent c1 c2 a = Err e <->
     (e = TypeError /\ a = ArgOther) \/
     (e = ValueError /\ ((exists n, a = ArgTupleN n) \/ exists L q, a = ArgTuple L q /\ ~ spin_number q))).
Proof. exact (c91_node parent c1 c2 a). Qed.
Print Assumptions C91_node.
Example C91_example :
  spin_number (Q2Qc (3 # 2)) /\ ~ spin_number (Q2Qc (1 # 3)) /\
  mk_node (PSt s0) (Leaf (PSt s1)) (Leaf (PSt s2)) (ArgTuple 2 (Q2Qc (3 # 2))) =
    Ok (Node (PSt s0) (Leaf (PSt s1)) (Leaf (PSt s2)) (Some (LS 2 3))) /\
  mk_node (PSt s0) (Leaf (PSt s1)) (Leaf (PSt s2)) (ArgTuple 2 (Q2Qc (1 # 3))) = Err ValueError /\
  mk_particle "a" "a" (Q2Qc (1 # 3)) None (Q2Qc 1) (Q2Qc 1) = Err ValueError.
Proof.
  split; [exists 3; reflexivity|]. split; [|split; [|split]; reflexivity].
  intros N. apply (proj1 (c91_coupling 0 _)) in N. destruct N as (c & E & _). discriminate E.
Qed.
