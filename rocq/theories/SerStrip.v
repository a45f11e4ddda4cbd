(** Blanks around the parity factor of a vertex (proofs for C58) *)
From Coq Require Import String Ascii ZArith List Bool Lia.
From Verif Require Import Prelude SpecSerStrip.
From Verif Require Import SerAmplitude.
Import ListNotations.
Local Open Scope string_scope.

Lemma blank_space c : blank c <-> is_space c = true.
Proof.
  split.
  - intros B. unfold blank in B. cbn [In] in B. repeat (destruct B as [<-|B]; [reflexivity|]). destruct B.
  - unfold blank. destruct c as [[] [] [] [] [] [] [] []]; cbn; intros E; try discriminate E; tauto.
Qed.
Lemma append_assoc (a b c : string) : (a ++ b) ++ c = a ++ (b ++ c).
Proof. induction a as [|x a IH]; [reflexivity|]. cbn. rewrite IH. reflexivity. Qed.
Lemma append_nil (a : string) : a ++ "" = a.
Proof. induction a as [|x a IH]; [reflexivity|]. cbn. rewrite IH. reflexivity. Qed.
Lemma blanks_app a b : blanks a -> blanks b -> blanks (a ++ b).
Proof. intros A B. induction A; [exact B|]. constructor; assumption. Qed.
Lemma lstrip_split t : exists a, blanks a /\ t = a ++ lstrip t.
Proof.
  induction t as [|c t (a & A & E)]; [exists ""; split; [constructor|reflexivity]|]. cbn [lstrip].
  destruct (is_space c) eqn:S; [|exists ""; split; [constructor|reflexivity]].
  exists (String c a). split; [constructor; [apply blank_space; exact S|exact A]|]. cbn. rewrite <- E. reflexivity.
Qed.
Lemma rstrip_split t : exists b, blanks b /\ t = rstrip t ++ b.
Proof.
  induction t as [|c t (b & B & E)]; [exists ""; split; [constructor|reflexivity]|]. cbn [rstrip].
  destruct (rstrip t) as [|c' r] eqn:Q.
  - cbn in E. subst t. destruct (is_space c) eqn:S.
    + exists (String c b). split; [constructor; [apply blank_space; exact S|exact B]|reflexivity].
    + exists b. split; [exact B|reflexivity].
  - exists b. split; [exact B|]. change (String c (String c' r) ++ b) with (String c (String c' r ++ b)). rewrite <- E. reflexivity.
Qed.
Lemma lstrip_blanks a t : blanks a -> lstrip (a ++ t) = lstrip t.
Proof. intros A. induction A as [|c s B A IH]; [reflexivity|]. cbn. apply blank_space in B. rewrite B. exact IH. Qed.
Lemma rstrip_blanks b : blanks b -> rstrip b = "".
Proof. intros A. induction A as [|c s B A IH]; [reflexivity|]. cbn. rewrite IH. apply blank_space in B. rewrite B. reflexivity. Qed.
Lemma strip_padded t : padded (strip t) t.
Proof.
  destruct (lstrip_split t) as (a & A & E). destruct (rstrip_split (lstrip t)) as (b & B & E'). exists a, b. split; [|auto].
  unfold strip. rewrite <- E'. exact E.
Qed.
Lemma padded_strip u t : In u ["+"; "-"; ""] -> padded u t -> strip t = u.
Proof.
  intros I (a & b & -> & A & B). unfold strip. rewrite lstrip_blanks by exact A.
  assert (S1 : is_space "+"%char = false) by reflexivity. assert (S2 : is_space "-"%char = false) by reflexivity.
  destruct I as [<-|[<-|[<-|[]]]]; cbn [append lstrip]; rewrite ?S1, ?S2; cbn [rstrip]; rewrite ?S1, ?S2.
  - rewrite rstrip_blanks by exact B. reflexivity.
  - rewrite rstrip_blanks by exact B. reflexivity.
  - replace (lstrip b) with "". { reflexivity. } rewrite <- (append_nil b), lstrip_blanks by exact B. reflexivity.
Qed.
Lemma padded_factor t : (exists u, In u ["+"; "-"; ""] /\ padded u t) <-> In (strip t) ["+"; "-"; ""].
Proof.
  split; [intros (u & I & P); rewrite (padded_strip u t I P); exact I|]. intros I. exists (strip t). split; [exact I|apply strip_padded].
Qed.
Theorem sign_padded t :
  (forall f, sign_to_value t = Ok f <-> (f = 1%Z /\ padded "+" t) \/ (f = (-1)%Z /\ padded "-" t) \/ (f = 0%Z /\ padded "" t)) /\
  (forall e, sign_to_value t = Err e <-> e = NotImplementedErr /\ ~ padded "+" t /\ ~ padded "-" t /\ ~ padded "" t).
Proof.
  pose proof (strip_padded t) as P.
  assert (N : forall u, In u ["+"; "-"; ""] -> padded u t -> strip t = u) by (intros u; apply padded_strip).
  pose proof (N "+" (or_introl eq_refl)) as N1. pose proof (N "-" (or_intror (or_introl eq_refl))) as N2.
  pose proof (N "" (or_intror (or_intror (or_introl eq_refl)))) as N3. clear N. unfold sign_to_value.
  destruct (eqb (strip t) "-") eqn:E1; [apply (proj1 (Prelude.eqb_eq _ _)) in E1|apply eqb_neq in E1].
  { rewrite E1 in *. split.
    - intros f. split; [intros X; injection X as <-; auto|].
      intros [[_ Q]|[[-> _]|[_ Q]]]; [discriminate (N1 Q)|reflexivity|discriminate (N3 Q)].
    - intros e. split; [discriminate|]. intros (_ & _ & Q & _). contradiction. }
  destruct (eqb (strip t) "") eqn:E2; [apply (proj1 (Prelude.eqb_eq _ _)) in E2|apply eqb_neq in E2].
  { rewrite E2 in *. split.
    - intros f. split; [intros X; injection X as <-; auto|].
      intros [[_ Q]|[[_ Q]|[-> _]]]; [discriminate (N1 Q)|discriminate (N2 Q)|reflexivity].
    - intros e. split; [discriminate|]. intros (_ & _ & _ & Q). contradiction. }
  destruct (eqb (strip t) "+") eqn:E3; [apply (proj1 (Prelude.eqb_eq _ _)) in E3|apply eqb_neq in E3].
  { rewrite E3 in *. split.
    - intros f. split; [intros X; injection X as <-; auto|].
      intros [[-> _]|[[_ Q]|[_ Q]]]; [reflexivity|discriminate (N2 Q)|discriminate (N3 Q)].
    - intros e. split; [discriminate|]. intros (_ & Q & _). contradiction. }
  split.
  - intros f. split; [discriminate|]. intros [[_ Q]|[[_ Q]|[_ Q]]]; exfalso; auto.
  - intros e. split; [|intros [-> _]; reflexivity]. intros X. split; [congruence|]. repeat split; intros Q; auto.
Qed.
