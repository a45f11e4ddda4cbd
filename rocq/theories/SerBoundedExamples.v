(** A serialised decay with a bounded intensity *)
From Coq Require Import String ZArith QArith Qcanon List Bool Reals Lra Permutation.
From Coquelicot Require Import Complex.
From Verif Require Import Prelude Spin Decay Expr SpecKin CExpr Builder AnglesProofs SpecBounded
  SerFormat SerDynamics SpecSerial SerTotal SerWeights SerPoints SerExamples SpecSerPoints SerPointExamples SpecSerFinite SerFinite SerFiniteExamples SpecSerBounded SerBounded.
Import ListNotations.
Local Open Scope string_scope.
Local Open Scope Z_scope.
Local Open Scope list_scope.

Lemma nx_threshold c : In c px_chains -> threshold_serial px_model sx_tl sx_x nx_base c.
Proof.
  intros I. pose proof (nx_regular c I) as (Cc & NB & (Rl & Ps) & Th & Ch).
  set (t := lower_limit nx_base (ct_k (sx_x c))).
  assert (K : In (ct_k (sx_x c)) [1; 2; 3]) by (destruct I as [<-|[<-|[<-|[]]]]; cbn; auto).
  assert (V : sigma_value t t t (ct_k (sx_x c)) = t) by (unfold sigma_value; destruct (_ =? 1); auto; destruct (_ =? 2); auto).
  split; [|split].
  - split; [exact Cc|]. split; [exact NB|]. split; [|split].
    + split; [|exact Ps]. intros y [[<-|Y]|Y].
      * fold t. rewrite sigma_sym_at by exact K. reflexivity.
      * pose proof (Rl y (or_introl (or_intror Y))) as Z. cbn [map] in Y. repeat destruct Y as [<-|Y]; try contradiction; exact Z.
      * pose proof (Rl y (or_intror Y)) as Z.
        assert (N : forall n, y <> sigma_sym n).
        { destruct Y as [[->|(q & [->| ->])]|[[->|(q & ->)]|[->| ->]]]; intros n; discriminate. }
        rewrite at_sigmas_not by exact N. exact Z.
    + exact Th.
    + intros p f ch0 chs q ch Ip Ff Ec Eq. destruct (Ch p f ch0 chs q ch Ip Ff Ec Eq) as (A & B).
      split; [exact A|]. destruct B as [B|B]; [left; exact B|right].
      fold t. rewrite sigma_sym_at by exact K. rewrite V. cbn [Re RtoC fst]. rewrite !at_sigmas_not by (intros n; discriminate).
      assert (Bw : forall g, function_of px_model (pr_parametrization p) g -> f = g) by (intros g Hg; exact (function_fun px_model _ _ _ Ff Hg)).
      destruct I as [<-|[<-|[<-|[]]]]; destruct Ip as [<-|[]].
      * rewrite (Bw (sx_bw "D_BW" 1 2 1 1 0 3)) in Ec by (fn (@nil func_def) (tl px_functions)). discriminate Ec.
      * rewrite (Bw (sx_multi "L_MC" 3 [sx_channel 0 1 1 2 3; sx_channel 1 1 2 4 5; sx_channel 0 2 2 6 7])) in Ec by (fn (firstn 1 px_functions) (skipn 2 px_functions)).
        injection Ec as <- <-. destruct q as [|[|[|q]]]; cbn [nth_error] in Eq; try discriminate Eq; injection Eq as <-.
        -- unfold t. cbn. lra.
        -- clear - B. exfalso. cbn in B. lra.
      * rewrite (Bw (sx_bw "K_BW" 1 2 1 0 1 3)) in Ec by (fn (firstn 2 px_functions) (skipn 3 px_functions)). discriminate Ec.
  - destruct I as [<-|[<-|[<-|[]]]]; cbn; lra.
  - destruct I as [<-|[<-|[<-|[]]]]; cbn; lra.
Qed.
Lemma nx_points : on_dalitz_plot nx_base 315 308 75.
Proof.
  destruct nx_physical as [P N]. split; [exact P|exact N].
Qed.
