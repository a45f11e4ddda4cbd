(** Specification of what the options of the builder change. *)
From Coq Require Import ZArith List Bool Reals.
From Coquelicot Require Import Complex.
From Verif Require Import Prelude Decay Expr CExpr SpecDPD Builder.
Import ListNotations.
Local Open Scope Z_scope.

(** Two builders that only differ in [all_subsystems] *)
Record only_all_subsystems (b b' : builder) : Prop := {
  oa_decay : b_decay b' = b_decay b;
  oa_dynamics : b_dynamics b' = b_dynamics b;
  oa_prod : b_prod_helicity b' = b_prod_helicity b;
  oa_dec : b_dec_helicity b' = b_dec_helicity b;
  oa_off : b_all_subsystems b = false;
  oa_on : b_all_subsystems b' = true;
}.
(** [d'] extends [d] by entries with [extra]. *)
Definition extended_by {K V} `{EqDec K} (extra : K -> V -> Prop) (d d' : dict K V) : Prop :=
  (forall x v, dget x d = Some v -> dget x d' = Some v) /\
  (forall x v, dget x d' = Some v -> dget x d = Some v \/ dget x d = None /\ extra x v).
(** Subsystem [k] has no chains. *)
Definition empty_subsystem (d : decay) (k : Z) : Prop :=
  In k [1; 2; 3] /\ forall c, In c (d_chains d) -> st_index (ch_spectator c) <> k.
(** The amplitude of a subsystem without chains, which is zero *)
Definition empty_amplitude (d : decay) (s : Z -> state) (key : akey) (e : cexpr) : Prop :=
  (exists k l, key = (amp_name k, amp_index l) /\ empty_subsystem d k /\ helicity_tuple s l) /\
  forall ev h, ceval ev h e = RtoC 0.
(** The scattering angle of a subsystem without chains *)
Definition empty_angle (d : decay) (x : symbol) (e : rexpr) : Prop :=
  exists i j k, cyclic i j k /\ empty_subsystem d k /\ x = theta_name i j.
