(** Concrete decays with Breit-Wigner lineshapes for the properties of PropsRelabel.v *)
From Coq Require Import String ZArith QArith Qcanon List Bool Reals Lia Lra Permutation.
From Coquelicot Require Import Complex.
From Verif Require Import Prelude Spin Decay Expr CExpr SpecKin SpecDPD Builder SpecBuilder Dynamics SpecDynamics SpecRelabel
  DynamicsProofs LineshapeProofs LineshapeFacts BuilderExamples AnglesProofs RefRefuted ChainExamples RelabelExamples.
Import ListNotations.
Local Open Scope string_scope.
Local Open Scope Z_scope.
Local Open Scope list_scope.

Definition rb_w : bw_builder := BWBuilder true true true phase_space_factor.
Definition rb_h (d : decay) : history := map (fun c => (IdChain c, bw_call rb_w)) (d_chains d).
Definition rb_dyn (c : chain) : defexpr := match bw_call rb_w c with Ok e => e | Err _ => de_unit end.
Lemma rb_get d f c : In d [dl_decay; rl_decay; id_one] -> In c (d_chains d) ->
  get_builder (register_all (mk_configurator d) (map (fun c => (IdChain c, f)) (d_chains d))) (IdName (p_name (ch_resonance c))) = Ok f.
Proof.
  intros H Hc. destruct H as [<-|[<-|[<-|[]]]]; vm_compute in Hc;
    repeat destruct Hc as [<-|Hc]; try destruct Hc; vm_compute; reflexivity.
Qed.
Lemma rb_call d c : In d [dl_decay; rl_decay; id_one] -> In c (d_chains d) -> bw_call rb_w c = Ok (rb_dyn c).
Proof.
  intros H Hc. destruct H as [<-|[<-|[<-|[]]]]; cbn [d_chains dl_decay rl_decay id_one id_decay flat_map app In] in Hc;
    repeat destruct Hc as [<-|Hc]; try destruct Hc; lazy; reflexivity.
Qed.
Lemma rb_isobar d c : In d [dl_decay; rl_decay; id_one] -> In c (d_chains d) ->
  exists p0 r a b k i j, isobar_chain c p0 r a b k i j.
Proof.
  intros H Hc. destruct H as [<-|[<-|[<-|[]]]]; cbn [d_chains dl_decay rl_decay id_one id_decay flat_map app In] in Hc;
    repeat destruct Hc as [<-|Hc]; try destruct Hc; do 7 eexists;
    (split; [cbn; first [left; reflexivity|right; reflexivity]|split; [reflexivity|]]);
    apply NoDup_Permutation; try (cbn; repeat constructor; cbn; intuition discriminate); cbn; tauto.
Qed.
Lemma rb_dynamics d : In d [dl_decay; rl_decay; id_one] -> dynamics_of (dl_b d (rb_h d) false) rb_dyn.
Proof.
  intros H c Hc. cbn [dl_b b_decay] in Hc. split.
  - exists (bw_call rb_w). split; [exact (rb_get d _ c H Hc)|exact (rb_call d c H Hc)].
  - pose proof (rb_call d c H Hc) as E. destruct (rb_isobar d c H Hc) as (p0 & r & a & b & k & i & j & Iso).
    exact (proj1 (c36_symbols rb_w _ _ _ _ _ _ _ _ _ phase_space_factor_closed Iso E)).
Qed.
Lemma rb_two_body d : In d [dl_decay; id_one] -> two_body_resonances d.
Proof.
  intros H c Hc. destruct H as [<-|[<-|[]]]; vm_compute in Hc;
    repeat destruct Hc as [<-|Hc]; try destruct Hc; vm_compute; eauto 10.
Qed.
Lemma rb_phsp : phsp_value (bw_phsp_factor rb_w) two_body_phsp.
Proof. exact phase_space_factor_value. Qed.
Lemma rb_same : same_lineshapes rl_turn dl_decay rb_dyn rb_dyn /\ same_lineshapes id_swap id_one rb_dyn rb_dyn.
Proof.
  split; intros c Hc; right; exists rb_w, two_body_phsp; (split; [exact phase_space_factor_value|]).
  - split; [apply (rb_call dl_decay)|apply (rb_call rl_decay)]; cbn [In]; auto.
    destruct Hc as [<-|[<-|[]]]; cbn; auto.
  - split; apply (rb_call id_one); cbn [In]; auto.
    destruct Hc as [<-|[<-|[<-|[<-|[]]]]]; cbn; auto.
Qed.
(** the values of the labelled symbols, and 2 for all others *)
Definition rb_base (e : symbol -> R) (x : symbol) : C :=
  if existsb (String.eqb (sname x)) ["m0"; "m1"; "m2"; "m3"; "sigma1"; "sigma2"; "sigma3"] then RtoC (e x) else RtoC 2.
Lemma rb_others e e' x : ~ In (sname x) ["m0"; "m1"; "m2"; "m3"; "sigma1"; "sigma2"; "sigma3"] -> rb_base e x = rb_base e' x.
Proof.
  intros N. unfold rb_base. destruct (existsb _ _) eqn:E; auto.
  apply existsb_exists in E. destruct E as (y & I & E). apply String.eqb_eq in E. subst y. destruct (N I).
Qed.
Lemma rb_values : relabelled_values rl_turn (rb_base ex_env) (rb_base rl_env) /\
  relabelled_values id_swap (rb_base (id_env 72 24)) (rb_base (id_env 24 72)).
Proof.
  split; (split; [|intros; apply rb_others; assumption]).
  - split; [reflexivity|]. intros i [<-|[<-|[<-|[]]]]; split; reflexivity.
  - split; [reflexivity|]. intros i [<-|[<-|[<-|[]]]]; split; reflexivity.
Qed.
Lemma rb_physical : physical (fun x => Re (rb_base (id_env 72 24) x)) /\ nonsingular (fun x => Re (rb_base (id_env 72 24) x)).
Proof. split; [exact (proj1 id_physical)|exact (proj2 id_physical)]. Qed.
