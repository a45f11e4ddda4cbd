(** The model gives what /repo/tests/test_angles.py, test_io.py, test_decay.py and the doctests of spin.py and io expect *)
From Coq Require Import String ZArith QArith Qcanon List Reals Lra.
From Verif Require Import Prelude Spin Decay Expr Angles IO.
Import ListNotations.
Local Open Scope string_scope.
Local Open Scope Z_scope.
Local Open Scope list_scope.

(** ** Doctests of spin.py: 22-24, 46-51, 63-65, 74-76 *)
Definition shown (l : res (list (Z * Qc))) : res (list (Z * Q)) := let* l := l in Ok (map (fun ls => (fst ls, this (snd ls))) l).
Example doctest_generate_ls_couplings :
  shown (generate_ls_couplings (half 3) (half 1) (half 0) 3) = Ok [(1, 1 # 2); (2, 1 # 2)].
Proof. vm_compute. reflexivity. Qed.
Example doctest_filter_parity_violating_ls :
  shown (generate_ls_couplings (half 1) (half 3) (half 0) 3) = Ok [(1, 3 # 2); (2, 3 # 2)] /\
  shown (let* ls := generate_ls_couplings (half 1) (half 3) (half 0) 3 in Ok (filter_parity_violating_ls ls 1 (-1) (-1)))
  = Ok [(2, 3 # 2)].
Proof. split; vm_compute; reflexivity. Qed.
Example doctest_create_spin_range :
  (let* l := create_spin_range (half 3) in Ok (map this l)) = Ok [(-3 # 2); (-1 # 2); (1 # 2); (3 # 2)].
Proof. vm_compute. reflexivity. Qed.
Example doctest_create_rational_range :
  (let* l := create_rational_range (half (-1)) (half 3) in Ok (map this l)) = Ok [(-1 # 2); (1 # 2); (3 # 2)].
Proof. vm_compute. reflexivity. Qed.

(** ** Doctest of io/__init__.py:127-136.  The classes are int, bool (a subclass of int), float, complex *)
Definition t_object : list Z := [0].
Definition t_int := COther (1 :: t_object).
Definition t_bool := COther (2 :: 1 :: t_object).
Definition t_float := COther (3 :: t_object).
Definition t_complex := COther (4 :: t_object).
Example doctest_determine_item_type :
  map (fun l => determine_item_type issubclass (Sequence l))
    [[t_int; t_int; t_int]; [t_bool; t_bool]; [t_bool; t_bool; t_int]; [t_float; t_complex]]
  = [Ok t_int; Ok t_bool; Ok t_int; Err ValueError].
Proof. vm_compute. reflexivity. Qed.

(** ** test_io.py *)
Definition t_p : particle := Particle "p" "p" 1 (Some 1) (Qc_of_Z 0) (Qc_of_Z 0).
Definition t_pi : particle := Particle "π+" "\pi^+" 0 (Some (-1)) (Qc_of_Z 0) (Qc_of_Z 0).
Definition t_K : particle := Particle "K-" "K^-" 0 (Some (-1)) (Qc_of_Z 0) (Qc_of_Z 0).
Definition t_L : particle := Particle "Λ(1520)" "\Lambda(1520)" 3 (Some (-1)) (Qc_of_Z 0) (Qc_of_Z 0).
(** 20-26 *)
Example test_aslatex_particle :
  [latex_particle false false t_L; latex_particle false true t_L; latex_particle true false t_L]
  = ["\Lambda(1520)"; "\frac{3}{2}^-"; "\Lambda(1520)\left[\frac{3}{2}^-\right]"].
Proof. vm_compute. reflexivity. Qed.
(** 29-41 *)
Definition t_node (a : ls_arg) : res tree := mk_node (PPart t_L) (Leaf (PPart t_p)) (Leaf (PPart t_K)) a.
Example test_aslatex_isobar_node :
  (let* t := t_node ArgNone in Ok [latex_tree false false t; latex_tree true false t])
  = Ok ["\left(\Lambda(1520) \to p K^-\right)";
        "\left(\Lambda(1520)\left[\frac{3}{2}^-\right] \to p\left[\frac{1}{2}^+\right] K^-\left[0^-\right]\right)"] /\
  (let* t := t_node (ArgTuple 2 (Qc_of_Z 1)) in Ok (latex_tree false false t))
  = Ok "\left(\Lambda(1520) \xrightarrow[S=1]{L=2} p K^-\right)".
Proof. split; vm_compute; reflexivity. Qed.
(** 44-56 *)
Example test_as_markdown_table_particles :
  as_markdown_table (OfSequence [IPart (PSt (State t_p 1)); IPart (PSt (State t_K 2)); IPart (PPart t_pi)])
  = Ok "| index | name | LaTeX | $J^P$ | mass (MeV) | width (MeV) |
| --- | --- | --- | --- | --- | --- |
| 1 | `p` | $p$ | $\frac{1}{2}^+$ | 0 | 0 |
| 2 | `K-` | $K^-$ | $0^-$ | 0 | 0 |
|   | `π+` | $\pi^+$ | $0^-$ | 0 | 0 |
".
Proof. vm_compute. reflexivity. Qed.

(** ** test_angles.py; SymPy reorders the terms, so that the expressions are compared by their values *)
Section Angles.
  Variable env : symbol -> R.
  Let m (i : Z) : R := env (m_sym i).
  Let s (i : Z) : R := env (sigma_sym i).
  Local Open Scope R_scope.
  (** 16-27 *)
  Example test_formulate_scattering_angle :
    (exists y e, formulate_scattering_angle 2 3 = Ok (y, e) /\ reval env e = acos
      ((2 * s 1 * (- (m 1)² - (m 2)² + s 3) - ((m 0)² - (m 1)² - s 1) * ((m 2)² - (m 3)² + s 1))
       / (sqrt (kallen ((m 0)²) ((m 1)²) (s 1)) * sqrt (kallen (s 1) ((m 2)²) ((m 3)²))))) /\
    (exists y e, formulate_scattering_angle 3 1 = Ok (y, e) /\ reval env e = acos
      ((2 * s 2 * (- (m 2)² - (m 3)² + s 1) - ((m 0)² - (m 2)² - s 2) * (- (m 1)² + (m 3)² + s 2))
       / (sqrt (kallen ((m 0)²) ((m 2)²) (s 2)) * sqrt (kallen (s 2) ((m 3)²) ((m 1)²))))).
  Proof.
    split; (eexists _, _; split; [reflexivity|]); cbn [reval mE sigmaE]; apply (f_equal acos), (f_equal (fun x => x / _));
      unfold m, s, Rsqr; ring.
  Qed.
  (** 30-37 *)
  Example test_formulate_theta_hat_angle :
    (exists y e, formulate_theta_hat_angle 1 2 = Ok (y, e) /\ reval env e = acos
      ((((m 0)² + (m 1)² - s 1) * ((m 0)² + (m 2)² - s 2) - 2 * (m 0)² * (s 3 - (m 1)² - (m 2)²))
       / (sqrt (kallen ((m 0)²) ((m 2)²) (s 2)) * sqrt (kallen ((m 0)²) (s 1) ((m 1)²))))) /\
    (exists y e z f, formulate_theta_hat_angle 1 2 = Ok (y, e) /\ formulate_theta_hat_angle 2 1 = Ok (z, f) /\
       reval env e = - reval env f) /\
    (forall i, In i [1; 2; 3]%Z -> exists y, formulate_theta_hat_angle i i = Ok (y, RNum 0)).
  Proof.
    split; [|split].
    - eexists _, _; split; [reflexivity|]. cbn [reval]. reflexivity.
    - eexists _, _, _, _. split; [reflexivity|]. split; [reflexivity|]. cbn [reval]. rewrite Ropp_involutive. reflexivity.
    - intros i [<-|[<-|[<-|[]]]]; eexists; reflexivity.
  Qed.
  (** 40-49 *)
  Example test_formulate_zeta_angle_equation_A6 : forall i k, In i [1; 2; 3]%Z -> In k [1; 2; 3]%Z ->
    exists y0 yi yk e, formulate_zeta_angle i k 0 = Ok (y0, e) /\ formulate_zeta_angle i k i = Ok (yi, e) /\
      formulate_zeta_angle i k k = Ok (yk, RNum 0).
  Proof. intros i k [<-|[<-|[<-|[]]]] [<-|[<-|[<-|[]]]]; eexists _, _, _, _; (split; [|split]); reflexivity. Qed.
End Angles.
