(** The model gives what /repo/tests/test_dpd_builder.py, test_cached.py, test_decay.py and adapter/test_qrules.py expect.
    The transitions below are those of the fixtures in /repo/tests/conftest.py, as far as the tests show them:
    QRules itself is not modelled. *)
From Coq Require Import String ZArith QArith Qcanon List.
From Verif Require Import Prelude Spin Decay Expr CExpr Builder Messages Qrules IdenticalExamples Dynamics SerAmplitude.
Import ListNotations.
Local Open Scope string_scope.
Local Open Scope Z_scope.
Local Open Scope list_scope.

(** ** J/psi -> K0 Sigma+ p~ via N(1700)+ and Sigma(1660)~- (conftest.py:24-32) *)
Definition cj_q (name latex : string) (spin parity : Z) (h : Z) : edge_obj :=
  EQState (QParticle name (Some latex) (half spin) (Some parity) (Qc_of_Z 1) (Qc_of_Z 0)) (half h).
Definition cj_topology (s : Z) : topology :=
  let e x := if x =? s then Edge (Some 0) None else Edge (Some 1) None in
  Topology [0; 1] [(-1, Edge None (Some 0)); (0, e 0); (1, e 1); (2, e 2); (3, Edge (Some 0) (Some 1))].
Definition cj_t (s : Z) (R : Z -> edge_obj) (h : Z) (prod dec : node_obj) : raw_transition :=
  Transition (cj_topology s)
    [(-1, cj_q "J/psi(1S)" "J/\psi(1S)" 2 (-1) 2); (0, cj_q "K0" "K^{0}" 0 (-1) 0);
     (1, cj_q "Sigma+" "\Sigma^{+}" 1 1 1); (2, cj_q "p~" "\overline{p}" 1 (-1) 1); (3, R h)] [(0, prod); (1, dec)].
Definition cj_N := cj_q "N(1700)+" "N(1700)^{+}" 3 (-1).
Definition cj_S := cj_q "Sigma(1660)~-" "\overline{\Sigma}(1660)^{-}" 1 (-1).
Definition cj_ls (l s : Z) : node_obj := NProps (Some l) (Some (half s)).
Definition cj_transitions : list raw_transition :=
  [cj_t 2 cj_N (-1) (cj_ls 1 2) (cj_ls 2 1); cj_t 2 cj_N (-1) (cj_ls 1 4) (cj_ls 2 1);
   cj_t 2 cj_N 1 (cj_ls 1 4) (cj_ls 2 1);
   cj_t 2 cj_N 3 (cj_ls 1 2) (cj_ls 2 1); cj_t 2 cj_N 3 (cj_ls 1 4) (cj_ls 2 1);
   cj_t 1 cj_S (-1) (cj_ls 0 2) (cj_ls 1 1); cj_t 1 cj_S (-1) (cj_ls 2 2) (cj_ls 1 1);
   cj_t 1 cj_S 1 (cj_ls 0 2) (cj_ls 1 1); cj_t 1 cj_S 1 (cj_ls 2 2) (cj_ls 1 1)].
Definition summary (d : decay) :=
  (map (fun ks : Z * state => (fst ks, p_name (snd ks))) (d_states d),
   map (fun c => (p_name (ch_resonance c), ch_incoming_ls c, ch_outgoing_ls c)) (d_chains d)).

Definition cj_helicity : list raw_transition :=
  [cj_t 2 cj_N (-1) NNone NNone; cj_t 2 cj_N 1 NNone NNone; cj_t 2 cj_N 3 NNone NNone;
   cj_t 1 cj_S (-1) NNone NNone; cj_t 1 cj_S 1 NNone NNone].

(** *** adapter/test_qrules.py *)
(** 159-213 [test_to_three_body_decay] *)
Example test_to_three_body_decay :
  map (fun min_ls => let* d := to_three_body_decay cj_transitions (MinLS min_ls) in Ok (summary d)) [true; false]
  = [Ok ([(0, "J/psi(1S)"); (1, "K0"); (2, "Sigma+"); (3, "p~")],
         [("N(1700)+", Some (LS 1 2), Some (LS 2 1)); ("Sigma(1660)~-", Some (LS 0 2), Some (LS 1 1))]);
     Ok ([(0, "J/psi(1S)"); (1, "K0"); (2, "Sigma+"); (3, "p~")],
         [("N(1700)+", Some (LS 1 2), Some (LS 2 1)); ("N(1700)+", Some (LS 1 4), Some (LS 2 1));
          ("Sigma(1660)~-", Some (LS 0 2), Some (LS 1 1)); ("Sigma(1660)~-", Some (LS 2 2), Some (LS 1 1))])].
Proof. vm_compute. reflexivity. Qed.
Example test_to_three_body_decay_helicity :
  map (fun min_ls => let* d := to_three_body_decay cj_helicity (MinLS min_ls) in Ok (summary d)) [true; false]
  = let d := Ok ([(0, "J/psi(1S)"); (1, "K0"); (2, "Sigma+"); (3, "p~")],
         [("N(1700)+", None, None); ("Sigma(1660)~-", None, None)]) in [d; d].
Proof. vm_compute. reflexivity. Qed.
(** 109-131 [test_normalize_state_ids_reaction] *)
Definition cj_ids {E N} (t : transition E N) :=
  (let* i := initial_states t in let* f := tr_final_states t in let* r := intermediate_states t in
   Ok (dkeys i, dkeys f, dkeys r)).
Example test_normalize_state_ids_reaction :
  (let* r := normalize_reaction (Reaction cj_transitions "canonical-helicity") in mapM cj_ids (rx_transitions r))
  = Ok (map (fun _ => ([0], [1; 2; 3], [4])) cj_transitions) /\
  (let* r := normalize_reaction (Reaction cj_transitions "canonical-helicity") in
   Ok (map (fun t => map (fun ks => (fst ks, uniqueness_repr (snd ks))) (tr_states t)) (rx_transitions r)))
  = Ok (map (fun t => map (fun ks => (fst ks + 1, uniqueness_repr (snd ks))) (tr_states t)) cj_transitions).
Proof. split; vm_compute; reflexivity. Qed.
(** 40-91 [test_filter_min_ls]: the couplings of the transitions in which the helicity of the resonance is +1/2 *)
Definition cj_half : res (list dpd_transition) :=
  let* ts := normalize_transitions [cj_t 2 cj_N 1 (cj_ls 1 4) (cj_ls 2 1); cj_t 1 cj_S 1 (cj_ls 0 2) (cj_ls 1 1);
                                    cj_t 1 cj_S 1 (cj_ls 2 2) (cj_ls 1 1)] in
  mapM convert_transition ts.
Definition cj_couplings (node_ids : option (list Z)) :=
  (let* ts := cj_half in
   let* ts := filter_min_ls (reiterable ts) node_ids in
   let* rs := mapM intermediate_states ts in
   Ok (combine (map (map (fun ks => p_name (pobj_particle (snd ks)))) rs) (map (fun t => dvalues (tr_interactions t)) ts))).
Example test_filter_min_ls :
  map cj_couplings [None; Some [0]; Some [1]]
  = let N := (["N(1700)+"], [Some (LS 1 4); Some (LS 2 1)]) in
    let S1 := (["Sigma(1660)~-"], [Some (LS 0 2); Some (LS 1 1)]) in
    let S2 := (["Sigma(1660)~-"], [Some (LS 2 2); Some (LS 1 1)]) in
    [Ok [N; S1]; Ok [N; S1]; Ok [N; S1; S2]].
Proof. vm_compute. reflexivity. Qed.

(** ** Identical particles: a(1)(1260)0 -> pi0 pi0 pi0 and Xi(b)- -> p K- K- (conftest.py:14-21, 35-52) *)
Definition ca_t : raw_transition :=
  let pi := cj_q "pi0" "\pi^{0}" 0 (-1) 0 in
  Transition (cj_topology 0)
    [(-1, cj_q "a(1)(1260)0" "a_{1}(1260)^{0}" 2 1 0); (0, pi); (1, pi); (2, pi); (3, cj_q "a(0)(980)0" "a_{0}(980)^{0}" 0 1 0)]
    [(0, NNone); (1, NNone)].
Definition cx_t (swapped : bool) (hp h : Z) : raw_transition :=
  let K := cj_q "K-" "K^{-}" 0 (-1) 0 in
  Transition (cj_topology (if swapped then 1 else 2))
    [(-1, cj_q "Xi(b)-" "\Xi_{b}^{-}" 1 1 1); (0, cj_q "p" "p" 1 1 hp); (1, K); (2, K); (3, cj_q "Lambda(1520)" "\Lambda(1520)" 3 (-1) h)]
    [(0, NNone); (1, NNone)].
Definition cx_transitions : list raw_transition :=
  flat_map (fun s => flat_map (fun hp => map (cx_t s hp) [-3; -1; 1; 3]) [-1; 1]) [false; true].
(** 26-34 [test_convert_transitions] *)
Example test_convert_transitions :
  length cx_transitions = 16%nat /\
  (let* ts := normalize_transitions cx_transitions in
   let* us := convert_transitions ts in
   let* d := to_three_body_decay (map as_raw us) (MinLS true) in
   Ok (length us, length (d_chains d))) = Ok (2%nat, 2%nat).
Proof. split; vm_compute; reflexivity. Qed.
(** 94-111 [test_get_equal_final_state_ids] *)
Example test_get_equal_final_state_ids :
  mapM (fun t => let* t := normalize_transition t in equal_final_state_ids uniqueness_repr t)
    [ca_t; cj_t 2 cj_N 1 NNone NNone; cx_t false 1 1] = Ok [[1; 2; 3]; []; [2; 3]] /\
  mapM (fun t => let* t := normalize_transition t in let* t := convert_transition t in
                 equal_final_state_ids uniqueness_repr (as_raw t))
    [ca_t; cj_t 2 cj_N 1 NNone NNone; cx_t false 1 1] = Ok [[1; 2; 3]; []; [2; 3]].
Proof. split; vm_compute; reflexivity. Qed.
(** 139-156 [test_permute_equal_final_states] *)
Example test_permute_equal_final_states :
  mapM (fun ts => let* r := normalize_reaction (Reaction ts "helicity") in
                  let* one := match rx_transitions r with t :: _ => permute_equal_final_states uniqueness_repr t | [] => Ok [] end in
                  let* all := permute_reaction uniqueness_repr r in
                  Ok (length one, length (rx_transitions all))) [cj_transitions; cx_transitions; [ca_t]]
  = Ok [(1, length cj_transitions); (2, 2 * length cx_transitions); (3, 3 * length [ca_t])]%nat.
Proof. vm_compute. reflexivity. Qed.

(** *** test_decay.py:37-48 [test_get_best_reference_subsystems] *)
Example test_get_best_reference_subsystems :
  mapM (fun ts => let* d := to_three_body_decay ts (MinLS false) in get_best_reference_subsystem d)
    [[ca_t]; cx_transitions; cj_helicity; cj_transitions] = Ok [1; 2; 2; 2].
Proof. vm_compute. reflexivity. Qed.

(** ** test_dpd_builder.py *)
Definition cj_model (ts : list raw_transition) (min_ls all_subsystems use_coefficients : bool) : res model :=
  let* d := to_three_body_decay ts (MinLS min_ls) in
  let* b := mk_builder d (MinBool min_ls) all_subsystems in
  Builder.formulate b (Some 2) true use_coefficients.
(** 18-60 [test_all_subsystems]: the warning and the names of the variables *)
Example test_warning :
  (let* d := to_three_body_decay cj_transitions (MinLS false) in mapM (get_subsystem_warning d) [1; 2; 3])
  = Ok [Some "Decay J/psi(1S) → 1: K0, 2: Sigma+, 3: p~ only has subsystems 2, 3, not 1"; None; None].
Proof. vm_compute. reflexivity. Qed.
Definition cj_variables (ts : list raw_transition) (min_ls all_subsystems : bool) : res (list string) :=
  let* m := cj_model ts min_ls all_subsystems false in sorted (map (fun kv => sname (fst kv)) (m_variables m)).
Example test_all_subsystems :
  map (fun x => cj_variables (fst x) (snd x) true) [(cj_transitions, false); (cj_transitions, true); (cj_helicity, true)]
  = repeat (Ok ["\zeta^0_{2(2)}"; "\zeta^0_{3(2)}"; "\zeta^2_{2(2)}"; "\zeta^2_{3(2)}"; "\zeta^3_{2(2)}"; "\zeta^3_{3(2)}";
                "theta_12"; "theta_23"; "theta_31"]) 3 /\
  map (fun x => cj_variables (fst x) (snd x) false) [(cj_transitions, false); (cj_transitions, true); (cj_helicity, true)]
  = repeat (Ok ["\zeta^0_{2(2)}"; "\zeta^0_{3(2)}"; "\zeta^2_{2(2)}"; "\zeta^2_{3(2)}"; "\zeta^3_{2(2)}"; "\zeta^3_{3(2)}";
                "theta_12"; "theta_31"]) 3.
Proof. split; vm_compute; reflexivity. Qed.

(** 62-150 [test_use_coefficients].  The indexed symbols in the amplitudes are those for which the
    model has a default value (C23), here as strings; [str] of an index that is a spin or a helicity
    is that of the rational number. *)
Definition str_ival (i : ival) : string := match i with IStr s => s | IHel z => str_half z end.
Definition str_indexed (k : pkey) : list string :=
  match k with KSym _ => [] | KIdx base idx => [base ++ "[" ++ sjoin ", " (map str_ival idx) ++ "]"]%string end.
Definition cj_symbols (ts : list raw_transition) (min_ls use_coefficients : bool) : res (list string) :=
  let* m := cj_model ts min_ls false use_coefficients in
  sorted (flat_map (fun kv => str_indexed (fst kv)) (m_params m)).
Example test_coefficients_helicity : forall ts, In ts [cj_transitions; cj_helicity] -> cj_symbols ts true true = Ok
    ["\mathcal{H}^\mathrm{N(1700)^{+}}[-1/2, -1/2, 0, -1/2]";
     "\mathcal{H}^\mathrm{N(1700)^{+}}[-1/2, -1/2, 0, 1/2]";
     "\mathcal{H}^\mathrm{N(1700)^{+}}[-1/2, 1/2, 0, -1/2]";
     "\mathcal{H}^\mathrm{N(1700)^{+}}[-1/2, 1/2, 0, 1/2]";
     "\mathcal{H}^\mathrm{N(1700)^{+}}[-3/2, -1/2, 0, -1/2]";
     "\mathcal{H}^\mathrm{N(1700)^{+}}[-3/2, -1/2, 0, 1/2]";
     "\mathcal{H}^\mathrm{N(1700)^{+}}[1/2, -1/2, 0, -1/2]";
     "\mathcal{H}^\mathrm{N(1700)^{+}}[1/2, -1/2, 0, 1/2]";
     "\mathcal{H}^\mathrm{N(1700)^{+}}[1/2, 1/2, 0, -1/2]";
     "\mathcal{H}^\mathrm{N(1700)^{+}}[1/2, 1/2, 0, 1/2]";
     "\mathcal{H}^\mathrm{N(1700)^{+}}[3/2, 1/2, 0, -1/2]";
     "\mathcal{H}^\mathrm{N(1700)^{+}}[3/2, 1/2, 0, 1/2]";
     "\mathcal{H}^\mathrm{\overline{\Sigma}(1660)^{-}}[-1/2, -1/2, -1/2, 0]";
     "\mathcal{H}^\mathrm{\overline{\Sigma}(1660)^{-}}[-1/2, -1/2, 1/2, 0]";
     "\mathcal{H}^\mathrm{\overline{\Sigma}(1660)^{-}}[-1/2, 1/2, -1/2, 0]";
     "\mathcal{H}^\mathrm{\overline{\Sigma}(1660)^{-}}[-1/2, 1/2, 1/2, 0]";
     "\mathcal{H}^\mathrm{\overline{\Sigma}(1660)^{-}}[1/2, -1/2, -1/2, 0]";
     "\mathcal{H}^\mathrm{\overline{\Sigma}(1660)^{-}}[1/2, -1/2, 1/2, 0]";
     "\mathcal{H}^\mathrm{\overline{\Sigma}(1660)^{-}}[1/2, 1/2, -1/2, 0]";
     "\mathcal{H}^\mathrm{\overline{\Sigma}(1660)^{-}}[1/2, 1/2, 1/2, 0]"].
Proof. intros ts [<-|[<-|[]]]; vm_compute; reflexivity. Qed.
Example test_coefficients_canonical : cj_symbols cj_transitions false true = Ok
    ["\mathcal{H}^\mathrm{LS,N(1700)^{+}}[1, 1, 2, 1/2]";
     "\mathcal{H}^\mathrm{LS,N(1700)^{+}}[1, 2, 2, 1/2]";
     "\mathcal{H}^\mathrm{LS,\overline{\Sigma}(1660)^{-}}[0, 1, 1, 1/2]";
     "\mathcal{H}^\mathrm{LS,\overline{\Sigma}(1660)^{-}}[2, 1, 1, 1/2]"].
Proof. vm_compute. reflexivity. Qed.
Example test_couplings_helicity : forall ts, In ts [cj_transitions; cj_helicity] -> cj_symbols ts true false = Ok
    ["\mathcal{H}^\mathrm{decay}[N(1700)^{+}, 0, -1/2]";
     "\mathcal{H}^\mathrm{decay}[N(1700)^{+}, 0, 1/2]";
     "\mathcal{H}^\mathrm{decay}[\overline{\Sigma}(1660)^{-}, -1/2, 0]";
     "\mathcal{H}^\mathrm{decay}[\overline{\Sigma}(1660)^{-}, 1/2, 0]";
     "\mathcal{H}^\mathrm{production}[N(1700)^{+}, -1/2, -1/2]";
     "\mathcal{H}^\mathrm{production}[N(1700)^{+}, -1/2, 1/2]";
     "\mathcal{H}^\mathrm{production}[N(1700)^{+}, -3/2, -1/2]";
     "\mathcal{H}^\mathrm{production}[N(1700)^{+}, 1/2, -1/2]";
     "\mathcal{H}^\mathrm{production}[N(1700)^{+}, 1/2, 1/2]";
     "\mathcal{H}^\mathrm{production}[N(1700)^{+}, 3/2, 1/2]";
     "\mathcal{H}^\mathrm{production}[\overline{\Sigma}(1660)^{-}, -1/2, -1/2]";
     "\mathcal{H}^\mathrm{production}[\overline{\Sigma}(1660)^{-}, -1/2, 1/2]";
     "\mathcal{H}^\mathrm{production}[\overline{\Sigma}(1660)^{-}, 1/2, -1/2]";
     "\mathcal{H}^\mathrm{production}[\overline{\Sigma}(1660)^{-}, 1/2, 1/2]"].
Proof. intros ts [<-|[<-|[]]]; vm_compute; reflexivity. Qed.
Example test_couplings_canonical : cj_symbols cj_transitions false false = Ok
    ["\mathcal{H}^\mathrm{LS,decay}[N(1700)^{+}, 2, 1/2]";
     "\mathcal{H}^\mathrm{LS,decay}[\overline{\Sigma}(1660)^{-}, 1, 1/2]";
     "\mathcal{H}^\mathrm{LS,production}[N(1700)^{+}, 1, 1]";
     "\mathcal{H}^\mathrm{LS,production}[N(1700)^{+}, 1, 2]";
     "\mathcal{H}^\mathrm{LS,production}[\overline{\Sigma}(1660)^{-}, 0, 1]";
     "\mathcal{H}^\mathrm{LS,production}[\overline{\Sigma}(1660)^{-}, 2, 1]"].
Proof. vm_compute. reflexivity. Qed.

(** ** test_cached.py:51-88: the amplitude symbols, in the same order *)
Example test_amplitude_symbols :
  (let* m := cj_model cj_transitions true false false in Ok (dkeys (m_amplitudes m))) = Ok
    [("A^2", [IHel (-2); IHel 0; IHel (-1); IHel (-1)]);
     ("A^3", [IHel (-2); IHel 0; IHel (-1); IHel (-1)]);
     ("A^2", [IHel (-2); IHel 0; IHel (-1); IHel 1]);
     ("A^3", [IHel (-2); IHel 0; IHel (-1); IHel 1]);
     ("A^2", [IHel (-2); IHel 0; IHel 1; IHel (-1)]);
     ("A^3", [IHel (-2); IHel 0; IHel 1; IHel (-1)]);
     ("A^2", [IHel (-2); IHel 0; IHel 1; IHel 1]);
     ("A^3", [IHel (-2); IHel 0; IHel 1; IHel 1]);
     ("A^2", [IHel 0; IHel 0; IHel (-1); IHel (-1)]);
     ("A^3", [IHel 0; IHel 0; IHel (-1); IHel (-1)]);
     ("A^2", [IHel 0; IHel 0; IHel (-1); IHel 1]);
     ("A^3", [IHel 0; IHel 0; IHel (-1); IHel 1]);
     ("A^2", [IHel 0; IHel 0; IHel 1; IHel (-1)]);
     ("A^3", [IHel 0; IHel 0; IHel 1; IHel (-1)]);
     ("A^2", [IHel 0; IHel 0; IHel 1; IHel 1]);
     ("A^3", [IHel 0; IHel 0; IHel 1; IHel 1]);
     ("A^2", [IHel 2; IHel 0; IHel (-1); IHel (-1)]);
     ("A^3", [IHel 2; IHel 0; IHel (-1); IHel (-1)]);
     ("A^2", [IHel 2; IHel 0; IHel (-1); IHel 1]);
     ("A^3", [IHel 2; IHel 0; IHel (-1); IHel 1]);
     ("A^2", [IHel 2; IHel 0; IHel 1; IHel (-1)]);
     ("A^3", [IHel 2; IHel 0; IHel 1; IHel (-1)]);
     ("A^2", [IHel 2; IHel 0; IHel 1; IHel 1]);
     ("A^3", [IHel 2; IHel 0; IHel 1; IHel 1])].
Proof. vm_compute. reflexivity. Qed.
