(** The model of io/serialization gives what /repo/tests/io_serialization and the doctests of
    io/serialization expect; /repo/docs/Lc2ppiK.json is the file that these tests read *)
From Coq Require Import String ZArith QArith Qcanon List.
From Verif Require Import Prelude Spin Decay Expr Builder SerFormat SerDynamics SerAmplitude LcModel.
Import ListNotations.
Local Open Scope string_scope.
Local Open Scope Z_scope.
Local Open Scope list_scope.

(** ** test_amplitude.py *)
(** 24-29 *)
Example test_get_decay_product_helicities :
  map (fun c => decay_product_helicities (cd_vertices c)) [lc_chain0; lc_chain15; lc_chain25]
  = [Ok [(3, 0); (1, 1)]; Ok [(1, 1); (2, 0)]; Ok [(2, 0); (3, 0)]].
Proof. vm_compute. reflexivity. Qed.
(** 32-33 *)
Example test_get_existing_subsystem_ids : get_existing_subsystem_ids lc_model = Ok [1; 2; 3].
Proof. vm_compute. reflexivity. Qed.
(** 36-44 *)
Example test_get_final_state_helicities :
  get_decay_chains lc_model = Ok lc_chains /\ length lc_chains = 26%nat /\
  map final_state_helicities lc_chains =
  map (fun n => Ok [(1, if existsb (Nat.eqb n) [19; 20; 22; 25]%nat then -1 else 1); (2, 0); (3, 0)]) (seq 0 26).
Proof. split; [|split]; vm_compute; reflexivity. Qed.
(** 47-58 *)
Example test_get_resonance_helicity :
  map (fun c => resonance_helicity (cd_vertices c)) [lc_chain0; lc_chain1; lc_chain25]
  = [Ok ([It 3; It 1], 1); Ok ([It 3; It 1], -1); Ok ([It 2; It 3], 0)].
Proof. vm_compute. reflexivity. Qed.
(** 61-65 *)
Example test_get_weight :
  get_weight lc_chain0 (fun x => x)
  = Ok (Sym "c^{L1405[1/2]}_{\frac{1}{2}, 0, 0}" ANone,
        (dec 738649400481717 100000000000000, dec 1971018433257411 1000000000000000)).
Proof. vm_compute. reflexivity. Qed.

(** ** test_decay.py *)
(** 21-25 *)
Example test_get_final_state :
  (let* d := get_final_state lc_model None in Ok (map (fun ks : Z * state => (fst ks, p_name (snd ks))) d))
  = Ok [(1, "p"); (2, "pi"); (3, "K")].
Proof. vm_compute. reflexivity. Qed.
(** 28-35 *)
Example test_get_initial_state :
  get_initial_state lc_model None
  = Ok (State (Particle "Lc" "Lc" 1 None (dec 114323 50000) (Qc_of_Z 0)) 0).
Proof. vm_compute. reflexivity. Qed.
(** 38-41 *)
Example test_get_states :
  (let* d := get_states lc_model None in Ok (map (fun ks : Z * state => (fst ks, p_name (snd ks))) d))
  = Ok [(0, "Lc"); (1, "p"); (2, "pi"); (3, "K")].
Proof. vm_compute. reflexivity. Qed.
(** 44-62 *)
Example test_to_decay :
  (let* d := to_decay lc_model None in
   Ok (map (fun ks : Z * state => p_name (snd ks)) (d_states d), map (fun c => p_name (ch_resonance c)) (d_chains d)))
  = Ok (["Lc"; "p"; "pi"; "K"],
        ["D1232"; "D1600"; "D1700"; "K1430"; "K700"; "K892";
         "L1405"; "L1520"; "L1600"; "L1670"; "L1690"; "L2000"]).
Proof. vm_compute. reflexivity. Qed.
(** 65-75 *)
Example test_to_decay_chain :
  (let* i := get_initial_state lc_model None in
   let* f := get_final_state lc_model None in
   let* c := to_decay_chain lc_chain0 i f None in
   let (a, b) := ch_decay_products c in
   Ok (p_name (ch_resonance c), p_spin (ch_resonance c), [p_name a; p_name b], p_name (ch_spectator c)))
  = Ok ("L1405", 1, ["K"; "p"], "pi").
Proof. vm_compute. reflexivity. Qed.

(** ** test_format.py *)
(** 8-22 *)
Example test_get_function_definition_blatt_weisskopf :
  map (fun n => get_function_definition n lc_model) ["BlattWeisskopf_resonance_l1"; "BlattWeisskopf_resonance_l2"]
  = map (fun nl : string * Z => Ok (FuncDef (fst nl) "BlattWeisskopf" [("radius", dec 3 2); ("l", dec (snd nl) 1)] None))
      [("BlattWeisskopf_resonance_l1", 1); ("BlattWeisskopf_resonance_l2", 2)].
Proof. vm_compute. reflexivity. Qed.
(** 25-34 *)
Example test_get_function_definition_missing : get_function_definition "BlattWeiskopf" lc_model = Err KeyError.
Proof. vm_compute. reflexivity. Qed.

(** ** Doctests *)
(** decay.py:147-150 *)
Example doctest_get_spectator_id : get_spectator_id [It 1; Sub [It 2; It 3]] = Ok 1.
Proof. reflexivity. Qed.
(** dynamics.py:174-177 *)
Example doctest_to_mandelstam_symbol :
  map to_mandelstam_symbol [[It 3; It 2]; [It 1; Sub [It 2; It 3]]] = [Ok (Sym "sigma1" ANonneg); Ok (Sym "m0" ANonneg)].
Proof. reflexivity. Qed.
(** dynamics.py:187-190 *)
Example doctest_to_mass_symbol :
  map to_mass_symbol [It 1; Sub [It 1; It 2]] = [Ok (Sym "m1" ANonneg); Ok (Sym "sigma3" ANonneg)].
Proof. reflexivity. Qed.
