(** The model definition of /repo/docs/Lc2ppiK.json, written by tools/json2coq.py *)
From Coq Require Import String ZArith QArith Qcanon List.
From Verif Require Import Prelude SerFormat.
Import ListNotations.
Local Open Scope string_scope.
Local Open Scope Z_scope.
Local Open Scope list_scope.

(** A number of the file *)
Definition dec (n : Z) (d : positive) : Qc := Q2Qc (n # d).
Definition lc_initial : state_def := StateDef 0 "Lc" (dec 1 2) (dec 114323 50000).
Definition lc_final : list state_def :=
  [StateDef 1 "p" (dec 1 2) (dec 469136023 500000000);
   StateDef 2 "pi" (dec 0 1) (dec 6978509 50000000);
   StateDef 3 "K" (dec 0 1) (dec 493677 1000000)].
Definition lc_chain0 : chain_def :=
  ChainDef "L1405" [Propagator (dec 1 2) [It 3; It 1] "L1405_Flatte"]
    [Vertex "helicity" [Sub [It 3; It 1]; It 2] (Some "") (Some [1; 0]) None None None;
     Vertex "parity" [It 3; It 1] (Some "") (Some [0; 1]) (Some "+") None None]
    [Sub [It 3; It 1]; It 2] ((dec 738649400481717 100000000000000), (dec 1971018433257411 1000000000000000)).
Definition lc_chain1 : chain_def :=
  ChainDef "L1405" [Propagator (dec 1 2) [It 3; It 1] "L1405_Flatte"]
    [Vertex "helicity" [Sub [It 3; It 1]; It 2] (Some "") (Some [(-1); 0]) None None None;
     Vertex "parity" [It 3; It 1] (Some "") (Some [0; 1]) (Some "+") None None]
    [Sub [It 3; It 1]; It 2] ((dec (-6466471714961103) 2000000000000000), (dec 5639431138403943 2500000000000000)).
Definition lc_chain2 : chain_def :=
  ChainDef "L1520" [Propagator (dec 3 2) [It 3; It 1] "L1520_BW"]
    [Vertex "helicity" [Sub [It 3; It 1]; It 2] (Some "BlattWeisskopf_b_decay_l1") (Some [(-1); 0]) None None None;
     Vertex "parity" [It 3; It 1] (Some "BlattWeisskopf_resonance_l2") (Some [0; 1]) (Some "-") None None]
    [Sub [It 3; It 1]; It 2] ((dec 146999 1000000), (dec 11081 500000)).
Definition lc_chain3 : chain_def :=
  ChainDef "L1520" [Propagator (dec 3 2) [It 3; It 1] "L1520_BW"]
    [Vertex "helicity" [Sub [It 3; It 1]; It 2] (Some "BlattWeisskopf_b_decay_l1") (Some [1; 0]) None None None;
     Vertex "parity" [It 3; It 1] (Some "BlattWeisskopf_resonance_l2") (Some [0; 1]) (Some "-") None None]
    [Sub [It 3; It 1]; It 2] ((dec (-160687) 2000000), (dec 1498833 2000000)).
Definition lc_chain4 : chain_def :=
  ChainDef "L1600" [Propagator (dec 1 2) [It 3; It 1] "L1600_BW"]
    [Vertex "helicity" [Sub [It 3; It 1]; It 2] (Some "") (Some [1; 0]) None None None;
     Vertex "parity" [It 3; It 1] (Some "BlattWeisskopf_resonance_l1") (Some [0; 1]) (Some "-") None None]
    [Sub [It 3; It 1]; It 2] ((dec 4929406127531439 1000000000000000), (dec (-5956915012088891) 10000000000000000)).
Definition lc_chain5 : chain_def :=
  ChainDef "L1600" [Propagator (dec 1 2) [It 3; It 1] "L1600_BW"]
    [Vertex "helicity" [Sub [It 3; It 1]; It 2] (Some "") (Some [(-1); 0]) None None None;
     Vertex "parity" [It 3; It 1] (Some "BlattWeisskopf_resonance_l1") (Some [0; 1]) (Some "-") None None]
    [Sub [It 3; It 1]; It 2] ((dec (-8557139333109699) 2500000000000000), (dec (-272482360693369) 125000000000000)).
Definition lc_chain6 : chain_def :=
  ChainDef "L1670" [Propagator (dec 1 2) [It 3; It 1] "L1670_BW"]
    [Vertex "helicity" [Sub [It 3; It 1]; It 2] (Some "") (Some [(-1); 0]) None None None;
     Vertex "parity" [It 3; It 1] (Some "") (Some [0; 1]) (Some "+") None None]
    [Sub [It 3; It 1]; It 2] ((dec (-12006142814461687) 50000000000000000), (dec (-10230279488850731) 100000000000000000)).
Definition lc_chain7 : chain_def :=
  ChainDef "L1670" [Propagator (dec 1 2) [It 3; It 1] "L1670_BW"]
    [Vertex "helicity" [Sub [It 3; It 1]; It 2] (Some "") (Some [1; 0]) None None None;
     Vertex "parity" [It 3; It 1] (Some "") (Some [0; 1]) (Some "+") None None]
    [Sub [It 3; It 1]; It 2] ((dec (-40374241570833247) 100000000000000000), (dec 3577369878641639 5000000000000000)).
Definition lc_chain8 : chain_def :=
  ChainDef "L1690" [Propagator (dec 3 2) [It 3; It 1] "L1690_BW"]
    [Vertex "helicity" [Sub [It 3; It 1]; It 2] (Some "BlattWeisskopf_b_decay_l1") (Some [(-1); 0]) None None None;
     Vertex "parity" [It 3; It 1] (Some "BlattWeisskopf_resonance_l2") (Some [0; 1]) (Some "-") None None]
    [Sub [It 3; It 1]; It 2] ((dec (-96443) 500000), (dec (-22047) 400000)).
Definition lc_chain9 : chain_def :=
  ChainDef "L1690" [Propagator (dec 3 2) [It 3; It 1] "L1690_BW"]
    [Vertex "helicity" [Sub [It 3; It 1]; It 2] (Some "BlattWeisskopf_b_decay_l1") (Some [1; 0]) None None None;
     Vertex "parity" [It 3; It 1] (Some "BlattWeisskopf_resonance_l2") (Some [0; 1]) (Some "-") None None]
    [Sub [It 3; It 1]; It 2] ((dec (-85331) 62500), (dec (-353613) 2000000)).
Definition lc_chain10 : chain_def :=
  ChainDef "L2000" [Propagator (dec 1 2) [It 3; It 1] "L2000_BW"]
    [Vertex "helicity" [Sub [It 3; It 1]; It 2] (Some "") (Some [1; 0]) None None None;
     Vertex "parity" [It 3; It 1] (Some "") (Some [0; 1]) (Some "+") None None]
    [Sub [It 3; It 1]; It 2] ((dec (-15330976577270363) 5000000000000000), (dec (-1342156552943061) 500000000000000)).
Definition lc_chain11 : chain_def :=
  ChainDef "L2000" [Propagator (dec 1 2) [It 3; It 1] "L2000_BW"]
    [Vertex "helicity" [Sub [It 3; It 1]; It 2] (Some "") (Some [(-1); 0]) None None None;
     Vertex "parity" [It 3; It 1] (Some "") (Some [0; 1]) (Some "+") None None]
    [Sub [It 3; It 1]; It 2] ((dec (-1416839933735117) 250000000000000), (dec (-269195763729753) 50000000000000)).
Definition lc_chain12 : chain_def :=
  ChainDef "D1232" [Propagator (dec 3 2) [It 1; It 2] "D1232_BW"]
    [Vertex "helicity" [Sub [It 1; It 2]; It 3] (Some "BlattWeisskopf_b_decay_l1") (Some [(-1); 0]) None None None;
     Vertex "parity" [It 1; It 2] (Some "BlattWeisskopf_resonance_l1") (Some [1; 0]) (Some "+") None None]
    [Sub [It 1; It 2]; It 3] ((dec (-6778191) 2000000), (dec 610361 400000)).
Definition lc_chain13 : chain_def :=
  ChainDef "D1232" [Propagator (dec 3 2) [It 1; It 2] "D1232_BW"]
    [Vertex "helicity" [Sub [It 1; It 2]; It 3] (Some "BlattWeisskopf_b_decay_l1") (Some [1; 0]) None None None;
     Vertex "parity" [It 1; It 2] (Some "BlattWeisskopf_resonance_l1") (Some [1; 0]) (Some "+") None None]
    [Sub [It 1; It 2]; It 3] ((dec (-12987193) 2000000), (dec 283021 125000)).
Definition lc_chain14 : chain_def :=
  ChainDef "D1600" [Propagator (dec 3 2) [It 1; It 2] "D1600_BW"]
    [Vertex "helicity" [Sub [It 1; It 2]; It 3] (Some "BlattWeisskopf_b_decay_l1") (Some [(-1); 0]) None None None;
     Vertex "parity" [It 1; It 2] (Some "BlattWeisskopf_resonance_l1") (Some [1; 0]) (Some "+") None None]
    [Sub [It 1; It 2]; It 3] ((dec 2280317 400000), (dec (-3125511) 2000000)).
Definition lc_chain15 : chain_def :=
  ChainDef "D1600" [Propagator (dec 3 2) [It 1; It 2] "D1600_BW"]
    [Vertex "helicity" [Sub [It 1; It 2]; It 3] (Some "BlattWeisskopf_b_decay_l1") (Some [1; 0]) None None None;
     Vertex "parity" [It 1; It 2] (Some "BlattWeisskopf_resonance_l1") (Some [1; 0]) (Some "+") None None]
    [Sub [It 1; It 2]; It 3] ((dec 6729211 2000000), (dec (-1002383) 2000000)).
Definition lc_chain16 : chain_def :=
  ChainDef "D1700" [Propagator (dec 3 2) [It 1; It 2] "D1700_BW"]
    [Vertex "helicity" [Sub [It 1; It 2]; It 3] (Some "BlattWeisskopf_b_decay_l1") (Some [(-1); 0]) None None None;
     Vertex "parity" [It 1; It 2] (Some "BlattWeisskopf_resonance_l2") (Some [1; 0]) (Some "-") None None]
    [Sub [It 1; It 2]; It 3] ((dec (-259457) 50000), (dec (-179359) 250000)).
Definition lc_chain17 : chain_def :=
  ChainDef "D1700" [Propagator (dec 3 2) [It 1; It 2] "D1700_BW"]
    [Vertex "helicity" [Sub [It 1; It 2]; It 3] (Some "BlattWeisskopf_b_decay_l1") (Some [1; 0]) None None None;
     Vertex "parity" [It 1; It 2] (Some "BlattWeisskopf_resonance_l2") (Some [1; 0]) (Some "-") None None]
    [Sub [It 1; It 2]; It 3] ((dec (-6437051) 1000000), (dec (-210557) 200000)).
Definition lc_chain18 : chain_def :=
  ChainDef "K700" [Propagator (dec 0 1) [It 2; It 3] "K700_BuggBW"]
    [Vertex "helicity" [Sub [It 2; It 3]; It 1] (Some "") (Some [0; 1]) None None None;
     Vertex "parity" [It 2; It 3] (Some "") (Some [0; 0]) (Some "+") None None]
    [Sub [It 2; It 3]; It 1] ((dec 17227 250000), (dec 630361 250000)).
Definition lc_chain19 : chain_def :=
  ChainDef "K700" [Propagator (dec 0 1) [It 2; It 3] "K700_BuggBW"]
    [Vertex "helicity" [Sub [It 2; It 3]; It 1] (Some "") (Some [0; (-1)]) None None None;
     Vertex "parity" [It 2; It 3] (Some "") (Some [0; 0]) (Some "+") None None]
    [Sub [It 2; It 3]; It 1] ((dec (-268563) 100000), (dec 3849 100000)).
Definition lc_chain20 : chain_def :=
  ChainDef "K892" [Propagator (dec 1 1) [It 2; It 3] "K892_BW"]
    [Vertex "helicity" [Sub [It 2; It 3]; It 1] (Some "") (Some [(-2); (-1)]) None None None;
     Vertex "parity" [It 2; It 3] (Some "BlattWeisskopf_resonance_l1") (Some [0; 0]) (Some "+") None None]
    [Sub [It 2; It 3]; It 1] ((dec 1721390034848291 2500000000000000), (dec (-1480634972596217) 2500000000000000)).
Definition lc_chain21 : chain_def :=
  ChainDef "K892" [Propagator (dec 1 1) [It 2; It 3] "K892_BW"]
    [Vertex "helicity" [Sub [It 2; It 3]; It 1] (Some "") (Some [0; 1]) None None None;
     Vertex "parity" [It 2; It 3] (Some "BlattWeisskopf_resonance_l1") (Some [0; 0]) (Some "+") None None]
    [Sub [It 2; It 3]; It 1] ((dec (-839634722979781) 2000000000000000), (dec (-2398905956940163) 1000000000000000)).
Definition lc_chain22 : chain_def :=
  ChainDef "K892" [Propagator (dec 1 1) [It 2; It 3] "K892_BW"]
    [Vertex "helicity" [Sub [It 2; It 3]; It 1] (Some "") (Some [0; (-1)]) None None None;
     Vertex "parity" [It 2; It 3] (Some "BlattWeisskopf_resonance_l1") (Some [0; 0]) (Some "+") None None]
    [Sub [It 2; It 3]; It 1] ((dec 2886751345948129 5000000000000000), (dec 0 1)).
Definition lc_chain23 : chain_def :=
  ChainDef "K892" [Propagator (dec 1 1) [It 2; It 3] "K892_BW"]
    [Vertex "helicity" [Sub [It 2; It 3]; It 1] (Some "") (Some [2; 1]) None None None;
     Vertex "parity" [It 2; It 3] (Some "BlattWeisskopf_resonance_l1") (Some [0; 0]) (Some "+") None None]
    [Sub [It 2; It 3]; It 1] ((dec (-3627429387489347) 2000000000000000), (dec (-2376813937564757) 1250000000000000)).
Definition lc_chain24 : chain_def :=
  ChainDef "K1430" [Propagator (dec 0 1) [It 2; It 3] "K1430_BuggBW"]
    [Vertex "helicity" [Sub [It 2; It 3]; It 1] (Some "") (Some [0; 1]) None None None;
     Vertex "parity" [It 2; It 3] (Some "") (Some [0; 0]) (Some "+") None None]
    [Sub [It 2; It 3]; It 1] ((dec (-167879) 25000), (dec 10479411 1000000)).
Definition lc_chain25 : chain_def :=
  ChainDef "K1430" [Propagator (dec 0 1) [It 2; It 3] "K1430_BuggBW"]
    [Vertex "helicity" [Sub [It 2; It 3]; It 1] (Some "") (Some [0; (-1)]) None None None;
     Vertex "parity" [It 2; It 3] (Some "") (Some [0; 0]) (Some "+") None None]
    [Sub [It 2; It 3]; It 1] ((dec 109877 500000), (dec 2185299 250000)).
Definition lc_chains : list chain_def :=
  [lc_chain0; lc_chain1; lc_chain2; lc_chain3; lc_chain4; lc_chain5; lc_chain6; lc_chain7; lc_chain8; lc_chain9; lc_chain10; lc_chain11; lc_chain12; lc_chain13; lc_chain14; lc_chain15; lc_chain16; lc_chain17; lc_chain18; lc_chain19; lc_chain20; lc_chain21; lc_chain22; lc_chain23; lc_chain24; lc_chain25].
Definition lc_dist : distribution := Distribution lc_initial lc_final [Sub [It 3; It 1]; It 2] lc_chains.
Definition lc_functions : list func_def :=
  [FuncDef "L1405_Flatte" "MultichannelBreitWigner" [("mass", (dec 14051 10000))] (Some [[("gsq", (dec 23395150538434703 100000000000000000)); ("ma", (dec 469136023 500000000)); ("mb", (dec 493677 1000000)); ("l", (dec 0 1)); ("d", (dec 0 1))]; [("gsq", (dec 23395150538434703 100000000000000000)); ("ma", (dec 118937 100000)); ("mb", (dec 6978509 50000000)); ("l", (dec 0 1)); ("d", (dec 0 1))]]);
   FuncDef "L1690_BW" "BreitWigner" [("l", (dec 2 1)); ("mb", (dec 469136023 500000000)); ("d", (dec 3 2)); ("mass", (dec 169 100)); ("ma", (dec 493677 1000000)); ("width", (dec 7 100))] None;
   FuncDef "D1232_BW" "BreitWigner" [("l", (dec 1 1)); ("mb", (dec 6978509 50000000)); ("d", (dec 3 2)); ("mass", (dec 154 125)); ("ma", (dec 469136023 500000000)); ("width", (dec 117 1000))] None;
   FuncDef "L1520_BW" "BreitWigner" [("l", (dec 2 1)); ("mb", (dec 469136023 500000000)); ("d", (dec 3 2)); ("mass", (dec 1518467 1000000)); ("ma", (dec 493677 1000000)); ("width", (dec 3039 200000))] None;
   FuncDef "L1600_BW" "BreitWigner" [("l", (dec 1 1)); ("mb", (dec 469136023 500000000)); ("d", (dec 3 2)); ("mass", (dec 163 100)); ("ma", (dec 493677 1000000)); ("width", (dec 1 4))] None;
   FuncDef "L2000_BW" "BreitWigner" [("l", (dec 0 1)); ("mb", (dec 469136023 500000000)); ("d", (dec 3 2)); ("mass", (dec 198819 100000)); ("ma", (dec 493677 1000000)); ("width", (dec 8963 50000))] None;
   FuncDef "D1600_BW" "BreitWigner" [("l", (dec 1 1)); ("mb", (dec 6978509 50000000)); ("d", (dec 3 2)); ("mass", (dec 41 25)); ("ma", (dec 469136023 500000000)); ("width", (dec 3 10))] None;
   FuncDef "D1700_BW" "BreitWigner" [("l", (dec 2 1)); ("mb", (dec 6978509 50000000)); ("d", (dec 3 2)); ("mass", (dec 169 100)); ("ma", (dec 469136023 500000000)); ("width", (dec 19 50))] None;
   FuncDef "K892_BW" "BreitWigner" [("l", (dec 1 1)); ("mb", (dec 493677 1000000)); ("d", (dec 3 2)); ("mass", (dec 1791 2000)); ("ma", (dec 6978509 50000000)); ("width", (dec 9459999999999999 200000000000000000))] None;
   FuncDef "K700_BuggBW" "BreitWignerWidthExpLikeBugg" [("slope", (dec 47053 50000)); ("mass", (dec 103 125)); ("width", (dec 239 500))] None;
   FuncDef "K1430_BuggBW" "BreitWignerWidthExpLikeBugg" [("slope", (dec 20981 1000000)); ("mass", (dec 11 8)); ("width", (dec 19 100))] None;
   FuncDef "L1670_BW" "BreitWigner" [("l", (dec 0 1)); ("mb", (dec 469136023 500000000)); ("d", (dec 3 2)); ("mass", (dec 167 100)); ("ma", (dec 493677 1000000)); ("width", (dec 3 100))] None;
   FuncDef "BlattWeisskopf_resonance_l1" "BlattWeisskopf" [("radius", (dec 3 2)); ("l", (dec 1 1))] None;
   FuncDef "BlattWeisskopf_resonance_l2" "BlattWeisskopf" [("radius", (dec 3 2)); ("l", (dec 2 1))] None;
   FuncDef "BlattWeisskopf_b_decay_l1" "BlattWeisskopf" [("radius", (dec 5 1)); ("l", (dec 1 1))] None].
Definition lc_model : model_def := ModelDef [lc_dist] lc_functions.
