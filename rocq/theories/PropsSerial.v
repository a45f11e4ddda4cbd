(** Properties C50-C59 and C70-C74: io/serialization.
    Specification vocabulary: SpecSerial.v and SpecSerialShapes.v *)
From Coq Require Import String ZArith QArith Qcanon List Bool Reals Sorted Permutation.
From Coquelicot Require Import Complex.
From Verif Require Import Prelude Spin Decay Expr Angles CExpr Sums Wigner CG Builder Dynamics SpecDPD SpecBuilder SpecDynamics
  SerFormat SerDynamics SerAmplitude SpecSerial SpecSerialShapes SerDecay SerProofs SerDyn SerTotal SerFormal SerShapes SerExamples LcModel LcProofs.
Import ListNotations.
Local Open Scope string_scope.
Local Open Scope Z_scope.
Local Open Scope list_scope.

(** ** C50 *)
Theorem C50_function (name : string) (m : model_def) (f : func_def) :
  get_function_definition name m = Ok f <->
  exists l1 l2, md_functions m = l1 ++ f :: l2 /\ fd_name f = name /\ forall g, In g l1 -> fd_name g <> name.
Proof. exact (c50_function name m f). Qed.
Print Assumptions C50_function.

Theorem C50_function_missing (name : string) (m : model_def) (e : exn) :
  get_function_definition name m = Err e <-> e = KeyError /\ forall g, In g (md_functions m) -> fd_name g <> name.
Proof. exact (c50_function_missing name m e). Qed.
Print Assumptions C50_function_missing.

Theorem C50_distribution (m : model_def) :
  (forall d, fst (get_distribution_def m) = Ok d <-> exists rest, md_distributions m = d :: rest) /\
  (forall e, fst (get_distribution_def m) = Err e <-> e = ValueError /\ md_distributions m = []) /\
  (snd (get_distribution_def m) = true <-> exists d1 d2 rest, md_distributions m = d1 :: d2 :: rest).
Proof. exact (c50_distribution m). Qed.
Print Assumptions C50_distribution.
Example C50_example : function_of sx_model "K_BW" (sx_bw "K_BW" 1 2 1 0 1 3) /\ length (md_functions sx_model) = 5%nat.
Proof. split; [|reflexivity]. destruct (sx_complete sx_C) as [C _]; [cbn; auto|]. fn (firstn 2 sx_functions) (skipn 3 sx_functions). Qed.

(** ** C51 *)
Theorem C51_decay (f : latex_arg) (m : model_def) (d : distribution) (s : Z -> state) (r : Z)
  (D : describes_states (apply_latex f) m d s r) (T : forall c, In c (di_chains d) -> three_body_chain c) :
  exists X, to_decay m f = Ok X /\ std_decay X s /\
  d_states X = (0, s 0) :: map (fun x => (sd_index x, s (sd_index x))) (di_final d) /\
  StronglySorted clt (d_chains X) /\ NoDup (d_chains X) /\
  (forall ch, In ch (d_chains X) <-> exists c spin i j k vp vd, In c (di_chains d) /\ three_body c spin i j k vp vd /\
     ch = described_chain (apply_latex f) s c spin i j k).
Proof. exact (c51_decay f m d s r D T). Qed.
Print Assumptions C51_decay.
Example C51_example : describes_states (apply_latex None) sx_model (sx_dist sx_chains) sx_s 1 /\
  (forall c, In c (di_chains (sx_dist sx_chains)) -> three_body_chain c) /\
  exists X, to_decay sx_model None = Ok X /\ length (d_chains X) = 3%nat.
Proof.
  split; [apply sx_describes|]. split.
  - intros c I. destruct (sx_contents c I) as (vp & vd & T & _). do 6 eexists. exact T.
  - eexists. split; [vm_compute; reflexivity|]. reflexivity.
Qed.

Theorem C51_order m m' d d' s r r' f :
  describes_states (apply_latex f) m d s r -> describes_states (apply_latex f) m' d' s r' ->
  (forall c, In c (di_chains d) -> three_body_chain c) -> di_final d = di_final d' ->
  (forall c, In c (di_chains d) <-> In c (di_chains d')) -> to_decay m f = to_decay m' f.
Proof. exact (c51_order m m' d d' s r r' f). Qed.
Print Assumptions C51_order.

(** ** C52: the helicity of the initial state is ignored. *)
Theorem C52_parent_helicity_refuted :
  ~ (forall m d s r tl x w dyn cl M ev k l,
  helicity_definition m d s r tl None x w dyn -> SerAmplitude.formulate m cl tl None = Ok M ->
  helicity_tuple s l -> In k [1; 2; 3] ->
  (forall c, In c (di_chains d) -> ct_k (x c) = k -> at4 l 0 <> ct_r (x c) - at4 l k) ->
  amp_value ev M k l = RtoC 0).
Proof. exact c52_refuted. Qed.
Print Assumptions C52_parent_helicity_refuted.

Theorem C52_parent_helicity_ignored_refuted (m : model_def) (d : distribution) (s : Z -> state) (r : Z)
  (tl : string -> string) (additional : option (dict string prop_builder))
  (x : chain_def -> content) (w : chain_def -> symbol) (dyn : chain_def -> defexpr)
  (H : helicity_definition m d s r tl additional x w dyn) (cl : bool) (M : model)
  (F : SerAmplitude.formulate m cl tl additional = Ok M) ev k l l' :
  helicity_tuple s l -> helicity_tuple s l' -> In k [1; 2; 3] ->
  (forall n, In n [1; 2; 3] -> at4 l n = at4 l' n) -> amp_value ev M k l = amp_value ev M k l'.
Proof. exact (c52_parent m d s r tl additional x w dyn H cl M F ev k l l'). Qed.
Print Assumptions C52_parent_helicity_ignored_refuted.

(** What remains: the helicities of the final state are those of a chain definition, or flipped. *)
Theorem C52_final_state_helicities_partial (m : model_def) (d : distribution) (s : Z -> state) (r : Z)
  (tl : string -> string) (additional : option (dict string prop_builder))
  (x : chain_def -> content) (w : chain_def -> symbol) (dyn : chain_def -> defexpr)
  (H : helicity_definition m d s r tl additional x w dyn) (cl : bool) (M : model)
  (F : SerAmplitude.formulate m cl tl additional = Ok M) ev k l :
  helicity_tuple s l -> In k [1; 2; 3] -> amp_value ev M k l <> RtoC 0 ->
  exists c, In c (di_chains d) /\ ct_k (x c) = k /\
    (at4 l k = ct_lk (x c) \/ (ct_fp (x c) <> 0 /\ ct_r (x c) = 0 /\ at4 l k = - ct_lk (x c))) /\
    ((at4 l (ct_i (x c)) = ct_li (x c) /\ at4 l (ct_j (x c)) = ct_lj (x c)) \/
     (ct_fd (x c) <> 0 /\ at4 l (ct_i (x c)) = - ct_li (x c) /\ at4 l (ct_j (x c)) = - ct_lj (x c))) /\
    Z.abs (ct_r (x c)) <= ct_spin (x c) /\ Z.abs (ct_li (x c) - ct_lj (x c)) <= ct_spin (x c).
Proof. exact (c52_helicities m d s r tl additional x w dyn H cl M F ev k l). Qed.
Print Assumptions C52_final_state_helicities_partial.
Example C52_example : helicity_definition sx_model (sx_dist sx_chains) sx_s 1 sx_tl None sx_x sx_w sx_dyn /\
  exists M, SerAmplitude.formulate sx_model true sx_tl None = Ok M.
Proof. split; [apply sx_definition|apply sx_formulate]. Qed.

(** At the right helicity of the initial state, and without terms with flipped helicities of different sign, the
    amplitudes are those of the helicity formalism; elsewhere the formalism has zero. *)
Theorem C52_formalism_partial (m : model_def) (d : distribution) (s : Z -> state) (r : Z)
  (tl : string -> string) (additional : option (dict string prop_builder))
  (x : chain_def -> content) (w : chain_def -> symbol) (dyn : chain_def -> defexpr)
  (H : helicity_definition m d s r tl additional x w dyn) (cl : bool) (M : model)
  (F : SerAmplitude.formulate m cl tl additional = Ok M) ev k l :
  helicity_tuple s l -> In k [1; 2; 3] ->
  (forall c, In c (di_chains d) -> ct_k (x c) = k -> In (ct_r (x c)) (helicities (ct_spin (x c))) /\
     at4 l 0 = ct_r (x c) - at4 l k /\ (ct_fd (x c) = 0 \/ ct_li (x c) = ct_lj (x c))) ->
  amp_value ev M k l = Csum (chains_in x d k) (formalism_contribution x w dyn ev l).
Proof. exact (c52_formalism m d s r tl additional x w dyn H cl M F ev k l). Qed.
Print Assumptions C52_formalism_partial.

Theorem C52_formalism_elsewhere_partial x wt dn th l :
  (ct_fp x = 0 \/ ct_r x = 0) -> at4 l 0 <> ct_r x - at4 l (ct_k x) ->
  helicity_formalism_term x wt dn th l = RtoC 0.
Proof. exact (formalism_elsewhere x wt dn th l). Qed.
Print Assumptions C52_formalism_elsewhere_partial.

(** ** C53: at the right helicity of the initial state the flipped term has the Wigner function of the helicities that
    have not been flipped. *)
Theorem C53_parity_vertices_refuted :
  ~ (forall m d s r tl x w dyn cl M ev k l,
  helicity_definition m d s r tl None x w dyn -> SerAmplitude.formulate m cl tl None = Ok M ->
  helicity_tuple s l -> In k [1; 2; 3] ->
  (forall c, In c (di_chains d) -> In (ct_r (x c)) (helicities (ct_spin (x c))) /\ at4 l 0 = ct_r (x c) - at4 l k) ->
  amp_value ev M k l = Csum (chains_in x d k) (formalism_contribution x w dyn ev l)).
Proof. exact c53_refuted. Qed.
Print Assumptions C53_parity_vertices_refuted.

(** The actual value of the flipped term; it is that of the formalism if the helicities of the decay products are equal
    (C52_formalism_partial). *)
Theorem C53_flipped_term_partial x wt dn th l :
  (ct_li x <> 0 \/ ct_lj x <> 0) ->
  at4 l (ct_k x) = ct_lk x -> (ct_fp x = 0 \/ ct_r x <> 0 \/ ct_lk x <> 0) ->
  at4 l (ct_i x) = - ct_li x -> at4 l (ct_j x) = - ct_lj x ->
  serial_term x wt dn th l = (wt * RtoC (IZR (ct_fd x)) * RtoC (wigner_d (ct_spin x) (ct_r x) (ct_li x - ct_lj x) th) * dn)%C.
Proof. exact (term_flipped x wt dn th l). Qed.
Print Assumptions C53_flipped_term_partial.
Example C53_example : let x := sx_x sx_A in ct_li x <> 0 /\ ct_fp x = 0 /\ ct_fd x = -1.
Proof. cbn. split; [discriminate|]. split; reflexivity. Qed.

(** ** C54: no definition with such a vertex can be formulated. *)
Theorem C54_ls_refuted m d s r tl additional cl c v i :
  describes_states (fun n => n) m d s r ->
  In c (di_chains d) -> In v (cd_vertices c) -> v_type v = "ls" -> In (It i) (v_node v) ->
  forall M, SerAmplitude.formulate m cl tl additional <> Ok M.
Proof. exact (c54 m d s r tl additional cl c v i). Qed.
Print Assumptions C54_ls_refuted.
Example C54_example : describes_states (fun n => n) sl_model (sx_dist [sl_chain]) sx_s 1 /\
  (forall c, In c [sl_chain] -> three_body_chain c /\ complete_chain sl_model c) /\
  (forall v, In v (cd_vertices sl_chain) -> v_type v = "ls" /\ exists i, In (It i) (v_node v)) /\
  forall cl, SerAmplitude.formulate sl_model cl sx_tl None = Err TypeError.
Proof.
  split; [apply sx_describes|]. split; [exact sl_three_body|]. split; [|exact sl_error].
  intros v [<-|[<-|[]]]; (split; [reflexivity|]); [exists 3|exists 1]; cbn; auto.
Qed.

(** ** C55: one radius symbol for all BreitWigner functions *)
Theorem C55_own_values_refuted :
  ~ (forall m d s r tl x M c p f v,
  describes_states (fun n => n) m d s r -> (forall c, In c (di_chains d) -> has_content c (x c) /\ complete_chain m c) ->
  SerAmplitude.formulate m false tl None = Ok M ->
  In c (di_chains d) -> In p (cd_propagators c) -> function_of m (pr_parametrization p) f ->
  fd_type f = "BreitWigner" -> dget "d" (fd_numbers f) = Some v ->
  dget (KSym radius_sym) (m_params M) = Some (real_val v)).
Proof. exact c55_refuted. Qed.
Print Assumptions C55_own_values_refuted.

(** ** C56: one weight symbol for chains of equal resonance name and helicities in different subsystems *)
Theorem C56_own_weight_refuted :
  ~ (forall m d s r tl x M c,
  describes_states (fun n => n) m d s r -> (forall c, In c (di_chains d) -> has_content c (x c) /\ complete_chain m c) ->
  SerAmplitude.formulate m false tl None = Ok M -> In c (di_chains d) ->
  dget (KSym (weight_sym tl c (x c))) (m_params M) = Some (cd_weight c)).
Proof. exact c56_refuted. Qed.
Print Assumptions C56_own_weight_refuted.

(** What remains, for C55 and C56: masses are those of the states; each other parameter has the value given by the last
    chain that has it, and hence its own value if all chains with this symbol agree. *)
Theorem C55_last_chain_partial (m : model_def) (d : distribution) (s : Z -> state) (r : Z)
  (tl : string -> string) (additional : option (dict string prop_builder))
  (x : chain_def -> content) (w : chain_def -> symbol) (dyn : chain_def -> defexpr)
  (H : helicity_definition m d s r tl additional x w dyn) (cl : bool) (M : model)
  (F : SerAmplitude.formulate m cl tl additional = Ok M) y v :
  dget y (m_params M) = Some v <->
    (exists n, In n [0; 1; 2; 3] /\ y = mass_key n /\ v = real_val (p_mass (s n))) \/
    ((forall n, In n [0; 1; 2; 3] -> y <> mass_key n) /\
     exists l1 c l2, di_chains d = l1 ++ c :: l2 /\ own_parameter (w c) (dyn c) c y v /\
       forall c' v', In c' l2 -> ~ own_parameter (w c') (dyn c') c' y v').
Proof. exact (serial_parameters m d s r tl additional x w dyn H cl M F y v). Qed.
Print Assumptions C55_last_chain_partial.
Example C55_example : helicity_definition sx_model (sx_dist sx_chains) sx_s 1 sx_tl None sx_x sx_w sx_dyn /\
  (exists M, SerAmplitude.formulate sx_model true sx_tl None = Ok M) /\
  length (di_chains (sx_dist sx_chains)) = 3%nat.
Proof. split; [apply sx_definition|]. split; [apply sx_formulate|reflexivity]. Qed.

Theorem C55_agreement_partial (m : model_def) (d : distribution) (s : Z -> state) (r : Z)
  (tl : string -> string) (additional : option (dict string prop_builder))
  (x : chain_def -> content) (w : chain_def -> symbol) (dyn : chain_def -> defexpr)
  (H : helicity_definition m d s r tl additional x w dyn) (cl : bool) (M : model)
  (F : SerAmplitude.formulate m cl tl additional = Ok M) y v :
  (forall n, In n [0; 1; 2; 3] -> y <> mass_key n) ->
    (exists c, In c (di_chains d) /\ own_parameter (w c) (dyn c) c y v) ->
    (forall c v', In c (di_chains d) -> own_parameter (w c) (dyn c) c y v' -> v' = v) ->
    dget y (m_params M) = Some v.
Proof. exact (serial_parameters_agree m d s r tl additional x w dyn H cl M F y v). Qed.
Print Assumptions C55_agreement_partial.

Theorem C56_agreement_partial (m : model_def) (d : distribution) (s : Z -> state) (r : Z)
  (tl : string -> string) (additional : option (dict string prop_builder))
  (x : chain_def -> content) (w : chain_def -> symbol) (dyn : chain_def -> defexpr)
  (H : helicity_definition m d s r tl additional x w dyn) (cl : bool) (M : model)
  (F : SerAmplitude.formulate m cl tl additional = Ok M) c :
  In c (di_chains d) ->
  (forall n, In n [0; 1; 2; 3] -> KSym (w c) <> mass_key n) ->
  (forall c', In c' (di_chains d) -> ~ In (KSym (w c)) (dkeys (de_params (dyn c')))) ->
  (forall c', In c' (di_chains d) -> w c' = w c -> cd_weight c' = cd_weight c) ->
  dget (KSym (w c)) (m_params M) = Some (cd_weight c).
Proof. exact (serial_weight m d s r tl additional x w dyn H cl M F c). Qed.
Print Assumptions C56_agreement_partial.

(** ** C57: the form factor of the production vertex has the mass of the initial state as squared mass and a squared mass as mass. *)
Theorem C57_production_refuted :
  ~ (forall m d s r v e k i j t ev ev' h, describes_states (fun n => n) m d s r ->
  with_pair k [It i; It j] (v_node v) -> Permutation [i; j; k] [1; 2; 3] ->
  formulate_form_factor v m = Ok e -> (0 < t)%R -> change_of_units t ev ev' ->
  ceval ev' h (de_expr e) = ceval ev h (de_expr e)).
Proof. exact c57_refuted. Qed.
Print Assumptions C57_production_refuted.

(** What remains: the form factor of the decay vertex. *)
Theorem C57_decay_partial m v e i j k t ev ev' h :
  v_node v = [It i; It j] -> Permutation [i; j; k] [1; 2; 3] ->
  formulate_form_factor v m = Ok e -> (0 < t)%R -> change_of_units t ev ev' ->
  ceval ev' h (de_expr e) = ceval ev h (de_expr e).
Proof. exact (c57_decay m v e i j k t ev ev' h). Qed.
Print Assumptions C57_decay_partial.
Example C57_example : v_node (nth 1 (cd_vertices sx_A) sf_vertex) = [It 1; It 2] /\
  exists e, formulate_form_factor (nth 1 (cd_vertices sx_A) sf_vertex) sx_model = Ok e /\ de_params e <> [].
Proof. split; [reflexivity|]. eexists. split; [reflexivity|discriminate]. Qed.

Theorem C57_decay_value_partial m v name f vl vr i j k ev h :
  v_formfactor v = Some name -> name <> "" -> function_of m name f ->
  fd_type f = "BlattWeisskopf" -> dget "l" (fd_numbers f) = Some vl -> dget "radius" (fd_numbers f) = Some vr ->
  v_node v = [It i; It j] -> Permutation [i; j; k] [1; 2; 3] ->
  exists e, formulate_form_factor v m = Ok e /\
    ceval ev h (de_expr e) = form_factor (int_of vl) (e_sym ev (sigma_sym k)) (e_sym ev (mass_sym i)) (e_sym ev (mass_sym j)) (e_sym ev radius_sym) /\
    de_params e = [(KSym radius_sym, real_val vr)].
Proof. exact (c57_decay_value m v name f vl vr i j k ev h). Qed.
Print Assumptions C57_decay_value_partial.

Theorem C57_production_value_partial m d s r v name f vl vr i j k ev h :
  describes_states (fun n => n) m d s r ->
  v_formfactor v = Some name -> name <> "" -> function_of m name f ->
  fd_type f = "BlattWeisskopf" -> dget "l" (fd_numbers f) = Some vl -> dget "radius" (fd_numbers f) = Some vr ->
  with_pair k [It i; It j] (v_node v) -> Permutation [i; j; k] [1; 2; 3] ->
  exists e, formulate_form_factor v m = Ok e /\
    ceval ev h (de_expr e) = form_factor (int_of vl) (e_sym ev (mass_sym 0)) (e_sym ev (sigma_sym k)) (e_sym ev (mass_sym k))
      (e_sym ev (named "R" (p_latex (s 0)))) /\
    de_params e = [(KSym (named "R" (p_latex (s 0))), real_val vr)].
Proof. exact (c57_production_value m d s r v name f vl vr i j k ev h). Qed.
Print Assumptions C57_production_value_partial.

(** ** C58 *)
Theorem C58_helicity ev h a b a0 b0 :
  ceval ev h (helicity_recoupling a b a0 b0) =
  RtoC (if (heval h a =? heval h a0) && (heval h b =? heval h b0) then 1 else 0).
Proof. exact (c58_helicity ev h a b a0 b0). Qed.
Print Assumptions C58_helicity.

Theorem C58_parity ev h a b a0 b0 f :
  ceval ev h (parity_recoupling a b a0 b0 f) =
  RtoC (coupling_of f (heval h a) (heval h b) (heval h a0) (heval h b0)).
Proof. exact (c58_parity ev h a b a0 b0 f). Qed.
Print Assumptions C58_parity.

Theorem C58_parity_symmetry ev h a b a0 b0 f :
  f = 1 \/ f = -1 ->
  ceval ev h (parity_recoupling (HNeg a) (HNeg b) a0 b0 f) = (RtoC (IZR f) * ceval ev h (parity_recoupling a b a0 b0 f))%C.
Proof. exact (c58_parity_symmetry ev h a b a0 b0 f). Qed.
Print Assumptions C58_parity_symmetry.

Theorem C58_ls ev h la lb l s ja jb j :
  ceval ev h (ls_recoupling la lb l s ja jb j) = RtoC (ls_factor j (LS l s) ja (heval h la) jb (heval h lb)).
Proof. exact (c58_ls ev h la lb l s ja jb j). Qed.
Print Assumptions C58_ls.

Theorem C58_sign (t : string) :
  (sign_to_value "+" = Ok 1 /\ sign_to_value "-" = Ok (-1) /\ sign_to_value "" = Ok 0) /\
  (forall f, sign_to_value t = Ok f -> (f = 1 /\ strip t = "+") \/ (f = -1 /\ strip t = "-") \/ (f = 0 /\ strip t = "")) /\
  (forall e, sign_to_value t = Err e <-> e = NotImplementedErr /\ ~ In (strip t) ["+"; "-"; ""]).
Proof. exact (c58_sign t). Qed.
Print Assumptions C58_sign.
Example C58_example : sign_to_value " - " = Ok (-1) /\ sign_to_value "x" = Err NotImplementedErr.
Proof. split; reflexivity. Qed.

(** ** C59 *)
Theorem C59_spectator (t : list item) (k : Z) :
  get_spectator_id t = Ok k <-> In (It k) t /\ forall i, In (It i) t -> i = k.
Proof. exact (c59_spectator t k). Qed.
Print Assumptions C59_spectator.

Theorem C59_spectator_error (t : list item) (e : exn) :
  get_spectator_id t = Err e <-> e = ValueError /\ ~ exists k, In (It k) t /\ forall i, In (It i) t -> i = k.
Proof. exact (c59_spectator_error t e). Qed.
Print Assumptions C59_spectator_error.

Theorem C59_mass_symbol (i : Z) :
  SerDynamics.to_mass_symbol (It i) = Ok (Sym ("m" ++ str_of_Z i) ANonneg).
Proof. exact (c59_mass_symbol i). Qed.
Print Assumptions C59_mass_symbol.

Theorem C59_mass_symbol_pair (i j k : Z) :
  Permutation [i; j; k] [1; 2; 3] ->
  SerDynamics.to_mass_symbol (Sub [It i; It j]) = Ok (Sym ("sigma" ++ str_of_Z k) ANonneg).
Proof. exact (c59_mass_symbol_pair i j k). Qed.
Print Assumptions C59_mass_symbol_pair.

Theorem C59_mandelstam (i j k : Z) :
  Permutation [i; j; k] [1; 2; 3] ->
  SerDynamics.to_mandelstam_symbol [It i; It j] = Ok (Sym ("sigma" ++ str_of_Z k) ANonneg).
Proof. exact (c59_mandelstam i j k). Qed.
Print Assumptions C59_mandelstam.

Theorem C59_mandelstam_production (n : list item) :
  (exists l, In (Sub l) n) ->
  SerDynamics.to_mandelstam_symbol n = Ok (Sym "m0" ANonneg).
Proof. exact (c59_mandelstam_production n). Qed.
Print Assumptions C59_mandelstam_production.
Example C59_example : get_spectator_id [Sub [It 3; It 1]; It 2] = Ok 2 /\ get_spectator_id [It 1; It 2] = Err ValueError /\
  to_mandelstam_symbol [It 3; It 1] = Ok (Sym "sigma2" ANonneg).
Proof. repeat split; reflexivity. Qed.

(** ** C70 *)
Theorem C70_amplitudes (m : model_def) (d : distribution) (s : Z -> state) (r : Z)
  (tl : string -> string) (additional : option (dict string prop_builder))
  (x : chain_def -> content) (w : chain_def -> symbol) (dyn : chain_def -> defexpr)
  (H : helicity_definition m d s r tl additional x w dyn) (cl : bool) (M : model)
  (F : SerAmplitude.formulate m cl tl additional = Ok M) ev k l :
  helicity_tuple s l -> In k [1; 2; 3] ->
    amp_value ev M k l = Csum (chains_in x d k) (chain_contribution x w dyn ev l).
Proof. exact (serial_amplitude_value m d s r tl additional x w dyn H cl M F ev k l). Qed.
Print Assumptions C70_amplitudes.
Example C70_example : helicity_definition sx_model (sx_dist sx_chains) sx_s 1 sx_tl None sx_x sx_w sx_dyn /\
  exists M, SerAmplitude.formulate sx_model true sx_tl None = Ok M.
Proof. split; [apply sx_definition|apply sx_formulate]. Qed.

(** The file [docs/Lc2ppiK.json] of the repository, with the lineshape of [docs/serialization.ipynb] *)
Example C70_Lc2ppiK : helicity_definition lc_model lc_dist lc_s 2 lc_tl lc_builders lc_x lc_w lc_dyn /\
  length (di_chains lc_dist) = 26%nat /\ exists M, SerAmplitude.formulate lc_model true lc_tl lc_builders = Ok M.
Proof. split; [exact lc_definition|]. split; [reflexivity|apply lc_formulate]. Qed.

Theorem C70_keys (m : model_def) (d : distribution) (s : Z -> state) (r : Z)
  (tl : string -> string) (additional : option (dict string prop_builder))
  (x : chain_def -> content) (w : chain_def -> symbol) (dyn : chain_def -> defexpr)
  (H : helicity_definition m d s r tl additional x w dyn) (cl : bool) (M : model)
  (F : SerAmplitude.formulate m cl tl additional = Ok M) :
  NoDup (dkeys (m_amplitudes M)) /\
    forall y, In y (dkeys (m_amplitudes M)) <-> exists k l, y = (amp_name k, amp_index l) /\
      helicity_tuple s l /\ exists c, In c (di_chains d) /\ ct_k (x c) = k.
Proof. exact (serial_amplitude_keys m d s r tl additional x w dyn H cl M F). Qed.
Print Assumptions C70_keys.

(** ** C71 *)
Theorem C71_intensity (m : model_def) (d : distribution) (s : Z -> state) (r : Z)
  (tl : string -> string) (additional : option (dict string prop_builder))
  (x : chain_def -> content) (w : chain_def -> symbol) (dyn : chain_def -> defexpr)
  (H : helicity_definition m d s r tl additional x w dyn) (cl : bool) (M : model)
  (F : SerAmplitude.formulate m cl tl additional = Ok M) :
  exists ks, NoDup ks /\ StronglySorted Z.lt ks /\
    (forall k, In k ks <-> exists c, In c (di_chains d) /\ ct_k (x c) = k) /\
    forall ev, full_value ev M = RtoC (intensity_value s ks (amp_value ev M)
      (fun i k => Re (e_sym ev (zeta_symbol i k r)))).
Proof. exact (serial_intensity_value m d s r tl additional x w dyn H cl M F). Qed.
Print Assumptions C71_intensity.
Example C71_example : helicity_definition sx_model (sx_dist sx_chains) sx_s 1 sx_tl None sx_x sx_w sx_dyn /\
  exists M, SerAmplitude.formulate sx_model true sx_tl None = Ok M.
Proof. split; [apply sx_definition|apply sx_formulate]. Qed.

(** The order of the chains has no effect. *)
Theorem C71_order m m' d d' s r tl additional x w dyn cl cl' M M' :
  helicity_definition m d s r tl additional x w dyn -> helicity_definition m' d' s r tl additional x w dyn ->
  Permutation (di_chains d) (di_chains d') ->
  SerAmplitude.formulate m cl tl additional = Ok M -> SerAmplitude.formulate m' cl' tl additional = Ok M' ->
  (forall ev k l, helicity_tuple s l -> In k [1; 2; 3] -> amp_value ev M k l = amp_value ev M' k l) /\
  (forall ev, full_value ev M = full_value ev M').
Proof. exact (serial_order m m' d d' s r tl additional x w dyn cl cl' M M'). Qed.
Print Assumptions C71_order.

(** ** C72 *)
Theorem C72_total (m : model_def) (d : distribution) (s : Z -> state) (r : Z) (tl : string -> string)
  (D : describes_states (fun n => n) m d s r) x cl :
  (forall c, In c (di_chains d) -> has_content c (x c) /\ complete_chain m c) ->
  exists M, SerAmplitude.formulate m cl tl None = Ok M.
Proof. exact (serial_total m d s r tl D x cl). Qed.
Print Assumptions C72_total.
Example C72_example : describes_states (fun n => n) sx_model (sx_dist sx_chains) sx_s 1 /\
  forall c, In c (di_chains (sx_dist sx_chains)) -> has_content c (sx_x c) /\ complete_chain sx_model c.
Proof.
  split; [apply sx_describes|]. intros c I. split; [apply sx_contents; exact I|apply sx_complete; exact I].
Qed.

(** ** C73 *)
Theorem C73_closed (m : model_def) (d : distribution) (s : Z -> state) (r : Z)
  (tl : string -> string) (additional : option (dict string prop_builder))
  (x : chain_def -> content) (w : chain_def -> symbol) (dyn : chain_def -> defexpr)
  (H : helicity_definition m d s r tl additional x w dyn) (cl : bool) (M : model)
  (F : SerAmplitude.formulate m cl tl additional = Ok M) :
  (forall c, In c (di_chains d) -> closed_expression (dyn c)) ->
  (forall y, occurs_in_amplitudes M (OVar y) ->
     (exists v, dget (KSym y) (m_params M) = Some v) \/ exists k e, In k [1; 2; 3] /\ y = SpecSerial.sigma_sym k /\ dget y (m_invariants M) = Some e) /\
  (forall base idx, ~ occurs_in_amplitudes M (OIdx base idx)) /\
  (forall y, occurs_in_amplitudes M (OAngle y) \/ occurs_in_intensity M (OAngle y) ->
     exists e, dget y (m_variables M) = Some e) /\
  (forall base idx, occurs_in_intensity M (OIdx base idx) -> exists e, dget (base, idx) (m_amplitudes M) = Some e) /\
  (forall y, ~ occurs_in_intensity M (OVar y)) /\
  (forall y e, dget y (m_variables M) = Some e ->
     (exists c, In c (di_chains d) /\ formulate_scattering_angle (ct_i (x c)) (ct_j (x c)) = Ok (y, e)) \/
     (exists i k c, In i [0; 1; 2; 3] /\ In c (di_chains d) /\ k = ct_k (x c) /\ p_spin (s i) <> 0 /\
        formulate_zeta_angle i k r = Ok (y, e))).
Proof. exact (serial_closed m d s r tl additional x w dyn H cl M F). Qed.
Print Assumptions C73_closed.
Example C73_example : helicity_definition sx_model (sx_dist sx_chains) sx_s 1 sx_tl None sx_x sx_w sx_dyn /\
  (forall c, In c sx_chains -> closed_expression (sx_dyn c)) /\
  exists M, SerAmplitude.formulate sx_model true sx_tl None = Ok M.
Proof. split; [apply sx_definition|]. split; [apply sx_definition|apply sx_formulate]. Qed.
Example C73_Lc2ppiK : helicity_definition lc_model lc_dist lc_s 2 lc_tl lc_builders lc_x lc_w lc_dyn /\
  (forall c, In c lc_chains -> closed_expression (lc_dyn c)) /\
  exists M, SerAmplitude.formulate lc_model true lc_tl lc_builders = Ok M.
Proof. split; [exact lc_definition|]. split; [exact lc_closed|apply lc_formulate]. Qed.

(** ** C74 *)
Theorem C74_breit_wigner (m : model_def) (p : propagator) (a b k : Z) (name : string) (f : func_def)
  (N : pr_node p = [It a; It b]) (P : Permutation [a; b; k] [1; 2; 3]) (F : function_of m (pr_parametrization p) f) L vm vw va vb vd :
  dget "l" (fd_numbers f) = Some (Qc_of_Z L) -> dget "mass" (fd_numbers f) = Some vm -> dget "width" (fd_numbers f) = Some vw ->
  dget "ma" (fd_numbers f) = Some va -> dget "mb" (fd_numbers f) = Some vb -> dget "d" (fd_numbers f) = Some vd ->
  exists e, formulate_breit_wigner p name m = Ok e /\
    (forall ev h, ceval ev h (de_expr e) =
       bw_simple (e_sym ev (sigma_sym k)) (e_sym ev (named "m" name))
         (running_width two_body_phsp L (e_sym ev (sigma_sym k)) (e_sym ev (named "m" name)) (e_sym ev (named "\Gamma" name))
            (e_sym ev (mass_sym a)) (e_sym ev (mass_sym b)) (e_sym ev radius_sym))) /\
    (forall y v, dget y (de_params e) = Some v <->
       In (y, v) [(KSym (named "m" name), real_val vm); (KSym (named "\Gamma" name), real_val vw);
         (KSym (mass_sym a), real_val va); (KSym (mass_sym b), real_val vb); (KSym radius_sym, real_val vd)]).
Proof. exact (c74_breit_wigner m p a b k name f N P F L vm vw va vb vd). Qed.
Print Assumptions C74_breit_wigner.

Theorem C74_multichannel (m : model_def) (p : propagator) (a b k : Z) (name : string) (f : func_def)
  (N : pr_node p = [It a; It b]) (P : Permutation [a; b; k] [1; 2; 3]) (F : function_of m (pr_parametrization p) f) vm c0 rest L0 Ls :
  fd_type f = "MultichannelBreitWigner" ->
  dget "mass" (fd_numbers f) = Some vm -> fd_channels f = Some (c0 :: rest) -> rest <> [] -> has_numbers ["d"] c0 ->
  (forall c, In c (c0 :: rest) -> has_numbers ["ma"; "mb"; "gsq"] c) ->
  dget "l" c0 = Some (Qc_of_Z L0) -> Forall2 (fun c L => dget "l" c = Some (Qc_of_Z L)) rest Ls ->
  exists e, formulate_multichannel_breit_wigner p name m = Ok e /\
    (forall ev h, ceval ev h (de_expr e) =
       bw_simple (e_sym ev (sigma_sym k)) (e_sym ev (named "m" name))
         (channel_formula L0 (e_sym ev (sigma_sym k)) (e_sym ev (named "m" name)) (e_sym ev (named "\Gamma" name))
            (e_sym ev (mass_sym a)) (e_sym ev (mass_sym b)) (e_sym ev (named "R" name))
          + further_widths ev k name 2 Ls)%C) /\
    (not_a_channel name -> forall v, dget (KSym (named "m" name)) (de_params e) = Some v <-> v = real_val vm) /\
    (forall key y, In (key, y) [("gsq", named "\Gamma" name); ("ma", mass_sym a); ("mb", mass_sym b); ("d", named "R" name)] ->
       exists v, dget key c0 = Some v /\ dget (KSym y) (de_params e) = Some (real_val v)) /\
    (forall q c key y, nth_error rest q = Some c ->
       In (key, y) [("ma", channel_mass_sym "a" (2 + Z.of_nat q)); ("mb", channel_mass_sym "b" (2 + Z.of_nat q));
                    ("gsq", channel_width_sym name (2 + Z.of_nat q))] ->
       exists v, dget key c = Some v /\ dget (KSym y) (de_params e) = Some (real_val v)).
Proof. exact (c74_multichannel m p a b k name f N P F vm c0 rest L0 Ls). Qed.
Print Assumptions C74_multichannel.
Example C74_example : function_of sx_model "L_MC" (sx_multi "L_MC" 3 [sx_channel 0 1 1 2 3; sx_channel 1 1 2 4 5; sx_channel 0 2 2 6 7]) /\
  exists e, formulate_multichannel_breit_wigner (hd (Propagator (half 0) [] "") (cd_propagators sx_B)) "L" sx_model = Ok e /\
    length (de_params e) = 11%nat.
Proof. split; [fn (firstn 1 sx_functions) (skipn 2 sx_functions)|]. eexists. split; vm_compute; reflexivity. Qed.
