(** Properties of the mixed-integer containers (C05, C20-C23). *)

Require Import Reals List Bool Lra Lia.
Require Import Verif.Vec Verif.VecFacts Verif.ModelMip Verif.SpecMip
  Verif.ModelUtils Verif.SpecCore Verif.ProofMip Verif.ProofSat Verif.ProofConcat
  Verif.ProofTorch Verif.ModelMilp Verif.SpecMilp Verif.ProofMilp.
Import ListNotations.
Open Scope R_scope.

(** C05.  Adding the saturation of [iv] into [ov] to any program succeeds, and
    a feasible point of the old program with the input in its declared range
    extends to the new program iff the output is the clamped input. *)
Theorem C05_saturation_exact : forall iv ov lower upper ilo iup m,
  wf_mip m -> (iv < nvars m)%nat -> (ov < nvars m)%nat -> iv <> ov ->
  known m iv = true -> known m ov = true -> lower <= upper -> ilo <= iup ->
  exists m' bs, add_saturation iv ov lower upper ilo iup VBin m = Some (m', bs) /\
    forall sg, gfeas m sg -> ilo <= sg iv <= iup ->
      ((exists sg', agree m sg sg' /\ gfeas m' sg') <->
       sg ov = clamp lower upper (sg iv)).
Proof. exact saturation_prop. Qed.
Print Assumptions C05_saturation_exact.
Example C05_case : wf_mip two_vars /\ (0 < nvars two_vars)%nat /\
  (1 < nvars two_vars)%nat /\ known two_vars 0 = true /\ known two_vars 1 = true /\
  gfeas two_vars (fun i => match i with O => 3 | _ => 1 end) /\
  clamp (-1) 1 3 = 1.
Proof. exact two_vars_case. Qed.

(** C05, relaxed binaries: the clamped point is still feasible. *)
Theorem C05_saturation_relaxed : forall iv ov lower upper ilo iup vt m m' bs,
  add_saturation iv ov lower upper ilo iup vt m = Some (m', bs) ->
  wf_mip m -> (iv < nvars m)%nat -> (ov < nvars m)%nat -> lower <= upper ->
  forall sg, gfeas m sg -> ilo <= sg iv <= iup -> sg ov = clamp lower upper (sg iv) ->
    exists sg', agree m sg sg' /\ gfeas m' sg'.
Proof. exact saturation_relaxed. Qed.
Print Assumptions C05_saturation_relaxed.

(** C20.  A concatenation is the conjunction of its parts; stacked outputs are
    the outputs of the parts one after the other; shapes stay consistent. *)
Theorem C20_concatenate_exact : forall c1 c2 ss sb so c x s1 s2 b1 b2,
  concatenate c1 c2 ss sb so = Some c -> mic_wf c1 -> mic_wf c2 ->
  bin_bounds_fine sb c1 c2 ->
  length x = nin c1 -> length s1 = nsl c1 -> length s2 = nsl c2 ->
  length b1 = nbin c1 -> length b2 = nbin c2 ->
  (ss = true -> s1 = s2) -> (sb = true -> b1 = b2) ->
  mic_wf c /\
  (rows_sat c x (join ss s1 s2) (join sb b1 b2) <->
   rows_sat c1 x s1 b1 /\ rows_sat c2 x s2 b2) /\
  (bounds_ok c x (join ss s1 s2) (join sb b1 b2) <->
   bounds_ok c1 x s1 b1 /\ bounds_ok c2 x s2 b2) /\
  (so = true ->
   output c x (join ss s1 s2) (join sb b1 b2) = output c1 x s1 b1 ++ output c2 x s2 b2) /\
  (so = false -> num_out c = 0%nat).
Proof. exact concat_sat. Qed.
Print Assumptions C20_concatenate_exact.

Theorem C20_concatenate_total : forall c1 c2 ss sb so, mic_wf c1 -> mic_wf c2 ->
  bin_bounds_fine sb c1 c2 -> nin c1 = nin c2 ->
  (ss = true -> nsl c1 = nsl c2) -> (sb = true -> nbin c1 = nbin c2) ->
  exists c, concatenate c1 c2 ss sb so = Some c.
Proof. exact concat_total. Qed.
Print Assumptions C20_concatenate_total.
Example C20_case : mic_wf cex2 /\ bin_bounds_fine false cex2 cex2 /\
  nin cex2 = nin cex2 /\ nbin cex2 = 2%nat.
Proof. split; [apply cex_wf|]. split; [right; left; reflexivity|]. split; reflexivity. Qed.

(** Without [bin_bounds_fine] (different numbers of binaries, bounds on one
    side only) the code raises ... *)
Theorem C20_concatenate_total_refuted : exists c1 c2,
  mic_wf c1 /\ mic_wf c2 /\ nin c1 = nin c2 /\
  concatenate c1 c2 false false true = None.
Proof. exact concat_total_refuted. Qed.
Print Assumptions C20_concatenate_total_refuted.
(** ... or returns a bound vector of the wrong length. *)
Theorem C20_concatenate_shape_refuted : exists c1 c2 c,
  mic_wf c1 /\ mic_wf c2 /\ concatenate c1 c2 false false true = Some c /\ ~ mic_wf c.
Proof. exact concat_wf_refuted. Qed.
Print Assumptions C20_concatenate_shape_refuted.

(** C21.  After transform_input the object describes the same slack, binary
    and output for x as before for A x + b, provided it carries no bounds on
    its input. *)
Theorem C21_transform_exact : forall n A b c c' x s bi,
  transform_input n A b c = Some c' -> mic_wf c -> wfm (nin c) n A -> length b = nin c ->
  length x = n -> input_lo c = None -> input_up c = None ->
  (mic_sat c' x s bi <-> mic_sat c (vadd (mv A x) b) s bi) /\
  output c' x s bi = output c (vadd (mv A x) b) s bi.
Proof. exact transform_sat. Qed.
Print Assumptions C21_transform_exact.
(** With input bounds the rows and the output are still right ... *)
Theorem C21_transform_rows : forall n A b c c' x s bi,
  transform_input n A b c = Some c' -> mic_wf c -> wfm (nin c) n A -> length b = nin c ->
  length x = n ->
  (rows_sat c' x s bi <-> rows_sat c (vadd (mv A x) b) s bi) /\
  output c' x s bi = output c (vadd (mv A x) b) s bi.
Proof. exact transform_spec. Qed.
Print Assumptions C21_transform_rows.
Theorem C21_transform_total : forall n A b c, mic_wf c ->
  exists c', transform_input n A b c = Some c'.
Proof. exact transform_total. Qed.
Print Assumptions C21_transform_total.
Example C21_case : mic_wf cex1 /\ wfm (nin cex1) 2 [[1; 2]] /\ length [3] = nin cex1 /\
  input_lo cex1 = None /\ input_up cex1 = None.
Proof. split; [apply cex_wf|]. unfold wfm. repeat split; repeat constructor. Qed.
(** ... but the bounds keep referring to A x + b while being read as bounds
    on x. *)
Theorem C21_transform_bounds_refuted : exists n A b c c' x s bi,
  mic_wf c /\ wfm (nin c) n A /\ length b = nin c /\ length x = n /\
  transform_input n A b c = Some c' /\
  mic_sat c' x s bi /\ ~ mic_sat c (vadd (mv A x) b) s bi.
Proof. exact transform_bounds_refuted. Qed.
Print Assumptions C21_transform_bounds_refuted.

(** C22.  For every sequence of calls: a point of the Gurobi model satisfies
    the torch rows. *)
Theorem C22_torch_sound : forall m sg, history false m -> gfeas m sg -> tfeas m sg.
Proof. exact torch_sound. Qed.
Print Assumptions C22_torch_sound.
(** For every sequence of calls without late bounds on continuous variables
    and without empty ranges, the two describe the same set. *)
Theorem C22_torch_exact : forall m sg, history true m ->
  (gfeas m sg <-> tfeas m sg /\ zeta_ok m sg).
Proof. exact torch_exact. Qed.
Print Assumptions C22_torch_exact.
Example C22_case : history true small_mip /\ gfeas small_mip (fun _ => 1).
Proof. exact small_history. Qed.
(** Adding a MixedIntegerConstraintsReturn is such a sequence of calls. *)
Theorem C22_add_constraints_is_history : forall strict c iv ov bin vt m m' sl bi,
  history strict m -> Forall (fun v => known m v = true) iv ->
  Forall (fun v => known m v = true) (match ov with Some l => l | None => [] end) ->
  Forall (fun v => known m v = true) (match bin with GivenBinary l => l | NewBinary => [] end) ->
  (strict = true -> input_lo c = None /\ input_up c = None /\
                    slack_lo c = None /\ slack_up c = None /\ vt <> VCont) ->
  add_mic c iv ov bin vt m = (m', sl, bi) ->
  history strict m'.
Proof. exact history_mic. Qed.
Print Assumptions C22_add_constraints_is_history.
(** A bound tightened after creation (set_var_bound, used for the input and
    slack bounds of added constraints) is missing from the torch copy. *)
Theorem C22_late_bound_refuted : exists m sg, history false m /\
  tfeas m sg /\ zeta_ok m sg /\ ~ gfeas m sg.
Proof. exact torch_bound_refuted. Qed.
Print Assumptions C22_late_bound_refuted.
(** An empty range lb > ub is missing from the torch copy. *)
Theorem C22_empty_range_refuted : exists m sg, history false m /\
  m = fst (addVars [(Fin 1, Fin 0)] VCont init_mip) /\
  tfeas m sg /\ (forall sg', ~ gfeas m sg').
Proof. exact torch_empty_refuted. Qed.
Print Assumptions C22_empty_range_refuted.

(** C23.  With any tight rows selected as active, the reconstructed objective
    is the objective at the solution. *)
Theorem C23_milp_objective_exact : forall inverse ill strict m sg active obj,
  left_inverse inverse -> history strict m -> gfeas m sg ->
  Forall (tight m sg) active ->
  ill (gram m active (map sg (zeta_ m))) = false ->
  milp_objective inverse ill m active (map sg (zeta_ m)) 0 = Some obj ->
  obj = objective m sg.
Proof. exact milp_objective_value. Qed.
Print Assumptions C23_milp_objective_exact.
Example C23_case : left_inverse inv1 /\ history true fixed_one /\
  gfeas fixed_one (fun _ => 1) /\
  milp_objective inv1 (fun _ => false) fixed_one [] (map (fun _ => 1) (zeta_ fixed_one)) 0
  = Some 1.
Proof.
  exact (conj inv1_left (conj fixed_one_history (conj fixed_one_feas milp_case))).
Qed.
(** The loop over tolerances: an answer is always close to the solver's
    objective, and it is the exact objective when the tolerance separates tight
    rows from the others. *)
Theorem C23_loop_close : forall inverse ill m rs zs pool tol p ot v,
  objective_from_solution inverse ill m rs zs pool tol p ot = Some v ->
  Rabs (v - pool) <= ot.
Proof. exact (fun inverse ill => match_loop_close inverse ill 9). Qed.
Print Assumptions C23_loop_close.
Theorem C23_loop_exact : forall inverse ill strict m sg tol ot,
  let active := active_rows m (map sg (r_ m)) (map sg (zeta_ m)) tol in
  left_inverse inverse -> history strict m -> gfeas m sg -> 0 <= ot ->
  (forall i, (i < length (rhs_in_ m))%nat -> Rabs (row_slack m sg i) < tol ->
     row_slack m sg i = 0) ->
  ill (gram m active (map sg (zeta_ m))) = false ->
  inverse (madd (gram m active (map sg (zeta_ m))) (eyek (length (r_ m)) 0)) <> None ->
  objective_from_solution inverse ill m (map sg (r_ m)) (map sg (zeta_ m))
    (objective m sg) tol 0 ot = Some (objective m sg).
Proof. exact solution_objective. Qed.
Print Assumptions C23_loop_exact.
(** A positive penalty biases the result. *)
Theorem C23_penalty_refuted : exists m sg p v, history true m /\ gfeas m sg /\ 0 < p /\
  Forall (tight m sg) [] /\
  milp_objective inv1 (fun _ => false) m [] (map sg (zeta_ m)) p = Some v /\
  v <> objective m sg.
Proof. exact milp_penalty_refuted. Qed.
Print Assumptions C23_penalty_refuted.
(** The quadratic variant is exact at a stationary point when the mixed term
    vanishes ... *)
Theorem C23_miqp_objective_exact : forall inverse n Qr Qz Qrz cr cz k A b z r l v,
  left_inverse inverse -> wfm n n Qr -> wfm (length b) n A -> length cr = n ->
  length r = n -> length l = length b -> length Qrz = n ->
  mv A r = b -> mv Qrz z = zeros n ->
  vadd (quad_grad Qr Qrz cr r z) (mv (transpose n A) l) = zeros n ->
  miqp_objective inverse n Qr Qz Qrz cr cz k A b z 0 = Some v ->
  v = quad_value Qr Qz Qrz cr cz k r z.
Proof. exact miqp_value. Qed.
Print Assumptions C23_miqp_objective_exact.
(** ... but not otherwise: Q_rzeta is dropped from the optimality condition. *)
Theorem C23_miqp_cross_term_refuted : exists Qr Qz Qrz cr cz k z r v,
  miqp_objective inv1 1 Qr Qz Qrz cr cz k [] [] z 0 = Some v /\
  quad_grad Qr Qrz cr r z = zeros 1 /\
  (forall r', length r' = 1%nat ->
     quad_value Qr Qz Qrz cr cz k r z <= quad_value Qr Qz Qrz cr cz k r' z) /\
  v <> quad_value Qr Qz Qrz cr cz k r z.
Proof. exact miqp_cross_refuted. Qed.
Print Assumptions C23_miqp_cross_term_refuted.
