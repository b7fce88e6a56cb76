(** The closed loop of the quadrotor, with bounds over the states of the loop (C78). *)

Require Import Reals List Lra Lia.
Require Import Verif.Vec Verif.ModelMip Verif.SpecMip Verif.SpecCore Verif.ModelNet Verif.SpecNet
  Verif.SpecStep Verif.SpecLyapunov Verif.ModelSystems Verif.SpecSystems Verif.ModelExamples
  Verif.ModelExSystems Verif.SpecExSystems Verif.ModelExamplesEx Verif.ModelExamplesQuad
  Verif.ProofExamples Verif.ProofExSystems2 Verif.ProofExSystems3 Verif.ModelQuadLoop
  Verif.SpecQuadLoop Verif.ProofQuadLoop4 Verif.ProofQuadLoop5.
Import ListNotations.
Open Scope R_scope.

(** C78.  Bounds computed with any program handed over by a callback hold at every input
    in the box that is part of a feasible point of that program; with the method MIP each
    of them is attained by such an input. *)
Theorem C78_callback_bounds : forall solve p xv n meth N lo up B, solver_ok solve -> wf_mip p ->
  length xv = n -> below (nvars p) xv -> NoDup xv -> Forall (fun v => known p v = true) xv ->
  net_wf n N -> length lo = n -> length up = n ->
  callback_layer_bound solve (Some (p, xv)) meth N lo up = Some B ->
  (forall v, reach p xv lo up v ->
     in_box (b_pre_lo B) (b_pre_up B) (concat (pre_acts (hidden N) v)) /\
     in_box (b_post_lo B) (b_post_up B) (concat (post_acts (hidden N) v))) /\
  (meth = MIP -> forall i, (i < num_units (hidden N))%nat ->
     (exists v, reach p xv lo up v /\
        nth i (concat (pre_acts (hidden N) v)) 0 = nth i (b_pre_lo B) 0) /\
     (exists v, reach p xv lo up v /\
        nth i (concat (pre_acts (hidden N) v)) 0 = nth i (b_pre_up B) 0)).
Proof. exact cb_bounds. Qed.
Print Assumptions C78_callback_bounds.
Theorem C78_callback_total : forall solve p xv n meth N lo up, solver_ok solve -> solver_total solve ->
  wf_mip p ->
  length xv = n -> below (nvars p) xv -> NoDup xv -> Forall (fun v => known p v = true) xv ->
  net_wf n N -> length lo = n -> length up = n ->
  (exists v, reach p xv lo up v) ->
  callback_layer_bound solve (Some (p, xv)) meth N lo up <> None.
Proof. exact cb_total. Qed.
Print Assumptions C78_callback_total.
(** The feasible points are exactly the transitions of the closed loop from the states
    in the box whose input is within the limits: the tighter bounds cut nothing off. *)
Theorem C78_exact : forall solve, solver_ok solve -> forall S h meth0 F, ex_built S ->
  ex_kind_ S = KQuad h meth0 -> vle (ex_xlo S) (ex_xup S) ->
  fb_fwd F = ex_fwd solve S -> feedback_built F -> is_net (fb_ctl F) ->
  forall st vt m m' meth xv xn r,
  vt <> VCont -> history st m -> below (nvars m) xv -> below (nvars m) xn ->
  length xv = 12%nat -> length xn = 12%nat ->
  quad_loop_add_ret solve S F meth xv xn vt m = Some (m', r) ->
  (forall sg, feas vt m' sg ->
     feas vt m sg /\ loop_state S F (map sg xv) (map sg (fr_u r)) /\
     fb_step F (map sg xv) = Some (map sg xn)) /\
  (forall sg u, feas vt m sg -> loop_state S F (map sg xv) u ->
     fb_step F (map sg xv) = Some (map sg xn) ->
     exists sg', feas vt m' sg' /\ agree m sg sg').
Proof. exact loop_exact. Qed.
Print Assumptions C78_exact.
(** So it fits the contract under which the Lyapunov programs are certified. *)
Theorem C78_contract : forall solve, solver_ok solve -> forall S h meth0 F, ex_built S ->
  ex_kind_ S = KQuad h meth0 -> vle (ex_xlo S) (ex_xup S) ->
  fb_fwd F = ex_fwd solve S -> feedback_built F -> is_net (fb_ctl F) ->
  forall st meth, system_contract 12 st (quad_loop_add solve S F meth) (fb_next F (ex_next S)).
Proof. exact loop_contract. Qed.
Print Assumptions C78_contract.
(** The returned bounds hold at every state of the closed loop; when both methods are
    MIP each bound of a unit is attained at a state of the closed loop. *)
Theorem C78_bounds : forall solve, solver_ok solve -> forall S h meth0 F, ex_built S ->
  ex_kind_ S = KQuad h meth0 -> vle (ex_xlo S) (ex_xup S) ->
  fb_fwd F = ex_fwd solve S -> feedback_built F -> is_net (fb_ctl F) ->
  forall st vt m m' xv xn r nn,
  vt <> VCont -> history st m -> below (nvars m) xv -> length xv = 12%nat ->
  quad_loop_add_ret solve S F meth0 xv xn vt m = Some (m', r) -> fr_fwd r = Some nn ->
  (forall x u, loop_state S F x u ->
     in_box (b_pre_lo (nn_bounds nn)) (b_pre_up (nn_bounds nn))
       (concat (pre_acts (hidden (ex_net S)) (quad_input x u))) /\
     in_box (b_post_lo (nn_bounds nn)) (b_post_up (nn_bounds nn))
       (concat (post_acts (hidden (ex_net S)) (quad_input x u)))) /\
  (meth0 = MIP -> fb_meth F = MIP -> forall i, (i < num_units (hidden (ex_net S)))%nat ->
     (exists x u, loop_state S F x u /\
        nth i (concat (pre_acts (hidden (ex_net S)) (quad_input x u))) 0
        = nth i (b_pre_lo (nn_bounds nn)) 0) /\
     (exists x u, loop_state S F x u /\
        nth i (concat (pre_acts (hidden (ex_net S)) (quad_input x u))) 0
        = nth i (b_pre_up (nn_bounds nn)) 0)).
Proof. exact loop_bounds. Qed.
Print Assumptions C78_bounds.
(** With one state of the closed loop the constraints can be built, unless a method is IA_MIP. *)
Theorem C78_total_partial : forall solve, solver_ok solve -> forall S h meth0 F, ex_built S ->
  ex_kind_ S = KQuad h meth0 -> vle (ex_xlo S) (ex_xup S) ->
  fb_fwd F = ex_fwd solve S -> feedback_built F -> is_net (fb_ctl F) ->
  solver_total solve -> forall st meth x0 u0, loop_state S F x0 u0 ->
  meth = meth0 -> meth <> IA_MIP -> fb_meth F <> IA_MIP ->
  system_total 12 st (quad_loop_add solve S F meth).
Proof. exact loop_total. Qed.
Print Assumptions C78_total_partial.
(** A linear controller raises unless a method is IA, although the base class accepts it. *)
Theorem C78_linear_raises : forall solve S F meth xv xn vt m, meth <> IA -> fb_meth F <> IA ->
  ~ is_net (fb_ctl F) -> quad_loop_add solve S F meth xv xn vt m = None.
Proof. exact loop_linear. Qed.
Print Assumptions C78_linear_raises.
Theorem C78_linear_refuted : exists S F meth h, ex_built S /\ ex_kind_ S = KQuad h meth /\
  fb_fwd F = ex_fwd ideal_solve S /\ feedback_built F /\
  (forall st, system_total 12 st (fb_add ideal_solve F)) /\
  forall xv xn vt m, quad_loop_add ideal_solve S F meth xv xn vt m = None.
Proof. exact loop_linear_refuted. Qed.
Print Assumptions C78_linear_refuted.
(** IA_MIP raises unless the other method is IA. *)
Theorem C78_mixed_raises : forall solve S F meth xv xn vt m, meth <> IA -> fb_meth F <> IA ->
  (meth = IA_MIP \/ fb_meth F = IA_MIP) -> quad_loop_add solve S F meth xv xn vt m = None.
Proof. exact loop_mixed. Qed.
Print Assumptions C78_mixed_raises.
Theorem C78_mixed_refuted : exists S F meth h, ex_built S /\ ex_kind_ S = KQuad h meth /\
  fb_fwd F = ex_fwd ideal_solve S /\ feedback_built F /\ is_net (fb_ctl F) /\
  (forall st, system_total 12 st (fb_add ideal_solve F)) /\
  forall xv xn vt m, quad_loop_add ideal_solve S F meth xv xn vt m = None.
Proof. exact loop_mixed_refuted. Qed.
Print Assumptions C78_mixed_refuted.
Example C78_case : forall st m1 m2, m1 <> IA_MIP -> m2 <> IA_MIP ->
  let S := ex_of (KQuad (1/4) m1) in
  let F := quad_of ideal_solve (CtlNet (enet 12 4)) m1 m2 in
  ex_built S /\ feedback_built F /\ is_net (fb_ctl F) /\ vle (ex_xlo S) (ex_xup S) /\
  loop_state S F (zeros 12) (repeat (1/4) 4) /\
  system_total 12 st (quad_loop_add ideal_solve S F m1).
Proof.
  exact (fun st m1 m2 H1 H2 => conj (ex_of_built _) (conj (quad_of_built _ _ _ _ enet_ctl)
    (conj I (conj (ones_vle 12) (conj (quad_of_state _ _ _ _ enet_ctl) (quad_of_total st m1 m2 H1 H2)))))).
Qed.
