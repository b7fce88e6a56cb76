(** Properties of the bound computations and of the network encoding
    (C10-C14). *)

Require Import Reals List Lra Lia.
Require Import Verif.Vec Verif.VecFacts Verif.ModelMip Verif.SpecMip Verif.SpecCore
  Verif.ModelUtils Verif.SpecUtils Verif.ModelNet Verif.SpecNet
  Verif.ProofUtils Verif.ProofBounds Verif.ProofNet Verif.ProofNetBounds
  Verif.ProofNetTotal Verif.ProofWarm Verif.ModelExamples Verif.ProofExamples.
Import ListNotations.
Open Scope R_scope.

(** C10.  Sound, and both ends attained, for every row. *)
Theorem C10_interval_arithmetic : forall n A b lb ub,
  wfm (length b) n A -> length lb = n -> vle lb ub ->
  exists lo up, compute_range_by_IA n A b lb ub = Some (lo, up) /\
    (forall x, in_box lb ub x -> in_box lo up (vadd (mv A x) b)) /\
    (forall i, (i < length A)%nat ->
       (exists x, in_box lb ub x /\ nth i (vadd (mv A x) b) 0 = nth i lo 0) /\
       (exists x, in_box lb ub x /\ nth i (vadd (mv A x) b) 0 = nth i up 0)).
Proof. exact range_prop. Qed.
Print Assumptions C10_interval_arithmetic.
Example C10_case : wfm (length [1; 2]) 2 [[1; -1]; [0; 3]] /\ vle [0; 1] [2; 3].
Proof. exact ia_case. Qed.

(** C11. *)
Theorem C11_propagate_linear : forall n l lb ub, lin_wf n l -> length lb = n -> vle lb ub ->
  exists lo up, propagate_linear l lb ub = Some (lo, up) /\
    (forall x, in_box lb ub x -> in_box lo up (lin_eval l x)) /\
    (forall i, (i < out_features l)%nat ->
       (exists x, in_box lb ub x /\ nth i (lin_eval l x) 0 = nth i lo 0) /\
       (exists x, in_box lb ub x /\ nth i (lin_eval l x) 0 = nth i up 0)).
Proof. exact linear_prop. Qed.
Print Assumptions C11_propagate_linear.
Example C11_linear_case : lin_wf 2 (mkLin 2 [[1; -1]; [0; 3]] None).
Proof. exact lin_case. Qed.

Theorem C11_propagate_activation : forall a lo up, vle lo up ->
  let '(plo, pup) := propagate_act_layer a lo up in
  (forall x, in_box lo up x -> in_box plo pup (map (act_fun a) x)) /\
  (forall i, (i < length lo)%nat ->
     (exists x, in_box lo up x /\ nth i (map (act_fun a) x) 0 = nth i plo 0) /\
     (exists x, in_box lo up x /\ nth i (map (act_fun a) x) 0 = nth i pup 0)).
Proof. exact act_prop. Qed.
Print Assumptions C11_propagate_activation.
Example C11_act_case : vle [-1; 1] [2; 3].
Proof. exact act_case. Qed.

Theorem C11_leaky_interval : forall c lo up,
  (up <= lo -> leaky_relu_interval c lo up = None) /\
  (lo < up -> exists l u, leaky_relu_interval c lo up = Some (l, u) /\
     (forall x, lo <= x <= up -> l <= leaky c x <= u) /\
     (exists x, lo <= x <= up /\ leaky c x = l) /\
     (exists x, lo <= x <= up /\ leaky c x = u)).
Proof. exact interval_prop. Qed.
Print Assumptions C11_leaky_interval.
Example C11_interval_case : -1 < 2. Proof. lra. Qed.

(** C12.  Every method: the bounds of all unit inputs, unit outputs and of the
    network output contain the values reached from the box.  With MIP the
    bounds of the unit inputs and of the output are attained. *)
Theorem C12_network_bounds : forall solve, solver_ok solve ->
  forall n meth N x_lo x_up c B lo up, net_wf n N ->
  length x_lo = n -> length x_up = n ->
  output_constraint solve meth N x_lo x_up = Some (c, B, (lo, up)) ->
  (forall x, in_box x_lo x_up x ->
     in_box (b_pre_lo B) (b_pre_up B) (concat (pre_acts (hidden N) x)) /\
     in_box (b_post_lo B) (b_post_up B) (concat (post_acts (hidden N) x)) /\
     in_box lo up (net_eval N x)) /\
  (meth = MIP ->
   (forall i, (i < num_units (hidden N))%nat ->
      (exists x, in_box x_lo x_up x /\
         nth i (concat (pre_acts (hidden N) x)) 0 = nth i (b_pre_lo B) 0) /\
      (exists x, in_box x_lo x_up x /\
         nth i (concat (pre_acts (hidden N) x)) 0 = nth i (b_pre_up B) 0)) /\
   (forall i, (i < out_features (last_layer N))%nat ->
      (exists x, in_box x_lo x_up x /\ nth i (net_eval N x) 0 = nth i lo 0) /\
      (exists x, in_box x_lo x_up x /\ nth i (net_eval N x) 0 = nth i up 0))).
Proof. exact network_bounds. Qed.
Print Assumptions C12_network_bounds.
Example C12_case : solver_ok (fun _ => GOther) /\ net_wf 1 net1 /\
  exists c B out, output_constraint (fun _ => GOther) IA net1 [0] [1] = Some (c, B, out).
Proof. exact net1_case. Qed.

(** The bounds and the encoding are computed for every non-empty box; an
    inverted box is rejected. *)
Theorem C12_bounds_total : forall solve, solver_ok solve -> solver_total solve ->
  forall n meth N x_lo x_up, net_wf n N -> length x_lo = n -> length x_up = n ->
  (output_constraint solve meth N x_lo x_up = None <-> ~ vle x_lo x_up).
Proof. exact output_constraint_total. Qed.
Print Assumptions C12_bounds_total.
Example C12_total_case : solver_ok ideal_solve /\ solver_total ideal_solve /\ net_wf 1 net_abs.
Proof. exact (conj ideal_ok (conj ideal_total net_abs_wf)). Qed.

(** C13. *)
Theorem C13_network_encoding_exact : forall solve, solver_ok solve ->
  forall n meth N x_lo x_up c B out, net_wf n N ->
  length x_lo = n -> length x_up = n ->
  output_constraint solve meth N x_lo x_up = Some (c, B, out) ->
  encodes c (in_box x_lo x_up) (net_eval N).
Proof. exact network_encodes. Qed.
Print Assumptions C13_network_encoding_exact.
Example C13_case : solver_ok (fun _ => GOther) /\ net_wf 1 net1 /\
  exists c B out, output_constraint (fun _ => GOther) IA net1 [0] [1] = Some (c, B, out).
Proof. exact net1_case. Qed.

(** With bounds given by the caller, valid or not: the encoding describes the
    network on the part of the box where the unit inputs respect the bounds; the
    slacks are the unit outputs and the binaries tell the signs. *)
Theorem C13_given_bounds_exact : forall n N pre_lo pre_up x_lo x_up,
  net_wf n N -> no_slope_one (hidden N) -> length x_lo = n -> length x_up = n ->
  length pre_lo = num_units (hidden N) -> length pre_up = num_units (hidden N) ->
  exists c, output_constraint_given_bounds N pre_lo pre_up x_lo x_up = Some c /\
    encodes c (fun x => in_box x_lo x_up x /\
                        in_box pre_lo pre_up (concat (pre_acts (hidden N) x)))
              (net_eval N) /\
    (forall x s b, bins b -> mic_sat c x s b ->
       s = concat (post_acts (hidden N) x) /\ length b = num_units (hidden N) /\
       forall i, (i < num_units (hidden N))%nat ->
         (nth i b 0 = 1 -> 0 <= nth i (concat (pre_acts (hidden N) x)) 0) /\
         (nth i b 0 = 0 -> nth i (concat (pre_acts (hidden N) x)) 0 <= 0)).
Proof. exact given_bounds_prop. Qed.
Print Assumptions C13_given_bounds_exact.
Example C13_given_case : net_wf 1 net1 /\ no_slope_one (hidden net1).
Proof. exact (conj net1_wf net1_slope). Qed.

(** C14.  The property as stated fails: *)
Theorem C14_warm_start_refuted : exists n N x_lo x_up c B out x z be y,
  net_wf n N /\ no_slope_one (hidden N) /\ vle x_lo x_up /\
  output_constraint (fun _ => GOther) IA N x_lo x_up = Some (c, B, out) /\
  in_box x_lo x_up x /\
  compute_relu_unit_outputs_and_activation N x = (z, be, y) /\ ~ mic_sat c x z be.
Proof. exact warm_start_refuted. Qed.
Print Assumptions C14_warm_start_refuted.
(** Exactly when it holds: the computed outputs are right, and the binaries are
    feasible iff no unit with nonnegative lower bound has input zero. *)
Theorem C14_warm_start_exact : forall solve, solver_ok solve ->
  forall n meth N x_lo x_up c B out x z be y,
  net_wf n N -> no_slope_one (hidden N) -> length x_lo = n -> length x_up = n ->
  output_constraint solve meth N x_lo x_up = Some (c, B, out) ->
  in_box x_lo x_up x ->
  compute_relu_unit_outputs_and_activation N x = (z, be, y) ->
  z = concat (post_acts (hidden N) x) /\ y = net_eval N x /\ bins be /\
  output c x z be = net_eval N x /\
  (mic_sat c x z be <->
   forall i, (i < num_units (hidden N))%nat -> 0 <= nth i (b_pre_lo B) 0 ->
     0 < nth i (concat (pre_acts (hidden N) x)) 0).
Proof. exact warm_start_exact. Qed.
Print Assumptions C14_warm_start_exact.
(** The same for the binaries written by set_activation_warmstart. *)
Theorem C14_warm_pattern_exact : forall solve, solver_ok solve ->
  forall n meth N x_lo x_up c B out x,
  net_wf n N -> no_slope_one (hidden N) -> length x_lo = n -> length x_up = n ->
  output_constraint solve meth N x_lo x_up = Some (c, B, out) ->
  in_box x_lo x_up x ->
  ((exists z, mic_sat c x z (warmstart_binaries N x)) <->
   forall i, (i < num_units (hidden N))%nat -> nth i (b_pre_lo B) 0 < 0 ->
     nth i (b_pre_up B) 0 <= 0 -> nth i (concat (pre_acts (hidden N) x)) 0 < 0).
Proof. exact warm_pattern_exact. Qed.
Print Assumptions C14_warm_pattern_exact.
Example C14_case : exists c B out,
  output_constraint (fun _ => GOther) IA net1 [0] [1] = Some (c, B, out) /\
  nth 0 (b_pre_lo B) 0 = 0.
Proof. exact net1_bounds. Qed.
