(** C84: the search direction of Adam with line search. *)

Require Import Reals List Arith.
Require Import Verif.Vec Verif.ModelOptim Verif.ModelAdam Verif.SpecAdam Verif.ProofAdam Verif.ProofAdam2.
Import ListNotations.
Open Scope R_scope.

(** After any number of steps the full move of a coordinate is Adam's: minus the learning rate times the fading average
    of its gradients, over the root of the fading average of their squares. *)
Theorem C84_moves : forall o n p steps j,
  0 <= ag_beta1 o < 1 /\ 0 <= ag_beta2 o < 1 /\ 0 < ag_eps o -> pa_state p = None ->
  Forall (fun x => length (fst x) = n /\ length (snd x) = n) steps -> steps <> [] -> ag_ams o = false -> (j < n)%nat ->
  exists p' t d, adam_run o p steps = (p', Some (t, Some d)) /\ length d = n /\
    t * nth j d 0 = adam_move (ag_lr o) (ag_beta1 o) (ag_beta2 o) (ag_eps o) (history j (map (with_decay (ag_decay o)) steps)).
Proof. exact moves_spec. Qed.
Print Assumptions C84_moves.
(** With AMSGrad the root is of the largest average of squares so far. *)
Theorem C84_amsgrad : forall o n p steps j,
  0 <= ag_beta1 o < 1 /\ 0 <= ag_beta2 o < 1 /\ 0 < ag_eps o -> pa_state p = None ->
  Forall (fun x => length (fst x) = n /\ length (snd x) = n) steps -> steps <> [] -> ag_ams o = true -> (j < n)%nat ->
  exists p' t d, adam_run o p steps = (p', Some (t, Some d)) /\ length d = n /\
    let h := history j (map (with_decay (ag_decay o)) steps) in
    t * nth j d 0 = - (ag_lr o * average (ag_beta1 o) h /
      (sqrt (largest (ag_beta2 o) (squares h)) / sqrt (1 - ag_beta2 o ^ length steps) + ag_eps o)).
Proof. exact ams_spec. Qed.
Print Assumptions C84_amsgrad.
Example C84_moves_case : (0 <= ag_beta1 ex_group < 1 /\ 0 <= ag_beta2 ex_group < 1 /\ 0 < ag_eps ex_group) /\ ag_ams ex_group = false /\
  Forall (fun x => length (fst x) = 2%nat /\ length (snd x) = 2%nat) [([0; 0], [1; 2]); ([1; 0], [3; -4])].
Proof. exact (conj ex_valid (conj eq_refl ex_sized)). Qed.

(** However large the gradients are, the move of a coordinate is bounded. *)
Theorem C84_bounded : forall lr b1 b2 eps h, 0 <= lr -> 0 <= b1 <= b2 -> b2 < 1 -> 0 < eps -> h <> [] ->
  Rabs (adam_move lr b1 b2 eps h) <= lr / sqrt (1 - b2) /\ Rabs (adam_move lr b1 b2 eps h) <= lr * sqrt (INR (length h)).
Proof. exact move_bound. Qed.
Print Assumptions C84_bounded.
(** The average is within the range of the gradients; for equal gradients the move is that of the first step. *)
Theorem C84_average : forall b lo hi h, 0 <= b -> h <> [] -> Forall (fun x => lo <= x <= hi) h -> lo <= average b h <= hi.
Proof. exact average_range. Qed.
Print Assumptions C84_average.
Theorem C84_equal_gradients : forall lr b1 b2 eps g h, 0 <= b1 -> 0 <= b2 -> h <> [] -> Forall (fun x => x = g) h ->
  adam_move lr b1 b2 eps h = - (lr * g / (Rabs g + eps)).
Proof. exact move_same. Qed.
Print Assumptions C84_equal_gradients.
Example C84_bounded_case : 0 <= / 1000 /\ 0 <= 9 / 10 <= 999 / 1000 /\ 999 / 1000 < 1 /\ Forall (fun x => -1 <= x <= 3) [1; 3; -1].
Proof. repeat constructor; Lra.lra. Qed.

(** The first direction goes down ... *)
Theorem C84_first_step_descends : forall o p v g,
  0 <= ag_beta1 o < 1 /\ 0 <= ag_beta2 o < 1 /\ 0 < ag_eps o -> pa_state p = None ->
  length v = length g -> ag_decay o = 0 -> ag_ams o = false -> 0 < ag_lr o -> (exists j, nth j g 0 <> 0) ->
  exists p' t d, adam_run o p [(v, g)] = (p', Some (t, Some d)) /\ dot g (vscale t d) < 0.
Proof. exact first_descends. Qed.
Print Assumptions C84_first_step_descends.
(** ... later ones need not, although the line search calls them descent directions. *)
Theorem C84_descent_refuted : exists o p steps v g p' t d,
  (0 <= ag_beta1 o < 1 /\ 0 <= ag_beta2 o < 1 /\ 0 < ag_eps o) /\ pa_state p = None /\ ag_decay o = 0 /\
  adam_run o p (steps ++ [(v, g)]) = (p', Some (t, Some d)) /\ 0 < dot g (vscale t d).
Proof. exact later_ascends. Qed.
Print Assumptions C84_descent_refuted.

(** A step moves the parameters that have a gradient and leaves the others and their state alone. *)
Theorem C84_moved_parameters : forall groups,
  map (fun x => pa_value (fst (fst x))) (snd (step_direction groups)) =
    flat_map (fun gr => map pa_value (filter (fun p => match pa_grad p with Some _ => true | None => false end) (snd gr))) groups /\
  Forall2 (fun gr gr' => fst gr' = fst gr /\ Forall2 (fun p p' => pa_value p' = pa_value p /\ (pa_grad p = None -> p' = p)) (snd gr) (snd gr'))
    groups (fst (step_direction groups)).
Proof. exact moved. Qed.
Print Assumptions C84_moved_parameters.
(** A step that is accepted decreases the loss, whatever the direction. *)
Theorem C84_accepted_decreases : forall fuel closure groups loss0 loss a q o, last_group groups = Some o ->
  adam_step fuel closure groups loss0 = Some (Returned true loss a q) -> loss < loss0 - ag_improvement o.
Proof. exact accepted_decreases. Qed.
Print Assumptions C84_accepted_decreases.
(** The improvement asked for by a group that is not the last is not looked at. *)
Theorem C84_group_options_refuted : exists o1 ps1 o2 ps2 closure loss0 loss a q,
  (0 <= ag_beta1 o1 < 1 /\ 0 <= ag_beta2 o1 < 1 /\ 0 < ag_eps o1) /\ (0 <= ag_beta1 o2 < 1 /\ 0 <= ag_beta2 o2 < 1 /\ 0 < ag_eps o2) /\
  0 <= ag_improvement o2 /\
  adam_step 1 closure [(o1, ps1); (o2, ps2)] loss0 = Some (Returned true loss a q) /\ ~ loss < loss0 - ag_improvement o1.
Proof. exact only_last. Qed.
Print Assumptions C84_group_options_refuted.
(** With weight decay the slope in Armijo's rule is not that of the loss: the decay was added to the gradient in place. *)
Theorem C84_decay_slope_refuted : exists o p g l d,
  (0 <= ag_beta1 o < 1 /\ 0 <= ag_beta2 o < 1 /\ 0 < ag_eps o) /\ pa_grad p = Some g /\ l = snd (step_direction [(o, [p])]) /\
  map snd l = [Some d] /\
  weighted_slope (map (fun x => snd (fst x)) l) (grads_of l) [d] <> weighted_slope (map (fun x => snd (fst x)) l) [g] [d].
Proof. exact decay_slope. Qed.
Print Assumptions C84_decay_slope_refuted.
