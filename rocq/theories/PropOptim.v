(** Gradient projection (C40) and line search (C41). *)

Require Import Reals List.
Require Import Verif.Vec Verif.ModelOptim Verif.SpecOptim Verif.ProofOptim Verif.ProofOptim2.
Import ListNotations.
Open Scope R_scope.

(** C40.  Two gradients that do not vanish. *)
Theorem C40_both_partial : forall old d1 d2,
  Forall2 cleared old d1 -> Forall2 same_size d1 d2 ->
  concat d1 <> zeros (length (concat d1)) -> concat d2 <> zeros (length (concat d2)) ->
  exists r gs, project_gradient BOTH old (map Some d1) (map Some d2) = Some r /\
    pr_grads r = Some gs /\ Forall2 same_size d1 gs /\
    0 <= dot (concat gs) (concat d1) /\ 0 <= dot (concat gs) (concat d2).
Proof. exact project_both. Qed.
Print Assumptions C40_both_partial.
Theorem C40_single_partial : forall mode old d1 d2, mode = LOSS1 \/ mode = LOSS2 ->
  Forall2 cleared old d1 -> Forall2 same_size d1 d2 ->
  concat d1 <> zeros (length (concat d1)) -> concat d2 <> zeros (length (concat d2)) ->
  dot (concat d1) (concat d2) <= 0 ->
  exists r gs, project_gradient mode old (map Some d1) (map Some d2) = Some r /\
    pr_grads r = Some gs /\ Forall2 same_size d1 gs /\
    match mode with
    | LOSS1 => dot (concat gs) (concat d2) = 0 /\ 0 <= dot (concat gs) (concat d1)
    | _ => dot (concat gs) (concat d1) = 0 /\ 0 <= dot (concat gs) (concat d2)
    end.
Proof. exact project_single. Qed.
Print Assumptions C40_single_partial.
(** The gradient that every mode writes back. *)
Theorem C40_gradient_partial : forall mode old d1 d2,
  Forall2 cleared old d1 -> Forall2 same_size d1 d2 ->
  concat d1 <> zeros (length (concat d1)) -> concat d2 <> zeros (length (concat d2)) ->
  exists r gs, project_gradient mode old (map Some d1) (map Some d2) = Some r /\
    pr_grads r = Some gs /\ pr_n1 r = concat d1 /\ pr_n2 r = concat d2 /\ Forall2 same_size d1 gs /\
    (0 < dot (concat d1) (concat d2) -> pr_flag r = false /\ concat gs = vadd (concat d1) (concat d2)) /\
    (dot (concat d1) (concat d2) <= 0 ->
       pr_flag r = true /\ concat gs = resolved mode (concat d1) (concat d2)).
Proof. exact project_gradient_ok. Qed.
Print Assumptions C40_gradient_partial.
Example C40_case : Forall2 cleared [None; Some [0]] [[1; 0]; [2]] /\
  Forall2 same_size [[1; 0]; [2]] [[-1; 1]; [0]] /\
  concat [[1; 0]; [2]] <> zeros (length (concat [[1; 0]; [2]])) /\
  concat [[-1; 1]; [0]] <> zeros (length (concat [[-1; 1]; [0]])) /\
  dot (concat [[1; 0]; [2]]) (concat [[-1; 1]; [0]]) <= 0.
Proof. exact project_case. Qed.
(** A gradient that vanishes (a loss that is already satisfied) makes every parameter
    gradient NaN. *)
Theorem C40_zero_gradient_refuted : exists mode d1 d2,
  d1 = [[1; 0]; [2]] /\ d2 = [[0; 0]; [0]] /\ mode = BOTH /\
  exists r, project_gradient mode [None; None] (map Some d1) (map Some d2) = Some r /\ pr_grads r = None.
Proof. exact project_zero. Qed.
Print Assumptions C40_zero_gradient_refuted.
(** Orthogonal gradients are projected, against the documentation. *)
Theorem C40_orthogonal_refuted : exists d1 d2, dot (concat d1) (concat d2) = 0 /\ exists r gs,
  project_gradient LOSS1 [None] (map Some d1) (map Some d2) = Some r /\ pr_grads r = Some gs /\
  pr_flag r = true /\ concat gs <> vadd (concat d1) (concat d2).
Proof. exact project_orthogonal. Qed.
Print Assumptions C40_orthogonal_refuted.

(** C41. *)
Theorem C41_gd : forall fuel closure c reduction least improvement loss0 t g d p acc loss a q,
  Forall2 same_size d p ->
  gd_search fuel closure c reduction least improvement loss0 t g d p = Returned acc loss a q ->
  q = move a (repeat t (length p)) d p /\ (exists j, loss = closure j q) /\ least < a /\
  (exists j, a = reduction ^ j) /\
  (acc = true -> loss <= loss0 + t * (c * slope g d) /\ loss <= loss0 - improvement) /\
  (acc = false -> a * reduction <= least /\
     ~ (loss <= loss0 + t * (c * slope g d) /\ loss <= loss0 - improvement)).
Proof. exact gd_ok. Qed.
Print Assumptions C41_gd.
Theorem C41_gd_armijo : forall fuel closure c reduction least improvement loss0 t g d p loss a q,
  Forall2 same_size d p -> 0 <= reduction <= 1 -> 0 <= t -> 0 <= c -> slope g d <= 0 ->
  gd_search fuel closure c reduction least improvement loss0 t g d p = Returned true loss a q ->
  loss <= loss0 + c * (a * t) * slope g d.
Proof. exact gd_armijo. Qed.
Print Assumptions C41_gd_armijo.
Theorem C41_adam : forall fuel closure c reduction least improvement loss0 t g d p acc loss a q,
  fits t d p ->
  adam_search fuel closure c reduction least improvement loss0 t g d p = Returned acc loss a q ->
  q = move a t d p /\ (exists j, loss = closure j q) /\ least < a /\
  (exists j, a = reduction ^ j) /\
  (acc = true -> loss < loss0 - improvement /\
     forall c0, c = Some c0 -> loss < loss0 + a * (c0 * weighted_slope t g d)) /\
  (acc = false -> a * reduction <= least /\
     ~ (loss < loss0 - improvement /\
        forall c0, c = Some c0 -> loss < loss0 + a * (c0 * weighted_slope t g d))).
Proof. exact adam_ok. Qed.
Print Assumptions C41_adam.
(** The loop ends, and with a threshold below 1 it returns a loss. *)
Theorem C41_terminates : forall closure accept reduction least t d p,
  0 < reduction < 1 -> 0 < least -> exists fuel,
  search fuel closure accept reduction least t d O None 1 0 p <> Running.
Proof. exact search_terminates. Qed.
Print Assumptions C41_terminates.
Theorem C41_returns : forall fuel closure accept reduction least t d p, least < 1 ->
  search fuel closure accept reduction least t d O None 1 0 p <> Unbound.
Proof. exact search_bound. Qed.
Print Assumptions C41_returns.
Example C41_case : exists a q,
  gd_search 10 square_loss (1 / 4) (1 / 2) (1 / 1000) 0 1 1 [[2]] [[-2]] [[1]] = Returned true 0 a q /\
  a = 1 / 2 /\ q = [[0]].
Proof. exact search_case. Qed.
(** A search that accepts nothing still leaves the parameters at a worse point. *)
Theorem C41_failure_moves_refuted : exists closure d p loss a q,
  gd_search 10 closure 1 (1 / 2) (1 / 3) 0 (closure O p) 1 [[1]] d p = Returned false loss a q /\
  closure O p < loss /\ q <> p.
Proof. exact search_failure. Qed.
Print Assumptions C41_failure_moves_refuted.

(** The directions along which LineSearchGD.step searches: without momentum minus the
    gradient with the weight decay, which does not ascend ... *)
Theorem C41_direction : forall decay dampening nesterov p g buf, length p = length g ->
  exists g' d, gd_direction decay 0 dampening nesterov p g buf = (g', d, buf) /\
  (forall i, nth i g' 0 = nth i g 0 + decay * nth i p 0) /\ (forall i, nth i d 0 = - nth i g' 0) /\
  length d = length g /\ dot g' d <= 0.
Proof. exact plain_direction. Qed.
Print Assumptions C41_direction.
(** ... and with momentum, after any number of steps, minus the discounted sum of all
    gradients so far, the first of them undamped. *)
Theorem C41_momentum : forall mu tau nesterov n g gs last, mu <> 0 ->
  Forall (fun g => length g = n) (g :: gs ++ [last]) ->
  exists b d, gd_direction 0 mu tau nesterov [] last (gd_buffer mu tau nesterov (g :: gs) None) = (last, d, Some b) /\
  gd_buffer mu tau nesterov (g :: gs ++ [last]) None = Some b /\
  (forall i, nth i b 0 = mu ^ S (length gs) * nth i g 0 + (1 - tau) * discounted mu i (gs ++ [last])) /\
  forall i, nth i d 0 = if nesterov then - (nth i last 0 + mu * nth i b 0) else - nth i b 0.
Proof. exact momentum_direction. Qed.
Print Assumptions C41_momentum.
Example C41_momentum_case : gd_direction 0 (1 / 2) 0 true [] [4] (gd_buffer (1 / 2) 0 true [[2]; [0]] None) =
  ([4], [-1 * (4 + 1 / 2 * (1 / 2 * (1 / 2 * 2 + (1 - 0) * 0) + (1 - 0) * 4))],
   Some [1 / 2 * (1 / 2 * 2 + (1 - 0) * 0) + (1 - 0) * 4]).
Proof. exact momentum_case. Qed.
