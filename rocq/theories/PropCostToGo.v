(** C85: cost-to-go in continuous time. *)

Require Import Reals List Arith.
Require Import Verif.Vec Verif.ModelCostToGo Verif.SpecCostToGo Verif.ProofCostToGo Verif.ProofCostToGoEx.
Import ListNotations.
Open Scope R_scope.

(** With an exact solver: the returned states are those of a trajectory from x0 and every returned cost is the cost
    accumulated from that moment to the end of the trajectory. *)
Theorem C85_costs : forall n step_forward cost, (forall x d, step_forward x = Some d -> length d = n) ->
  forall solve x0 T x_goal c,
  exact_at solve (ivp_fun n step_forward cost) T (x0 ++ [0]) (option_map (reach_goal n) x_goal) ->
  continuous_cost_to_go n step_forward cost solve x0 T x_goal = Computed c ->
  exists y e, (y 0 = x0 ++ [0] /\ solves (ivp_fun n step_forward cost) y 0 e) /\
    ends (option_map (reach_goal n) x_goal) y T e /\ times_to 0 e (cg_t c) /\
    cg_x c = map (fun t => firstn n (y t)) (cg_t c) /\
    Forall2 (fun t v => accumulated cost (fun r => firstn n (y r)) t e v) (cg_t c) (cg_costs c) /\
    accumulated cost (fun r => firstn n (y r)) 0 e (cg_total c) /\ length x0 = n.
Proof. exact costs_accumulated. Qed.
Print Assumptions C85_costs.
(** The first is the total, the last is zero and they never increase, if no cost is negative. *)
Theorem C85_decreasing : forall n step_forward cost, (forall x d, step_forward x = Some d -> length d = n) ->
  forall solve x0 T x_goal c,
  exact_at solve (ivp_fun n step_forward cost) T (x0 ++ [0]) (option_map (reach_goal n) x_goal) -> (forall x, 0 <= cost x) ->
  continuous_cost_to_go n step_forward cost solve x0 T x_goal = Computed c ->
  hd_error (cg_x c) = Some x0 /\ hd_error (cg_costs c) = Some (cg_total c) /\ last (cg_costs c) 1 = 0 /\ 0 <= cg_total c /\
  forall i, (S i < length (cg_costs c))%nat -> 0 <= nth (S i) (cg_costs c) 0 <= nth i (cg_costs c) 0.
Proof. exact costs_decrease. Qed.
Print Assumptions C85_decreasing.
(** Begun outside of the goal, the trajectory ends where it first gets within a thousandth of it, or at T. *)
Theorem C85_stops_at_goal : forall n step_forward cost, (forall x d, step_forward x = Some d -> length d = n) ->
  forall solve x0 T g c,
  exact_at solve (ivp_fun n step_forward cost) T (x0 ++ [0]) (Some (reach_goal n g)) ->
  continuous_cost_to_go n step_forward cost solve x0 T (Some g) = Computed c ->
  / 1000 < sqrt (dot (vsub x0 g) (vsub x0 g)) ->
  exists y e, (y 0 = x0 ++ [0] /\ solves (ivp_fun n step_forward cost) y 0 e) /\ times_to 0 e (cg_t c) /\
    (e = T \/ sqrt (dot (vsub (firstn n (y e)) g) (vsub (firstn n (y e)) g)) = / 1000) /\
    forall t, 0 <= t < e -> / 1000 < sqrt (dot (vsub (firstn n (y t)) g) (vsub (firstn n (y t)) g)).
Proof. exact stops_at_goal. Qed.
Print Assumptions C85_stops_at_goal.
Example C85_goal_case : exact_at (drift_solver 1 [0; 999 / 1000]) (ivp_fun 1 (drift 1) unit_cost) 2 [0; 0] (Some (reach_goal 1 [1])) /\
  (exists c, continuous_cost_to_go 1 (drift 1) unit_cost (drift_solver 1 [0; 999 / 1000]) [0] 2 (Some [1]) = Computed c) /\
  / 1000 < sqrt (dot (vsub [0] [1]) (vsub [0] [1])).
Proof. exact goal_case. Qed.
Example C85_case : exact_at (drift_solver 3 [0; 1; 2]) (ivp_fun 1 (drift 3) unit_cost) 2 [5; 0] None /\
  (forall x d, drift 3 x = Some d -> length d = 1%nat) /\
  continuous_cost_to_go 1 (drift 3) unit_cost (drift_solver 3 [0; 1; 2]) [5] 2 None =
    Computed (mkCtg 2 [[5 + 3 * 0]; [5 + 3 * 1]; [5 + 3 * 2]] [2 - 0; 2 - 1; 2 - 2] [0; 1; 2]).
Proof. exact example_case. Qed.

(** Samples: only states on trajectories from the given points, with the cost accumulated to the end, none pruned ... *)
Theorem C85_samples : forall n step_forward cost, (forall x d, step_forward x = Some d -> length d = n) ->
  forall solve T x_goal pruner x0s l,
  Forall (fun x0 => exact_at solve (ivp_fun n step_forward cost) T (x0 ++ [0]) (option_map (reach_goal n) x_goal)) x0s ->
  continuous_samples n step_forward cost solve T x_goal pruner x0s = Some l ->
  Forall (fun p => pruner (fst p) = false /\ exists x0 y e t, In x0 x0s /\
    (y 0 = x0 ++ [0] /\ solves (ivp_fun n step_forward cost) y 0 e) /\ 0 <= t <= e /\ e <= T /\
    fst p = firstn n (y t) /\ accumulated cost (fun r => firstn n (y r)) t e (snd p)) l.
Proof. exact samples_sound. Qed.
Print Assumptions C85_samples.
(** ... and every given point that has a trajectory up to T is among them unless it is pruned; points without one do not
    stop the others. *)
Theorem C85_samples_complete : forall n step_forward cost, (forall x d, step_forward x = Some d -> length d = n) ->
  forall solve T x_goal pruner x0s x0,
  Forall (fun x0 => exact_at solve (ivp_fun n step_forward cost) T (x0 ++ [0]) (option_map (reach_goal n) x_goal)) x0s ->
  0 <= T -> Forall (fun x => length x = n) x0s ->
  exists l, continuous_samples n step_forward cost solve T x_goal pruner x0s = Some l /\
  (In x0 x0s -> pruner x0 = false -> (exists y, y 0 = x0 ++ [0] /\ solves (ivp_fun n step_forward cost) y 0 T) -> exists c, In (x0, c) l).
Proof. exact samples_complete. Qed.
Print Assumptions C85_samples_complete.
Example C85_samples_case :
  Forall (fun x0 => exact_at (drift_solver 3 [0; 1; 2]) (ivp_fun 1 (drift 3) unit_cost) 2 (x0 ++ [0]) None) [[5]; [6]] /\
  exists l, continuous_samples 1 (drift 3) unit_cost (drift_solver 3 [0; 1; 2]) 2 None (fun _ => false) [[5]; [6]] = Some l /\ length l = 6%nat.
Proof. exact samples_case. Qed.

(** The horizon shrinks along the trajectory, so the same state can get two values. *)
Theorem C85_value_of_state_refuted : exists n step cost solve x0 T c i j,
  exact_at solve (ivp_fun n step cost) T (x0 ++ [0]) None /\
  continuous_cost_to_go n step cost solve x0 T None = Computed c /\ (i < length (cg_x c))%nat /\ (j < length (cg_x c))%nat /\
  nth i (cg_x c) [] = nth j (cg_x c) [] /\ nth i (cg_costs c) 0 <> nth j (cg_costs c) 0.
Proof. exact two_values. Qed.
Print Assumptions C85_value_of_state_refuted.
(** A trajectory that begins at the goal is not stopped there. *)
Theorem C85_start_at_goal_refuted : exists n step cost solve x0 T c,
  exact_at solve (ivp_fun n step cost) T (x0 ++ [0]) (Some (reach_goal n x0)) /\
  continuous_cost_to_go n step cost solve x0 T (Some x0) = Computed c /\ last (cg_t c) 0 = T /\ 0 < cg_total c.
Proof. exact not_stopped. Qed.
Print Assumptions C85_start_at_goal_refuted.
(** Stepping a system forward gives the start and then each state's successor. *)
Theorem C85_step_system : forall step_forward k x p, step_system step_forward k x = Some p ->
  length p = S k /\ hd_error p = Some x /\ forall i, (i < k)%nat -> step_forward (nth i p []) = Some (nth (S i) p []).
Proof. exact step_system_path. Qed.
Print Assumptions C85_step_system.
