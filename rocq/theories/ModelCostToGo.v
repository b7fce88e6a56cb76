(** Model of compute_continuous_time_system_cost_to_go and of generate_cost_to_go_samples in continuous time —
    /repo/neural_network_lyapunov/hybrid_linear_system.py lines 713-836 — and of step_system —
    /repo/neural_network_lyapunov/utils.py lines 1234-1242.

    scipy's solve_ivp is an argument: from the right hand side, the end of the time span, the initial value and the
    terminal event it gives the times and the states at these times; [None] if the right hand side raises the
    exception for a state in no mode. *)

Require Import Reals List Bool Arith.
Require Import Verif.Vec.
Import ListNotations.
Open Scope R_scope.

Section CostToGo.
Variable n : nat.  (* system.x_dim *)
Variable step_forward : vec -> option vec.  (* None: StepForwardException *)
Variable cost : vec -> R.
Definition ivp := (vec -> option vec) -> R -> vec -> option (vec -> R) -> option (list R * list vec).

(** ivp_fun (752-759). *)
Definition ivp_fun (y : vec) : option vec :=
  let x := firstn n y in
  match step_forward x with Some d => Some (d ++ [cost x]) | None => None end.
(** reach_goal (765-766): np.linalg.norm(x[:-1] - x_goal_np) - 1e-3. *)
Definition reach_goal (x_goal : vec) (y : vec) : R :=
  sqrt (dot (vsub (firstn n y) x_goal) (vsub (firstn n y) x_goal)) - / 1000.
Record cost_to_go := mkCtg { cg_total : R; cg_x : list vec; cg_costs : list R; cg_t : list R }.
Inductive outcome := Computed (c : cost_to_go) | LeftDomain | Failed.
(** 747-779.  The last row of sol.y is row n; sol.y[-1, -1] of a solution without samples is an IndexError. *)
Definition continuous_cost_to_go (solve_ivp : ivp) (x0 : vec) (T : R) (x_goal : option vec) : outcome :=
  if negb (Rleb 0 T) then Failed
  else if negb (Nat.eqb (length x0) n) then Failed
  else
    match solve_ivp ivp_fun T (x0 ++ [0]) (option_map reach_goal x_goal) with
    | None => LeftDomain
    | Some (ts, ys) =>
        match rev ys with
        | [] => Failed
        | y_end :: _ =>
            let total := nth n y_end 0 in
            Computed (mkCtg total (map (firstn n) ys) (map (fun y => total - nth n y 0) ys) ts)
        end
    end.

(** generate_cost_to_go_samples with discrete_time_flag False (817-836); [pruner] is never true if there is none. *)
Fixpoint continuous_samples (solve_ivp : ivp) (T : R) (x_goal : option vec) (pruner : vec -> bool) (x0s : list vec) :
    option (list (vec * R)) :=
  match x0s with
  | [] => Some []
  | x0 :: rest =>
      match continuous_cost_to_go solve_ivp x0 T x_goal with
      | Failed => None
      | LeftDomain => continuous_samples solve_ivp T x_goal pruner rest
      | Computed c =>
          match continuous_samples solve_ivp T x_goal pruner rest with
          | None => None
          | Some pairs => Some (filter (fun p => negb (pruner (fst p))) (combine (cg_x c) (cg_costs c)) ++ pairs)
          end
      end
  end.

(** step_system: [x] and the states after each of [steps] steps. *)
Fixpoint step_system (steps : nat) (x : vec) : option (list vec) :=
  match steps with
  | O => Some [x]
  | S k => match step_forward x with
           | None => None
           | Some x' => match step_system k x' with Some p => Some (x :: p) | None => None end
           end
  end.
End CostToGo.
