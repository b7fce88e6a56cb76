(** The properties of the simulation of a plant with a controller (C91). *)

Require Import Reals List.
Require Import Verif.Vec Verif.SpecCore Verif.ModelMip Verif.ModelNet Verif.ModelSystems
  Verif.ModelPlantSim Verif.SpecPlantSim Verif.ProofPlantSim.
Import ListNotations.
Open Scope R_scope.

(** C91.  The input never leaves its limits. *)
Theorem C91_input : forall k x_eq u_eq lo up x, vle lo up ->
  length (controller_forward k x) = length lo -> length (controller_forward k x_eq) = length lo -> length u_eq = length lo ->
  in_box lo up (sim_input k x_eq u_eq lo up x).
Proof. exact input_in_limits. Qed.
Print Assumptions C91_input.
(** It is the input of the closed loop that is verified (compute_u of FeedbackSystem) with
    the same network, equilibrium and limits. *)
Theorem C91_same_input : forall F lo up x, fb_lower F = map Fin lo -> fb_upper F = map Fin up ->
  compute_u F x = Some (sim_input (fb_ctl F) (fb_xeq F) (fb_ueq F) lo up x).
Proof. exact same_input. Qed.
Print Assumptions C91_same_input.
(** At the equilibrium the input is the one of the equilibrium, and staying there is a
    solution. *)
Theorem C91_rest_input : forall k x_eq u_eq lo up, in_box lo up u_eq ->
  length (controller_forward k x_eq) = length u_eq -> sim_input k x_eq u_eq lo up x_eq = u_eq.
Proof. exact input_at_rest. Qed.
Print Assumptions C91_rest_input.
Theorem C91_rest : forall dynamics k x_eq u_eq lo up t0 t1, in_box lo up u_eq ->
  length (controller_forward k x_eq) = length u_eq -> dynamics x_eq u_eq = zeros (length x_eq) ->
  follows (sim_rhs dynamics k x_eq u_eq lo up) t0 t1 (fun _ => x_eq).
Proof. exact rest_follows. Qed.
Print Assumptions C91_rest.
(** The states that are returned are as near to a trajectory of the closed loop from x0 as
    the integrator makes them, at every hundredth of a second before the end. *)
Theorem C91_simulation_partial : forall (near : vec -> vec -> Prop) dynamics k x_eq u_eq lo up solve_ivp t0 t1 x0 ts xs,
  t0 <= t1 ->
  (let f := sim_rhs dynamics k x_eq u_eq lo up in
   forall ts, (forall t, In t ts -> t0 <= t <= t1) ->
   exists y, follows f t0 t1 y /\ y t0 = x0 /\ Forall2 (fun t x => near (y t) x) ts (solve_ivp f t0 t1 x0 ts)) ->
  simulate_plant dynamics k x_eq u_eq lo up solve_ivp t0 t1 x0 = (ts, xs) ->
  hundredths t0 t1 ts /\
  exists y, y t0 = x0 /\ Forall2 (fun t x => near (y t) x) ts xs /\
    follows (fun _ x => dynamics x (sim_input k x_eq u_eq lo up x)) t0 t1 y.
Proof. exact sim_ok. Qed.
Print Assumptions C91_simulation_partial.
(** The state at the end of the time span is never returned. *)
Theorem C91_end_refuted : forall t0 t1, t0 <= t1 -> ~ In t1 (arange t0 t1 (1/100)).
Proof. exact end_missing. Qed.
Print Assumptions C91_end_refuted.
Example C91_case : vle [-1] [1] /\ in_box [-1] [1] [0] /\ length (controller_forward ex_ctl [0]) = length [0] /\
  sim_input ex_ctl [0] [0] [-1] [1] [1/2] = [-1/2] /\ sim_input ex_ctl [0] [0] [-1] [1] [3] = [-1] /\
  follows (sim_rhs (fun x u => u) ex_ctl [0] [0] [-1] [1]) 0 1 (fun _ => [0]).
Proof. exact ex_sim. Qed.
