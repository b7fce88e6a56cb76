(** The properties of the trajectory optimisation of the car (C93). *)

Require Import Reals List.
Require Import Verif.ModelCarTraj Verif.SpecCarTraj Verif.ProofCarTraj.
Import ListNotations.
Open Scope R_scope.

(** C93.  The solutions of the program are the trajectories from the start to the goal within
    the limits, with the dynamics of the car by the trapezoidal rule. *)
Theorem C93_program : forall n u_lo u_up h_lo h_up start goal xs us hs, (0 < n)%nat ->
  (traj_program n u_lo u_up h_lo h_up start goal xs us hs <-> trajectory n u_lo u_up h_lo h_up start goal xs us hs).
Proof. exact program_ok. Qed.
Print Assumptions C93_program.
(** Nothing depends on the place in the plane: moving start and goal moves the trajectories
    and keeps the best cost.  (This is what C92 asks for.) *)
Theorem C93_moved : forall n u_lo u_up h_lo h_up start goal xs us hs dx dy, (0 < n)%nat ->
  trajectory n u_lo u_up h_lo h_up start goal xs us hs ->
  trajectory n u_lo u_up h_lo h_up (moved dx dy start) (moved dx dy goal) (map (moved dx dy) xs) us hs.
Proof. exact move_ok. Qed.
Print Assumptions C93_moved.
Theorem C93_best_moved : forall n u_lo u_up h_lo h_up start goal c dx dy, (0 < n)%nat ->
  ((exists xs us hs, traj_program n u_lo u_up h_lo h_up start goal xs us hs /\ traj_cost us = c) /\
   forall xs us hs, traj_program n u_lo u_up h_lo h_up start goal xs us hs -> c <= traj_cost us) ->
  ((exists xs us hs, traj_program n u_lo u_up h_lo h_up (moved dx dy start) (moved dx dy goal) xs us hs /\ traj_cost us = c) /\
   forall xs us hs, traj_program n u_lo u_up h_lo h_up (moved dx dy start) (moved dx dy goal) xs us hs -> c <= traj_cost us).
Proof. exact best_moved. Qed.
Print Assumptions C93_best_moved.
(** The label of the k-th state is the effort of the inputs from the k-th on. *)
Theorem C93_cost_to_go : forall us k, (k < length us)%nat -> nth k (cost_traj us) 0 = effort_from k us.
Proof. exact cost_to_go. Qed.
Print Assumptions C93_cost_to_go.
(** States and inputs of the training set are as many, but there is one more cost for each
    trajectory: from the second trajectory on the rows do not belong together. *)
Theorem C93_rows_refuted : forall n sols, (0 < n)%nat -> sols <> [] ->
  Forall (fun s => length (fst s) = n /\ length (snd s) = n) sols ->
  length (snd (training_set sols)) <> length (fst (fst (training_set sols))).
Proof. exact rows_differ. Qed.
Print Assumptions C93_rows_refuted.
(** The label of the first state is not the cost that was minimised. *)
Theorem C93_label_refuted : exists us, nth 0 (cost_traj us) 0 <> traj_cost us.
Proof. exact label_differs. Qed.
Print Assumptions C93_label_refuted.
(** The optimum need not be the fastest trajectory. *)
Theorem C93_minimal_time_refuted : exists n u_lo u_up h_lo h_up start goal xs us hs xs' us' hs',
  traj_program n u_lo u_up h_lo h_up start goal xs us hs /\
  (forall ys vs gs, traj_program n u_lo u_up h_lo h_up start goal ys vs gs -> traj_cost us <= traj_cost vs) /\
  traj_program n u_lo u_up h_lo h_up start goal xs' us' hs' /\ total hs' < total hs.
Proof. exact slow_optimum. Qed.
Print Assumptions C93_minimal_time_refuted.
Example C93_case : trajectory 2 (-1, -1) (1, 1) 0 2 (0, 0, 0) (0, 0, 0) [(0, 0, 0); (0, 0, 0)] [(0, 0); (0, 0)] [1] /\
  trajectory 2 (-1, -1) (1, 1) 0 2 (0, 0, 0) (1, 0, 0) [(0, 0, 0); (1, 0, 0)] [(1, 0); (1, 0)] [1] /\
  cost_traj [(1, 0); (1, 0)] = [2; 1].
Proof. exact ex_car. Qed.
