(** C87 - bounding the difference between a cost-to-go and a network. *)

Require Import Reals List Arith.
Require Import Verif.Vec Verif.SpecCore Verif.ModelNet Verif.SpecNet Verif.ModelExamples Verif.ModelValueBound Verif.SpecValueBound Verif.ProofValueBound Verif.ProofValueBound2.
Import ListNotations.
Open Scope R_scope.

(** The feasible points of the returned program are the plans of the optimal control problem from the states of the
    box, each completed in some way, and their costs are those of the plans minus the value of the network. *)
Theorem C87_points : forall T N x_lo x_up, traj_wf T -> net_wf (tj_x T) N -> length x_lo = tj_x T -> length x_up = tj_x T ->
  forall model P, epsilon_opt (mkBounds T N) model x_lo x_up = Some P -> exists M,
  (forall x y g, eps_feasible P x y g ->
     exists s z a b, y = s ++ z /\ g = a ++ b /\ length z = M /\ length b = M /\ plan T x s a /\ in_box x_lo x_up x /\
       eps_cost P x y g = plan_cost T x s a - eta N x) /\
  (forall x s a, in_box x_lo x_up x -> plan T x s a -> exists z b, length z = M /\ length b = M /\ eps_feasible P x (s ++ z) (a ++ b)).
Proof. exact prog_split. Qed.
Print Assumptions C87_points.

(** With the state fixed, its minimum is the optimal cost-to-go minus the value of the network. *)
Theorem C87_fixed_state : forall T N x_lo x_up, traj_wf T -> net_wf (tj_x T) N -> length x_lo = tj_x T -> length x_up = tj_x T ->
  forall model P, epsilon_opt (mkBounds T N) model x_lo x_up = Some P ->
  forall x v, in_box x_lo x_up x -> (eps_at P x (v - eta N x) <-> cost_to_go T x v).
Proof. exact eps_at_value. Qed.
Print Assumptions C87_fixed_state.

(** With the state free, its minimum is the best constant by which the network stays below the cost-to-go. *)
Theorem C87_global_bound : forall T N x_lo x_up, traj_wf T -> net_wf (tj_x T) N -> length x_lo = tj_x T -> length x_up = tj_x T ->
  forall model P, epsilon_opt (mkBounds T N) model x_lo x_up = Some P ->
  forall m, eps_min P m ->
  (forall x v, in_box x_lo x_up x -> cost_to_go T x v -> eta N x <= v - m) /\
  exists x, in_box x_lo x_up x /\ cost_to_go T x (eta N x + m).
Proof. exact eps_min_bound. Qed.
Print Assumptions C87_global_bound.

(** The program is returned exactly for boxes that are not empty and networks with one output. *)
Theorem C87_returned : forall T N model x_lo x_up, (0 < tj_x T)%nat -> net_wf (tj_x T) N ->
  length x_lo = tj_x T -> length x_up = tj_x T ->
  ((exists P, epsilon_opt (mkBounds T N) model x_lo x_up = Some P) <-> vle x_lo x_up /\ out_features (last_layer N) = 1%nat).
Proof. exact returned_iff. Qed.
Print Assumptions C87_returned.

(** The cost-to-go x ^ 2 against |x|. *)
Example C87_case : exists P, epsilon_opt (mkBounds square_traj net_abs) net_abs [-1] [1] = Some P /\
  eps_at P [1 / 3] (- (2 / 9)) /\ eps_min P (- (1 / 4)).
Proof. exact square_case. Qed.
Example C87_shapes : traj_wf square_traj.
Proof. exact square_wf. Qed.

(** It is not the network given as the argument that is bounded. *)
Theorem C87_argument_refuted : exists T N model x P v m, traj_wf T /\ net_wf 1 N /\ net_wf 1 model /\ in_box [-1] [1] x /\
  epsilon_opt (mkBounds T N) model [-1] [1] = Some P /\ cost_to_go T x v /\ eps_at P x m /\ m <> v - eta model x.
Proof. exact wrong_network. Qed.
Print Assumptions C87_argument_refuted.
