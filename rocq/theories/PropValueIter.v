(** C52: value iteration. *)

Require Import Reals List.
Require Import Verif.Vec Verif.SpecExt Verif.ModelValueIter Verif.SpecValueIter Verif.ProofValueIter.
Import ListNotations.
Open Scope R_scope.

(** The value function never decreases from one sweep to the next; no sweep raises. *)
Theorem C52_monotone : forall nx g r u, 0 < g -> cost_table nx r -> action_table nx u ->
  forall n, exists V P V' P',
  after_sweeps n nx g r u = Some (V, P) /\ after_sweeps (S n) nx g r u = Some (V', P') /\
  length V = nx /\ length V' = nx /\ forall i, (i < nx)%nat -> ele (value V i) (value V' i).
Proof. exact after_mono. Qed.
Print Assumptions C52_monotone.

(** After any number of sweeps it is at most the discounted cost of any path. *)
Theorem C52_path : forall nx g r u, 0 < g -> cost_table nx r -> action_table nx u ->
  forall n V P p C, after_sweeps n nx g r u = Some (V, P) ->
  path nx p -> path_cost_at_most g r p C -> ele (value V (p 0%nat)) (Fin C).
Proof. exact after_path. Qed.
Print Assumptions C52_path.

(** In particular of a path of k moves to a state with a free loop. *)
Theorem C52_goal : forall nx r u g n V P p k, 0 < g -> cost_table nx r -> action_table nx u ->
  after_sweeps n nx g r u = Some (V, P) -> path nx p -> cost r (p k) (p k) = Fin 0 ->
  (forall t, (k <= t)%nat -> p t = p k) ->
  ele (value V (p 0%nat)) (path_cost g r k p).
Proof. exact goal_path. Qed.
Print Assumptions C52_goal.

(** What is returned is the value function after some number of sweeps. *)
Theorem C52_sweeps : forall fuel nx r u eps g V P, value_iteration fuel nx r u eps g = Returned V P ->
  exists n, after_sweeps n nx g r u = Some (V, P).
Proof. exact vi_sweeps. Qed.
Print Assumptions C52_sweeps.

(** At termination the Bellman residual is below epsilon: within [0, g * epsilon). *)
Theorem C52_residual : forall fuel nx r u eps g V P, 0 < g -> cost_table nx r -> action_table nx u ->
  value_iteration fuel nx r u eps g = Returned V P ->
  length V = nx /\ forall i b, (i < nx)%nat -> bellman nx g r V i b ->
  (value V i = Inf /\ b = Inf) \/
  exists v w, value V i = Fin v /\ b = Fin w /\ v <= w < v + g * eps.
Proof. exact vi_residual. Qed.
Print Assumptions C52_residual.

(** The loop terminates. *)
Theorem C52_terminates : forall nx r u eps g, 0 < g < 1 -> 0 < eps -> cost_table nx r -> action_table nx u ->
  exists N, forall fuel, (N <= fuel)%nat -> exists V P, value_iteration fuel nx r u eps g = Returned V P.
Proof. exact vi_ends. Qed.
Print Assumptions C52_terminates.

(** The returned policy is that of a successor function whose paths cost at most
    g * epsilon / (1 - g) more than the returned values. *)
Theorem C52_policy : forall fuel nx r u eps g V P, 0 < g < 1 -> cost_table nx r -> action_table nx u ->
  value_iteration fuel nx r u eps g = Returned V P ->
  exists s, (forall i, (i < nx)%nat -> (s i < nx)%nat /\ nth_error P i = Some (nth (s i) (nth i u []) [])) /\
  forall i v, (i < nx)%nat -> value V i = Fin v ->
  path_cost_at_most g r (fun t => iterate s t i) (v + g * eps / (1 - g)).
Proof. exact vi_policy. Qed.
Print Assumptions C52_policy.

Example C52_case : cost_table 3 chain_r /\ action_table 3 chain_u.
Proof. exact chain_ok. Qed.
Example C52_case_run :
  exists V, value_iteration 2 3 chain_r chain_u (1 / 10) (1 / 2) = Returned V [[0]; [3]; [7]] /\
  V = [Fin 0; Fin 1; Fin (3 / 2)].
Proof. exact chain_run. Qed.
