(** C51: the RRT* tree; C59: the paths stored with its edges. *)

Require Import Reals List Permutation.
Require Import Verif.Vec Verif.SpecExt Verif.ModelValueIter Verif.ModelRrt Verif.SpecRrt Verif.ProofRrt Verif.ProofRrt2 Verif.ProofRrtEx.
Import ListNotations.
Open Scope R_scope.

(** After any history of calls with nonnegative costs that did not raise, from
    any order of iterating over the sets of children, the tree is well formed. *)
Theorem C51_history : forall ord fuel cs x T, (forall l, Permutation l (ord l)) -> Forall nonneg_call cs ->
  run_calls fuel ord (rrt_init x) cs = Ok T -> tree_ok T.
Proof. exact from_goal. Qed.
Print Assumptions C51_history.

(** Between any two moments of the history no cost-to-root grows. *)
Theorem C51_costs : forall ord fuel cs T T', (forall l, Permutation l (ord l)) -> tree_ok T -> Forall nonneg_call cs ->
  run_calls fuel ord T cs = Ok T' -> tree_ok T' /\ improves T T'.
Proof. exact history. Qed.
Print Assumptions C51_costs.

(** Every call with indices of nodes terminates without an exception. *)
Theorem C51_terminates : forall ord T c, (forall l, Permutation l (ord l)) -> tree_ok T -> nonneg_call c ->
  call_in_range T c ->
  exists N T', (forall fuel, (N <= fuel)%nat -> run_call fuel ord T c = Ok T') /\ tree_ok T' /\ improves T T'.
Proof. exact call_total. Qed.
Print Assumptions C51_terminates.

(** connect_state_extend picks the cheapest neighbour and rewires exactly where
    the way over the new node is cheaper. *)
Theorem C51_connect : forall ord find T x nbrs, (forall l, Permutation l (ord l)) -> tree_ok T ->
  nonneg_costs find -> Forall (fun i => (i < nodes T)%nat) nbrs ->
  exists N T' idx, (forall fuel, (N <= fuel)%nat -> connect fuel ord find T x nbrs = Ok (T', idx)) /\ tree_ok T' /\
    match idx with
    | None => T' = T /\ forall i, In i nbrs -> find x (nth i (states T) []) = None
    | Some new => new = nodes T /\ states T' = states T ++ [x] /\
        (forall i, (i < nodes T)%nat -> root_cost T' i <= root_cost T i) /\
        (exists i c p, In i nbrs /\ find x (nth i (states T) []) = Some (c, p) /\ root_cost T' new = c + root_cost T i) /\
        (forall i c p, In i nbrs -> find x (nth i (states T) []) = Some (c, p) ->
          root_cost T' new <= c + root_cost T i /\ root_cost T' i <= c + root_cost T' new) /\
        (forall i, (i < nodes T)%nat -> parent T' i = parent T i \/
          parent T' i = Some new /\ root_cost T' i < root_cost T i)
    end.
Proof. exact connect_statement. Qed.
Print Assumptions C51_connect.

(** The neighbours are the nodes whose weighted squared distance is at most the radius, ... *)
Theorem C51_neighbours : forall T x r i, Forall (fun s => length s = 3%nat) (states T) -> length x = 3%nat ->
  In i (neighbours T x r) <-> (i < nodes T)%nat /\ apart (nth i (states T) []) x <= r.
Proof. exact neighbours_exact. Qed.
Print Assumptions C51_neighbours.

(** ... and growing the tree by a state connects it to the cheapest of them, or
    leaves the tree alone when no path to any of them is found. *)
Theorem C51_grow : forall ord find T x, (forall l, Permutation l (ord l)) -> tree_ok T ->
  nonneg_costs find -> Forall (fun s => length s = 3%nat) (states T) -> length x = 3%nat ->
  exists N T', (forall fuel, (N <= fuel)%nat -> grow_step fuel ord find T x = Ok T') /\ tree_ok T' /\
    (T' = T /\ (forall i, (i < nodes T)%nat -> apart (nth i (states T) []) x <= 2 / 10 -> find x (nth i (states T) []) = None) \/
     states T' = states T ++ [x] /\
     (exists i c p, (i < nodes T)%nat /\ apart (nth i (states T) []) x <= 2 / 10 /\
        find x (nth i (states T) []) = Some (c, p) /\ root_cost T' (nodes T) = c + root_cost T i) /\
     (forall i c p, (i < nodes T)%nat -> apart (nth i (states T) []) x <= 2 / 10 ->
        find x (nth i (states T) []) = Some (c, p) ->
        root_cost T' (nodes T) <= c + root_cost T i /\ root_cost T' i <= c + root_cost T' (nodes T)) /\
     (forall i, (i < nodes T)%nat -> parent T' i = parent T i \/
        parent T' i = Some (nodes T) /\ root_cost T' i < root_cost T i)).
Proof. exact grow_exact. Qed.
Print Assumptions C51_grow.
Example C51_grow_case : tree_ok (rrt_init [0; 0; 0]) /\ nonneg_costs axis_find /\
  Forall (fun s => length s = 3%nat) (states (rrt_init [0; 0; 0])) /\
  apart [0; 0; 0] [1 / 4; 0; 0] <= 2 / 10 /\ exists c p, axis_find [1 / 4; 0; 0] [0; 0; 0] = Some (c, p).
Proof. exact grow_case. Qed.

(** update_parent on its own, when the new parent is not a descendant. *)
Theorem C51_update : forall ord T v q cost path, (forall l, Permutation l (ord l)) -> tree_ok T ->
  (v < nodes T)%nat -> v <> 0%nat -> (q < nodes T)%nat -> not_above T v q -> 0 <= cost ->
  exists N T', (forall fuel, (N <= fuel)%nat -> update_parent fuel ord T v q cost path = Ok T') /\
    tree_ok T' /\ states T' = states T /\
    (forall k, parent T' k = if Nat.eqb k v then Some q else parent T k) /\
    (forall k, edge_cost T' k = if Nat.eqb k v then cost else edge_cost T k).
Proof. exact update_statement. Qed.
Print Assumptions C51_update.

(** That condition is not checked: called with a descendant as the new parent,
    update_parent never returns. *)
Theorem C51_update_refuted : exists T v q cost, tree_ok T /\ (v < nodes T)%nat /\ v <> 0%nat /\ (q < nodes T)%nat /\
  0 <= cost /\ forall fuel, update_parent fuel (fun l => l) T v q cost None = NoFuel.
Proof.
  exact (ex_intro _ cycle_tree (ex_intro _ 1%nat (ex_intro _ 2%nat (ex_intro _ 1
    (conj cycle_ok (conj (le_S _ _ (le_n _)) (conj (fun H => O_S _ (eq_sym H))
      (conj (le_n _) (conj Rle_0_1 cycle_forever))))))))).
Qed.
Print Assumptions C51_update_refuted.

(** A history with a rewiring. *)
Example C51_case : Forall nonneg_call axis_calls /\
  exists T, run_calls 5 (fun l => l) (rrt_init [0; 0; 0]) axis_calls = Ok T /\ parent T 1 = Some 2%nat.
Proof. exact (conj axis_nonneg (ex_intro _ axis_tree (conj axis_run eq_refl))). Qed.
Example C51_update_case : tree_ok cycle_tree /\ not_above cycle_tree 2 1 /\ (forall fuel, (10 <= fuel)%nat ->
  exists T, update_parent fuel (fun l => l) cycle_tree 2 0 (1 / 2) None = Ok T).
Proof. exact (conj cycle_ok cycle_not_above). Qed.

(** C59. Full statement: the path stored with a node is a trajectory of the
    car from the node to its parent. Proved: it runs from the node's state to
    the parent's state. *)
Theorem C59_ends_partial : forall ord fuel T c T', (forall l, Permutation l (ord l)) -> tree_ok T ->
  stored_paths ends T -> planned_call T c -> run_call fuel ord T c = Ok T' -> tree_ok T' /\ stored_paths ends T'.
Proof. exact stored_once. Qed.
Print Assumptions C59_ends_partial.
Theorem C59_start : forall x, tree_ok (rrt_init x) /\ stored_paths ends (rrt_init x).
Proof. exact (fun x => conj (init_ok x) (stored_init x)). Qed.
Print Assumptions C59_start.

(** Missing: rewiring reverses states and inputs but does not negate the
    inputs, so the stored path drives the wrong way. *)
Theorem C59_drivable_refuted : plans axis_find /\
  exists T, run_calls 5 (fun l => l) (rrt_init [0; 0; 0]) axis_calls = Ok T /\
  parent T 1 = Some 2%nat /\ exists p, nth_error (paths T) 1 = Some (Some p) /\ ~ drivable p.
Proof. exact (conj axis_plans axis_undrivable). Qed.
Print Assumptions C59_drivable_refuted.
