(** What a tree of nodes is. *)

Require Import Reals List Permutation.
Require Import Verif.Vec Verif.SpecExt Verif.ModelValueIter Verif.ModelRrt.
Import ListNotations.
Open Scope R_scope.

Definition nodes (T : tree) : nat := length (states T).
Definition parent (T : tree) (i : nat) : option nat := nth i (parents T) None.
Definition kids (T : tree) (i : nat) : list nat := nth i (children T) [].
Definition edge_cost (T : tree) (i : nat) : R := nth i (to_parent T) 0.
Definition root_cost (T : tree) (i : nat) : R := nth i (to_root T) 0.

(** Following parents from node i leads to the goal, node 0, and c is the sum
    of the costs of the edges along the way. *)
Inductive leads_to_goal (T : tree) : nat -> R -> Prop :=
| at_goal : leads_to_goal T 0 0
| by_parent : forall i p c, parent T i = Some p -> leads_to_goal T p c -> leads_to_goal T i (edge_cost T i + c).

Record tree_ok (T : tree) : Prop := {
  ok_sizes : length (parents T) = nodes T /\ length (children T) = nodes T /\ length (to_root T) = nodes T /\
    length (to_parent T) = nodes T /\ length (paths T) = nodes T;
  ok_goal : (0 < nodes T)%nat /\ parent T 0 = None;
  ok_costs : forall i, (i < nodes T)%nat -> leads_to_goal T i (root_cost T i);
  ok_children : forall p c, (p < nodes T)%nat -> (In c (kids T p) <-> parent T c = Some p);
  ok_sets : forall p, NoDup (kids T p);
  ok_nonneg : forall i, (i < nodes T)%nat -> 0 <= edge_cost T i }.

(** The costs found by a path planner are nonnegative. *)
Definition nonneg_costs (find : vec -> vec -> find_result) : Prop :=
  forall x y c p, find x y = Some (c, p) -> 0 <= c.
Definition nonneg_call (c : call) : Prop :=
  match c with
  | AddNode _ _ cost _ => 0 <= cost
  | Connect find _ _ => nonneg_costs find
  | Grow find _ => nonneg_costs find
  end.
(** The indices of the call are those of nodes. *)
Definition call_in_range (T : tree) (c : call) : Prop :=
  match c with
  | AddNode _ p _ _ => (p < nodes T)%nat
  | Connect _ _ nbrs => Forall (fun i => (i < nodes T)%nat) nbrs
  | Grow _ _ => True
  end.
(** T' keeps the nodes of T and no cost-to-root is larger. *)
Definition improves (T T' : tree) : Prop :=
  firstn (nodes T) (states T') = states T /\ forall i, (i < nodes T)%nat -> root_cost T' i <= root_cost T i.

(** Node v does not lie on the way from node i to the goal. *)
Inductive not_above (T : tree) (v : nat) : nat -> Prop :=
| na_goal : v <> 0%nat -> not_above T v 0
| na_step : forall i p, i <> v -> parent T i = Some p -> not_above T v p -> not_above T v i.

(** The states along a path go from x to y. *)
Definition ends (x y : vec) (p : tpath) : Prop :=
  hd_error (fst (fst p)) = Some x /\ hd_error (rev (fst (fst p))) = Some y.
(** Every step of the path satisfies the discretised dynamics of the unicycle. *)
Definition drivable (p : tpath) : Prop :=
  forall j, (j < length (snd p))%nat ->
  step_defect (nth j (fst (fst p)) []) (nth (S j) (fst (fst p)) []) (nth j (snd (fst p)) []) (nth (S j) (snd (fst p)) [])
    (nth j (snd p) 0) = zeros 3.
(** A planner that returns what the trajectory optimisation enforces. *)
Definition plans (find : vec -> vec -> find_result) : Prop :=
  forall x y c p, find x y = Some (c, p) -> 0 <= c /\ ends x y p /\ drivable p.
(** Every stored path goes from its node to the parent of the node. *)
Definition stored_paths (good : vec -> vec -> tpath -> Prop) (T : tree) : Prop :=
  forall i p, parent T i = Some p -> exists path, nth_error (paths T) i = Some (Some path) /\
  good (nth i (states T) []) (nth p (states T) []) path.
(** Calls whose paths have the right ends; nodes without a path are not added. *)
Definition planned_call (T : tree) (c : call) : Prop :=
  match c with
  | AddNode x p cost path => 0 <= cost /\ exists pth, path = Some pth /\ ends x (nth p (states T) []) pth
  | Connect find _ _ => plans find
  | Grow find _ => plans find
  end.

(** An example: a planner for straight motions along the x axis, with the cost of the inputs (the sum of their squares). *)
Definition on_axis (x : vec) : bool :=
  if list_eq_dec Req_EM_T x [nth 0 x 0; 0; 0] then true else false.
Definition axis_find (x y : vec) : find_result :=
  if andb (on_axis x) (on_axis y) then
    Some (2 * (nth 0 y 0 - nth 0 x 0) * (nth 0 y 0 - nth 0 x 0), ([x; y], [[nth 0 y 0 - nth 0 x 0; 0]; [nth 0 y 0 - nth 0 x 0; 0]], [1]))
  else None.
(** A node at 2 is connected to the goal, then a node at 1 to both. *)
Definition axis_calls : list call := [Connect axis_find [2; 0; 0] [0%nat]; Connect axis_find [1; 0; 0] [0; 1]%nat].

(** The squared distance that the tree uses. *)
Definition apart (x y : vec) : R :=
  Rsqr (nth 0 x 0 - nth 0 y 0) + Rsqr (nth 1 x 0 - nth 1 y 0) + Rsqr (nth 2 x 0 - nth 2 y 0) / 2.
