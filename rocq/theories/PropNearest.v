(** Choosing the nearest (C94). *)

Require Import Reals List.
Require Import Verif.Vec Verif.SpecCore Verif.ModelSampling Verif.SpecSampling Verif.ModelRrt Verif.ModelNearest Verif.SpecNearest
  Verif.ProofNearest.
Import ListNotations.
Open Scope R_scope.

(** C94.  The value returned is an entry of the array that no other is nearer to, the first one if tied. *)
Theorem C94_find_nearest : forall array value, array <> [] -> exists a i, find_nearest array value = Some a /\
  nth_error array i = Some a /\ first_nearest (fun b => Rabs (b - value)) array i.
Proof. exact find_nearest_ok. Qed.
Print Assumptions C94_find_nearest.
Theorem C94_nearest_node : forall T x, states T <> [] -> Forall (fun s => length s = 3%nat) (states T) ->
  length x = 3%nat ->
  exists i, nearest_node T x = Some i /\ first_nearest (fun s => pose_distance s x) (states T) i.
Proof. exact nearest_node_ok. Qed.
Print Assumptions C94_nearest_node.
(** The state that extends a node is reached from it by an input within the limits, and none of the
    other inputs that were drawn gets nearer. *)
Theorem C94_extend_node : forall sim u_lo u_up T i x0 U dt x,
  (forall dt u s, length s = 3%nat -> length (sim dt u s) = 3%nat) ->
  nth_error (states T) i = Some x0 -> length x0 = 3%nat -> length x = 3%nat -> vle u_lo u_up -> U <> [] ->
  Forall (fun r => length r = length u_lo /\ unit_interval r) U ->
  exists us u, uniform_sample_in_box u_lo u_up U = Some us /\ length us = length U /\ In u us /\ in_box u_lo u_up u /\
    extend_node sim u_lo u_up T i U dt x = Some (sim dt u x0) /\
    forall u', In u' us -> pose_distance (sim dt u x0) x <= pose_distance (sim dt u' x0) x.
Proof. exact extend_ok. Qed.
Print Assumptions C94_extend_node.
(** The samples are exactly the poses of the region. *)
Theorem C94_sample_state : forall x,
  sample_region x <-> exists r, length r = 3%nat /\ unit_interval r /\ x = sample_state r.
Proof. exact sample_region_iff. Qed.
Print Assumptions C94_sample_state.
(** A pass of the search proposes a state that is reached in a twentieth of a second from the node
    nearest to the sample. *)
Theorem C94_propose : forall sim u_lo u_up T r U,
  (forall dt u s, length s = 3%nat -> length (sim dt u s) = 3%nat) ->
  states T <> [] -> Forall (fun s => length s = 3%nat) (states T) -> length r = 3%nat -> vle u_lo u_up -> U <> [] ->
  Forall (fun w => length w = length u_lo /\ unit_interval w) U ->
  exists x0 u, In x0 (states T) /\ (forall s, In s (states T) ->
      pose_distance x0 (sample_state r) <= pose_distance s (sample_state r)) /\
    in_box u_lo u_up u /\ propose sim u_lo u_up T r U = Some (sim (1 / 20) u x0).
Proof. exact propose_ok. Qed.
Print Assumptions C94_propose.

Example C94_case : find_nearest [3; 1; -1] 0 = Some 1 /\ find_nearest [] 0 = None.
Proof. exact nearest_case. Qed.
Example C94_case_tree : nearest_node two_nodes [2; 0; 0] = Some 1%nat /\
  (forall dt u s, length s = 3%nat -> length (drive dt u s) = 3%nat) /\
  extend_node drive [0; 0] [4; 1] two_nodes 1 [[0; 1]; [1 / 2; 0]] (1 / 4) [2; 0; 0] = Some [3 / 2; 0; 0].
Proof. exact two_nodes_case. Qed.
