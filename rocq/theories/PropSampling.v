(** The properties of the sampling helpers (C49). *)

Require Import Reals List Bool Arith Lra Lia.
Require Import Verif.Vec Verif.SpecCore Verif.SpecUtils Verif.ModelSampling Verif.SpecSampling Verif.ProofSampling.
Import ListNotations.
Open Scope R_scope.

(** C49. *)
Theorem C49_in_box : forall lo hi U, vle lo hi ->
  Forall (fun r => length r = length lo /\ unit_interval r) U ->
  exists S, uniform_sample_in_box lo hi U = Some S /\ length S = length U /\ Forall (in_box lo hi) S.
Proof. exact sample_in_box. Qed.
Print Assumptions C49_in_box.
(** Every point of the box can be drawn. *)
Theorem C49_onto : forall lo hi x, Forall2 Rlt lo hi -> in_box lo hi x ->
  exists r, length r = length lo /\ unit_interval r /\ uniform_sample_in_box lo hi [r] = Some [x].
Proof. exact sample_onto. Qed.
Print Assumptions C49_onto.
(** Full statement: for every random number in [0, 1). *)
Theorem C49_boundary_partial : forall lo hi U u, vle lo hi -> (0 < length lo)%nat ->
  Forall (fun r => length r = length lo /\ unit_interval r) U -> length u = length U ->
  Forall (fun a => 0 < a < 1) u ->
  exists S, uniform_sample_on_box_boundary lo hi U u = Some S /\ length S = length U /\
    Forall (on_boundary lo hi) S.
Proof. exact sample_on_boundary. Qed.
Print Assumptions C49_boundary_partial.
Theorem C49_boundary_refuted :
  uniform_sample_on_box_boundary [0; 0] [1; 1] [[1/2; 1/2]] [0] = None.
Proof. exact boundary_zero. Qed.
Print Assumptions C49_boundary_refuted.
Example C49_boundary_case : exists S,
  uniform_sample_on_box_boundary [0; 0] [1; 2] [[1/2; 1/2]] [1/4] = Some S /\
  Forall (on_boundary [0; 0] [1; 2]) S.
Proof. exact boundary_case. Qed.
Theorem C49_meshgrid : forall lo up ns, length lo = length ns -> length up = length ns -> ns <> [] ->
  exists M, get_meshgrid_samples lo up ns = Some M /\
    M = cartesian (linspaces lo up ns) /\
    length M = fold_right Nat.mul 1%nat ns /\
    (forall x, In x M <-> grid_points lo up ns x) /\
    (Forall2 (fun p n => fst p <> snd p \/ (n <= 1)%nat) (combine lo up) ns -> NoDup M).
Proof. exact mesh_ok. Qed.
Print Assumptions C49_meshgrid.
Example C49_mesh_case : exists M, get_meshgrid_samples [0; -1] [1; 1] [2; 3]%nat = Some M /\
  length M = 6%nat /\ NoDup M /\ In [1; 0] M.
Proof. exact mesh_case. Qed.
Theorem C49_minkowski : forall x y, length (minkowski_tiled x y) = (length x * length y)%nat /\
  forall i j, (i < length x)%nat -> (j < length y)%nat ->
  nth (i * length y + j) (minkowski_tiled x y) [] = vadd (nth i x []) (nth j y []).
Proof. exact minkowski_ok. Qed.
Print Assumptions C49_minkowski.
