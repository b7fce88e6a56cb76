(** The properties of the linear programs over polytopes (C67). *)

Require Import Reals List.
Require Import Verif.Vec Verif.ModelMip Verif.SpecMip Verif.SpecCore Verif.ModelNet Verif.SpecNet
  Verif.SpecPoly Verif.ModelPoly Verif.ModelHybrid Verif.SpecHybrid Verif.SpecContHybrid
  Verif.ModelPolyEx Verif.ProofPoly Verif.ProofPoly2 Verif.ProofPoly3 Verif.ProofPoly4
  Verif.ProofPolyEx Verif.ProofWarm.
Import ListNotations.
Open Scope R_scope.

(** C67.  The bounds reported for a coordinate of a polytope hold at each of its
    points, whatever statuses the solver reports. *)
Theorem C67_polytope_valid : forall solve n, solver_ok solve ->
  bounds_valid (compute_bounds_from_polytope solve n).
Proof. exact polytope_valid. Qed.
Print Assumptions C67_polytope_valid.
(** They are the smallest and the largest value, infinite exactly if the
    coordinate is not bounded on that side. *)
Theorem C67_polytope_exact : forall solve n P q i, solver_ok solve -> unbounded_ok solve ->
  wfm (length q) n P -> (i < n)%nat -> (exists x, polytope n P q x) ->
  forall lo up, compute_bounds_from_polytope solve n P q i = Some (lo, up) ->
  least (image_of (polytope n P q) (fun x => nth i x 0)) lo /\
  greatest (image_of (polytope n P q) (fun x => nth i x 0)) up.
Proof. exact polytope_exact. Qed.
Print Assumptions C67_polytope_exact.
(** No exception if the solver decides; (inf, -inf) for an empty polytope. *)
Theorem C67_polytope_total : forall solve n P q i, decisive solve -> wfm (length q) n P -> (i < n)%nat ->
  exists lo up, compute_bounds_from_polytope solve n P q i = Some (lo, up).
Proof. exact polytope_total. Qed.
Print Assumptions C67_polytope_total.
Theorem C67_polytope_empty : forall solve n P q i, finds_infeasible solve -> wfm (length q) n P -> (i < n)%nat ->
  (forall x, ~ polytope n P q x) -> compute_bounds_from_polytope solve n P q i = Some (PInf, NInf).
Proof. exact polytope_empty. Qed.
Print Assumptions C67_polytope_empty.
(** A solver that meets all assumptions, and a triangle. *)
Example C67_polytope_case :
  (solver_ok deciding_solve /\ solver_total deciding_solve /\ unbounded_ok deciding_solve /\
   decisive deciding_solve /\ finds_infeasible deciding_solve) /\
  wfm (length tri_q) 2 tri_P /\ polytope 2 tri_P tri_q [1; 1] /\
  compute_bounds_from_polytope deciding_solve 2 tri_P tri_q 1 = Some (Fin 0, Fin 2).
Proof.
  exact (conj (conj deciding_ok (conj deciding_total (conj deciding_unbounded
    (conj deciding_decisive deciding_infeasible)))) (conj tri_wf (conj tri_point tri_bounds))).
Qed.

(** The bounds of a row of A_i on a mode. *)
Theorem C67_row_valid : forall solve n, solver_ok solve -> SpecContHybrid.row_bounds_valid (Ai_row_bounds solve n).
Proof. exact row_valid. Qed.
Print Assumptions C67_row_valid.
Theorem C67_row_exact : forall solve n P q a, solver_ok solve -> unbounded_ok solve ->
  wfm (length q) n P -> length a = n -> (exists x, polytope n P q x) ->
  forall lo up, Ai_row_bounds solve n P q a = Some (lo, up) ->
  least (image_of (polytope n P q) (dot a)) lo /\ greatest (image_of (polytope n P q) (dot a)) up.
Proof. exact row_exact. Qed.
Print Assumptions C67_row_exact.

(** compute_range_by_lp: bounds of A x + b, the best ones, and the same as
    interval arithmetic on a box. *)
Theorem C67_range_valid : forall solve n A b xlb xub C d lo up, solver_ok solve ->
  compute_range_by_lp solve n A b xlb xub C d = Some (lo, up) ->
  length lo = length A /\ length up = length A /\
  forall x i, range_set n xlb xub C d x -> (i < length A)%nat ->
    ext_le_r (nth i lo NInf) (dot (nth i A []) x + nth i b 0) /\
    r_le_ext (dot (nth i A []) x + nth i b 0) (nth i up NInf).
Proof. exact range_lp_valid. Qed.
Print Assumptions C67_range_valid.
Theorem C67_range_exact : forall solve n A b xlb xub C d lo up, solver_ok solve -> unbounded_ok solve ->
  compute_range_by_lp solve n A b xlb xub C d = Some (lo, up) ->
  (exists x, range_set n xlb xub C d x) ->
  forall i, (i < length A)%nat ->
    least (image_of (range_set n xlb xub C d) (fun x => dot (nth i A []) x + nth i b 0)) (nth i lo NInf) /\
    greatest (image_of (range_set n xlb xub C d) (fun x => dot (nth i A []) x + nth i b 0)) (nth i up NInf).
Proof. exact range_lp_exact. Qed.
Print Assumptions C67_range_exact.
Theorem C67_range_is_interval_arithmetic : forall solve n A b lb ub d, solver_ok solve -> solver_total solve ->
  wfm (length b) n A -> length lb = n -> vle lb ub ->
  exists lo up, compute_range_by_IA n A b lb ub = Some (lo, up) /\
    compute_range_by_lp solve n A b (Some (map Fin lb)) (Some (map Fin ub)) None d =
      Some (map Fin lo, map Fin up).
Proof. exact range_lp_IA. Qed.
Print Assumptions C67_range_is_interval_arithmetic.
Example C67_range_case : exists lo up,
  compute_range_by_lp deciding_solve 2 [[1; -1]; [0; 3]] [1; 2] (Some (map Fin [0; 1])) (Some (map Fin [2; 3])) None None =
    Some (map Fin lo, map Fin up).
Proof.
  destruct (range_lp_IA deciding_solve 2 [[1; -1]; [0; 3]] [1; 2] [0; 1] [2; 3] None deciding_ok deciding_total
    (proj1 ProofWarm.ia_case) eq_refl (proj2 ProofWarm.ia_case)) as (lo & up & _ & E).
  exists lo, up. exact E.
Qed.

(** is_polyhedron_bounded: True means that {x | P x <= q} is bounded for every
    q; False means that no nonempty one is. *)
Theorem C67_bounded_sound : forall solve n P q, solver_ok solve -> wfm (length q) n P ->
  is_polyhedron_bounded solve n P = true -> bounded_set (polytope n P q).
Proof. exact bounded_sound. Qed.
Print Assumptions C67_bounded_sound.
Theorem C67_bounded_complete : forall solve n P q, finds_infeasible solve -> wfm (length q) n P ->
  is_polyhedron_bounded solve n P = false -> (exists x, polytope n P q x) ->
  ~ bounded_set (polytope n P q).
Proof. exact bounded_complete. Qed.
Print Assumptions C67_bounded_complete.
Example C67_bounded_case : is_polyhedron_bounded deciding_solve 2 tri_P = true /\
  is_polyhedron_bounded deciding_solve 2 strip_P = false /\ wfm (length strip_q) 2 strip_P.
Proof. exact (conj tri_bounded (conj strip_unbounded strip_wf)). Qed.

(** A mode on a nonempty polytope that passes the check is added, with finite
    bounds for every coordinate. *)
Theorem C67_mode_added : forall solve nx nu h A B c P q, solver_ok solve -> solver_total solve ->
  h_nx h = nx -> h_nu h = nu -> finite_modes h ->
  wfm nx nx A -> wfm nx nu B -> length c = nx -> wfm (length q) (nx + nu) P ->
  (exists z, polytope (nx + nu) P q z) ->
  is_polyhedron_bounded solve (nx + nu) P = true ->
  exists h', add_mode (compute_bounds_from_polytope solve (nx + nu))
               (is_polyhedron_bounded solve (nx + nu)) h A B c P q true = Some h' /\ finite_modes h'.
Proof. exact mode_finite. Qed.
Print Assumptions C67_mode_added.
(** The constraints of a hybrid system whose modes were added with these
    functions describe its successors exactly. *)
Theorem C67_hybrid_exact : forall solve nx nu h x_lo x_up u_lo u_up c x u x', solver_ok solve ->
  built (compute_bounds_from_polytope solve (nx + nu)) (is_polyhedron_bounded solve (nx + nu)) nx nu h ->
  hybrid_mic h x_lo x_up u_lo u_up = Some c -> length x = nx -> length u = nu ->
  ((exists s b, bins b /\ mic_sat c (x ++ u) s b /\ output c (x ++ u) s b = x') <->
   opt_box x_lo x_up x /\ opt_box u_lo u_up u /\ hybrid_next h x u x').
Proof. exact poly_hybrid_exact. Qed.
Print Assumptions C67_hybrid_exact.
Example C67_mode_case : exists h,
  add_mode (compute_bounds_from_polytope deciding_solve 2) (is_polyhedron_bounded deciding_solve 2)
    (new_hybrid 2 0) [[1/2; 0]; [0; 1/2]] [[]; []] [0; 0] tri_P tri_q true = Some h /\
  built (compute_bounds_from_polytope deciding_solve 2) (is_polyhedron_bounded deciding_solve 2) 2 0 h /\
  exists c, hybrid_mic h None None None None = Some c.
Proof. exact tri_mode. Qed.
