(** C88 - projection to a polyhedron. *)

Require Import Reals List Arith.
Require Import Verif.Vec Verif.ModelProject Verif.SpecProject Verif.ProofProject.
Import ListNotations.
Open Scope R_scope.

(** If the solver solves the problem it is given, the result is the nearest point of the polyhedron, the only one,
    and the call raises exactly for an empty polyhedron. *)
Theorem C88_nearest : forall solve n A b x, length x = n -> solved n A b x (solve A b x) ->
  (forall y, project_to_polyhedron solve A b x = Some y <-> nearest n A b x y) /\
  (project_to_polyhedron solve A b x = None <-> forall z, ~ inside n A b z).
Proof. exact projection. Qed.
Print Assumptions C88_nearest.
(** Nearest points are those at which no point of the polyhedron is seen at an acute angle. *)
Theorem C88_angle : forall n A b x y, length x = n ->
  (nearest n A b x y <-> inside n A b y /\ forall z, inside n A b z -> dot (vsub x y) (vsub z y) <= 0).
Proof. exact angle. Qed.
Print Assumptions C88_angle.
(** A point is returned unchanged exactly if it is inside; projecting twice is projecting once. *)
Theorem C88_fixed : forall solve n A b x, length x = n -> solved n A b x (solve A b x) ->
  (project_to_polyhedron solve A b x = Some x <-> inside n A b x).
Proof. exact fixed. Qed.
Print Assumptions C88_fixed.
Theorem C88_twice : forall solve n A b x y, length x = n -> solved n A b x (solve A b x) ->
  project_to_polyhedron solve A b x = Some y -> project_to_polyhedron solve A b y = Some y.
Proof. exact twice. Qed.
Print Assumptions C88_twice.
(** Points do not move apart. *)
Theorem C88_nonexpansive : forall solve n A b x1 x2 y1 y2, length x1 = n -> length x2 = n ->
  solved n A b x1 (solve A b x1) -> solved n A b x2 (solve A b x2) ->
  project_to_polyhedron solve A b x1 = Some y1 -> project_to_polyhedron solve A b x2 = Some y2 -> gap y1 y2 <= gap x1 x2.
Proof. exact closer. Qed.
Print Assumptions C88_nonexpansive.
(** A point beside a square, and an empty polyhedron. *)
Example C88_case : solved 2 square_A square_b [3; 1 / 2] (Some [1; 1 / 2]) /\ ~ inside 2 square_A square_b [3; 1 / 2] /\
  solved 1 [[1]; [-1]] [-1; -1] [0] None.
Proof. exact square_case. Qed.
