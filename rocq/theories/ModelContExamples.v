(** Concrete continuous-time objects used to show that the hypotheses of the
    theorems of PropContinuous can be met.  Nothing here models code. *)

Require Import Reals List.
Require Import Verif.Vec Verif.ModelMip Verif.ModelNet Verif.ModelUtils Verif.ModelPattern Verif.ModelHybrid Verif.SpecHybrid Verif.ModelExamples.
Import ListNotations.
Open Scope R_scope.

(** xdot = - x on [-1, 0], xdot = - 2 x on [0, 1]. *)
Definition sysf : hybrid := mkHybrid 1 0
  [mkMode [[-1]] [[]] [0] [[1]; [-1]] [0; 1] [Fin (Ropp 1)] [Fin 0];
   mkMode [[-2]] [[]] [0] [[1]; [-1]] [1; 0] [Fin (Ropp 0)] [Fin 1]].
Definition Tf := fun x d => hybrid_next sysf x [] d.
Definition addf (xv xn : list nat) (vt : vtype) (m : mip) : option (mip * option (vec * vec)) :=
  option_map (fun m' => (m', Some ([-2], [1]))) (hybrid_add_dynamics sysf xv xn [] vt m).
Definition flow_ex (t : R) : vec := [exp (- 2 * t)].

(** xdot = -1 on [0, 1]. *)
Definition sysd : hybrid := mkHybrid 1 0
  [mkMode [[0]] [[]] [-1] [[1]; [-1]] [1; 0] [Fin (Ropp 0)] [Fin 1]].
Definition Td := fun x d => hybrid_next sysd x [] d.
Definition addd (xv xn : list nat) (vt : vtype) (m : mip) : option (mip * option (vec * vec)) :=
  option_map (fun m' => (m', Some ([-1], [-1]))) (hybrid_add_dynamics sysd xv xn [] vt m).

(** A network that is constant. *)
Definition net_flat : network :=
  mkNet [(mkLin 1 [[0]; [0]] (Some [1; 1]), Relu)] (mkLin 2 [[1; 1]] (Some [0])).

(** No bounds are needed from the solver when bounds are propagated by interval
    arithmetic. *)
Definition no_opt (M : mat) : option (wzb * (vec * vec)) := None.

(** Bounds of a x over a polytope on the line. *)
Definition line_bounds (P : mat) (q a : vec) : option (ext * ext) :=
  match a with
  | [c] => match row_bounds P q 0 with
           | Some (Fin l, Fin u) => Some (Fin (Rmin (c * l) (c * u)), Fin (Rmax (c * l) (c * u)))
           | _ => None
           end
  | _ => None
  end.
