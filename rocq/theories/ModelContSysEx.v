(** Concrete continuous-time plants used to show that the hypotheses of the
    theorems of PropContSys can be met.  Nothing here models code. *)

Require Import Reals List.
Require Import Verif.Vec Verif.ModelMip Verif.ModelNet Verif.ModelSystems Verif.ModelContSys.
Import ListNotations.
Open Scope R_scope.

(** phi(theta, w, u) = relu y - relu (- y) with y = - theta - 2 w + u *)
Definition net_brake : network :=
  mkNet [(mkLin 3 [[-1; -2; 1]; [1; 2; -1]] (Some [0; 0]), Relu)] (mkLin 2 [[1; -1]] (Some [0])).
Definition pend_ex : cp_sys :=
  mkCp net_brake [PI - 1; -1] [PI + 1; 1] [-1] [1] IA CPend.
(** u = - (theta - pi) - w *)
Definition pend_loop (solve : mip -> gresult) : feedback :=
  mkFb (cp_fwd solve pend_ex) (CtlLinear (mkLin 2 [[-1; -1]] None)) [PI; 0] [0] [NInf] [PInf] IA.
(** (theta - pi, w) = e^(-t) (1/2, -1/2) *)
Definition pend_path (t : R) : vec := [PI + 1/2 * exp (- 1 * t); - (1/2) * exp (- 1 * t)].

(** A Lyapunov network that is constant, and the error matrix that makes
    |2 e1 + e2| + |e1 + e2| decrease. *)
Definition net_const2 : network :=
  mkNet [(mkLin 2 [[0; 0]; [0; 0]] (Some [1; 1]), Relu)] (mkLin 2 [[1; 1]] (Some [0])).
Definition pend_R : mat := [[2; 1]; [1; 1]].

(** A network from the pitch and two thrusts to three accelerations. *)
Definition net_thrust : network :=
  mkNet [(mkLin 3 [[1; 1; 1]; [-1; -1; -1]] (Some [0; 0]), Relu)]
        (mkLin 2 [[1; -1/2]; [0; 1]; [1; 0]] (Some [1/4; 0; 0])).
Definition quad_ex : cp_sys :=
  mkCp net_thrust [-1; -1; -1; -2; -2; -2] [1; 1; 1; 2; 2; 2] [0; 0] [4; 4] MIP (CQuad [2; 2]).
(** The velocities damped, with thrusts limited to [0, 3]. *)
Definition quad_loop (solve : mip -> gresult) : feedback :=
  mkFb (cp_fwd solve quad_ex)
       (CtlLinear (mkLin 6 [[0; -1; 0; 0; -1; 0]; [0; -1; 0; 0; -1; 0]] (Some [0; 0])))
       (zeros 6) [2; 2] [Fin 0; Fin 0] [Fin 3; Fin 3] IA.
