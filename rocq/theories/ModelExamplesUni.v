(** Concrete unicycle loops, used only in the cases beside the theorems. *)

Require Import Reals List.
Require Import Verif.Vec Verif.ModelMip Verif.ModelNet Verif.ModelSystems Verif.ModelExamplesEx
  Verif.ModelUniFeedback.
Import ListNotations.
Open Scope R_scope.

(** A learned system with three states and two inputs, all in [-1, 1]. *)
Definition uni_plant : ctl_sys :=
  mkCtl (enet 5 3) (repeat (-1) 3) (repeat 1 3) (repeat (-1) 2) (repeat 1 2) CPlain.
(** phi(x) = (- relu(p_x), 0). *)
Definition net_brake : network :=
  mkNet [(mkLin 3 [[1; 0; 0]; [-1; 0; 0]] (Some [0; 0]), Relu)]
        (mkLin 2 [[-1; 0]; [0; 0]] (Some [0; 0])).
(** Closed with phi, lambda_u = 1/2, R_u = I, velocity in [0, 1], turning rate in
    [-1, 1]. *)
Definition uni_loop (solve : mip -> gresult) (k : controller) : uni_feedback :=
  mkUni (mkFb (ctl_fwd solve uni_plant) k (zeros 3) (zeros 2) [Fin 0; Fin (-1)] [Fin 1; Fin 1] IA)
        (1/2) [[1; 0]; [0; 1]].
Definition uni_brake (solve : mip -> gresult) : uni_feedback := uni_loop solve (CtlNet net_brake).
(** The linear controller phi(x) = 0. *)
Definition uni_lin (solve : mip -> gresult) : uni_feedback :=
  uni_loop solve (CtlLinear (mkLin 3 [[0; 0; 0]; [0; 0; 0]] None)).
