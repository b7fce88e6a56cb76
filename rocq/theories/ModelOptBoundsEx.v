(** Concrete systems used to show that the hypotheses of the theorems of
    PropOptBounds can be met.  Nothing here models code. *)

Require Import Reals List.
Require Import Verif.Vec Verif.ModelMip Verif.ModelNet Verif.ModelSystems Verif.ModelContSys Verif.ModelContSysEx.
Import ListNotations.
Open Scope R_scope.

(** xdot = - x for x <= 0 and - 2 x for x >= 0, with the LP method. *)
Definition net_decay : network :=
  mkNet [(mkLin 1 [[1]; [-1]] (Some [0; 0]), Relu)] (mkLin 2 [[-2; 1]] (Some [0])).
Definition decay_ex : auto_sys := mkAuto net_decay [-1] [1] LP APlain.

(** The pendulum and its controller of ModelContSysEx with the MIP method. *)
Definition pend_mip : cp_sys := mkCp net_brake [PI - 1; -1] [PI + 1; 1] [-1] [1] MIP CPend.
Definition pend_mip_loop (solve : mip -> gresult) : feedback :=
  mkFb (cp_fwd solve pend_mip) (CtlLinear (mkLin 2 [[-1; -1]] None)) [PI; 0] [0] [NInf] [PInf] MIP.
