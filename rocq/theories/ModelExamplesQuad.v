(** Concrete closed loops of the quadrotor, used only in the cases beside the theorems. *)

Require Import Reals List.
Require Import Verif.Vec Verif.ModelMip Verif.ModelNet Verif.ModelSystems Verif.ModelExSystems
  Verif.ModelExamplesEx.
Import ListNotations.
Open Scope R_scope.

(** The system with the bound method [m1], closed with [k] and the bound method [m2]. *)
Definition quad_of (solve : mip -> gresult) (k : controller) (m1 m2 : method) : feedback :=
  mkFb (ex_fwd solve (ex_of (KQuad (1/4) m1))) k (zeros 12) (repeat (1/4) 4)
       (repeat (Fin (-1/2)) 4) (repeat (Fin (1/2)) 4) m2.
(** A linear controller: the constant 0, before the equilibrium is subtracted and added. *)
Definition quad_lin : controller := CtlLinear (mkLin 12 (repeat (repeat 0 12) 4) None).
