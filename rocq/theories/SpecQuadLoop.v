(** The inputs over which bounds computed through a callback must hold. *)

Require Import Reals List.
Require Import Verif.Vec Verif.ModelMip Verif.SpecMip Verif.SpecCore Verif.ModelSystems
  Verif.ModelExSystems.
Import ListNotations.
Open Scope R_scope.

(** A value of the variables [iv] at a feasible point of the program [p], in the box. *)
Definition reach (p : mip) (iv : list nat) (lo up v : vec) : Prop :=
  in_box lo up v /\ exists sg : assignment, gfeas p sg /\ map sg iv = v.

(** What the quadrotor's network reads: the angles, the angular velocity and the input. *)
Definition quad_input {A : Type} (x u : list A) : list A := part 3 6 x ++ part 9 12 x ++ u.

(** A state in the box whose control input is within the limits of the system. *)
Definition loop_state (S : ex_sys) (F : feedback) (x u : vec) : Prop :=
  in_box (ex_xlo S) (ex_xup S) x /\ compute_u F x = Some u /\ in_box (ex_ulo S) (ex_uup S) u.
