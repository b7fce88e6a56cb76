(** Leaving the box through one of its sides. *)

Require Import Reals List.
Require Import Verif.Vec Verif.SpecCore.
Import ListNotations.
Open Scope R_scope.

(** Coordinate [i] of y is at or beyond a side of the box (but within the
    larger box), all other coordinates are inside. *)
Definition beside (n : nat) (x_lo x_up lo_larger up_larger : vec) (i : nat) (y : vec) : Prop :=
  (i < n)%nat /\ length y = n /\
  (forall j, (j < n)%nat -> j <> i -> nth j x_lo 0 <= nth j y 0 <= nth j x_up 0) /\
  (nth i x_up 0 <= nth i y 0 <= nth i up_larger 0 \/
   nth i lo_larger 0 <= nth i y 0 <= nth i x_lo 0).
Definition leaves_by_side (n : nat) (x_lo x_up lo_larger up_larger : vec) (y : vec) : Prop :=
  exists i, beside n x_lo x_up lo_larger up_larger i y.

(** The level returned by compute_region_of_attraction (possibly inf) and the
    values strictly below it. *)
Definition below_level (v : R) (e : ext) : Prop :=
  match e with PInf => True | Fin r => v < r | NInf => False end.
