(** Elementary vocabulary used in the statements of the properties. *)

Require Import Reals List.
Require Import Verif.Vec.
Import ListNotations.
Open Scope R_scope.

(** max(x, 0) *)
Definition relu (x : R) : R := Rmax x 0.

(** x when x >= 0, a*x otherwise *)
Definition leaky (a x : R) : R := if Rle_dec 0 x then x else a * x.

(** min(max(x, lo), up) *)
Definition clamp (lo up x : R) : R := Rmin (Rmax x lo) up.

(** x lies in the axis-aligned box [lo, up]. *)
Definition in_box (lo up x : vec) : Prop := vle lo x /\ vle x up.

(** [m] is the largest entry of [l]. *)
Definition is_max (m : R) (l : vec) : Prop :=
  In m l /\ forall v, In v l -> v <= m.

(** 1-norm and infinity-norm of a vector. *)
Definition norm1 (x : vec) : R := vsum (map Rabs x).
Definition norminf (x : vec) : R := fold_right Rmax 0 (map Rabs x).
