(** What it is to be nearest. *)

Require Import Reals List.
Require Import Verif.Vec.
Import ListNotations.
Open Scope R_scope.

(** The squared distance of two poses (x, y, theta), an angle counting half. *)
Definition pose_distance (p q : vec) : R :=
  (nth 0 p 0 - nth 0 q 0) ^ 2 + (nth 1 p 0 - nth 1 q 0) ^ 2 + (nth 2 p 0 - nth 2 q 0) ^ 2 / 2.

(** Entry i is nearest, and the first one that is. *)
Definition first_nearest {A : Type} (dist : A -> R) (l : list A) (i : nat) : Prop :=
  exists a, nth_error l i = Some a /\ (forall b, In b l -> dist a <= dist b) /\
    forall k b, (k < i)%nat -> nth_error l k = Some b -> dist a < dist b.

(** The poses from which samples are drawn: the square of side 10 and 1.2 half turns to either side. *)
Definition sample_region (x : vec) : Prop :=
  exists a b c, x = [a; b; c] /\ -5 <= a <= 5 /\ -5 <= b <= 5 /\ - (6 / 5 * PI) <= c <= 6 / 5 * PI.
