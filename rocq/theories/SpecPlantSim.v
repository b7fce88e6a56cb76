(** Trajectories of a plant. *)

Require Import Reals List.
Require Import Verif.Vec.
Import ListNotations.
Open Scope R_scope.

(** [y] follows the differential equation with right-hand side [f] on [t0, t1]. *)
Definition follows (f : R -> vec -> vec) (t0 t1 : R) (y : R -> vec) : Prop :=
  forall t, t0 <= t <= t1 -> length (f t (y t)) = length (y t) /\
  forall i, (i < length (y t))%nat -> derivable_pt_lim (fun r => nth i (y r) 0) t (nth i (f t (y t)) 0).

(** Hundredths of a second from t0 on, before t1, without a gap. *)
Definition hundredths (t0 t1 : R) (ts : list R) : Prop :=
  (forall i, (i < length ts)%nat -> nth i ts 0 = t0 + INR i / 100) /\
  (forall t, In t ts -> t0 <= t < t1) /\
  t1 <= t0 + INR (length ts) / 100.
