(** Rewards of the planar quadrotor and the motions of the plant. *)

Require Import Reals List.
Require Import Verif.Vec Verif.ModelPlants.
Import ListNotations.
Open Scope R_scope.

(** Thrust of each rotor that carries half of the weight. *)
Definition hover : R := 486 / 1000 * (981 / 100) / 2.
(** The reward for thrusts [u0], [u1] that lead to a state. *)
Definition penalty (u0 u1 x z th xd zd thd : R) : R :=
  / 10 * (u0 - hover) ^ 2 + / 10 * (u0 - hover) * (u1 - hover) + / 10 * (u1 - hover) ^ 2 +
  10 * x ^ 2 + 10 * z ^ 2 + 10 * th ^ 2 + xd ^ 2 + zd ^ 2 + 25 / 100 / 2 / PI * thd ^ 2.
(** [y] moves as the plant does with thrusts [u]. *)
Definition motion (u : vec) (y : R -> vec) (T : R) : Prop :=
  forall t, 0 <= t <= T -> length (y t) = 6%nat /\ exists d, quad2d_np quad2d_default (y t) u = Some d /\
    forall j, (j < 6)%nat -> derivable_pt_lim (fun s => nth j (y s) 0) t (nth j d 0).
(** The states actions lead to, one after the other. *)
Fixpoint visited (next : vec -> vec -> vec) (x : vec) (actions : list vec) : list vec :=
  match actions with [] => [] | a :: rest => next x a :: visited next (next x a) rest end.
