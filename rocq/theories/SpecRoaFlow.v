(** Solutions of a continuous-time system that may leave the box. *)

Require Import Reals List.
Require Import Verif.Vec Verif.SpecCore Verif.SpecContinuous.
Open Scope R_scope.

(** A continuous curve of [n]-vectors over [0, b] that moves with a velocity of the
    system while it is in the box.  Nothing is said about its velocity outside. *)
Record motion (n : nat) (lo up : vec) (T : vec -> vec -> Prop) (b : R) (x : R -> vec) : Prop := {
  mo_len : forall t, length (x t) = n;
  mo_cont : forall i, cont_on b (fun t => nth i (x t) 0);
  mo_deriv : forall t, 0 <= t < b -> in_box lo up (x t) -> exists d, T (x t) d /\ length d = n /\
      forall i, rderiv (fun s => nth i (x s) 0) t (nth i d 0)
}.
