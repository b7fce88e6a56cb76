(** Averages with weights that fade with age. *)

Require Import Reals List.
Require Import Verif.Vec.
Import ListNotations.
Open Scope R_scope.

(** The latest value first: weights 1, b, b^2, ... *)
Fixpoint faded (b : R) (l : list R) : R := match l with [] => 0 | x :: l' => x + b * faded b l' end.
Definition average (b : R) (l : list R) : R := faded b l / faded b (map (fun _ => 1) l).
(** The history of coordinate [j], the latest value first. *)
Definition history (j : nat) (gs : list vec) : list R := rev (map (fun g => nth j g 0) gs).
Definition squares (l : list R) : list R := map (fun x => x * x) l.
(** Adam's move of a coordinate. *)
Definition adam_move (lr b1 b2 eps : R) (h : list R) : R :=
  - (lr * average b1 h / (sqrt (average b2 (squares h)) + eps)).
(** The largest over all moments up to now (AMSGrad); the latest value first. *)
Fixpoint largest (b : R) (l : list R) : R :=
  match l with [] => 0 | _ :: l' => Rmax (largest b l') ((1 - b) * faded b l) end.
(** The gradient of the loss with the penalty wd / 2 * |v|^2, at value and gradient [x]. *)
Definition with_decay (wd : R) (x : vec * vec) : vec := vadd (snd x) (vscale wd (fst x)).
