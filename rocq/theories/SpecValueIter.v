(** Cost tables, paths and Bellman's equation. *)

Require Import Reals List.
Require Import Verif.Vec Verif.SpecExt.
Import ListNotations.
Open Scope R_scope.

(** The cost of going from i to j. *)
Definition cost (r : list (list ext)) (i j : nat) : ext := nth j (nth i r []) Inf.
Definition value (V : list ext) (i : nat) : ext := nth i V Inf.

(** An nx by nx table of costs that are nonnegative or infinite, and a table of actions. *)
Definition cost_table (nx : nat) (r : list (list ext)) : Prop :=
  length r = nx /\ Forall (fun row => length row = nx /\ Forall (ele (Fin 0)) row) r.
Definition action_table (nx : nat) (u : list (list vec)) : Prop :=
  length u = nx /\ Forall (fun row => length row = nx) u.

(** A path through the states, and the discounted cost of its first k moves. *)
Definition path (nx : nat) (p : nat -> nat) : Prop := forall t, (p t < nx)%nat.
Fixpoint path_cost (discount : R) (r : list (list ext)) (k : nat) (p : nat -> nat) : ext :=
  match k with
  | O => Fin 0
  | S k => eadd (cost r (p 0%nat) (p 1%nat)) (escale discount (path_cost discount r k (fun t => p (S t))))
  end.
(** The discounted cost of the whole path is at most C. *)
Definition path_cost_at_most (discount : R) (r : list (list ext)) (p : nat -> nat) (C : R) : Prop :=
  forall k, ele (path_cost discount r k p) (Fin C).

(** b is the right-hand side of Bellman's equation at i: the least one-step cost-to-go. *)
Definition bellman (nx : nat) (discount : R) (r : list (list ext)) (V : list ext) (i : nat) (b : ext) : Prop :=
  (forall j, (j < nx)%nat -> ele b (eadd (cost r i j) (escale discount (value V j)))) /\
  exists j, (j < nx)%nat /\ b = eadd (cost r i j) (escale discount (value V j)).

(** The state reached from i after t moves when state k is followed by state s k. *)
Fixpoint iterate (s : nat -> nat) (t i : nat) : nat := match t with O => i | S t => iterate s t (s i) end.

(** An example: 2 -> 1 -> 0, the goal 0 with a free loop. *)
Definition chain_r : list (list ext) := [[Fin 0; Inf; Inf]; [Fin 1; Inf; Inf]; [Inf; Fin 1; Inf]].
Definition chain_u : list (list vec) := [[[0]; [1]; [2]]; [[3]; [4]; [5]]; [[6]; [7]; [8]]].
