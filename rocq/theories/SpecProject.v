(** Polyhedra and distances. *)

Require Import Reals List.
Require Import Verif.Vec.
Open Scope R_scope.

(** The points of dimension [n] with A y <= b. *)
Definition inside (n : nat) (A : mat) (b y : vec) : Prop := length y = n /\ vle (mv A y) b.
(** Squared distance. *)
Definition gap (x y : vec) : R := dot (vsub x y) (vsub x y).
Definition nearest (n : nat) (A : mat) (b x y : vec) : Prop := inside n A b y /\ forall z, inside n A b z -> gap x y <= gap x z.
(** The answer of the solver to one problem. *)
Definition solved (n : nat) (A : mat) (b x : vec) (answer : option vec) : Prop :=
  match answer with Some y => nearest n A b x y | None => forall z, ~ inside n A b z end.
