(** Positions on the grid of the car: two coordinates and a heading. *)

Require Import List Arith.
Import ListNotations.

Definition pos := (nat * nat * nat)%type.
Definition p0 (a : pos) : nat := fst (fst a).
Definition p1 (a : pos) : nat := snd (fst a).
Definition p2 (a : pos) : nat := snd a.
(** A position of a grid with n by n cells and m headings, and its number. *)
Definition on_grid (n m : nat) (a : pos) : Prop := p0 a < n /\ p1 a < n /\ p2 a < m.
Definition number (n m : nat) (a : pos) : nat := m * n * p0 a + m * p1 a + p2 a.
(** At most so many cells apart. *)
Definition within (k a b : nat) : Prop := a <= b + k /\ b <= a + k.
Definition reachable (n0 n1 n2 : nat) (a b : pos) : Prop :=
  a <> b /\ within n0 (p0 a) (p0 b) /\ within n1 (p1 a) (p1 b) /\ within n2 (p2 a) (p2 b).
(** The same heading at the start and the same displacement. *)
Definition same_move (a b a' b' : pos) : Prop :=
  p2 a = p2 a' /\ p2 b = p2 b' /\ p0 a + p0 b' = p0 a' + p0 b /\ p1 a + p1 b' = p1 a' + p1 b.
(** The result does not depend on where the car starts in the plane. *)
Definition uniform {C : Type} (n m : nat) (solve : nat -> nat -> option C) : Prop :=
  forall a b a' b', on_grid n m a -> on_grid n m b -> on_grid n m a' -> on_grid n m b' -> same_move a b a' b' ->
  solve (number n m a) (number n m b) = solve (number n m a') (number n m b').
