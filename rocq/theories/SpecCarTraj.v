(** Trajectories of the car. *)

Require Import Reals List.
Import ListNotations.
Open Scope R_scope.

Definition X (x : R * R * R) : R := fst (fst x).
Definition Y (x : R * R * R) : R := snd (fst x).
Definition Th (x : R * R * R) : R := snd x.
(** The trapezoidal rule for x' = v cos(theta), y' = v sin(theta), theta' = w. *)
Definition trapezoidal (a b : R * R * R) (u v : R * R) (h : R) : Prop :=
  X b = X a + h * (fst u * cos (Th a) + fst v * cos (Th b)) / 2 /\
  Y b = Y a + h * (fst u * sin (Th a) + fst v * sin (Th b)) / 2 /\
  Th b = Th a + h * (snd u + snd v) / 2.
(** A trajectory with [n] knots from start to goal within the limits. *)
Record trajectory (n : nat) (u_lo u_up : R * R) (h_lo h_up : R) (start goal : R * R * R)
    (xs : list (R * R * R)) (us : list (R * R)) (hs : list R) : Prop := mkTrajectory {
  tr_states : length xs = n;
  tr_inputs : length us = n;
  tr_steps : length hs = (n - 1)%nat;
  tr_start : nth 0 xs (0, 0, 0) = start;
  tr_goal : nth (n - 1) xs (0, 0, 0) = goal;
  tr_limits : forall i, (i < n)%nat ->
    fst u_lo <= fst (nth i us (0, 0)) <= fst u_up /\ snd u_lo <= snd (nth i us (0, 0)) <= snd u_up;
  tr_times : forall i, (i < n - 1)%nat -> h_lo <= nth i hs 0 <= h_up;
  tr_moves : forall i, (i < n - 1)%nat ->
    trapezoidal (nth i xs (0, 0, 0)) (nth (S i) xs (0, 0, 0)) (nth i us (0, 0)) (nth (S i) us (0, 0)) (nth i hs 0)
}.
(** Moved in the plane. *)
Definition moved (dx dy : R) (x : R * R * R) : R * R * R := (X x + dx, Y x + dy, Th x).
(** The sum of a list, and the effort of inputs from the k-th on. *)
Definition total (l : list R) : R := fold_right Rplus 0 l.
Definition effort_from (k : nat) (us : list (R * R)) : R := total (map (fun u => fst u * fst u + snd u * snd u) (skipn k us)).
