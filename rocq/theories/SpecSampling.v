(** Grids. *)

Require Import Reals List Arith.
Require Import Verif.Vec.
Import ListNotations.
Open Scope R_scope.

(** The points of an evenly spaced grid with n points on [a, b]. *)
Definition grid_point (a b : R) (n : nat) (x : R) : Prop :=
  exists i, (i < n)%nat /\ (n = 1%nat /\ x = a \/ (2 <= n)%nat /\ x = a + INR i / INR (n - 1) * (b - a)).
Inductive grid_points : vec -> vec -> list nat -> vec -> Prop :=
| gp_nil : grid_points [] [] [] []
| gp_cons : forall a b n x lo up ns xs, grid_point a b n x -> grid_points lo up ns xs ->
    grid_points (a :: lo) (b :: up) (n :: ns) (x :: xs).

(** All combinations, the last coordinate running fastest. *)
Fixpoint cartesian (ms : list vec) : mat :=
  match ms with
  | [] => [[]]
  | m :: r => concat (map (fun v => map (cons v) (cartesian r)) m)
  end.

Definition unit_interval (v : vec) : Prop := Forall (fun a => 0 <= a <= 1) v.
