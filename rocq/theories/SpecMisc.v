(** 3 x 3 matrices, derivatives of matrices and linear maps. *)

Require Import Reals List.
Require Import Verif.Vec.
Import ListNotations.
Open Scope R_scope.

Definition entry (i j : nat) (M : mat) : R := nth j (nth i M []) 0.
Definition det3 (M : mat) : R :=
  entry 0 0 M * (entry 1 1 M * entry 2 2 M - entry 1 2 M * entry 2 1 M)
  - entry 0 1 M * (entry 1 0 M * entry 2 2 M - entry 1 2 M * entry 2 0 M)
  + entry 0 2 M * (entry 1 0 M * entry 2 1 M - entry 1 1 M * entry 2 0 M).

(** D is the derivative of the 3 x 3 matrix F at t, entry by entry. *)
Definition matrix_derivative (F : R -> mat) (t : R) (D : mat) : Prop :=
  wfm 3 3 D /\ forall i j, (i < 3)%nat -> (j < 3)%nat ->
  derivable_pt_lim (fun a => entry i j (F a)) t (entry i j D).

(** A linear map on vectors of length n. *)
Definition linear_map (n : nat) (L : vec -> vec) : Prop :=
  (forall x, length x = n -> length (L x) = n) /\
  (forall x y, length x = n -> length y = n -> L (vadd x y) = vadd (L x) (L y)) /\
  (forall k x, length x = n -> L (vscale k x) = vscale k (L x)).

(** phi is a trajectory of x' = f(x, u) under the fixed input u, from x0, in dimension n. *)
Definition trajectory (n : nat) (f : vec -> vec -> vec) (u : vec) (x0 : vec) (phi : R -> vec) : Prop :=
  phi 0 = x0 /\ (forall t, length (phi t) = n) /\
  forall t i, (i < n)%nat -> derivable_pt_lim (fun s => nth i (phi s) 0) t (nth i (f (phi t) u) 0).

(** The Taylor polynomial of order four of exp(h L) at x. *)
Definition taylor4 (L : vec -> vec) (h : R) (x : vec) : vec :=
  vadd (vadd (vadd (vadd x (vscale h (L x))) (vscale (h * h / 2) (L (L x))))
             (vscale (h * h * h / 6) (L (L (L x)))))
       (vscale (h * h * h * h / 24) (L (L (L (L x))))).
