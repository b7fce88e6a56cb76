(** What is expected of the factorisations of linear algebra, and the symmetrised
    matrix that the SPD parameterisation stores. *)

Require Import Reals List.
Require Import Verif.Vec Verif.ModelMilp Verif.ModelROptions.
Import ListNotations.
Open Scope R_scope.

Definition sqnorm (x : vec) : R := dot x x.

(** A lower-triangular factor L of the n x n matrix A: A = L L'. *)
Definition is_cholesky (n : nat) (A L : mat) : Prop :=
  wfm n n L /\ (forall i j, (i < j < n)%nat -> nth j (nth i L []) 0 = 0) /\
  mm n L (transpose n L) = A.
Definition cholesky_ok (cholesky : mat -> option mat) : Prop :=
  forall n A L, wfm n n A -> cholesky A = Some L -> is_cholesky n A L.

(** An n x n matrix with orthonormal columns. *)
Definition orthonormal (n : nat) (U : mat) : Prop :=
  wfm n n U /\ mm n (transpose n U) U = eye n.
(** Singular value decomposition of an m x n matrix. *)
Definition is_svd (m n : nat) (A U : mat) (s : vec) (V : mat) : Prop :=
  orthonormal m U /\ orthonormal n V /\ length s = Nat.min m n /\
  mm n (mm n U (svd_sigma m n s)) V = A.
(** (A + A') / 2 for the top square, the remaining rows unchanged. *)
Definition symmetrised (n : nat) (A : mat) : mat :=
  map (fun i => map (fun j => (nth j (nth i A []) 0 + nth i (nth j A []) 0) / 2) (seq 0 n)) (seq 0 n)
  ++ skipn n A.

(** The states of an option object after any sequence of calls. *)
Inductive spd_made (cholesky : mat -> option mat) : spd -> Prop :=
| spd_made_new : forall m n eps v o, spd_new m n eps v = Some o -> spd_made cholesky o
| spd_made_set : forall o junk Rv o', spd_made cholesky o ->
    length junk = length (spd_vars o) -> spd_set cholesky junk o Rv = Some o' ->
    spd_made cholesky o'
| spd_made_directly : forall o v o', spd_made cholesky o -> spd_set_directly o v = Some o' ->
    spd_made cholesky o'.
Inductive svd_made (factor : mat -> mat * vec * mat) : svd -> Prop :=
| svd_made_new : forall m n a v o, svd_new m n a v = Some o -> svd_made factor o
| svd_made_set : forall o Rv U s V o', svd_made factor o -> factor Rv = (U, s, V) ->
    is_svd (svd_m o) (svd_n o) Rv U s V -> svd_set factor o Rv = Some o' -> svd_made factor o'
| svd_made_directly : forall o v o', svd_made factor o -> svd_set_directly o v = Some o' ->
    svd_made factor o'.
