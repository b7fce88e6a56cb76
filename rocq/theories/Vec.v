(** Vectors and matrices as lists of reals.

    Models the fragment of torch/numpy used by /repo: a 1-D tensor is a
    [list R]; a 2-D tensor is a list of rows.  Python raises on a shape
    mismatch; these functions truncate instead, so every theorem that uses
    them states the shapes it needs ([length], [wfm]). *)

Require Import Reals List Bool Lia Lra.
Import ListNotations.
Open Scope R_scope.

Definition vec := list R.
Definition mat := list (list R).

(** [map2 f a b]: elementwise binary operation (torch broadcasting is not
    modelled: both operands have the same length in every use). *)
Fixpoint map2 {A B C : Type} (f : A -> B -> C) (a : list A) (b : list B)
  : list C :=
  match a, b with
  | x :: a', y :: b' => f x y :: map2 f a' b'
  | _, _ => []
  end.

Definition vadd (a b : vec) : vec := map2 Rplus a b.
Definition vsub (a b : vec) : vec := map2 Rminus a b.
Definition vmul (a b : vec) : vec := map2 Rmult a b.
Definition vscale (k : R) (a : vec) : vec := map (Rmult k) a.
Definition vneg (a : vec) : vec := map Ropp a.
Definition zeros (n : nat) : vec := repeat 0 n.
Definition ones (n : nat) : vec := repeat 1 n.

(** [a @ b] for 1-D tensors. *)
Fixpoint dot (a b : vec) : R :=
  match a, b with
  | x :: a', y :: b' => x * y + dot a' b'
  | _, _ => 0
  end.

Fixpoint vsum (a : vec) : R :=
  match a with [] => 0 | x :: a' => x + vsum a' end.

(** [A @ x] for a 2-D and a 1-D tensor. *)
Definition mv (A : mat) (x : vec) : vec := map (fun r => dot r x) A.

(** Row vector times matrix with [n] columns. *)
Fixpoint vm (n : nat) (r : vec) (B : mat) : vec :=
  match r, B with
  | a :: r', b :: B' => vadd (vscale a b) (vm n r' B')
  | _, _ => zeros n
  end.

(** [A @ B] where [B] has [n] columns. *)
Definition mm (n : nat) (A B : mat) : mat := map (fun r => vm n r B) A.

(** Matrix with [m] rows and [n] columns. *)
Definition wfm (m n : nat) (A : mat) : Prop :=
  length A = m /\ Forall (fun r => length r = n) A.

Definition zerom (m n : nat) : mat := repeat (zeros n) m.

(** [unit_row n j k]: the row of [n] zeros with [k] at position [j]. *)
Definition unit_row (n j : nat) (k : R) : vec :=
  map (fun i => if Nat.eqb i j then k else 0) (seq 0 n).

(** [k * torch.eye(n)]. *)
Definition eyek (n : nat) (k : R) : mat :=
  map (fun j => unit_row n j k) (seq 0 n).
Definition eye (n : nat) : mat := eyek n 1.

(** [torch.diag(v)]. *)
Definition diag (v : vec) : mat :=
  map (fun j => unit_row (length v) j (nth j v 0)) (seq 0 (length v)).

(** Transpose of a matrix with [n] columns. *)
Definition transpose (n : nat) (A : mat) : mat :=
  map (fun j => map (fun r => nth j r 0) A) (seq 0 n).

(** Column stack of two matrices with the same number of rows
    ([torch.cat(..., dim=1)]). *)
Definition hcat (A B : mat) : mat := map2 (@app R) A B.

(** A column vector [v.reshape((-1,1))]. *)
Definition col (v : vec) : mat := map (fun a => [a]) v.

(** Writing the slice [v] into [row] starting at position [off]
    ([row[off:off+len(v)] = v]). *)
Definition splice (off : nat) (v row : vec) : vec :=
  firstn off row ++ v ++ skipn (off + length v) row.

(** [x[off:off+n]]. *)
Definition slice {A : Type} (off n : nat) (x : list A) : list A :=
  firstn n (skipn off x).

(** Boolean comparisons of reals. *)
Definition Rltb (a b : R) : bool := if Rlt_dec a b then true else false.
Definition Rleb (a b : R) : bool := if Rle_dec a b then true else false.
Definition Reqb (a b : R) : bool := if Req_EM_T a b then true else false.

(** Componentwise orders. *)
Definition vle (a b : vec) : Prop := Forall2 Rle a b.

(** Extended reals, used for bounds that may be [inf] / [-inf]. *)
Inductive ext := NInf | Fin (r : R) | PInf.

Definition ext_le_r (a : ext) (x : R) : Prop :=
  match a with NInf => True | Fin r => r <= x | PInf => False end.
Definition r_le_ext (x : R) (a : ext) : Prop :=
  match a with NInf => False | Fin r => x <= r | PInf => True end.
