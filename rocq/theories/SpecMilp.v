(** Vocabulary of the objective reconstruction. *)

Require Import Reals List Bool.
Require Import Verif.Vec Verif.ModelMip Verif.SpecMip Verif.ModelMilp.
Import ListNotations.
Open Scope R_scope.

(** Slack (lhs - rhs) of the recorded inequality row [i] at an assignment. *)
Definition row_slack (m : mip) (sg : assignment) (i : nat) : R :=
  let '(Ar, Az, b) := get_inequality_constraints m in
  nth i (vsub (vadd (mv Ar (map sg (r_ m))) (mv Az (map sg (zeta_ m)))) b) 0.
(** [i] is a recorded inequality row, satisfied with equality. *)
Definition tight (m : mip) (sg : assignment) (i : nat) : Prop :=
  (i < length (rhs_in_ m))%nat /\ row_slack m sg i = 0.

(** Contract of torch.inverse on the square matrices it accepts. *)
Definition left_inverse (inverse : mat -> option mat) : Prop :=
  forall n G B, wfm n n G -> inverse G = Some B ->
    forall v, length v = n -> mv B (mv G v) = v.

(** The matrix whose condition number is inspected. *)
Definition gram (m : mip) (active : list nat) (zeta_sol : vec) : mat :=
  let A := fst (get_active_constraints m active zeta_sol) in
  mm (length (r_ m)) (transpose (length (r_ m)) A) A.

(** Value of the quadratic objective. *)
Definition quad_value (Qr Qz Qrz : mat) (cr cz : vec) (k : R) (r z : vec) : R :=
  dot r (mv Qr r) + dot z (mv Qz z) + dot r (mv Qrz z) + dot cr r + dot cz z + k.
(** Its gradient with respect to r, for symmetric Qr. *)
Definition quad_grad (Qr Qrz : mat) (cr r z : vec) : vec :=
  vadd (vadd (vscale 2 (mv Qr r)) (mv Qrz z)) cr.
