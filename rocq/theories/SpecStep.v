(** What one construction step does to a program: new variables and rows are
    added, nothing is removed.

    [D] says which feasible points of the old program can be continued, [Q]
    what every feasible point of the new program satisfies. *)

Require Import Reals List.
Require Import Verif.Vec Verif.ModelMip Verif.SpecMip.
Import ListNotations.
Open Scope R_scope.

(** Feasible, and the relaxed binaries take binary values when the program is
    built with relaxed binaries (that is: feasible after
    remove_binary_relaxation). *)
Definition feas (vt : vtype) (m : mip) (sg : assignment) : Prop :=
  gfeas m sg /\ (vt = VBinRelax -> bins (map sg (zeta_ m))).

Definition step (vt : vtype) (st : bool) (m m' : mip) (D Q : assignment -> Prop) : Prop :=
  (nvars m <= nvars m')%nat /\ history st m' /\
  (forall sg, feas vt m' sg -> feas vt m sg /\ Q sg) /\
  (forall sg, feas vt m sg -> D sg ->
     exists sg', feas vt m' sg' /\ agree m sg sg').
