(** A solver that decides every program, and two polyhedra. *)

Require Import Reals List ClassicalDescription ClassicalEpsilon.
Require Import Verif.Vec Verif.ModelMip Verif.SpecMip Verif.ModelNet Verif.ModelExamples.
Import ListNotations.
Open Scope R_scope.

(** The optimum if there is one, otherwise infeasible or unbounded. *)
Definition deciding_solve (m : mip) : gresult :=
  match ideal_solve m with GOther => GUnbounded | r => r end.

(** The triangle x >= 0, y >= 0, x + y <= 2 and the strip 0 <= x <= 1. *)
Definition tri_P : mat := [[-1; 0]; [0; -1]; [1; 1]].
Definition tri_q : vec := [0; 0; 2].
Definition strip_P : mat := [[-1; 0]; [1; 0]].
Definition strip_q : vec := [0; 1].
