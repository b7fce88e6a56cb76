(** Model of project_to_polyhedron — /repo/neural_network_lyapunov/utils.py lines 937-948.

    [solve A b x] is what cvxpy leaves in y.value: None if the problem has no solution, and then torch.from_numpy
    raises.  Comparisons are exact. *)

Require Import Reals List Bool.
Require Import Verif.Vec Verif.ModelNet.
Import ListNotations.
Open Scope R_scope.

Definition project_to_polyhedron (solve : mat -> vec -> vec -> option vec) (A : mat) (b x : vec) : option vec :=
  if vleb (mv A x) b then Some x else solve A b x.
