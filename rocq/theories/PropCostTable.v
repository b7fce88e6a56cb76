(** The properties of the table of costs of the car (C92).

    [solve i j] is what the trajectory optimisation from state i to state j of the grid finds;
    positions are numbered as in the code (C57). *)

Require Import List Arith.
Require Import Verif.ModelMisc Verif.ModelCostTable Verif.SpecCostTable Verif.ProofCostTable.
Import ListNotations.

(** C92.  The complete table has an entry exactly for the pairs in reach of each other, their
    own one. *)
Theorem C92_complete : forall (C : Type) n m n0 n1 n2 (solve : nat -> nat -> option C) a b,
  on_grid n m a -> on_grid n m b ->
  (reachable n0 n1 n2 a b ->
     calculate_r_complete n m n0 n1 n2 solve (number n m a) (number n m b) = solve (number n m a) (number n m b)) /\
  (~ reachable n0 n1 n2 a b -> calculate_r_complete n m n0 n1 n2 solve (number n m a) (number n m b) = None).
Proof. exact complete_ok. Qed.
Print Assumptions C92_complete.
(** The table made from the four corners is the same one, when results do not depend on the
    place in the plane. *)
Theorem C92_duplicate_partial : forall (C : Type) n m n0 n1 n2 (solve : nat -> nat -> option C), uniform n m solve ->
  forall a b, on_grid n m a -> on_grid n m b ->
  calculate_r_duplicate n m n0 n1 n2 solve (number n m a) (number n m b)
  = calculate_r_complete n m n0 n1 n2 solve (number n m a) (number n m b).
Proof. exact same_table. Qed.
Print Assumptions C92_duplicate_partial.
(** The corners do not keep the results that were computed for them. *)
Theorem C92_corners_refuted :
  calculate_r_duplicate 2 1 1 1 0 ex_solve (number 2 1 (0, 0, 0)) (number 2 1 (0, 1, 0)) = Some 23 /\
  ex_solve (number 2 1 (0, 0, 0)) (number 2 1 (0, 1, 0)) = Some 1.
Proof. exact corner_overwritten. Qed.
Print Assumptions C92_corners_refuted.
Example C92_case : uniform 2 2 (fun i j => Some (3 + 2 * (j mod 2) + i mod 2)) /\
  reachable 1 1 1 (0, 0, 0) (1, 0, 1) /\
  calculate_r_duplicate 2 2 1 1 1 (fun i j => Some (3 + 2 * (j mod 2) + i mod 2))
    (number 2 2 (0, 0, 0)) (number 2 2 (1, 0, 1)) = Some 5.
Proof. exact ex_uniform. Qed.
