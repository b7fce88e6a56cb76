(** The table of costs of examples/car/value_iteration.py: calculate_r_complete (72-117) and
    calculate_r_duplicate (120-195).

    The two arrays r and u_optimal are always written together; an entry is [None] for np.inf
    and np.nan, or what the solver has found.  An array is a function of its indices.  The
    trajectory optimisation from one state of the grid to another one is an arbitrary
    function; None: it fails. *)

Require Import List Bool Arith.
Require Import Verif.ModelMisc.
Import ListNotations.

Section Table.
Variable C : Type.
Variables (n_xy n_angle n0 n1 n2 : nat).
Variable solve : nat -> nat -> option C.
Definition ns : nat := n_xy * n_xy * n_angle.
Definition table := nat -> nat -> option C.
Definition block := nat -> nat -> nat -> option C.

(** flat_to_3d; it only raises for an empty grid, where no loop calls it. *)
Definition coords (i : nat) : nat * nat * nat :=
  match flat_to_3d n_xy n_angle i with Some t => t | None => (0, 0, 0) end.

(** The test of lines 99-101 and 156-158. *)
Definition near (i j : nat) : bool :=
  let '(i0, i1, i2) := coords i in let '(j0, j1, j2) := coords j in
  negb (Nat.eqb i j)
  && (Nat.leb i0 (j0 + n0) && Nat.leb j0 (i0 + n0))
  && (Nat.leb i1 (j1 + n1) && Nat.leb j1 (i1 + n1))
  && (Nat.leb i2 (j2 + n2) && Nat.leb j2 (i2 + n2)).
(** Assignments. *)
Definition put (i j : nat) (v : option C) (r : table) : table :=
  fun a b => if Nat.eqb a i && Nat.eqb b j then v else r a b.
Definition put3 (k0 k1 k2 : nat) (v : option C) (r : block) : block :=
  fun a b c => if Nat.eqb a k0 && Nat.eqb b k1 && Nat.eqb c k2 then v else r a b c.
Definition index (i j : nat) : nat * nat * nat :=
  let '(i0, i1, i2) := coords i in let '(j0, j1, j2) := coords j in
  (j0 + n0 - i0, j1 + n1 - i1, j2 + n2 - i2).

(** calculate_r_complete; nested loops are one loop over the pairs. *)
Definition complete_step (r : table) (p : nat * nat) : table :=
  let (i, j) := p in
  if near i j then match solve i j with Some c => put i j (Some c) r | None => r end else r.
Definition calculate_r_complete : table :=
  fold_left complete_step (list_prod (seq 0 ns) (seq 0 ns)) (fun _ _ => None).

(** Lines 141-142 and 151. *)
Definition corners (i2 : nat) : list nat :=
  map (fun p => threeD_to_flat n_xy n_angle (fst p) (snd p) i2)
    [(0, 0); (0, n_xy - 1); (n_xy - 1, 0); (n_xy - 1, n_xy - 1)].
(** Lines 153-177. *)
Definition corner_step (s : table * block) (p : nat * nat) : table * block :=
  let (i, j) := p in
  if near i j then
    match solve i j with
    | Some c => let '(k0, k1, k2) := index i j in (put i j (Some c) (fst s), put3 k0 k1 k2 (Some c) (snd s))
    | None => s
    end
  else s.
(** The test of lines 185-188. *)
Definition in_block (i j : nat) : bool :=
  let '(i0, i1, i2) := coords i in let '(j0, j1, j2) := coords j in
  negb (Nat.eqb i j)
  && (Nat.leb i0 (j0 + n0) && Nat.ltb (j0 + n0 - i0) (2 * n0 + 1))
  && (Nat.leb i1 (j1 + n1) && Nat.ltb (j1 + n1 - i1) (2 * n1 + 1))
  && (Nat.leb i2 (j2 + n2) && Nat.ltb (j2 + n2 - i2) (2 * n2 + 1)).
Definition fill_step (b : block) (r : table) (p : nat * nat) : table :=
  let (i, j) := p in
  if in_block i j then let '(k0, k1, k2) := index i j in put i j (b k0 k1 k2) r else r.
(** Lines 179-182.  i01 is the last corner, a list of two numbers, so that [i0, i1] is never
    in it and the test of line 181 always holds. *)
Definition layer (i2 : nat) : list nat :=
  map (fun p => threeD_to_flat n_xy n_angle (fst p) (snd p) i2) (list_prod (seq 0 n_xy) (seq 0 n_xy)).
Definition duplicate_step (r : table) (i2 : nat) : table :=
  let (r, b) := fold_left corner_step (list_prod (corners i2) (seq 0 ns)) (r, fun _ _ _ => None) in
  fold_left (fill_step b) (list_prod (layer i2) (seq 0 ns)) r.
(** calculate_r_duplicate. *)
Definition calculate_r_duplicate : table :=
  fold_left duplicate_step (seq 0 n_angle) (fun _ _ => None).
End Table.

Arguments near n_xy n_angle n0 n1 n2 i j : assert.
Arguments calculate_r_complete {C}. Arguments calculate_r_duplicate {C}.
