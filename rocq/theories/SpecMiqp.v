(** The quadratic objective a caller writes down. *)

Require Import Reals List Arith.
Require Import Verif.Vec Verif.SpecMip.
Import ListNotations.
Open Scope R_scope.

(** Sums over the entries of one quadratic block and of one linear block. *)
Fixpoint row_sum (x : R) (row : vec) (right : list nat) (sg : assignment) : R :=
  match row, right with
  | c :: row', w :: right' => c * x * sg w + row_sum x row' right' sg
  | _, _ => 0
  end.
Fixpoint block_sum (coeff : mat) (left right : list nat) (sg : assignment) : R :=
  match coeff, left with
  | row :: coeff', v :: left' => row_sum (sg v) row right sg + block_sum coeff' left' right sg
  | _, _ => 0
  end.
Fixpoint lin_sum (coeff : vec) (vars : list nat) (sg : assignment) : R :=
  match coeff, vars with
  | c :: coeff', v :: vars' => c * sg v + lin_sum coeff' vars' sg
  | _, _ => 0
  end.
(** All blocks and the constant. *)
Definition written (qc : list mat) (qv : list (list nat * list nat)) (lc : list vec) (lv : list (list nat)) (k : R)
    (sg : assignment) : R :=
  vsum (map2 (fun c v => block_sum c (fst v) (snd v) sg) qc qv) + vsum (map2 (fun c v => lin_sum c v sg) lc lv) + k.
(** The value of what Gurobi is given. *)
Definition gurobi_value (quad : list (R * nat * nat)) (lin : list (R * nat)) (k : R) (sg : assignment) : R :=
  vsum (map (fun t => fst (fst t) * sg (snd (fst t)) * sg (snd t)) quad) + vsum (map (fun t => fst t * sg (snd t)) lin) + k.

(** The pairs of variables of the quadratic blocks, and a pair with a mixed one written continuous variable first. *)
Definition pairs (qv : list (list nat * list nat)) : list (nat * nat) := flat_map (fun v => list_prod (fst v) (snd v)) qv.
Definition oriented (rs : list nat) (p : nat * nat) : nat * nat :=
  if in_dec Nat.eq_dec (fst p) rs then p else if in_dec Nat.eq_dec (snd p) rs then (snd p, fst p) else p.
(** A matrix with a row for each variable on the left and a column for each on the right. *)
Definition shaped (c : mat) (v : list nat * list nat) : Prop :=
  length c = length (fst v) /\ Forall (fun row => length row = length (snd v)) c.
