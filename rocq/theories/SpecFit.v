(** What fitting a network to a data set means. *)

Require Import Reals List Permutation.
Require Import Verif.Vec.
Import ListNotations.
Open Scope R_scope.

(** [index] is an order of the numbers 0, ..., n-1. *)
Definition reorders (n : nat) (index : list nat) : Prop := Permutation index (seq 0 n).

(** The batches of one pass: each example once, all batches but the last are full. *)
Definition one_pass {A : Type} (k : nat) (examples : list A) (batches : list (list A)) : Prop :=
  Permutation (concat batches) examples /\
  exists pre last, batches = pre ++ [last] /\ Forall (fun b => length b = k) pre /\ (1 <= length last <= k)%nat.

(** The squared error averaged over all entries. *)
Definition mean_square (output target : list vec) : R :=
  vsum (map (fun p => (fst p - snd p) ^ 2) (combine (concat output) (concat target))) / INR (length (concat target)).

(** The average of a list. *)
Definition average (l : list R) : R := vsum l / INR (length l).

(** The values of [f] as the state moves through the batches: before each step. *)
Fixpoint along {S B : Type} (step : S -> B -> S) (f : S -> B -> R) (s : S) (bs : list B) : list R :=
  match bs with [] => [] | b :: r => f s b :: along step f (step s b) r end.

(** What is reported after each epoch: the losses of its batches, averaged, and the loss on
    [test] of the state that the epoch ends with. *)
Fixpoint report {S B : Type} (step : S -> B -> S) (loss : S -> B -> R) (test : B) (s : S) (epochs : list (list B))
    : list (R * R) :=
  match epochs with
  | [] => []
  | bs :: r =>
    let s' := fold_left step bs s in
    (average (along step loss s bs), loss s' test) :: report step loss test s' r
  end.

(** A step of the optimiser on parameters, variables and moments; the variables take part
    in it only when they are given. *)
Definition sgd {P E A B : Type} (adam : P * E * A -> B -> P * E * A) (additional : bool) (s : P * E * A) (b : B)
    : P * E * A :=
  if additional then adam s b
  else let '(p, e, a) := s in let '(p', _, a') := adam s b in (p', e, a').
