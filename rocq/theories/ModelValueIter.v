(** examples/car/value_iteration.py: value_iteration.

    A cost is a finite number or np.inf; the arithmetic on np.inf is the one
    of IEEE numbers for a positive discount factor. Shape errors, an index out
    of range and np.argmin of an empty array are the value None. *)

Require Import Reals List Bool Arith.
Require Import Verif.Vec Verif.SpecExt.
Import ListNotations.
Open Scope R_scope.

(** np.argmin: the first index of a smallest entry. *)
Fixpoint argmin_from (best : ext) (ib i : nat) (l : list ext) : nat :=
  match l with
  | [] => ib
  | x :: l => if eltb x best then argmin_from x i (S i) l else argmin_from best ib (S i) l
  end.
Definition np_argmin (l : list ext) : option nat :=
  match l with [] => None | x :: l => Some (argmin_from x 0 1 l) end.

(** Assignment a[i] = v. *)
Definition set_nth {A} (i : nat) (v : A) (l : list A) : option (list A) :=
  if Nat.ltb i (length l) then Some (firstn i l ++ v :: skipn (S i) l) else None.

(** one_step_lookahead, lines 33-36. *)
Definition one_step_lookahead (discount : R) (V : list ext) (r : list (list ext)) (i : nat)
  : option (nat * ext) :=
  match nth_error r i with
  | None => None
  | Some ri =>
    if negb (Nat.eqb (length ri) (length V)) then None
    else match np_argmin (map2 eadd ri (map (escale discount) V)) with
    | None => None
    | Some j =>
      match nth_error ri j, nth_error V j with
      | Some c, Some w => Some (j, eadd c (escale discount w))
      | _, _ => None
      end
    end
  end.

(** One iteration of the loop over the states, lines 51-64; the state is (V, policy, delta). *)
Definition vi_state : Type := list ext * list vec * ext.
Definition update_state (discount : R) (r : list (list ext)) (u : list (list vec)) (i : nat)
  (s : option vi_state) : option vi_state :=
  match s with
  | None => None
  | Some (V, policy, delta) =>
    match one_step_lookahead discount V r i with
    | None => None
    | Some (j, v) =>
      match nth_error V i with
      | None => None
      | Some old =>
        let delta := if negb (eeqb v old) then (if eltb delta (edist v old) then edist v old else delta) else delta in
        match set_nth i v V, nth_error u i with
        | Some V', Some ui =>
          match nth_error ui j with
          | None => None
          | Some uij =>
            match set_nth i uij policy with
            | None => None
            | Some policy' => Some (V', policy', delta)
            end
          end
        | _, _ => None
        end
      end
    end
  end.
Fixpoint sweep_over (discount : R) (r : list (list ext)) (u : list (list vec)) (is : list nat)
  (s : option vi_state) : option vi_state :=
  match is with
  | [] => s
  | i :: is => sweep_over discount r u is (update_state discount r u i s)
  end.
(** One pass of the while loop, lines 46-64. *)
Definition sweep (nx : nat) (discount : R) (r : list (list ext)) (u : list (list vec))
  (V : list ext) (policy : list vec) : option vi_state :=
  sweep_over discount r u (seq 0 nx) (Some (V, policy, Fin 0)).

(** The while loop, lines 45-69, for at most [fuel] passes. *)
Inductive vi_result : Type :=
| Unfinished
| Raised
| Returned (V : list ext) (policy : list vec).
Fixpoint vi_loop (fuel nx : nat) (discount epsilon : R) (r : list (list ext)) (u : list (list vec))
  (V : list ext) (policy : list vec) : vi_result :=
  match fuel with
  | O => Unfinished
  | S fuel =>
    match sweep nx discount r u V policy with
    | None => Raised
    | Some (V', policy', delta) =>
      if eltb delta (Fin epsilon) then Returned V' policy'
      else vi_loop fuel nx discount epsilon r u V' policy'
    end
  end.
Definition value_iteration (fuel nx : nat) (r : list (list ext)) (u : list (list vec)) (epsilon discount : R)
  : vi_result :=
  vi_loop fuel nx discount epsilon r u (repeat (Fin 0) nx) (repeat (zeros 2) nx).

(** The value function and the policy after n passes of the loop. *)
Fixpoint after_sweeps (n nx : nat) (discount : R) (r : list (list ext)) (u : list (list vec))
  : option (list ext * list vec) :=
  match n with
  | O => Some (repeat (Fin 0) nx, repeat (zeros 2) nx)
  | S n =>
    match after_sweeps n nx discount r u with
    | None => None
    | Some (V, policy) =>
      match sweep nx discount r u V policy with
      | None => None
      | Some (V', policy', _) => Some (V', policy')
      end
    end
  end.
