(** Model of the functions that solve linear programs over a polytope:
    compute_bounds_from_polytope and is_polyhedron_bounded
    (/repo/neural_network_lyapunov/utils.py), compute_range_by_lp
    (mip_utils.py) and the bounds of A_i x on a mode (hybrid_linear_system.py).

    [solve] is Gurobi's optimize() (SpecNet.solver_ok says what is assumed of
    it).  The column count of a matrix is the explicit argument [n]
    (P.shape[1]), because a list of rows loses it when there is no row. *)

Require Import Reals List Bool Arith.
Require Import Verif.Vec Verif.ModelMip Verif.ModelNet.
Import ListNotations.
Open Scope R_scope.

(** A Gurobi (or cvxpy) program with variables 0..n-1. *)
Definition lp (vs : list gvar) (rows : list grow) (obj : list (R * nat)) (const : R) (max : bool) : mip :=
  mkMip vs rows [] [] [] [] [] [] [] [] obj const max.
(** addVars(n, lb=-inf) — utils.py:811-813; cp.Variable(n). *)
Definition free_vars (n : nat) : list gvar := repeat (mkVar false NInf PInf) n.
(** LinExpr(row, x) and row @ x. *)
Definition lin (r : vec) : list (R * nat) := combine r (seq 0 (length r)).
(** P x <= q row by row — utils.py:816-819, mip_utils.py:372. *)
Definition le_rows (P : mat) (q : vec) : list grow :=
  map2 (fun r b => mkRow (lin r) SLe b) P q.

(** The status of the maximization and of the minimization as a bound —
    utils.py:824-839, mip_utils.py:386-409.  None = Exception("unknown
    status").  cvxpy reports the same values as [prob.value]
    (hybrid_linear_system.py:640, 644). *)
Definition read_max (r : gresult) : option ext :=
  match r with
  | GOptimal v => Some (Fin v) | GUnbounded => Some PInf | GInfeasible => Some NInf | GOther => None
  end.
Definition read_min (r : gresult) : option ext :=
  match r with
  | GOptimal v => Some (Fin v) | GUnbounded => Some NInf | GInfeasible => Some PInf | GOther => None
  end.

(** Every row has n entries. *)
Definition columns (n : nat) (A : mat) : bool := forallb (fun r => Nat.eqb (length r) n) A.

Section Solver.
Variable solve : mip -> gresult.

(** Both programs for one objective: the maximum is computed first (utils.py:
    820-839, mip_utils.py:373-409).  Result: (lower, upper). *)
Definition both (vs : list gvar) (rows : list grow) (obj : list (R * nat)) (const : R) : option (ext * ext) :=
  match read_max (solve (lp vs rows obj const true)) with
  | None => None
  | Some up => match read_min (solve (lp vs rows obj const false)) with
               | None => None
               | Some lo => Some (lo, up)
               end
  end.

(** compute_bounds_from_polytope — utils.py:780-839.  None: P is not a matrix
    with n columns, q has fewer entries than P has rows (IndexError, line 819;
    further entries of q are ignored), x has no entry i (KeyError / IndexError,
    line 820), or the status is not one of the three. *)
Definition compute_bounds_from_polytope (n : nat) (P : mat) (q : vec) (i : nat) : option (ext * ext) :=
  if (columns n P && Nat.leb (length P) (length q) && Nat.ltb i n)%bool
  then both (free_vars n) (le_rows P q) [(1, i)] 0
  else None.

(** One row of __compute_Ai_times_x_bounds — hybrid_linear_system.py:632-644
    (cvxpy; a shape mismatch raises). *)
Definition Ai_row_bounds (n : nat) (P : mat) (q : vec) (a : vec) : option (ext * ext) :=
  if (columns n P && Nat.eqb (length q) (length P) && Nat.eqb (length a) n)%bool
  then both (free_vars n) (le_rows P q) (lin a) 0
  else None.

(** The variables x of compute_range_by_lp — mip_utils.py:363-371: a bound that
    is None is filled with -inf / inf. *)
Definition box_vars (n : nat) (xlb xub : option (list ext)) : list gvar :=
  map2 (fun l u => mkVar false l u)
    (match xlb with None => repeat NInf n | Some l => l end)
    (match xub with None => repeat PInf n | Some u => u end).
Definition opt_length (n : nat) (o : option (list ext)) : bool :=
  match o with None => true | Some l => Nat.eqb (length l) n end.

(** compute_range_by_lp — mip_utils.py:332-410.  A has n columns.  [C], [d]
    enter only if C is not None (line 371); C without d, or shapes that do not
    fit, raise. *)
Definition compute_range_by_lp (n : nat) (A : mat) (b : vec) (xlb xub : option (list ext))
    (C : option mat) (d : option vec) : option (list ext * list ext) :=
  match match C, d with
        | None, _ => Some []
        | Some _, None => None
        | Some M, Some r => if (columns n M && Nat.eqb (length r) (length M))%bool
                            then Some (le_rows M r) else None
        end with
  | None => None
  | Some rows =>
      if (columns n A && Nat.leb (length A) (length b) &&
          opt_length n xlb && opt_length n xub)%bool
      then match all_some (map2 (fun a b0 => both (box_vars n xlb xub) rows (lin a) b0) A b) with
           | None => None
           | Some lu => Some (map fst lu, map snd lu)
           end
      else None
  end.

(** The program of is_polyhedron_bounded: P x <= 0, x_i = k, objective 0 —
    utils.py:734-745. *)
Definition ray_lp (n : nat) (P : mat) (i : nat) (k : R) : mip :=
  lp (free_vars n) (le_rows P (zeros (length P)) ++ [mkRow [(1, i)] SEq k]) [] 0 true.
(** prob.status == 'infeasible' *)
Definition infeasible (r : gresult) : bool := match r with GInfeasible => true | _ => false end.
(** is_polyhedron_bounded — utils.py:716-746.  P has n columns. *)
Definition is_polyhedron_bounded (n : nat) (P : mat) : bool :=
  forallb (fun i => (infeasible (solve (ray_lp n P i 1)) && infeasible (solve (ray_lp n P i (-1))))%bool)
    (seq 0 n).

End Solver.
