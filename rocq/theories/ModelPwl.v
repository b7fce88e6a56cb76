(** simple_pwl_lyapunov.py: the linear program for a piecewise linear Lyapunov function.
    The cvxpy variables c (x_dim x num_modes), d, s1, s2 are the fields of [lpvars]; c is kept as the
    list of its columns. A cvxpy constraint is a proposition about their values. *)

Require Import Reals List Arith Bool.
Require Import Verif.Vec.
Import ListNotations.
Open Scope R_scope.

Record lpvars := mkLp { lp_c : list vec; lp_d : vec; lp_s1 : R; lp_s2 : R }.
Record pwl := mkPwl {
  pwl_x_dim : nat; pwl_modes : nat; pwl_eps1 : R; pwl_eps2 : R; pwl_xstar : vec;
  pwl_constraints : list (lpvars -> Prop) }.
Inductive pwl_result := PwlOk (o : pwl) | PwlAssert | PwlIndexError | PwlShapeError | PwlException.

(** c[:, i] and d[i] for an index in range. *)
Definition c_of (v : lpvars) (i : nat) : vec := nth i (lp_c v) [].
Definition d_of (v : lpvars) (i : nat) : R := nth i (lp_d v) 0.
(** The declared shapes of the variables. *)
Definition lp_shaped (o : pwl) (v : lpvars) : Prop :=
  length (lp_c v) = pwl_modes o /\ Forall (fun c => length c = pwl_x_dim o) (lp_c v) /\ length (lp_d v) = pwl_modes o.

(** __init__ (45-78). The isinstance assertions are typing; the product c @ x_equilibrium raises if the
    lengths differ. *)
Definition pwl_init (x_dim num_modes : nat) (eps1 eps2 : R) (xstar : vec) (eq_mode : nat) : pwl_result :=
  if negb (Nat.ltb eq_mode num_modes) then PwlIndexError
  else if negb (Nat.eqb (length xstar) x_dim) then PwlShapeError
  else PwlOk (mkPwl x_dim num_modes eps1 eps2 xstar
    [ (fun v => lp_s1 v >= 0); (fun v => lp_s2 v >= 0);
      (fun v => dot (c_of v eq_mode) xstar + d_of v eq_mode = 0) ]).

Definition has_cols (n : nat) (M : mat) : bool := forallb (fun r => Nat.eqb (length r) n) M.
Definition extend (o : pwl) (cs : list (lpvars -> Prop)) : pwl :=
  mkPwl (pwl_x_dim o) (pwl_modes o) (pwl_eps1 o) (pwl_eps2 o) (pwl_xstar o) (pwl_constraints o ++ cs).

(** add_lyapunov_derivative_in_mode (80-101). *)
Definition add_derivative (o : pwl) (mode : nat) (vertices : mat) (A : mat) (g : vec) : pwl_result :=
  let n := pwl_x_dim o in
  if negb (has_cols n vertices) then PwlAssert
  else if negb (Nat.eqb (length A) n && has_cols n A) then PwlAssert
  else if negb (Nat.eqb (length g) n) then PwlAssert
  else if negb (Nat.ltb mode (pwl_modes o)) then PwlIndexError
  else PwlOk (extend o (map (fun vj => fun v =>
    lp_s1 v >= dot (c_of v mode) (vadd (mv (map2 vadd A (eyek n (pwl_eps2 o)) : mat) vj) g)
               + pwl_eps2 o * d_of v mode) vertices)).

(** add_lyapunov_positivity_in_mode (103-136). *)
Definition column (j : nat) (M : mat) : vec := map (fun r => nth j r 0) M.
Fixpoint check_signs (o : pwl) (vertices : mat) (sign : vec) (js : list nat) : option pwl_result :=
  match js with
  | [] => None
  | j :: js' =>
      if Reqb (nth j sign 0) 1 then
        if forallb (fun a => Rleb (nth j (pwl_xstar o) 0) a) (column j vertices)
        then check_signs o vertices sign js' else Some PwlAssert
      else if Reqb (nth j sign 0) (-1) then
        if forallb (fun a => Rleb a (nth j (pwl_xstar o) 0)) (column j vertices)
        then check_signs o vertices sign js' else Some PwlAssert
      else Some PwlException
  end.
Definition add_positivity (o : pwl) (mode : nat) (vertices : mat) (sign : vec) : pwl_result :=
  let n := pwl_x_dim o in
  if negb (has_cols n vertices) then PwlAssert
  else if negb (Nat.eqb (length sign) n) then PwlAssert
  else match check_signs o vertices sign (seq 0 n) with
  | Some e => e
  | None =>
      if negb (Nat.ltb mode (pwl_modes o)) then PwlIndexError
      else PwlOk (extend o (map (fun vj => fun v =>
        lp_s2 v >= - dot (vsub (c_of v mode) (vscale (pwl_eps1 o) sign)) vj
                   - d_of v mode - dot (vscale (pwl_eps1 o) sign) (pwl_xstar o)) vertices))
  end.

(** add_continuity_constraint (138-156). Line 150 adds a vector with common_vertices.shape[1] = x_dim entries
    to one with common_vertices.shape[0] entries. cvxpy raises unless the lengths agree or one of them is 1; then the
    one with a single entry is repeated. *)
Definition broadcast_add (a b : vec) : option vec :=
  if Nat.eqb (length a) (length b) then Some (vadd a b)
  else match a, b with
  | [x], _ => Some (map (Rplus x) b)
  | _, [y] => Some (map (fun x => x + y) a)
  | _, _ => None
  end.
Definition add_continuity (o : pwl) (mode_i mode_j : nat) (vertices : mat) : pwl_result :=
  let n := pwl_x_dim o in
  if negb (has_cols n vertices) then PwlAssert
  else if negb (Nat.ltb mode_i (pwl_modes o) && Nat.ltb mode_j (pwl_modes o)) then PwlIndexError
  else match broadcast_add (zeros (length vertices)) (zeros n) with
  | None => PwlShapeError
  | Some _ => PwlOk (extend o [fun v =>
      match broadcast_add (mv vertices (vsub (c_of v mode_i) (c_of v mode_j)))
                          (vscale (d_of v mode_i - d_of v mode_j) (ones n)) with
      | Some e => Forall (fun a => a = 0) e | None => False end])
  end.

(** solve (158-174): the cost. The solver is an oracle, see the specification. *)
Definition pwl_cost (weight : R) (v : lpvars) : R := (1 - weight) * lp_s1 v + weight * lp_s2 v.

(** A history of calls on one object. *)
Inductive pwl_call :=
  | Derivative (mode : nat) (vertices A : mat) (g : vec)
  | Positivity (mode : nat) (vertices : mat) (sign : vec)
  | Continuity (mode_i mode_j : nat) (vertices : mat).
Definition pwl_step (o : pwl) (c : pwl_call) : pwl_result :=
  match c with
  | Derivative m vs A g => add_derivative o m vs A g
  | Positivity m vs s => add_positivity o m vs s
  | Continuity i j vs => add_continuity o i j vs
  end.
Fixpoint pwl_run (o : pwl) (cs : list pwl_call) : pwl_result :=
  match cs with
  | [] => PwlOk o
  | c :: cs' => match pwl_step o c with PwlOk o' => pwl_run o' cs' | e => e end
  end.
