(** Piecewise linear Lyapunov functions on convex hulls. *)

Require Import Reals List.
Require Import Verif.Vec Verif.SpecCore Verif.ModelPwl.
Import ListNotations.
Open Scope R_scope.

(** x is a convex combination of the points vs, in dimension n. *)
Definition in_hull (n : nat) (vs : mat) (x : vec) : Prop :=
  exists ws, length ws = length vs /\ Forall (fun w => 0 <= w) ws /\ vsum ws = 1 /\ x = vm n ws vs.

(** The function in mode i. *)
Definition V_of (v : lpvars) (i : nat) (x : vec) : R := dot (c_of v i) x + d_of v i.

(** What each call asks for, on the whole hull, up to the slacks. *)
Definition call_holds (n : nat) (eps1 eps2 : R) (xstar : vec) (v : lpvars) (c : pwl_call) : Prop :=
  match c with
  | Derivative m vs A g => forall x, in_hull n vs x ->
      dot (c_of v m) (vadd (mv A x) g) + eps2 * V_of v m x <= lp_s1 v
  | Positivity m vs _ => forall x, in_hull n vs x -> eps1 * norm1 (vsub x xstar) - lp_s2 v <= V_of v m x
  | Continuity i j us => forall x, in_hull n us x -> V_of v i x = V_of v j x
  end.

Definition lp_feasible (o : pwl) (v : lpvars) : Prop :=
  lp_shaped o v /\ Forall (fun c => c v) (pwl_constraints o).
Definition lp_optimal (o : pwl) (weight : R) (v : lpvars) : Prop :=
  lp_feasible o v /\ forall v', lp_feasible o v' -> pwl_cost weight v <= pwl_cost weight v'.

(** phi moves by x' = A x + g between the times a and b and stays in the hull of vs. *)
Definition moves (n : nat) (vs A : mat) (g : vec) (a b : R) (phi : R -> vec) : Prop :=
  a <= b /\
  (forall t, a <= t <= b -> in_hull n vs (phi t) /\
     forall i, (i < n)%nat -> continuity_pt (fun s => nth i (phi s) 0) t) /\
  (forall t, length (phi t) = n) /\
  (forall t, a < t < b -> forall i, (i < n)%nat ->
     derivable_pt_lim (fun s => nth i (phi s) 0) t (nth i (vadd (mv A (phi t)) g) 0)).

(** phi passes through modes from time a (in mode i) to time b (in mode j), changing modes on faces for
    which continuity was asked. *)
Inductive passes (n : nat) (calls : list pwl_call) (phi : R -> vec) : R -> R -> nat -> nat -> Prop :=
  | passes_one : forall a b m vs A g, In (Derivative m vs A g) calls -> moves n vs A g a b phi ->
      passes n calls phi a b m m
  | passes_switch : forall a b c i j k l us, passes n calls phi a b i j ->
      (In (Continuity j k us) calls \/ In (Continuity k j us) calls) -> in_hull n us (phi b) ->
      passes n calls phi b c k l -> passes n calls phi a c i l.
