(** Polytopes, ranges and what is assumed of a linear-program solver. *)

Require Import Reals List.
Require Import Verif.Vec Verif.ModelMip Verif.SpecMip Verif.ModelNet Verif.SpecNet.
Import ListNotations.
Open Scope R_scope.

(** The polytope P x <= q in n dimensions. *)
Definition polytope (n : nat) (P : mat) (q : vec) (x : vec) : Prop :=
  length x = n /\ vle (mv P x) q.

(** The values of a function on a set of vectors. *)
Definition image_of (X : vec -> Prop) (f : vec -> R) (y : R) : Prop :=
  exists x, X x /\ y = f x.

(** [e] is the largest element of S; +inf if S has elements above every
    number, -inf if S is empty. *)
Definition greatest (S : R -> Prop) (e : ext) : Prop :=
  match e with
  | Fin v => S v /\ forall y, S y -> y <= v
  | PInf => forall K, exists y, S y /\ K < y
  | NInf => forall y, ~ S y
  end.
(** [e] is the smallest element of S; -inf if S has elements below every
    number, +inf if S is empty. *)
Definition least (S : R -> Prop) (e : ext) : Prop :=
  match e with
  | Fin v => S v /\ forall y, S y -> v <= y
  | NInf => forall K, exists y, S y /\ y < K
  | PInf => forall y, ~ S y
  end.

(** All coordinates of all points lie between -K and K. *)
Definition bounded_set (X : vec -> Prop) : Prop :=
  exists K, forall x, X x -> Forall (fun a => - K <= a <= K) x.

(** The documented meaning of the status UNBOUNDED: the objective improves
    without limit provided that the program is feasible. *)
Definition unbounded_ok (solve : mip -> gresult) : Prop :=
  forall m, solve m = GUnbounded -> (exists sg, gfeas m sg) ->
    forall K, exists sg, gfeas m sg /\
      if obj_max m then K < objective m sg else objective m sg < K.
(** One of the three statuses is reported (DualReductions = 0). *)
Definition decisive (solve : mip -> gresult) : Prop := forall m, solve m <> GOther.
(** Infeasible programs are recognised. *)
Definition finds_infeasible (solve : mip -> gresult) : Prop :=
  forall m, (forall sg, ~ gfeas m sg) -> solve m = GInfeasible.

(** The points of compute_range_by_lp: x_lb <= x <= x_ub and C x <= d. *)
Definition range_set (n : nat) (xlb xub : option (list ext)) (C : option mat) (d : option vec) (x : vec) : Prop :=
  length x = n /\
  (forall l, xlb = Some l -> Forall2 ext_le_r l x) /\
  (forall u, xub = Some u -> Forall2 r_le_ext x u) /\
  (forall M r, C = Some M -> d = Some r -> vle (mv M x) r).
