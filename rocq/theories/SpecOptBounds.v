(** What the bounds obtained by optimisation rely on. *)

Require Import Reals List.
Require Import Verif.Vec Verif.SpecCore Verif.ModelMip Verif.SpecMip Verif.ModelOptBounds.
Import ListNotations.
Open Scope R_scope.

(** The separate program of a system with dynamics T: it was built by the calls of
    GurobiTorchMIP, and every state of the box with every velocity there is one
    of its points (it may have more: a relaxation). *)
Record covers (n : nat) (p : bound_prog) (lo up : vec) (T : vec -> vec -> Prop) : Prop := {
  cv_built : history false (bp_mip p);
  cv_next : below (nvars (bp_mip p)) (bp_next p) /\ length (bp_next p) = n /\ NoDup (bp_next p);
  cv_x : below (nvars (bp_mip p)) (bp_x p) /\ length (bp_x p) = n;
  cv_all : forall x d, in_box lo up x -> T x d ->
    exists sg, gfeas (bp_mip p) sg /\ map sg (bp_x p) = x /\ map sg (bp_next p) = d
}.

(** It has no other points. *)
Definition no_more (p : bound_prog) (lo up : vec) (T : vec -> vec -> Prop) : Prop :=
  forall sg, gfeas (bp_mip p) sg ->
    in_box lo up (map sg (bp_x p)) /\ T (map sg (bp_x p)) (map sg (bp_next p)).

(** Its velocities are bounded. *)
Definition bounded_velocity (p : bound_prog) : Prop :=
  exists K, forall sg, gfeas (bp_mip p) sg -> Forall (fun v => Rabs v <= K) (map sg (bp_next p)).
