(** What the linear approximation of a step and the simulation of steps are compared with. *)

Require Import Reals List.
Require Import Verif.Vec Verif.ModelSlip Verif.SpecSlip Verif.ModelSlipHybrid.
Import ListNotations.
Open Scope R_scope.

(** The stance phase without its sensitivity. *)
Definition stance_of (ode : vec -> option (vec * R * mat)) (y : vec) : option (vec * R) :=
  match ode y with Some (z, T, _) => Some (z, T) | None => None end.

(** One step with the foot on a stone of height h: the next apex [x, z, xdot], with z measured like
    that of the given apex, and the duration. *)
Definition hop_to (p : slip) (stance : vec -> option (vec * R)) (h : R) (apex : vec) (a : R) : option vec :=
  match apex_map p stance (nth 0 apex 0) (nth 1 apex 0 - h) (nth 2 apex 0) a with
  | Some (x', z', v', t') => Some [x'; z' + h; v'; t']
  | None => None
  end.

(** The affine map and the duration that the approximation stands for. *)
Definition affine_hop (o : approx) (x : vec) (u : R) : vec :=
  vadd (vadd (mv (ax_A o) x) (vscale u (ax_B o))) (ax_c o) ++ [dot (ax_at o) x + ax_bt o * u + ax_ct o].

(** By how much a step meets its conditions: the foot above the stone at the apex, the vertical
    velocity after liftoff, the foot right of the left end and left of the right end. *)
Definition margins (p : slip) (ode : vec -> option (vec * R * mat)) (st : stone) (x : vec) (a : R)
  : option vec :=
  let x' := [nth 0 x 0; nth 1 x 0 - stone_height st; nth 2 x 0] in
  match apex_to_touchdown_gradient p x' a, apex_to_apex_gradient p ode x' a with
  | Some td, Some o =>
      let foot := foot_x p (td_x td) a in
      Some ([foot_z p x a - stone_height st; nth 3 (aa_lo o) 0]
            ++ match stone_left st with Fin l => [foot - l] | _ => [] end
            ++ match stone_right st with Fin r => [r - foot] | _ => [] end)
  | _, _ => None
  end.

(** The leg does not point backwards. *)
Definition leg_forward (apex : vec) (a : R) : Prop :=
  ~ (0 < nth 2 apex 0 /\ a < 0) /\ ~ (nth 2 apex 0 < 0 /\ 0 < a).
