(** Exact solvers for the two phases of the SLIP, and the sequence of apexes of a run. *)

Require Import Reals List.
Require Import Verif.Vec Verif.ModelSlip Verif.SpecSlip Verif.ModelSlipHybrid.
Import ListNotations.
Open Scope R_scope.

(** The flight solver follows the parabola until the foot comes down on the ground, or for ten
    seconds. *)
Definition fly_exact (p : slip) (fly : R -> R -> vec -> vec * R) : Prop :=
  forall theta t x, length x = 4%nat -> 0 < foot_z p x theta ->
  exists d, 0 <= d <= 10 /\ fly theta t x = (ballistic p x d, t + d) /\
  (forall e, 0 <= e < d -> 0 < foot_z p (ballistic p x e) theta) /\
  (foot_z p (ballistic p x d) theta = 0 \/ d = 10 /\ 0 < foot_z p (ballistic p x d) theta).

(** From the stance states in D the stance solver follows the stance dynamics until liftoff, at rest
    length, or until the leg is level, or for ten seconds. *)
Definition stance_exact_on (p : slip) (D : vec -> Prop) (stance : R -> vec -> vec * R) : Prop :=
  forall t y, D y ->
  exists T phi, 0 <= T <= 10 /\ stance t y = (phi T, t + T) /\ phi 0 = y /\
  solves 5 (stance_dynamics p) 0 T phi /\ (forall s, 0 <= s <= T -> nth 0 (phi s) 0 <> 0) /\
  (nth 0 (phi T) 0 = l0 p \/ nth 1 (phi T) 0 = PI / 2 \/ nth 1 (phi T) 0 = - (PI / 2) \/ T = 10).

(** A step whose foot did come down, whose stance started in D, and which lifted off. *)
Definition completed (p : slip) (D : vec -> Prop) (theta : R) (s : phase * phase) : Prop :=
  foot_z p (ph_state (fst s)) theta = 0 /\ D (touchdown_transition p (ph_state (fst s)) theta) /\
  nth 0 (ph_state (snd s)) 0 = l0 p.

(** The apexes (position, height, velocity, time) that apex_map gives one after the other. *)
Fixpoint apexes (p : slip) (stance : vec -> option (vec * R)) (x z v t : R) (thetas : list R)
  : option (list (R * R * R * R)) :=
  match thetas with
  | [] => Some []
  | theta :: rest =>
      match apex_map p stance x z v theta with
      | Some (x', z', v', d) =>
          match apexes p stance x' z' v' (t + d) rest with
          | Some l => Some ((x', z', v', t + d) :: l)
          | None => None
          end
      | None => None
      end
  end.

(** The timed solver agrees with the stance phase of apex_map where that has a value; the leg is not level there. *)
Definition same_stance (stance0 : vec -> option (vec * R)) (stance : R -> vec -> vec * R) : Prop :=
  forall y z T, stance0 y = Some (z, T) ->
  1 / 100000 <= nth 1 z 0 + PI / 2 /\ 1 / 100000 <= PI / 2 - nth 1 z 0 /\
  forall t, stance t y = (z, t + T).

(** Flight after the liftoff at the end of the step leads to the apex. *)
Definition rises_to (p : slip) (s : phase * phase) (a : R * R * R * R) : Prop :=
  let '(x, z, v, t) := a in
  exists d, 0 <= d /\ ph_time (snd s) + d = t /\
  ballistic p (liftoff_transition p (ph_state (snd s))) d = [x; z; v; 0].
