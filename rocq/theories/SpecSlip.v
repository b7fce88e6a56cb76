(** What the SLIP functions are meant to compute: trajectories of an autonomous ODE, free flight, the
    landing of the foot on a stone, and Jacobians as derivatives along every differentiable curve. *)

Require Import Reals List.
Require Import Verif.Vec Verif.ModelSlip.
Import ListNotations.
Open Scope R_scope.

(** phi solves x' = f(x) on [a, b]; the state has n entries. *)
Definition solves (n : nat) (f : vec -> vec) (a b : R) (phi : R -> vec) : Prop :=
  forall t, a <= t <= b -> length (phi t) = n /\
  forall i, (i < n)%nat -> derivable_pt_lim (fun s => nth i (phi s) 0) t (nth i (f (phi t)) 0).

(** Free flight from the state [x, y, xdot, ydot], at time t. *)
Definition ballistic (p : slip) (s : vec) (t : R) : vec :=
  [ nth 0 s 0 + nth 2 s 0 * t;
    nth 1 s 0 + nth 3 s 0 * t - grav p * t ^ 2 / 2;
    nth 2 s 0;
    nth 3 s 0 - grav p * t ].

(** The foot of a massless leg of length l0 at angle theta. *)
Definition foot_x (p : slip) (s : vec) (theta : R) : R := nth 0 s 0 + l0 p * sin theta.
Definition foot_z (p : slip) (s : vec) (theta : R) : R := nth 1 s 0 - l0 p * cos theta.

(** In free flight from s the foot comes down on the stone at time t. *)
Definition lands (p : slip) (s : vec) (st : stone) (theta t : R) : Prop :=
  0 <= t /\
  foot_z p (ballistic p s t) theta = stone_height st /\
  nth 3 (ballistic p s t) 0 <= 0 /\
  ext_le_r (stone_left st) (foot_x p (ballistic p s t) theta) /\
  r_le_ext (foot_x p (ballistic p s t) theta) (stone_right st).

(** c is a curve of vectors with n entries, through x at time 0 with velocity d. *)
Definition curve (n : nat) (c : R -> vec) (x d : vec) : Prop :=
  c 0 = x /\ length d = n /\ (forall t, length (c t) = n) /\
  forall i, (i < n)%nat -> derivable_pt_lim (fun t => nth i (c t) 0) 0 (nth i d 0).

(** G is the derivative of F at x: along every curve through x with velocity d, F moves with
    velocity G d. *)
Definition jacobian (n m : nat) (F : vec -> vec) (x : vec) (G : mat) : Prop :=
  wfm m n G /\ forall c d, curve n c x d ->
  forall i, (i < m)%nat -> derivable_pt_lim (fun t => nth i (F (c t)) 0) 0 (dot (nth i G []) d).

(** The same, for a function of a vector and a number that may fail: it is defined near the point,
    and moves with velocity G d + h b when the vector moves with velocity d and the number with b. *)
Definition entry_of (o : option vec) (i : nat) : R := match o with Some v => nth i v 0 | None => 0 end.
Definition jacobian2 (n m : nat) (F : vec -> R -> option vec) (x : vec) (a : R) (G : mat) (h : vec) : Prop :=
  wfm m n G /\ length h = m /\ forall c d al b, curve n c x d -> al 0 = a -> derivable_pt_lim al 0 b ->
  (exists e, 0 < e /\ forall t, Rabs t < e -> F (c t) (al t) <> None) /\
  forall i, (i < m)%nat ->
  derivable_pt_lim (fun t => entry_of (F (c t) (al t)) i) 0 (dot (nth i G []) d + nth i h 0 * b).

(** The outputs of the code collected in one vector each. *)
Definition touchdown_outputs (p : slip) (apex : vec) (angle : R) : option vec :=
  match apex_to_touchdown_gradient p apex angle with
  | Some o => Some (td_x o ++ [td_t o]) | None => None end.
Definition apex_outputs (p : slip) (s : vec) : option vec :=
  match liftoff_to_apex_gradient p s with Some o => Some (ap_x o ++ [ap_t o]) | None => None end.
Definition next_apex_outputs (p : slip) (ode : vec -> option (vec * R * mat)) (apex : vec) (angle : R)
  : option vec :=
  match apex_to_apex_gradient p ode apex angle with
  | Some o => Some (aa_x o ++ [aa_t o] ++ aa_lo o) | None => None end.

(** The stance phase integrated exactly: a state, the duration and the state at liftoff, joined by a
    solution of the stance dynamics whose leg never vanishes and has its rest length at the end. *)
Definition stance_exact (p : slip) (stance : vec -> option (vec * R)) : Prop :=
  forall y z T, stance y = Some (z, T) ->
  0 <= T /\ nth 0 z 0 = l0 p /\
  exists phi, phi 0 = y /\ phi T = z /\ solves 5 (stance_dynamics p) 0 T phi /\
  forall t, 0 <= t <= T -> nth 0 (phi t) 0 <> 0.

(** The stance phase with its sensitivity: psi is the flow of the stance dynamics near the final time T
    and the initial state y. It has velocity stance_dynamics in time and M in the initial state. Near y
    there is a liftoff, at rest length, at a time that depends on the initial state differentiably. *)
Definition stance_flow (p : slip) (ode : vec -> option (vec * R * mat)) (y z : vec) (T : R) (M : mat)
  (psi : R -> vec -> vec) : Prop :=
  ode y = Some (z, T, M) /\ wfm 5 5 M /\ nth 2 z 0 <> 0 /\
  (forall c d, curve 5 c y d ->
     (exists e, 0 < e /\ forall t, Rabs t < e -> exists T' M',
        ode (c t) = Some (psi T' (c t), T', M') /\ length (psi T' (c t)) = 5%nat /\
        nth 0 (psi T' (c t)) 0 = l0 p) /\
     (exists v, derivable_pt_lim (fun t => match ode (c t) with Some (_, T', _) => T' | None => 0 end) 0 v)) /\
  (forall c d tau v, curve 5 c y d -> tau 0 = T -> derivable_pt_lim tau 0 v ->
     forall i, (i < 5)%nat ->
     derivable_pt_lim (fun t => nth i (psi (tau t) (c t)) 0) 0
       (nth i (stance_dynamics p z) 0 * v + dot (nth i M []) d)).
