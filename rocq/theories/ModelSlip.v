(** The spring loaded inverted pendulum: spring_loaded_inverted_pendulum.py.
    States are vectors read by index, like the numpy arrays of the code.
    The ODE solver (scipy's solve_ivp) is an oracle, given as an argument. *)

Require Import Reals List.
Require Import Verif.Vec.
Import ListNotations.
Open Scope R_scope.

(** SteppingStone (7-16); the bounds may be infinite. The assertion left < right is not used. *)
Record stone := mkStone { stone_left : ext; stone_right : ext; stone_height : R }.
(** SLIP.__init__ (23-35). *)
Record slip := mkSlip { mass : R; l0 : R; spring : R; grav : R }.

Definition at_ (x : vec) (i : nat) : R := nth i x 0.

(** SLIP.flight_dynamics (37-45), state [x, y, xdot, ydot]. *)
Definition flight_dynamics (p : slip) (s : vec) : vec := [at_ s 2; at_ s 3; 0; - grav p].

(** SLIP.stance_dynamics (47-64), state [r, theta, r_dot, theta_dot, x_foot]. *)
Definition stance_dynamics (p : slip) (s : vec) : vec :=
  let r := at_ s 0 in let theta := at_ s 1 in
  let r_dot := at_ s 2 in let theta_dot := at_ s 3 in
  [ r_dot; theta_dot;
    r * theta_dot ^ 2 - grav p * cos theta + spring p * (l0 p - r) / mass p;
    grav p / r * sin theta - 2 * r_dot * theta_dot / r;
    0 ].

(** SLIP.touchdown_guard, liftoff_guard, apex_guard (66-86). *)
Definition touchdown_guard (p : slip) (s : vec) (theta : R) : R := at_ s 1 - l0 p * cos theta.
Definition liftoff_guard (p : slip) (s : vec) : R := at_ s 0 - l0 p.
Definition apex_guard (s : vec) : R := at_ s 3.

(** SLIP.touchdown_transition (88-105). *)
Definition touchdown_transition (p : slip) (s : vec) (theta : R) : vec :=
  let xdot := at_ s 2 in let ydot := at_ s 3 in
  [ l0 p; theta; - xdot * sin theta + ydot * cos theta;
    (- xdot * cos theta - ydot * sin theta) / l0 p;
    at_ s 0 + l0 p * sin theta ].

(** SLIP.liftoff_transition (107-126). *)
Definition liftoff_transition (p : slip) (s : vec) : vec :=
  let r := at_ s 0 in let theta := at_ s 1 in
  let r_dot := at_ s 2 in let theta_dot := at_ s 3 in let x_foot := at_ s 4 in
  [ x_foot - l0 p * sin theta; l0 p * cos theta;
    - r * cos theta * theta_dot - r_dot * sin theta;
    - r * sin theta * theta_dot + r_dot * cos theta ].

(** SLIP.flight_phase_energy (128-133), stance_phase_energy (135-142). *)
Definition flight_phase_energy (p : slip) (s : vec) : R :=
  / 2 * mass p * (at_ s 2 ^ 2 + at_ s 3 ^ 2) + mass p * grav p * at_ s 1.
Definition stance_phase_energy (p : slip) (s : vec) : R :=
  / 2 * mass p * ((at_ s 0 * at_ s 3) ^ 2 + at_ s 2 ^ 2)
  + / 2 * spring p * (l0 p - at_ s 0) ^ 2
  + mass p * at_ s 0 * cos (at_ s 1) * grav p.

(** SLIP.apex_map (144-210). [stance] stands for the call of solve_ivp and the test on its liftoff
    event (170-199): the state at liftoff and the duration, or None if no liftoff happened.
    Division by g and the square root are those of the reals: the callers assume g > 0. *)
Definition apex_map (p : slip) (stance : vec -> option (vec * R)) (pos_x apex_height vel_x leg_angle : R)
  : option (R * R * R * R) :=
  let cos_theta := cos leg_angle in
  if Rltb (apex_height - l0 p * cos_theta) 0 then None
  else if andb (Rltb 0 vel_x) (Rltb leg_angle 0) then None
  else if andb (Rltb vel_x 0) (Rltb 0 leg_angle) then None
  else
    let t_td := sqrt (2 * (apex_height - l0 p * cos_theta) / grav p) in
    let pre_td := [pos_x + vel_x * t_td; l0 p * cos_theta; vel_x; - grav p * t_td] in
    let post_td := touchdown_transition p pre_td leg_angle in
    match stance post_td with
    | None => None
    | Some (pre_lo, t_lo) =>
        let post_lo := liftoff_transition p pre_lo in
        if Rltb (at_ post_lo 3) 0 then None
        else
          let t_to_apex := at_ post_lo 3 / grav p in
          Some (at_ post_lo 0 + at_ post_lo 2 * t_to_apex,
                at_ post_lo 1 + grav p / 2 * t_to_apex ^ 2,
                at_ post_lo 2,
                t_td + t_lo + t_to_apex)
    end.

(** SLIP.time_to_touchdown (288-312). With g = 0 the code divides a numpy float by zero and goes on
    with inf or nan: that case is a value of its own. *)
Inductive td_time := NoTouchdown | Touchdown (t : R) | DividedByZero.
Definition ext_leb_r (a : ext) (x : R) : bool :=
  match a with NInf => true | Fin r => Rleb r x | PInf => false end.
Definition r_leb_ext (x : R) (a : ext) : bool :=
  match a with NInf => false | Fin r => Rleb x r | PInf => true end.
Definition time_to_touchdown (p : slip) (s : vec) (st : stone) (leg_angle : R) : td_time :=
  let cos_theta := cos leg_angle in
  let sin_theta := sin leg_angle in
  let foot_pos_z0 := at_ s 1 - l0 p * cos_theta in
  if Rltb foot_pos_z0 (stone_height st) then NoTouchdown
  else if Reqb (grav p) 0 then DividedByZero
  else
    let t := (sqrt (at_ s 3 ^ 2 + 2 * grav p * (foot_pos_z0 - stone_height st)) + at_ s 3) / grav p in
    let foot_pos_x := at_ s 0 + l0 p * sin_theta + at_ s 2 * t in
    if andb (ext_leb_r (stone_left st) foot_pos_x) (r_leb_ext foot_pos_x (stone_right st))
    then Touchdown t else NoTouchdown.
(** SLIP.can_touch_stepping_stone (314-321). *)
Definition can_touch_stepping_stone (p : slip) (s : vec) (st : stone) (leg_angle : R) : bool :=
  match time_to_touchdown p s st leg_angle with NoTouchdown => false | _ => true end.

(** SLIP.apex_to_touchdown_gradient (323-391). At z = l0 cos(theta) the code divides by zero and goes
    on with inf: here the divisor is a real zero, and the theorems assume z > l0 cos(theta). *)
Record to_touchdown := mkToTouchdown {
  td_dx_dapex : mat; td_dx_dangle : vec; td_x : vec;
  td_dt_dapex : vec; td_dt_dangle : R; td_t : R }.
Definition apex_to_touchdown_gradient (p : slip) (apex : vec) (leg_angle : R) : option to_touchdown :=
  let sin_theta := sin leg_angle in
  let cos_theta := cos leg_angle in
  let ground := mkStone NInf PInf 0 in
  let apex_pos_x := at_ apex 0 in
  let apex_height := at_ apex 1 in
  let apex_vel_x := at_ apex 2 in
  match time_to_touchdown p [apex_pos_x; apex_height; apex_vel_x; 0] ground leg_angle with
  | NoTouchdown | DividedByZero => None
  | Touchdown t_td =>
      let x_pre_td := [apex_pos_x + apex_vel_x * t_td; l0 p * cos_theta; apex_vel_x; - grav p * t_td] in
      let dt_dh := sqrt (2 / grav p) * (1 / 2) / sqrt (apex_height - l0 p * cos_theta) in
      let dt_da := sqrt (2 / grav p) * l0 p * sin_theta / (2 * sqrt (apex_height - l0 p * cos_theta)) in
      Some (mkToTouchdown
        [ [1; apex_vel_x * dt_dh; t_td];
          [0; 0; 0];
          [0; 0; 1];
          [0; - grav p * dt_dh; 0] ]
        [ apex_vel_x * dt_da; - l0 p * sin_theta; 0; - grav p * dt_da ]
        x_pre_td [0; dt_dh; 0] dt_da t_td)
  end.

(** SLIP.stance_dynamics_gradient (393-412). *)
Definition stance_dynamics_gradient (p : slip) (x : vec) : mat :=
  let sin_theta := sin (at_ x 1) in
  let cos_theta := cos (at_ x 1) in
  [ [0; 0; 1; 0; 0];
    [0; 0; 0; 1; 0];
    [- spring p / mass p + at_ x 3 ^ 2; grav p * sin_theta; 0; 2 * at_ x 0 * at_ x 3; 0];
    [- (grav p * sin_theta - 2 * at_ x 2 * at_ x 3) / (at_ x 0 ^ 2); grav p / at_ x 0 * cos_theta;
     -2 * at_ x 3 / at_ x 0; -2 * at_ x 2 / at_ x 0; 0];
    [0; 0; 0; 0; 0] ].

(** SLIP.touchdown_to_liftoff_gradient (414-481). [ode] stands for the call of solve_ivp on the
    state and its sensitivity together (437-473): the state at liftoff, the duration and the
    sensitivity, or None if there was no liftoff event. *)
Record to_liftoff := mkToLiftoff { lo_dx : mat; lo_x : vec; lo_dt : vec; lo_t : R }.
Definition outer (a b : vec) : mat := map (fun x => vscale x b) a.
Definition touchdown_to_liftoff_gradient (p : slip) (ode : vec -> option (vec * R * mat)) (post_td : vec)
  : option to_liftoff :=
  match ode post_td with
  | None => None
  | Some (x_pre_lo, t_lo, M) =>
      let xdot := stance_dynamics p x_pre_lo in
      let dg := [1; 0; 0; 0; 0] in
      let dt := vscale (- 1 / dot dg xdot) (vm 5 dg M) in
      Some (mkToLiftoff (map2 vadd M (outer xdot dt)) x_pre_lo dt t_lo)
  end.

(** SLIP.liftoff_to_apex_gradient (483-523). *)
Record to_apex := mkToApex { ap_dx : mat; ap_x : vec; ap_dt : vec; ap_t : R }.
Definition liftoff_to_apex_gradient (p : slip) (s : vec) : option to_apex :=
  if Rltb (at_ s 3) 0 then None
  else
    let t_apex := at_ s 3 / grav p in
    Some (mkToApex
      [ [1; 0; at_ s 3 / grav p; at_ s 2 / grav p];
        [0; 1; 0; at_ s 3 / grav p];
        [0; 0; 1; 0] ]
      [at_ s 0 + at_ s 2 * t_apex; at_ s 1 + at_ s 3 ^ 2 / (2 * grav p); at_ s 2]
      [0; 0; 0; 1 / grav p] t_apex).

(** SLIP.touchdown_transition_gradient (525-555). *)
Definition touchdown_transition_gradient (p : slip) (s : vec) (leg_angle : R) : mat * vec :=
  let sin_theta := sin leg_angle in
  let cos_theta := cos leg_angle in
  ([ [0; 0; 0; 0];
     [0; 0; 0; 0];
     [0; 0; - sin_theta; cos_theta];
     [0; 0; - cos_theta / l0 p; - sin_theta / l0 p];
     [1; 0; 0; 0] ],
   [ 0; 1; - at_ s 2 * cos_theta - at_ s 3 * sin_theta;
     (at_ s 2 * sin_theta - at_ s 3 * cos_theta) / l0 p;
     l0 p * cos_theta ]).

(** SLIP.liftoff_transition_gradient (557-586). *)
Definition liftoff_transition_gradient (p : slip) (s : vec) : mat :=
  let sin_theta := sin (at_ s 1) in
  let cos_theta := cos (at_ s 1) in
  [ [0; - l0 p * cos_theta; 0; 0; 1];
    [0; - l0 p * sin_theta; 0; 0; 0];
    [0; l0 p * sin_theta * at_ s 3 - at_ s 2 * cos_theta; - sin_theta; - l0 p * cos_theta; 0];
    [0; - l0 p * cos_theta * at_ s 3 - at_ s 2 * sin_theta; cos_theta; - l0 p * sin_theta; 0] ].

(** SLIP.apex_to_apex_gradient (588-670). *)
Record apex_to_apex := mkApexToApex {
  aa_dx_dapex : mat; aa_dx_dangle : vec; aa_x : vec;
  aa_dt_dapex : vec; aa_dt_dangle : R; aa_t : R;
  aa_lo_dapex : mat; aa_lo_dangle : vec; aa_lo : vec }.
Definition apex_to_apex_gradient (p : slip) (ode : vec -> option (vec * R * mat)) (apex : vec) (leg_angle : R)
  : option apex_to_apex :=
  match apex_to_touchdown_gradient p apex leg_angle with
  | None => None
  | Some td =>
      let (post_dpre, post_dangle0) := touchdown_transition_gradient p (td_x td) leg_angle in
      let post_dangle := vadd post_dangle0 (mv post_dpre (td_dx_dangle td)) in
      let x_post_td := touchdown_transition p (td_x td) leg_angle in
      match touchdown_to_liftoff_gradient p ode x_post_td with
      | None => None
      | Some lo =>
          let plo_dpre := liftoff_transition_gradient p (lo_x lo) in
          let x_post_lo := liftoff_transition p (lo_x lo) in
          match liftoff_to_apex_gradient p x_post_lo with
          | None => None
          | Some ap =>
              let next_dpost_td := mm 5 (ap_dx ap) (mm 5 plo_dpre (lo_dx lo)) in
              let next_dapex := mm 3 next_dpost_td (mm 3 post_dpre (td_dx_dapex td)) in
              let next_dangle := mv next_dpost_td post_dangle in
              let post_td_dapex := mm 3 post_dpre (td_dx_dapex td) in
              let post_lo_dapex := mm 3 plo_dpre (mm 3 (lo_dx lo) post_td_dapex) in
              let dt_dapex := vadd (vadd (td_dt_dapex td) (vm 3 (lo_dt lo) post_td_dapex))
                                   (vm 3 (ap_dt ap) post_lo_dapex) in
              let post_lo_dangle := mv plo_dpre (mv (lo_dx lo) post_dangle) in
              let dt_dangle := td_dt_dangle td + dot (lo_dt lo) post_dangle
                               + dot (ap_dt ap) post_lo_dangle in
              Some (mkApexToApex next_dapex next_dangle (ap_x ap) dt_dapex dt_dangle
                      (td_t td + lo_t lo + ap_t ap) post_lo_dapex post_lo_dangle x_post_lo)
          end
      end
  end.
