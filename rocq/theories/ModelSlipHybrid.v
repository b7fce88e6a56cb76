(** Model of slip_hybrid_linear_system.py (SlipHybridLinearSystem) and of SLIP.simulate in
    spring_loaded_inverted_pendulum.py.  The ODE solver is an oracle, as in ModelSlip. *)

Require Import Reals List Bool.
Require Import Verif.Vec Verif.ModelSlip.
Import ListNotations.
Open Scope R_scope.

(** SteppingStone.__init__ — spring_loaded_inverted_pendulum.py 12-16, and
    add_stepping_stone — slip_hybrid_linear_system.py 15-23; None: the assertion fails. *)
Definition ext_ltb (a b : ext) : bool :=
  match a, b with
  | NInf, NInf => false | NInf, _ => true
  | Fin x, Fin y => Rltb x y | Fin _, PInf => true | Fin _, NInf => false
  | PInf, _ => false
  end.
Definition new_stone (left right : ext) (height : R) : option stone :=
  if ext_ltb left right then Some (mkStone left right height) else None.
Definition add_stepping_stone (stones : list stone) (left right : ext) (height : R)
  : option (list stone) :=
  match new_stone left right height with Some s => Some (stones ++ [s]) | None => None end.

(** What apex_map_linear_approximation returns. *)
Record approx := mkApprox {
  ax_A : mat; ax_B : vec; ax_c : vec;
  ax_at : vec; ax_bt : R; ax_ct : R;
  ax_P : mat; ax_q : vec }.

(** apex_map_linear_approximation — lines 25-107; None: all None.  The touchdown part
    of what apex_to_apex_gradient returns is that of apex_to_touchdown_gradient.  A left end at
    +inf or a right end at -inf cannot be touched and does not reach the rows. *)
Definition apex_map_linear_approximation (p : slip) (ode : vec -> option (vec * R * mat))
    (apex : vec) (st : stone) (leg_angle : R) : option approx :=
  if negb (can_touch_stepping_stone p [at_ apex 0; at_ apex 1; at_ apex 2; 0] st leg_angle) then None
  else
    let apex' := [at_ apex 0; at_ apex 1 - stone_height st; at_ apex 2] in
    match apex_to_touchdown_gradient p apex' leg_angle, apex_to_apex_gradient p ode apex' leg_angle with
    | Some td, Some o =>
        let A := aa_dx_dapex o in
        let B := aa_dx_dangle o in
        let c := vadd (aa_x o) (vadd (vsub (vscale (-1) (mv A apex)) (vscale leg_angle B))
                                     [0; stone_height st; 0]) in
        let a_t := aa_dt_dapex o in
        let b_t := aa_dt_dangle o in
        let c_t := aa_t o + (- dot a_t apex - b_t * leg_angle) in
        let cos_theta := cos leg_angle in
        let sin_theta := sin leg_angle in
        let row0 := [0; -1; 0; - l0 p * sin_theta] in
        let q0 := - l0 p * cos_theta - stone_height st - l0 p * sin_theta * leg_angle in
        let dlo := nth 3 (aa_lo_dapex o) [] in
        let row1 := vscale (-1) dlo ++ [- at_ (aa_lo_dangle o) 3] in
        let q1 := at_ (aa_lo o) 3 - dot dlo apex - at_ (aa_lo_dangle o) 3 * leg_angle in
        let dtd := nth 0 (td_dx_dapex td) [] in
        let left :=
          match stone_left st with
          | Fin l =>
              let r3 := vscale (-1) dtd in
              let r1 := - at_ (td_dx_dangle td) 0 - l0 p * cos_theta in
              [(r3 ++ [r1],
                at_ (td_x td) 0 + l0 p * sin_theta - l + dot r3 apex + r1 * leg_angle)]
          | _ => []
          end in
        let right :=
          match stone_right st with
          | Fin r =>
              let r3 := dtd in
              let r1 := at_ (td_dx_dangle td) 0 + l0 p * cos_theta in
              [(r3 ++ [r1],
                r - at_ (td_x td) 0 - l0 p * sin_theta + dot r3 apex + r1 * leg_angle)]
          | _ => []
          end in
        let rows := [(row0, q0); (row1, q1)] ++ left ++ right in
        Some (mkApprox A B c a_t b_t c_t (map fst rows) (map snd rows))
    | _, _ => None
    end.

(** SLIP.simulate — spring_loaded_inverted_pendulum.py 212-286.  [fly theta t s]: solve_ivp on
    the flight dynamics from the state s at time t, until the foot at the angle theta comes down or ten
    seconds are over: the final state and time.  [stance t y]: the same for the stance phase, until
    liftoff, until the leg is level or ten seconds are over.  The two returned solutions are represented by
    their final states and times.  [None]: the assertion fails (227). *)
Record phase := mkPhase { ph_state : vec; ph_time : R }.
Fixpoint simulate_steps (p : slip) (fly : R -> R -> vec -> vec * R) (stance : R -> vec -> vec * R)
    (thetas : list R) (x : vec) (t : R) : list (phase * phase) :=
  match thetas with
  | [] => []
  | theta :: rest =>
      if Rleb (at_ x 1) (l0 p * cos theta) then []
      else
        let '(pre_td, t_td) := fly theta t x in
        let post_td := touchdown_transition p pre_td theta in
        let '(pre_lo, t_lo) := stance t_td post_td in
        let here := (mkPhase pre_td t_td, mkPhase pre_lo t_lo) in
        if Rltb (at_ pre_lo 1 + PI / 2) (1 / 100000) then [here]
        else if Rltb (PI / 2 - at_ pre_lo 1) (1 / 100000) then [here]
        else
          let post_lo := liftoff_transition p pre_lo in
          let t_apex := at_ post_lo 3 / grav p in
          here :: simulate_steps p fly stance rest
            [at_ post_lo 0 + at_ post_lo 2 * t_apex; at_ post_lo 1 + at_ post_lo 3 ^ 2 / (2 * grav p);
             at_ post_lo 2; 0]
            (t_lo + t_apex)
  end.
Definition simulate (p : slip) (fly : R -> R -> vec -> vec * R) (stance : R -> vec -> vec * R)
    (x0 : vec) (thetas : list R) : option (list (phase * phase)) :=
  match thetas with
  | [] => None
  | theta :: _ =>
      if Rltb (l0 p * cos theta) (at_ x0 1) then Some (simulate_steps p fly stance thetas x0 0) else None
  end.
