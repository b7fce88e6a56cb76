(** C80: the simulation of several steps of the SLIP. *)

Require Import Reals List.
Require Import Verif.Vec Verif.ModelSlip Verif.SpecSlip Verif.ProofSlipEx Verif.ModelSlipHybrid
  Verif.SpecSlipSim Verif.ProofSlipSim Verif.ProofSlipSim2.
Import ListNotations.
Open Scope R_scope.

(** With exact solvers there is at least one step and at most one per leg angle; as long as the steps
    complete, every flight and every stance phase ends with the energy of the initial state, and no stance phase ends
    before it starts. *)
Theorem C80_energy : forall p fly stance D x0 thetas sol,
  0 < grav p -> l0 p <> 0 -> mass p <> 0 ->
  fly_exact p fly -> stance_exact_on p D stance -> length x0 = 4%nat ->
  simulate p fly stance x0 thetas = Some sol ->
  (0 < length sol <= length thetas)%nat /\
  forall i, (i < length sol)%nat ->
  (forall j, (j < i)%nat -> completed p D (nth j thetas 0) (nth j sol no_step)) ->
  flight_phase_energy p (ph_state (fst (nth i sol no_step))) = flight_phase_energy p x0 /\
  (foot_z p (ph_state (fst (nth i sol no_step))) (nth i thetas 0) = 0 ->
   D (touchdown_transition p (ph_state (fst (nth i sol no_step))) (nth i thetas 0)) ->
   stance_phase_energy p (ph_state (snd (nth i sol no_step))) = flight_phase_energy p x0 /\
   ph_time (fst (nth i sol no_step)) <= ph_time (snd (nth i sol no_step))).
Proof. exact simulate_energy. Qed.
Print Assumptions C80_energy.
Example C80_hop_solvers : 0 < grav hopper -> fly_exact hopper (parabola hopper) /\ stance_exact_on hopper at_hop hop_timed.
Proof. exact (fun G => conj (parabola_exact hopper G) hop_timed_exact). Qed.
Example C80_hop_case : exists s1 s2,
  simulate hopper (parabola hopper) hop_timed [0; 21/2; 0; 0] [0; 0] = Some [s1; s2] /\
  completed hopper at_hop 0 s1 /\ completed hopper at_hop 0 s2.
Proof. exact hop_sim. Qed.

(** From an apex, the simulation passes through the apexes that the apex map gives one after the
    other, at their times, if each of them is high enough for the next leg angle and low enough to come down in
    ten seconds. *)
Theorem C80_apex_map : forall p fly stance0 stance thetas x z v l,
  0 < grav p -> fly_exact p fly -> same_stance stance0 stance ->
  thetas <> [] -> apexes p stance0 x z v 0 thetas = Some l ->
  (forall i, (i < length thetas)%nat ->
     let h := nth i (z :: map height_of l) 0 - l0 p * cos (nth i thetas 0) in 0 < h /\ 2 * h <= 100 * grav p) ->
  exists sol, simulate p fly stance [x; z; v; 0] thetas = Some sol /\ Forall2 (rises_to p) sol l /\
  length sol = length thetas.
Proof. exact simulate_apexes. Qed.
Print Assumptions C80_apex_map.
Example C80_apex_case :
  same_stance hop_stance hop_timed /\
  exists t1 t2, apexes hopper hop_stance 0 (21/2) 0 0 [0; 0] = Some [(0, 21/2, 0, t1); (0, 21/2, 0, t2)] /\
  forall i, (i < length [0; 0])%nat ->
  let h := nth i (21/2 :: map height_of [(0, 21/2, 0, t1); (0, 21/2, 0, t2)]) 0 - l0 hopper * cos (nth i [0; 0] 0) in
  0 < h /\ 2 * h <= 100 * grav hopper.
Proof.
  exact (conj hop_same match hop_twice with
    | ex_intro _ t1 (ex_intro _ t2 E) => ex_intro _ t1 (ex_intro _ t2 (conj E (hop_reach t1 t2))) end).
Qed.

(** A flight that is still in the air after ten seconds is followed by a stance phase all the same,
    which starts with less energy: what is lost is that of the height of the foot. *)
Theorem C80_timeout_refuted :
  (forall p fly x0 theta t, 0 < grav p -> l0 p <> 0 -> fly_exact p fly -> length x0 = 4%nat ->
     0 < foot_z p x0 theta ->
     stance_phase_energy p (touchdown_transition p (fst (fly theta t x0)) theta)
     = flight_phase_energy p x0 - mass p * grav p * foot_z p (fst (fly theta t x0)) theta) /\
  (forall stance, exists s more,
     simulate hopper (parabola hopper) stance [0; 100; 0; 0] [0] = Some (s :: more) /\
     ph_state (fst s) = fst (parabola hopper 0 0 [0; 100; 0; 0]) /\
     foot_z hopper (ph_state (fst s)) 0 = 40).
Proof. exact (conj timeout_energy high_start). Qed.
Print Assumptions C80_timeout_refuted.

(** After a liftoff with downward velocity the next flight starts at an apex in the past: if the foot of the next
    leg angle is then above the ground and at liftoff below it, the next touchdown comes before that liftoff. *)
Theorem C80_time_refuted : forall p fly stance x t th1 th2 rest f s more,
  0 < grav p -> fly_exact p fly ->
  simulate_steps p fly stance (th1 :: th2 :: rest) x t = (f, s) :: more ->
  1 / 100000 <= nth 1 (ph_state s) 0 + PI / 2 -> 1 / 100000 <= PI / 2 - nth 1 (ph_state s) 0 ->
  let w := liftoff_transition p (ph_state s) in
  nth 3 w 0 < 0 -> nth 1 w 0 < l0 p * cos th2 < nth 1 w 0 + nth 3 w 0 ^ 2 / (2 * grav p) ->
  exists f' s' more', more = (f', s') :: more' /\ ph_time f' < ph_time s.
Proof. exact back_in_time. Qed.
Print Assumptions C80_time_refuted.
Example C80_fall_case : exists f s more,
  simulate hopper (parabola hopper) fall_timed [0; 21/2; 0; 0] [0; 0] = Some ((f, s) :: more) /\
  ph_state s = fall_lo /\
  1 / 100000 <= nth 1 fall_lo 0 + PI / 2 /\ 1 / 100000 <= PI / 2 - nth 1 fall_lo 0 /\
  nth 3 (liftoff_transition hopper fall_lo) 0 = -4 /\ nth 1 (liftoff_transition hopper fall_lo) 0 = 5 /\
  0 <= nth 2 fall_lo 0 /\
  nth 1 (liftoff_transition hopper fall_lo) 0 < l0 hopper * cos 0
    < nth 1 (liftoff_transition hopper fall_lo) 0 + nth 3 (liftoff_transition hopper fall_lo) 0 ^ 2 / (2 * grav hopper).
Proof. exact fall_run. Qed.
