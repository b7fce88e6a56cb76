(** Two hops, a flight of more than ten seconds, and a liftoff with downward velocity. *)

Require Import Reals List Lia Lra Bool Arith.
Require Import Verif.Vec Verif.VecFacts Verif.ModelSlip Verif.SpecSlip Verif.ProofSlip Verif.ProofSlipEx
  Verif.ModelSlipHybrid Verif.SpecSlipHybrid Verif.SpecSlipSim Verif.ProofSlipHybrid Verif.ProofSlipSim.
Import ListNotations.
Open Scope R_scope.

Definition hop_timed (t : R) (y : vec) : vec * R := (hop_lo, t + 3 * (PI / 2)).
Definition at_hop (y : vec) : Prop := y = hop_td.
Lemma hop_timed_exact : stance_exact_on hopper at_hop hop_timed.
Proof.
  intros t y ->. assert (E : hop_stance hop_td = Some (hop_lo, 3 * (PI / 2))).
  { unfold hop_stance. destruct (list_eq_dec Req_EM_T hop_td hop_td); [reflexivity|congruence]. }
  destruct (hop_exact _ _ _ E) as (HT & Rz & phi & P0 & PT & So & Nz).
  assert (P4 := PI_4). exists (3 * (PI / 2)), phi.
  split; [lra|]. split; [unfold hop_timed; rewrite PT; reflexivity|]. split; [auto|]. split; [auto|]. split; [auto|].
  left. rewrite PT. auto.
Qed.
Lemma hop_same : same_stance hop_stance hop_timed.
Proof.
  intros y z T E. unfold hop_stance in E. destruct (list_eq_dec Req_EM_T y hop_td); [|discriminate].
  apply someq in E. apply pair_equal_spec in E. destruct E as [<- <-].
  assert (P2 := PI2_1). unfold hop_lo. cbn [nth]. split; [lra|]. split; [lra|]. reflexivity.
Qed.
Lemma hop_twice : exists t1 t2, apexes hopper hop_stance 0 (21/2) 0 0 [0; 0] = Some [(0, 21/2, 0, t1); (0, 21/2, 0, t2)].
Proof.
  destruct hop_map as [t E]. exists (0 + t), (0 + t + t). cbn [apexes]. rewrite E, E. reflexivity.
Qed.
Lemma hop_reach : forall t1 t2 i, (i < length [0; 0])%nat ->
  let h := nth i (21/2 :: map height_of [(0, 21/2, 0, t1); (0, 21/2, 0, t2)]) 0 - l0 hopper * cos (nth i [0; 0] 0) in
  0 < h /\ 2 * h <= 100 * grav hopper.
Proof.
  intros t1 t2 i Hi. cbn in Hi. unfold hopper. cbn [l0 grav].
  destruct i as [|[|]]; try lia; cbn [nth map height_of]; rewrite cos_0; lra.
Qed.

(** One step of the hop. *)
Lemma hop_run : forall rest t, exists s t', simulate_steps hopper (parabola hopper) hop_timed (0 :: rest) [0; 21/2; 0; 0] t
  = s :: simulate_steps hopper (parabola hopper) hop_timed rest [0; 21/2; 0; 0] t' /\ completed hopper at_hop 0 s.
Proof.
  intros rest t. destruct hop_map as [d E].
  assert (G : 0 < grav hopper) by (unfold hopper; cbn [grav]; lra).
  assert (Lt : landing_time hopper [0; 21/2; 0; 0] 0 = 1).
  { unfold landing_time, foot_z, hopper. cbn [nth grav l0]. rewrite cos_0.
    replace (0 ^ 2 + 2 * 1 * (21/2 - 10 * 1)) with 1 by lra. rewrite sqrt_1. lra. }
  assert (Pb : forall t, parabola hopper 0 t [0; 21/2; 0; 0] = ([0; 10; 0; -1], t + 1)).
  { intros u. unfold parabola. rewrite Lt. rewrite Rmin_left by lra. unfold ballistic, hopper. cbn [nth grav].
    do 1 f_equal. repeat (f_equal; try lra). }
  assert (Td : touchdown_transition hopper [0; 10; 0; -1] 0 = hop_td).
  { unfold touchdown_transition, hopper, hop_td, at_. cbn [nth l0]. rewrite cos_0, sin_0. repeat (f_equal; try lra). }
  assert (Lo : liftoff_transition hopper hop_lo = [0; 10; 0; 1]).
  { unfold liftoff_transition, hopper, hop_lo, at_. cbn [nth l0]. rewrite cos_0, sin_0. repeat (f_equal; try lra). }
  assert (P2 := PI2_1).
  cbn [simulate_steps]. unfold Rleb, at_ at 1. cbn [nth].
  destruct (Rle_dec (21/2) (l0 hopper * cos 0)) as [n|_]; [unfold hopper in n; cbn [l0] in n; rewrite cos_0 in n; lra|].
  rewrite Pb. unfold hop_timed at 1. unfold Rltb. change (at_ hop_lo 1) with 0.
  destruct (Rlt_dec (0 + PI / 2) (1 / 100000)); [lra|]. destruct (Rlt_dec (PI / 2 - 0) (1 / 100000)); [lra|].
  eexists _, _. split.
  - f_equal. rewrite Lo. unfold at_, hopper. cbn [nth grav].
    replace (0 + 0 * (1 / 1)) with 0 by lra. replace (10 + 1 ^ 2 / (2 * 1)) with (21/2) by lra. reflexivity.
  - unfold completed. cbn [fst snd ph_state]. rewrite Td. split; [|split; [reflexivity|reflexivity]].
    unfold foot_z, hopper. cbn [nth l0]. rewrite cos_0. lra.
Qed.
Lemma hop_sim : exists s1 s2, simulate hopper (parabola hopper) hop_timed [0; 21/2; 0; 0] [0; 0] = Some [s1; s2] /\
  completed hopper at_hop 0 s1 /\ completed hopper at_hop 0 s2.
Proof.
  destruct (hop_run [0] 0) as (s1 & t1 & E1 & C1). destruct (hop_run [] t1) as (s2 & t2 & E2 & C2).
  exists s1, s2. split; [|auto]. unfold simulate. unfold Rltb, at_. cbn [nth].
  destruct (Rlt_dec (l0 hopper * cos 0) (21/2)) as [_|n].
  - rewrite E1, E2. reflexivity.
  - exfalso. apply n. unfold hopper. cbn [l0]. rewrite cos_0. lra.
Qed.

(** A high start. *)
Lemma high_start : forall stance, exists s more,
  simulate hopper (parabola hopper) stance [0; 100; 0; 0] [0] = Some (s :: more) /\
  ph_state (fst s) = fst (parabola hopper 0 0 [0; 100; 0; 0]) /\
  foot_z hopper (ph_state (fst s)) 0 = 40.
Proof.
  intros stance.
  assert (Lt : 10 < landing_time hopper [0; 100; 0; 0] 0).
  { unfold landing_time, foot_z, hopper. cbn [nth grav l0]. rewrite cos_0.
    replace (0 ^ 2 + 2 * 1 * (100 - 10 * 1)) with 180 by lra.
    assert (10 < sqrt 180); [|lra]. rewrite <- (sqrt_square 10) by lra. apply sqrt_lt_1; lra. }
  assert (Pb : parabola hopper 0 0 [0; 100; 0; 0] = (ballistic hopper [0; 100; 0; 0] 10, 0 + 10)).
  { unfold parabola. rewrite Rmin_right by lra. reflexivity. }
  unfold simulate. cbn [simulate_steps]. unfold Rltb at 1. unfold Rleb. change (at_ [0; 100; 0; 0] 1) with 100.
  destruct (Rlt_dec (l0 hopper * cos 0) 100) as [_|n]; [|exfalso; apply n; unfold hopper; cbn [l0]; rewrite cos_0; lra].
  destruct (Rle_dec 100 (l0 hopper * cos 0)) as [n|_]; [exfalso; unfold hopper in n; cbn [l0] in n; rewrite cos_0 in n; lra|].
  rewrite Pb. destruct (stance (0 + 10) (touchdown_transition hopper (ballistic hopper [0; 100; 0; 0] 10) 0)) as [lo tlo].
  assert (Z : foot_z hopper (ballistic hopper [0; 100; 0; 0] 10) 0 = 40).
  { unfold foot_z, ballistic, hopper. cbn [nth l0 grav]. rewrite cos_0. lra. }
  destruct (Rltb (at_ lo 1 + PI / 2) (1 / 100000)).
  { eexists _, _. split; [reflexivity|]. split; [reflexivity|exact Z]. }
  destruct (Rltb (PI / 2 - at_ lo 1) (1 / 100000)); eexists _, _; (split; [reflexivity|]); (split; [reflexivity|exact Z]).
Qed.

(** A liftoff with downward velocity: the next touchdown comes before it. *)
Definition fall_lo : vec := [10; PI / 3; 0; 4 / (10 * sin (PI / 3)); 0].
Definition fall_timed (t : R) (y : vec) : vec * R := (fall_lo, t + 1).
Lemma fall_run : exists f s more, simulate hopper (parabola hopper) fall_timed [0; 21/2; 0; 0] [0; 0] = Some ((f, s) :: more) /\
  ph_state s = fall_lo /\
  1 / 100000 <= nth 1 fall_lo 0 + PI / 2 /\ 1 / 100000 <= PI / 2 - nth 1 fall_lo 0 /\
  nth 3 (liftoff_transition hopper fall_lo) 0 = -4 /\ nth 1 (liftoff_transition hopper fall_lo) 0 = 5 /\
  0 <= nth 2 fall_lo 0 /\
  nth 1 (liftoff_transition hopper fall_lo) 0 < l0 hopper * cos 0
    < nth 1 (liftoff_transition hopper fall_lo) 0 + nth 3 (liftoff_transition hopper fall_lo) 0 ^ 2 / (2 * grav hopper).
Proof.
  assert (P2 := PI2_1). assert (S0 : 0 < sin (PI / 3)) by (apply sin_gt_0; lra).
  assert (V : nth 3 (liftoff_transition hopper fall_lo) 0 = -4).
  { unfold liftoff_transition, hopper, fall_lo, at_. cbn [nth l0]. field. lra. }
  assert (Hh : nth 1 (liftoff_transition hopper fall_lo) 0 = 5).
  { unfold liftoff_transition, hopper, fall_lo, at_. cbn [nth l0]. rewrite cos_PI3. lra. }
  assert (A1 : 1 / 100000 <= nth 1 fall_lo 0 + PI / 2) by (unfold fall_lo; cbn [nth]; lra).
  assert (A2 : 1 / 100000 <= PI / 2 - nth 1 fall_lo 0) by (unfold fall_lo; cbn [nth]; lra).
  assert (B : l0 hopper * cos 0 = 10) by (unfold hopper; cbn [l0]; rewrite cos_0; lra).
  assert (E : exists f s more, simulate hopper (parabola hopper) fall_timed [0; 21/2; 0; 0] [0; 0] = Some ((f, s) :: more) /\ ph_state s = fall_lo).
  { unfold simulate. cbn [simulate_steps]. rewrite B. unfold Rltb at 1. unfold Rleb at 1. change (at_ [0; 21/2; 0; 0] 1) with (21/2).
    destruct (Rlt_dec 10 (21/2)); [|lra]. destruct (Rle_dec (21/2) 10); [lra|].
    destruct (parabola hopper 0 0 [0; 21/2; 0; 0]) as [pre ttd]. unfold fall_timed at 1. unfold Rltb.
    change (at_ fall_lo 1) with (nth 1 fall_lo 0).
    destruct (Rlt_dec (nth 1 fall_lo 0 + PI / 2) (1 / 100000)); [lra|].
    destruct (Rlt_dec (PI / 2 - nth 1 fall_lo 0) (1 / 100000)); [lra|].
    eexists _, _, _. split; reflexivity. }
  destruct E as (f & s & more & E1 & E2). exists f, s, more. rewrite V, Hh, B.
  split; [auto|]. split; [auto|]. split; [auto|]. split; [auto|]. split; [auto|]. split; [auto|].
  split; [unfold fall_lo; cbn [nth]; lra|]. unfold hopper. cbn [grav]. lra.
Qed.
