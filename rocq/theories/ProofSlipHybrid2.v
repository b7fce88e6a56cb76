(** A step to the right onto a raised stone. *)

Require Import Reals List Lia Lra Bool Arith.
Require Import Verif.Vec Verif.VecFacts Verif.ProofUtils Verif.ModelSlip Verif.SpecSlip Verif.ProofSlip
  Verif.ProofSlipChain Verif.ProofSlipEx Verif.ModelSlipHybrid Verif.SpecSlipHybrid Verif.ProofSlipHybrid.
Import ListNotations.
Open Scope R_scope.

Definition walk_apex : vec := [0; 15/2; 1].
Definition walk_stone := mkStone (Fin 0) (Fin 20) 2.
Definition walk_td : vec := touchdown_transition hopper [1; 5; 1; -1] (PI / 3).
Definition walk_flow (s : R) (v : vec) : vec :=
  [10 + (s - 1) + (nth 0 v 0 - 10); nth 1 v 0 - nth 1 walk_td 0; 1 - (s - 1) + (nth 2 v 0 - nth 2 walk_td 0);
   nth 3 v 0 - nth 3 walk_td 0; nth 4 v 0].
Definition walk_lo : vec := [10; 0; 1; 0; nth 4 walk_td 0].
Definition walk_ode (v : vec) : option (vec * R * mat) := Some (walk_flow (hop_time v) v, hop_time v, eye 5).

Lemma walk_end : walk_flow (hop_time walk_td) walk_td = walk_lo.
Proof.
  unfold walk_flow, hop_time, walk_lo. assert (E : nth 0 walk_td 0 = 10) by reflexivity. rewrite E.
  repeat (f_equal; try ring).
Qed.
Lemma walk_stance_flow : stance_flow hopper walk_ode walk_td walk_lo 1 (eye 5) walk_flow.
Proof.
  assert (E0' : nth 0 walk_td 0 = 10) by reflexivity.
  split; [|split; [|split; [|split]]].
  - unfold walk_ode. rewrite walk_end. unfold hop_time. rewrite E0'. replace (1 - (10 - 10)) with 1 by ring. reflexivity.
  - split; [reflexivity|repeat constructor].
  - unfold walk_lo. cbn [nth]. lra.
  - intros c d C. destruct (curve_at _ _ _ _ 0 C ltac:(lia)) as [D0 E0]. split.
    + exists 1. split; [lra|]. intros t _. exists (hop_time (c t)), (eye 5). split; [reflexivity|]. split; [reflexivity|].
      unfold walk_flow, hop_time, hopper. cbn [nth l0]. ring.
    + eexists. unfold walk_ode, hop_time. repeat dd.
  - intros c d tau v C T0 Dt i Hi. assert (Ld : length d = 5%nat) by apply C. rewrite (list5 d Ld).
    destruct (curve_at _ _ _ _ 0 C ltac:(lia)) as [D0 E0]. destruct (curve_at _ _ _ _ 1 C ltac:(lia)) as [D1 E1].
    destruct (curve_at _ _ _ _ 2 C ltac:(lia)) as [D2 E2]. destruct (curve_at _ _ _ _ 3 C ltac:(lia)) as [D3 E3].
    destruct (curve_at _ _ _ _ 4 C ltac:(lia)) as [D4 E4].
    unfold walk_flow, stance_dynamics, walk_lo, hopper, at_. generalize walk_td. intros y.
    cbn [nth l0 grav mass spring]. rewrite cos_0, sin_0.
    destruct i as [|[|[|[|[|]]]]]; try lia; cbn [nth eye eyek unit_row map seq Nat.eqb dot];
      (eapply d_eq; [repeat dd|]); cbv beta; try lra.
Qed.
Lemma walk_case : exists td o,
  0 < grav hopper /\ length walk_apex = 3%nat /\ stone_height walk_stone < foot_z hopper walk_apex (PI / 3) /\
  apex_to_touchdown_gradient hopper [nth 0 walk_apex 0; nth 1 walk_apex 0 - stone_height walk_stone; nth 2 walk_apex 0] (PI / 3)
    = Some td /\
  stance_flow hopper walk_ode (touchdown_transition hopper (td_x td) (PI / 3)) walk_lo 1 (eye 5) walk_flow /\
  0 < nth 3 (liftoff_transition hopper walk_lo) 0 /\
  apex_map_linear_approximation hopper walk_ode walk_apex walk_stone (PI / 3) = Some o /\
  0 < nth 2 walk_apex 0 * (PI / 3) /\ leg_forward walk_apex (PI / 3).
Proof.
  assert (G : 0 < grav hopper) by (unfold hopper; cbn [grav]; lra).
  pose proof PI_RGT_0 as Pi.
  set (low := [nth 0 walk_apex 0; nth 1 walk_apex 0 - stone_height walk_stone; nth 2 walk_apex 0]).
  assert (H : 0 < nth 1 low 0 - l0 hopper * cos (PI / 3)).
  { unfold low, walk_apex, walk_stone, hopper; cbn [nth l0 stone_height]. rewrite cos_PI3. lra. }
  destruct (touchdown_value hopper low (PI / 3) G ltac:(lra)) as [td [Etd [_ X]]].
  assert (F : fall hopper (nth 1 low 0) (PI / 3) = 1).
  { unfold fall, hopper, low, walk_apex, walk_stone. cbn [grav l0 nth stone_height]. rewrite cos_PI3.
    replace (2 * 1 * (15/2 - 2 - 10 * (1/2))) with 1 by lra. rewrite sqrt_1. lra. }
  assert (Y : touchdown_transition hopper (td_x td) (PI / 3) = walk_td).
  { rewrite X, F. unfold walk_td. f_equal. unfold low, walk_apex, walk_stone, hopper. cbn [nth l0 grav stone_height].
    rewrite cos_PI3. repeat (f_equal; try lra). }
  assert (V : 0 < nth 3 (liftoff_transition hopper walk_lo) 0).
  { unfold liftoff_transition, hopper, walk_lo, at_. cbn [nth l0]. rewrite cos_0, sin_0. lra. }
  assert (Fz : foot_z hopper walk_apex (PI / 3) = 5/2).
  { unfold foot_z, hopper, walk_apex. cbn [nth l0]. rewrite cos_PI3. lra. }
  assert (Eo : exists g, apex_to_apex_gradient hopper walk_ode low (PI / 3) = Some g).
  { unfold apex_to_apex_gradient. rewrite Etd.
    destruct (touchdown_transition_gradient hopper (td_x td) (PI / 3)) as [po pa]. rewrite Y.
    unfold touchdown_to_liftoff_gradient, walk_ode. rewrite walk_end. cbn [lo_x].
    unfold liftoff_to_apex_gradient, Rltb, at_. destruct (Rlt_dec (nth 3 (liftoff_transition hopper walk_lo) 0) 0); [lra|]. eauto. }
  destruct Eo as [g Eg].
  assert (Ct : can_touch_stepping_stone hopper [nth 0 walk_apex 0; nth 1 walk_apex 0; nth 2 walk_apex 0; 0] walk_stone (PI / 3) = true).
  { apply can_touch_lands; [auto| |].
    - change (foot_z hopper [nth 0 walk_apex 0; nth 1 walk_apex 0; nth 2 walk_apex 0; 0] (PI / 3)) with (foot_z hopper walk_apex (PI / 3)).
      rewrite Fz. unfold walk_stone. cbn [stone_height]. lra.
    - exists 1. unfold lands, foot_z, foot_x, ballistic, walk_apex, walk_stone, hopper.
      cbn [nth stone_height stone_left stone_right ext_le_r r_le_ext l0 grav]. rewrite cos_PI3, sin_PI3.
      assert (S : 0 <= sqrt 3 <= 2).
      { split; [apply sqrt_pos|]. rewrite <- (sqrt_square 2) by lra. apply sqrt_le_1; lra. }
      repeat split; lra. }
  exists td. eexists. rewrite Y. split; [exact G|]. split; [reflexivity|].
  split; [rewrite Fz; unfold walk_stone; cbn [stone_height]; lra|]. split; [exact Etd|].
  split; [exact walk_stance_flow|]. split; [exact V|]. split; [|split].
  - unfold apex_map_linear_approximation, at_. rewrite Ct. cbn [negb]. fold low. rewrite Etd, Eg. reflexivity.
  - unfold walk_apex. cbn [nth]. lra.
  - unfold leg_forward, walk_apex. cbn [nth]. lra.
Qed.

(** The same step with the leg on the other side: still approximated. *)
Definition back_td : vec := touchdown_transition hopper [1; 5; 1; -1] (- (PI / 3)).
Definition back_stone := mkStone NInf PInf 2.
Lemma back_case : exists o, apex_map_linear_approximation hopper (fun _ => Some (hop_lo, 1, eye 5)) walk_apex back_stone (- (PI / 3)) = Some o
  /\ 0 < nth 2 walk_apex 0 /\ - (PI / 3) < 0.
Proof.
  assert (G : 0 < grav hopper) by (unfold hopper; cbn [grav]; lra).
  pose proof PI_RGT_0 as Pi.
  set (low := [nth 0 walk_apex 0; nth 1 walk_apex 0 - stone_height back_stone; nth 2 walk_apex 0]).
  assert (H : 0 < nth 1 low 0 - l0 hopper * cos (- (PI / 3))).
  { unfold low, walk_apex, back_stone, hopper; cbn [nth l0 stone_height]. rewrite cos_neg, cos_PI3. lra. }
  destruct (touchdown_value hopper low (- (PI / 3)) G ltac:(lra)) as [td [Etd _]].
  assert (V : 0 < nth 3 (liftoff_transition hopper hop_lo) 0).
  { unfold liftoff_transition, hopper, hop_lo, at_. cbn [nth l0]. rewrite cos_0, sin_0. lra. }
  assert (Eo : exists g, apex_to_apex_gradient hopper (fun _ => Some (hop_lo, 1, eye 5)) low (- (PI / 3)) = Some g).
  { unfold apex_to_apex_gradient. rewrite Etd.
    destruct (touchdown_transition_gradient hopper (td_x td) (- (PI / 3))) as [po pa].
    unfold touchdown_to_liftoff_gradient. cbn [lo_x].
    unfold liftoff_to_apex_gradient, Rltb, at_. destruct (Rlt_dec (nth 3 (liftoff_transition hopper hop_lo) 0) 0); [lra|]. eauto. }
  destruct Eo as [g Eg].
  assert (Ct : can_touch_stepping_stone hopper [nth 0 walk_apex 0; nth 1 walk_apex 0; nth 2 walk_apex 0; 0] back_stone (- (PI / 3)) = true).
  { apply can_touch_lands; [auto| |].
    - unfold foot_z, hopper, walk_apex, back_stone. cbn [nth l0 stone_height]. rewrite cos_neg, cos_PI3. lra.
    - exists 1. unfold lands, foot_z, foot_x, ballistic, walk_apex, back_stone, hopper.
      cbn [nth stone_height stone_left stone_right ext_le_r r_le_ext l0 grav]. rewrite cos_neg, cos_PI3.
      repeat split; lra. }
  eexists. split; [|split].
  - unfold apex_map_linear_approximation, at_. rewrite Ct. cbn [negb]. fold low. rewrite Etd, Eg. reflexivity.
  - unfold walk_apex. cbn [nth]. lra.
  - lra.
Qed.
