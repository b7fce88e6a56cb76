(** Energy over a whole step of the SLIP, concrete cases, and the cases the code gets wrong. *)

Require Import Reals List Arith Lia Lra.
Require Import Verif.Vec Verif.VecFacts Verif.ModelSlip Verif.SpecSlip Verif.ProofSlip Verif.ProofSlipChain.
Import ListNotations.
Open Scope R_scope.

Lemma apex_map_energy : forall p stance x h v a x' h' v' t', 0 < grav p -> l0 p <> 0 -> mass p <> 0 ->
  stance_exact p stance -> apex_map p stance x h v a = Some (x', h', v', t') ->
  flight_phase_energy p [x'; h'; v'; 0] = flight_phase_energy p [x; h; v; 0] /\ 0 <= t'.
Proof.
  intros p stance x h v a x' h' v' t' G L M S E. unfold apex_map in E.
  unfold Rltb at 1 in E. destruct (Rlt_dec (h - l0 p * cos a) 0) as [n|H]; [discriminate|].
  destruct (Rltb 0 v && Rltb a 0)%bool; [discriminate|]. destruct (Rltb v 0 && Rltb 0 a)%bool; [discriminate|].
  set (t := sqrt (2 * (h - l0 p * cos a) / grav p)) in *. cbv zeta in E.
  set (pre := [x + v * t; l0 p * cos a; v; - grav p * t]) in *.
  destruct (stance (touchdown_transition p pre a)) as [[z T]|] eqn:Es; [|discriminate].
  destruct (S _ _ _ Es) as [HT [Rz [phi [P0 [PT [So Nz]]]]]].
  unfold Rltb in E. destruct (Rlt_dec (at_ (liftoff_transition p z) 3) 0) as [n|Hv]; [discriminate|].
  set (w := liftoff_transition p z) in *.
  assert (T2 : t * t = 2 * (h - l0 p * cos a) / grav p).
  { apply sqrt_sqrt. unfold Rdiv. apply Rmult_le_pos; [lra|]. left. apply Rinv_0_lt_compat. auto. }
  assert (Tpos : 0 <= t) by apply sqrt_pos.
  assert (E1 : flight_phase_energy p pre = flight_phase_energy p [x; h; v; 0]).
  { unfold flight_phase_energy, pre, at_. cbn [nth].
    transitivity (/ 2 * mass p * (v ^ 2 + grav p * grav p * (t * t)) + mass p * grav p * (l0 p * cos a)); [ring|].
    rewrite T2. field. lra. }
  assert (E2 : stance_phase_energy p (touchdown_transition p pre a) = flight_phase_energy p pre).
  { apply touchdown_energy; [auto|]. unfold touchdown_guard, pre, at_. cbn [nth]. ring. }
  assert (E3 : stance_phase_energy p z = stance_phase_energy p (touchdown_transition p pre a)).
  { rewrite <- P0, <- PT. apply stance_energy_constant; auto. }
  assert (E4 : flight_phase_energy p w = stance_phase_energy p z).
  { apply liftoff_energy. unfold liftoff_guard, at_. lra. }
  assert (Inj : forall q1 q2 q3 q4 : R, Some (q1, q2, q3, q4) = Some (x', h', v', t') -> q2 = h' /\ q3 = v' /\ q4 = t').
  { intros q1 q2 q3 q4 Q. split; [congruence|split; congruence]. }
  apply Inj in E. destruct E as [Eh [Ev Et]]. clear Inj.
  split.
  - rewrite <- E1, <- E2, <- E3, <- E4. rewrite <- Eh, <- Ev. unfold flight_phase_energy, at_. cbn [nth].
    generalize (nth 1 w 0) (nth 2 w 0) (nth 3 w 0). intros. field. lra.
  - rewrite <- Et. assert (0 <= at_ w 3 / grav p); [|lra]. unfold Rdiv. apply Rmult_le_pos; [lra|].
    left. apply Rinv_0_lt_compat. auto.
Qed.

(** ** Landing *)
Lemma can_touch_lands : forall p s st theta, 0 < grav p -> stone_height st <= foot_z p s theta ->
  (can_touch_stepping_stone p s st theta = true <-> exists t, lands p s st theta t).
Proof.
  intros p s st theta G H. unfold can_touch_stepping_stone. split.
  - intros E. destruct (time_to_touchdown p s st theta) as [|t|] eqn:T; [discriminate| |].
    + exists t. apply touchdown_lands; auto.
    + exfalso. unfold time_to_touchdown, Rltb in T.
      destruct (Rlt_dec (at_ s 1 - l0 p * cos theta) (stone_height st)); [discriminate|].
      unfold Reqb in T. destruct (Req_EM_T (grav p) 0); [lra|].
      revert T. match goal with |- (if ?b then _ else _) = _ -> _ => destruct b; discriminate end.
  - intros [t T]. apply touchdown_lands in T; auto. rewrite T. reflexivity.
Qed.
(** A jump onto a stone higher than the foot: reported as impossible. *)
Definition jumper := mkSlip 1 1 1 2.
Definition jump_state := [0; 1; 1; 3].
Definition jump_stone := mkStone (Fin (3/2)) (Fin (5/2)) 2.
Lemma jump_missed :
  lands jumper jump_state jump_stone 0 2 /\
  (forall t, 0 <= t -> lands jumper jump_state jump_stone 0 t -> t = 2) /\
  (forall t, 0 <= t < 2 -> foot_z jumper (ballistic jumper jump_state t) 0 <= stone_height jump_stone ->
     foot_x jumper (ballistic jumper jump_state t) 0 < 3/2) /\
  time_to_touchdown jumper jump_state jump_stone 0 = NoTouchdown.
Proof.
  unfold lands, foot_z, foot_x, ballistic, jumper, jump_state, jump_stone. cbn [nth stone_height stone_left stone_right ext_le_r r_le_ext l0 grav].
  rewrite cos_0, sin_0. split; [|split; [|split]].
  - split; [lra|]. split; [lra|]. split; [lra|]. split; lra.
  - intros t Ht [_ [E [V _]]]. assert (Z : (t - 1) * (t - 2) = 0) by lra. apply Rmult_integral in Z. destruct Z; lra.
  - intros t Ht Hz. destruct (Rlt_dec t (3/2)); [lra|]. exfalso.
    assert (0 < (t - 1) * (2 - t)) by (apply Rmult_lt_0_compat; lra). lra.
  - unfold time_to_touchdown, at_. cbn [nth stone_height l0]. rewrite cos_0. unfold Rltb.
    destruct (Rlt_dec (1 - 1 * 1) 2); [reflexivity|lra].
Qed.
Lemma touching_now : time_to_touchdown jumper [0; 1; 0; 0] (mkStone NInf PInf 0) 0 = Touchdown 0.
Proof.
  apply touchdown_lands; unfold foot_z, jumper; cbn [grav stone_height nth l0]; rewrite ?cos_0; try lra.
  unfold lands, foot_z, foot_x, ballistic. cbn [nth stone_height stone_left stone_right ext_le_r r_le_ext l0 grav].
  rewrite cos_0. split; [lra|]. split; [lra|]. split; [lra|]. split; exact I.
Qed.
Definition weightless := mkSlip 1 1 1 0.
Lemma weightless_lands : lands weightless [0; 2; 0; -1] (mkStone NInf PInf 0) 0 1 /\
  time_to_touchdown weightless [0; 2; 0; -1] (mkStone NInf PInf 0) 0 = DividedByZero.
Proof.
  split.
  - unfold lands, foot_z, foot_x, ballistic, weightless. cbn [nth stone_height stone_left stone_right ext_le_r r_le_ext l0 grav].
    rewrite cos_0. split; [lra|]. split; [lra|]. split; [lra|]. split; exact I.
  - unfold time_to_touchdown, weightless, at_. cbn [nth stone_height l0 grav]. rewrite cos_0. unfold Rltb.
    destruct (Rlt_dec (2 - 1 * 1) 0); [lra|]. unfold Reqb. destruct (Req_EM_T 0 0); [reflexivity|lra].
Qed.

(** ** A vertical hop *)
Definition hopper := mkSlip 1 10 1 1.
Definition hop_td : vec := [10; 0; -1; 0; 0].
Definition hop_lo : vec := [10; 0; 1; 0; 0].
Definition hop (t : R) : vec := [9 + cos t - sin t; 0; - sin t - cos t; 0; 0].
Definition hop_stance (y : vec) : option (vec * R) :=
  if list_eq_dec Req_EM_T y hop_td then Some (hop_lo, 3 * (PI / 2)) else None.
Lemma hop_exact : stance_exact hopper hop_stance.
Proof.
  intros y z T E. unfold hop_stance in E. destruct (list_eq_dec Req_EM_T y hop_td) as [->|]; [|discriminate].
  assert (Ez : hop_lo = z) by congruence. assert (ET : 3 * (PI / 2) = T) by congruence. subst z T.
  pose proof PI_RGT_0. split; [lra|]. split; [reflexivity|].
  exists hop. split; [|split; [|split]].
  - unfold hop, hop_td. rewrite cos_0, sin_0. repeat (f_equal; try lra).
  - unfold hop, hop_lo. replace (3 * (PI / 2)) with (PI / 2 + PI) by lra. rewrite neg_cos, neg_sin, cos_PI2, sin_PI2. repeat (f_equal; try lra).
  - intros t _. split; [reflexivity|]. intros i Hi. unfold hop, stance_dynamics, hopper, at_. cbn [nth l0 grav mass spring].
    rewrite cos_0, sin_0. destruct i as [|[|[|[|[|]]]]]; try lia; cbn [nth]; (eapply d_eq; [repeat dd|]); cbv beta; try lra.
  - intros t _. unfold hop. cbn [nth]. pose proof (COS_bound t). pose proof (SIN_bound t). lra.
Qed.
Lemma hop_map : exists t, apex_map hopper hop_stance 0 (21/2) 0 0 = Some (0, 21/2, 0, t).
Proof.
  unfold apex_map, hopper. cbn [l0 grav]. rewrite cos_0. unfold Rltb at 1. destruct (Rlt_dec (21/2 - 10 * 1) 0); [lra|].
  assert (N : Rltb 0 0 = false) by (unfold Rltb; destruct (Rlt_dec 0 0); [lra|reflexivity]). rewrite !N. cbn [andb].
  replace (2 * (21/2 - 10 * 1) / 1) with 1 by lra. rewrite sqrt_1. cbv zeta.
  assert (E : touchdown_transition hopper [0 + 0 * 1; 10 * 1; 0; -(1) * 1] 0 = hop_td).
  { unfold touchdown_transition, hopper, hop_td, at_. cbn [nth l0]. rewrite cos_0, sin_0. repeat (f_equal; try lra). }
  change (mkSlip 1 10 1 1) with hopper. rewrite E. unfold hop_stance.
  destruct (list_eq_dec Req_EM_T hop_td hop_td) as [_|nn]; [|congruence].
  assert (E2 : liftoff_transition hopper hop_lo = [0; 10; 0; 1]).
  { unfold liftoff_transition, hopper, hop_lo, at_. cbn [nth l0]. rewrite cos_0, sin_0. repeat (f_equal; try lra). }
  rewrite E2. unfold at_. cbn [nth]. unfold Rltb. destruct (Rlt_dec 1 0); [lra|].
  eexists. f_equal. f_equal. f_equal. f_equal; lra.
Qed.

(** A first-order model of the stance flow near that hop. *)
Definition hop_flow (s : R) (v : vec) : vec :=
  [10 + (s - 1) + (nth 0 v 0 - 10); nth 1 v 0; 1 - (s - 1) + (nth 2 v 0 + 1); nth 3 v 0; nth 4 v 0].
Definition hop_time (v : vec) : R := 1 - (nth 0 v 0 - 10).
Definition hop_ode (v : vec) : option (vec * R * mat) := Some (hop_flow (hop_time v) v, hop_time v, eye 5).
Lemma hop_stance_flow : stance_flow hopper hop_ode hop_td hop_lo 1 (eye 5) hop_flow.
Proof.
  split; [|split; [|split; [|split]]].
  - unfold hop_ode, hop_td, hop_flow, hop_time, hop_lo. cbn [nth].
    replace (1 - (10 - 10)) with 1 by ring. do 3 f_equal. repeat (f_equal; try ring).
  - split; [reflexivity|repeat constructor].
  - unfold hop_lo. cbn [nth]. lra.
  - intros c d C. destruct (curve_at _ _ _ _ 0 C ltac:(lia)) as [D0 E0]. split.
    + exists 1. split; [lra|]. intros t _. exists (hop_time (c t)), (eye 5). split; [reflexivity|]. split; [reflexivity|].
      unfold hop_flow, hop_time, hopper. cbn [nth l0]. ring.
    + eexists. unfold hop_ode, hop_time. repeat dd.
  - intros c d tau v C T0 Dt i Hi. assert (Ld : length d = 5%nat) by apply C. rewrite (list5 d Ld).
    destruct (curve_at _ _ _ _ 0 C ltac:(lia)) as [D0 E0]. destruct (curve_at _ _ _ _ 1 C ltac:(lia)) as [D1 E1].
    destruct (curve_at _ _ _ _ 2 C ltac:(lia)) as [D2 E2]. destruct (curve_at _ _ _ _ 3 C ltac:(lia)) as [D3 E3].
    destruct (curve_at _ _ _ _ 4 C ltac:(lia)) as [D4 E4].
    unfold hop_flow, stance_dynamics, hop_lo, hopper, at_. cbn [nth l0 grav mass spring]. rewrite cos_0, sin_0.
    destruct i as [|[|[|[|[|]]]]]; try lia; cbn [nth eye eyek unit_row map seq Nat.eqb dot];
      (eapply d_eq; [repeat dd|]); cbv beta; try lra.
Qed.
Lemma hop_apex : exists td o,
  0 < grav hopper /\ 0 < nth 1 [0; 21/2; 0] 0 - l0 hopper * cos 0 /\
  apex_to_touchdown_gradient hopper [0; 21/2; 0] 0 = Some td /\
  stance_flow hopper hop_ode (touchdown_transition hopper (td_x td) 0) hop_lo 1 (eye 5) hop_flow /\
  0 < nth 3 (liftoff_transition hopper hop_lo) 0 /\
  apex_to_apex_gradient hopper hop_ode [0; 21/2; 0] 0 = Some o.
Proof.
  assert (G : 0 < grav hopper) by (unfold hopper; cbn [grav]; lra).
  assert (H : 0 < nth 1 [0; 21/2; 0] 0 - l0 hopper * cos 0) by (unfold hopper; cbn [nth l0]; rewrite cos_0; lra).
  destruct (touchdown_value hopper [0; 21/2; 0] 0 G ltac:(lra)) as [td [Etd [_ X]]].
  assert (F : fall hopper (nth 1 [0; 21/2; 0] 0) 0 = 1).
  { unfold fall, hopper. cbn [grav l0 nth]. rewrite cos_0. replace (2 * 1 * (21/2 - 10 * 1)) with 1 by lra. rewrite sqrt_1. lra. }
  assert (Y : touchdown_transition hopper (td_x td) 0 = hop_td).
  { rewrite X, F. unfold touchdown_transition, hopper, hop_td, at_. cbn [nth l0 grav]. rewrite cos_0, sin_0. repeat (f_equal; try lra). }
  assert (V : 0 < nth 3 (liftoff_transition hopper hop_lo) 0).
  { unfold liftoff_transition, hopper, hop_lo, at_. cbn [nth l0]. rewrite cos_0, sin_0. lra. }
  assert (Z : hop_flow (hop_time hop_td) hop_td = hop_lo).
  { unfold hop_flow, hop_time, hop_td, hop_lo. cbn [nth]. repeat (f_equal; try ring). }
  exists td.
  assert (Eo : exists o, apex_to_apex_gradient hopper hop_ode [0; 21/2; 0] 0 = Some o).
  { unfold apex_to_apex_gradient. rewrite Etd.
    destruct (touchdown_transition_gradient hopper (td_x td) 0) as [po pa]. rewrite Y.
    unfold touchdown_to_liftoff_gradient, hop_ode. rewrite Z. cbn [lo_x].
    unfold liftoff_to_apex_gradient, Rltb, at_. destruct (Rlt_dec (nth 3 (liftoff_transition hopper hop_lo) 0) 0); [lra|]. eauto. }
  destruct Eo as [o Eo]. exists o. rewrite Y. split; [auto|]. split; [auto|]. split; [auto|].
  split; [apply hop_stance_flow|]. split; auto.
Qed.
Lemma liftoff_gradient_case : exists p s, length s = 5%nat /\ nth 0 s 0 = l0 p /\
  ~ jacobian 5 4 (liftoff_transition p) s (liftoff_transition_gradient p s).
Proof.
  exists jumper, [1; 0; 0; 1; 0]. split; [reflexivity|]. split; [reflexivity|].
  apply liftoff_gradient_wrong; [reflexivity|reflexivity|]. cbn [nth]. rewrite cos_0. lra.
Qed.
Lemma jump_case : exists p s st theta t, 0 < grav p /\ 0 < t /\ lands p s st theta t /\
  (forall t', 0 <= t' < t -> foot_z p (ballistic p s t') theta <= stone_height st ->
     ~ ext_le_r (stone_left st) (foot_x p (ballistic p s t') theta)) /\
  time_to_touchdown p s st theta = NoTouchdown.
Proof.
  exists jumper, jump_state, jump_stone, 0, 2. destruct jump_missed as [A [_ [B C]]].
  split; [unfold jumper; cbn [grav]; lra|]. split; [lra|]. split; [exact A|]. split; [|exact C].
  intros t Ht Hz Q. specialize (B t Ht Hz). unfold jump_stone in Q. cbn [stone_left ext_le_r] in Q. lra.
Qed.
Lemma positive_case : exists p s st theta, 0 < grav p /\ time_to_touchdown p s st theta = Touchdown 0.
Proof.
  exists jumper, [0; 1; 0; 0], (mkStone NInf PInf 0), 0. split; [unfold jumper; cbn [grav]; lra|exact touching_now].
Qed.
Lemma gravity_case : exists p s st theta t, 0 <= grav p /\ 0 < t /\ lands p s st theta t /\
  time_to_touchdown p s st theta = DividedByZero.
Proof.
  exists weightless, [0; 2; 0; -1], (mkStone NInf PInf 0), 0, 1. destruct weightless_lands as [A B].
  split; [unfold weightless; cbn [grav]; lra|]. split; [lra|]. auto.
Qed.
(** Cases for the hypotheses of the theorems. *)
Lemma touchdown_case : touchdown_guard hopper [3; 5; 2; -1] (PI / 3) = 0 /\ l0 hopper <> 0.
Proof. unfold touchdown_guard, hopper, at_. cbn [nth l0]. rewrite cos_PI3. lra. Qed.
Lemma liftoff_case : liftoff_guard hopper [10; PI / 3; 1; 2; 7] = 0 /\ l0 hopper <> 0.
Proof. unfold liftoff_guard, hopper, at_. cbn [nth l0]. lra. Qed.
Lemma landing_case : exists t, 0 < t /\ time_to_touchdown jumper [0; 2; 1; 0] (mkStone (Fin 0) (Fin 2) 0) 0 = Touchdown t.
Proof.
  exists 1. split; [lra|]. apply touchdown_lands; unfold foot_z, jumper; cbn [grav stone_height nth l0]; rewrite ?cos_0; try lra.
  unfold lands, foot_z, foot_x, ballistic. cbn [nth stone_height stone_left stone_right ext_le_r r_le_ext l0 grav].
  rewrite cos_0, sin_0. split; [lra|]. split; [lra|]. split; [lra|]. split; lra.
Qed.
