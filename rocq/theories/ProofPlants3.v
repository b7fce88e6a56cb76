(** Mechanics of the plants: pendulum, rockets and quadrotors. *)

Require Import Reals List Arith Bool Lia Lra.
Require Import Verif.Vec Verif.VecFacts Verif.ModelMisc Verif.SpecMisc Verif.SpecSlip Verif.ModelPlants
  Verif.SpecPlants Verif.ProofSlip Verif.ProofPlants Verif.ProofPlants2.
Import ListNotations.
Open Scope R_scope.
Ltac dd := ProofSlip.dd.

Lemma Some_vec : forall (a b : vec), Some a = Some b -> a = b.
Proof. intros a b H. congruence. Qed.

(** ** Pendulum *)
Lemma pendulum_power : forall p th w u0 X d, pd_mass p <> 0 -> pd_len p <> 0 ->
  moves 2 (pendulum_np p) [th; w] [u0] X d ->
  derivable_pt_lim (fun t => pendulum_energy p (X t)) 0 (u0 * w - pd_damp p * w ^ 2).
Proof.
  intros p th w u0 X d Hm Hl [F C]. curves C. cbn [pendulum_np] in F. apply Some_vec in F. subst d.
  cbn [nth] in *. pose proof (D 0%nat ltac:(lia)) as D0. pose proof (D 1%nat ltac:(lia)) as D1. cbn [nth] in D0, D1.
  assert (X0 : nth 0 (X 0) 0 = th) by (rewrite E0; auto).
  assert (X1 : nth 1 (X 0) 0 = w) by (rewrite E0; auto).
  unfold pendulum_energy, potential_energy, kinetic_energy.
  eapply d_eq; [repeat dd|]. cbv beta. rewrite X0, X1. unfold pendulum_acc. field. auto.
Qed.
Lemma shaping_power : forall p th w x_des gain X d, pd_mass p <> 0 -> pd_len p <> 0 ->
  moves 2 (pendulum_np p) [th; w] (energy_shaping_control p [th; w] x_des gain) X d ->
  derivable_pt_lim (fun t => pendulum_energy p (X t) - pendulum_energy p x_des) 0
    (- w ^ 2 * (gain * (pendulum_energy p [th; w] - pendulum_energy p x_des) + pd_damp p)).
Proof.
  intros p th w x_des gain X d Hm Hl M.
  assert (E : exists u0, energy_shaping_control p [th; w] x_des gain = [u0] /\
    u0 * w = - gain * w ^ 2 * (pendulum_energy p [th; w] - pendulum_energy p x_des)).
  { unfold energy_shaping_control, Reqb. cbn [nth]. destruct (Req_EM_T w 0) as [Z|Z]; eexists; (split; [reflexivity|]).
    - rewrite Z. ring.
    - unfold pendulum_energy. ring. }
  destruct E as [u0 [E P]]. rewrite E in M.
  eapply d_eq; [apply (derivable_pt_lim_minus (fun t => pendulum_energy p (X t)) (fun _ => pendulum_energy p x_des));
    [eapply pendulum_power; eauto|apply derivable_pt_lim_const]|]. rewrite P. ring.
Qed.
Lemma shaping_square : forall p th w x_des gain X d, pd_mass p <> 0 -> pd_len p <> 0 -> pd_damp p = 0 -> 0 <= gain ->
  moves 2 (pendulum_np p) [th; w] (energy_shaping_control p [th; w] x_des gain) X d ->
  exists r, derivable_pt_lim (fun t => (pendulum_energy p (X t) - pendulum_energy p x_des) ^ 2) 0 r /\ r <= 0 /\
    (0 < gain -> w <> 0 -> pendulum_energy p [th; w] <> pendulum_energy p x_des -> r < 0).
Proof.
  intros p th w x_des gain X d Hm Hl Hd Hg M.
  eexists. split; [apply (d_pow2 (fun t => pendulum_energy p (X t) - pendulum_energy p x_des)); eapply shaping_power; eauto|].
  cbv beta. destruct M as [_ C]. replace (X 0) with [th; w] by (symmetry; apply C). rewrite Hd.
  set (e := pendulum_energy p [th; w] - pendulum_energy p x_des).
  replace (2 * e * (- w ^ 2 * (gain * e + 0))) with (- (2 * gain * (e * w) ^ 2)) by ring.
  split.
  - assert (0 <= gain * (e * w) ^ 2) by (apply Rmult_le_pos; [auto|apply pow2_ge_0]). lra.
  - intros G W N. assert (0 < (e * w) ^ 2).
    { replace ((e * w) ^ 2) with (Rsqr (e * w)) by (unfold Rsqr; ring). apply Rsqr_pos_lt. apply Rmult_integral_contrapositive_currified; auto. unfold e. lra. }
    assert (0 < gain * (e * w) ^ 2) by (apply Rmult_lt_0_compat; auto). lra.
Qed.

(** ** Rockets *)
Lemma rockets_agree : forall p x u X d, rk_mass p <> 0 -> rk_inertia p <> 0 -> moves 6 (rocket_np p) x u X d ->
  exists d', rocket2_np p (to_bottom p x) u = Some d' /\ curve 6 (fun t => to_bottom p (X t)) (to_bottom p x) d'.
Proof.
  intros p x u X d Hm Hi [F C].
  destruct x as [|x0 [|x1 [|x2 [|x3 [|x4 [|x5 [|]]]]]]]; try discriminate F.
  destruct u as [|u0 [|u1 [|]]]; try discriminate F.
  eexists. split; [reflexivity|]. curves C. cbn [rocket_np rocket_acc app] in F. apply Some_vec in F. subst d.
  split; [rewrite E0; reflexivity|]. split; [reflexivity|]. split; [intros t; rewrite (EX t); reflexivity|].
  at_index D 0%nat. at_index D 1%nat. at_index D 2%nat. at_index D 3%nat. at_index D 4%nat. at_index D 5%nat.
  cbn [nth] in Di, Di0, Di1, Di2, Di3, Di4.
  assert (X2 : nth 2 (X 0) 0 = x2) by (rewrite E0; auto).
  assert (X5 : nth 5 (X 0) 0 = x5) by (rewrite E0; auto).
  intros i Hi'. 
  destruct i as [|[|[|[|[|[|]]]]]]; try lia;
      (eapply d_ext; [|intros t; rewrite (EX t); cbn [to_bottom nth]; reflexivity];
       (eapply d_eq; [repeat dd|]); cbv beta; rewrite ?X2, ?X5; cbn [nth]; try (unfold Rdiv; ring); field; auto).
Qed.
(** The power of the thrust is the thrust times the velocity of the bottom. *)
Lemma rocket_power : forall p x u X d, rk_mass p <> 0 -> rk_inertia p <> 0 -> moves 6 (rocket_np p) x u X d ->
  exists vb, velocity 2 (fun t => firstn 2 (to_bottom p (X t))) vb /\
    derivable_pt_lim (fun t => rocket_energy p (X t)) 0 (dot (rocket_force x u) vb).
Proof.
  intros p x u X d Hm Hi [F C].
  destruct x as [|x0 [|x1 [|x2 [|x3 [|x4 [|x5 [|]]]]]]]; try discriminate F.
  destruct u as [|u0 [|u1 [|]]]; try discriminate F.
  curves C. cbn [rocket_np rocket_acc app] in F. apply Some_vec in F. subst d.
  at_index D 0%nat. at_index D 1%nat. at_index D 2%nat. at_index D 3%nat. at_index D 4%nat. at_index D 5%nat.
  cbn [nth] in Di, Di0, Di1, Di2, Di3, Di4.
  assert (X2 : nth 2 (X 0) 0 = x2) by (rewrite E0; auto).
  assert (X3 : nth 3 (X 0) 0 = x3) by (rewrite E0; auto).
  assert (X4 : nth 4 (X 0) 0 = x4) by (rewrite E0; auto).
  assert (X5 : nth 5 (X 0) 0 = x5) by (rewrite E0; auto).
  exists [x3 + rk_len p / 2 * (cos x2 * x5); x4 + rk_len p / 2 * (sin x2 * x5)].
  split.
  - split; [reflexivity|]. split; [intros t; rewrite (EX t); reflexivity|]. intros i Hi'.
    destruct i as [|[|]]; try lia;
      (eapply d_ext; [|intros t; rewrite (EX t); cbn [to_bottom firstn nth]; reflexivity];
       (eapply d_eq; [repeat dd|]); cbv beta; rewrite ?X2, ?X5; cbn [nth]; unfold Rdiv; ring).
  - unfold rocket_energy. eapply d_eq; [repeat dd|]. cbv beta. rewrite X3, X4, X5.
    cbn [rocket_force dot nth]. 
    replace (2 * x5 * (rk_len p / 2 * u0 / rk_inertia p)) with (rk_len p * u0 * x5 / rk_inertia p) by (field; auto).
    assert (S : sin x2 * sin x2 = 1 - cos x2 * cos x2) by (pose proof (sin2_cos2 x2); unfold Rsqr in *; lra).
    transitivity ((cos x2 * u0 - sin x2 * u1) * x3 + (sin x2 * u0 + cos x2 * u1) * x4 + rk_len p * u0 * x5 / 2).
    + field. auto.
    + field_simplify. replace (sin x2 ^ 2) with (1 - cos x2 ^ 2) by (pose proof (sin2_cos2 x2); unfold Rsqr in *; lra).
      field.
Qed.

(** ** Planar quadrotor *)
Lemma quad2d_power : forall p x u X d, q2_mass p <> 0 -> q2_inertia p <> 0 -> moves 6 (quad2d_np p) x u X d ->
  exists v0 v1, velocity 2 (fun t => rotor_pos (q2_len p) (X t)) v0 /\
    velocity 2 (fun t => rotor_pos (- q2_len p) (X t)) v1 /\
    derivable_pt_lim (fun t => quad2d_energy p (X t)) 0
      (nth 0 u 0 * dot (thrust_dir x) v0 + nth 1 u 0 * dot (thrust_dir x) v1).
Proof.
  intros p x u X d Hm Hi [F C].
  destruct x as [|x0 [|x1 [|x2 [|x3 [|x4 [|x5 [|]]]]]]]; try discriminate F.
  destruct u as [|u0 [|u1 [|]]]; try discriminate F.
  curves C. cbn [quad2d_np quad2d_acc app] in F. apply Some_vec in F. subst d.
  at_index D 0%nat. at_index D 1%nat. at_index D 2%nat. at_index D 3%nat. at_index D 4%nat. at_index D 5%nat.
  cbn [nth] in Di, Di0, Di1, Di2, Di3, Di4.
  assert (X2 : nth 2 (X 0) 0 = x2) by (rewrite E0; auto).
  assert (X3 : nth 3 (X 0) 0 = x3) by (rewrite E0; auto).
  assert (X4 : nth 4 (X 0) 0 = x4) by (rewrite E0; auto).
  assert (X5 : nth 5 (X 0) 0 = x5) by (rewrite E0; auto).
  assert (V : forall a, velocity 2 (fun t => rotor_pos a (X t)) [x3 - a * (sin x2 * x5); x4 + a * (cos x2 * x5)]).
  { intros a. split; [reflexivity|]. split; [intros t; reflexivity|]. intros i Hi'.
    destruct i as [|[|]]; try lia; unfold rotor_pos; cbn [nth];
      (eapply d_eq; [repeat dd|]); cbv beta; rewrite ?X2; ring. }
  eexists. eexists. split; [apply V|]. split; [apply V|].
  unfold quad2d_energy. eapply d_eq; [repeat dd|]. cbv beta. rewrite X3, X4, X5.
  cbn [thrust_dir dot nth].
  transitivity ((- sin x2 * x3 + cos x2 * x4) * (u0 + u1) + q2_len p * x5 * (u0 - u1)).
  - field. auto.
  - pose proof (sin2_cos2 x2) as S. unfold Rsqr in S.
    transitivity ((- sin x2 * x3 + cos x2 * x4) * (u0 + u1) + q2_len p * x5 * (u0 - u1) * (sin x2 * sin x2 + cos x2 * cos x2)).
    + rewrite S. ring.
    + ring.
Qed.
