(** Energy of the pole, its equilibrium, and concrete cases. *)

Require Import Reals List Arith Bool Lia Lra Psatz.
Require Import Verif.Vec Verif.VecFacts Verif.ModelMisc Verif.SpecMisc Verif.SpecSlip Verif.ModelPlants
  Verif.SpecPlants Verif.ProofSlip Verif.ProofPlants Verif.ProofPlants2 Verif.ProofPlants3 Verif.ProofPlants4
  Verif.ProofPlants5.
Import ListNotations.
Open Scope R_scope.
Ltac dd := ProofSlip.dd.

Lemma pole_iff : forall solve p s u X d, lin_solve_ok solve -> 0 < po_ms p ->
  moves 7 (pole_dynamics solve p) s u X d ->
  (pole_newton p s u X <-> nth 0 s 0 * nth 1 s 0 * nth 5 s 0 * nth 6 s 0 = 0).
Proof.
  intros solve p s u X d So Hs [F C].
  destruct (pole_equations solve p s u d So F) as [x [y [a [b [c [xd [yd [u0 [u1 [u2 [d2 [d3 [d4 [d5 [d6 [Es [Eu [Ed [L E]]]]]]]]]]]]]]]]]]].
  subst. cbn [nth]. eapply pole_law; eauto.
Qed.
Lemma pole_rate : forall solve p s u X d, lin_solve_ok solve -> moves 7 (pole_dynamics solve p) s u X d ->
  derivable_pt_lim (fun t => pole_z p (X t)) 0 (pole_zdot p s).
Proof.
  intros solve p s u X d So [F C].
  destruct (pole_equations solve p s u d So F) as [x [y [a [b [c [xd [yd [u0 [u1 [u2 [d2 [d3 [d4 [d5 [d6 [Es [Eu [Ed [L E]]]]]]]]]]]]]]]]]]].
  subst. eapply pole_height; eauto.
Qed.
Lemma velocity_dot : forall n F d, velocity n F d ->
  derivable_pt_lim (fun t => dot (F t) (F t)) 0 (2 * dot (F 0) d).
Proof.
  induction n; intros F d [Ld [LF D]].
  - destruct d; [|discriminate]. eapply d_ext; [|intros t; destruct (F t) eqn:E; [reflexivity|specialize (LF t); rewrite E in LF; discriminate]].
    eapply d_eq; [apply derivable_pt_lim_const|]. destruct (F 0); cbn; ring.
  - destruct d as [|d0 d]; [discriminate|].
    assert (H : velocity n (fun t => tl (F t)) d).
    { split; [cbn in Ld; lia|]. split; [intros t; specialize (LF t); destruct (F t); cbn in *; lia|].
      intros i Hi. specialize (D (S i) ltac:(lia)). eapply d_ext; [exact D|].
      intros t. cbv beta. specialize (LF t). destruct (F t); [discriminate|reflexivity]. }
    apply IHn in H. pose proof (D 0%nat ltac:(lia)) as D0. cbn [nth] in D0.
    eapply d_ext with (f := fun t => nth 0 (F t) 0 * nth 0 (F t) 0 + dot (tl (F t)) (tl (F t))).
    + eapply d_eq; [repeat dd|]. cbv beta. specialize (LF 0). destruct (F 0); [discriminate|]. cbn. ring.
    + intros t. cbv beta. specialize (LF t). destruct (F t); [discriminate|reflexivity].
Qed.
Lemma pole_power : forall solve p s u X d h, lin_solve_ok solve -> 0 < po_ms p ->
  moves 7 (pole_dynamics solve p) s u X d ->
  nth 0 s 0 * nth 1 s 0 * nth 5 s 0 * nth 6 s 0 = 0 -> derivable_pt_lim h 0 (nth 4 s 0) ->
  derivable_pt_lim (fun t => pole_energy p (X t) (h t)) 0 (dot u (pole_vA s)).
Proof.
  intros solve p s u X d h So Hs M K H.
  pose proof (proj2 (pole_iff _ _ _ _ _ _ So Hs M) K) as [aA [aB [tau [VA [VB [NA NB]]]]]].
  pose proof (pole_rate _ _ _ _ _ _ So M) as Hz. destruct M as [F C].
  pose proof (velocity_dot _ _ _ VA) as EA. pose proof (velocity_dot _ _ _ VB) as EB. cbv beta in EA, EB.
  unfold pole_energy. eapply d_eq; [repeat dd|]. replace (X 0) with s by (symmetry; apply C).
  destruct (pole_equations solve p s u d So F) as [x [y [a [b [c [xd [yd [u0 [u1 [u2 [d2 [d3 [d4 [d5 [d6 [Es [Eu [Ed [L E]]]]]]]]]]]]]]]]]]].
  clear E. subst. destruct VA as [LA _]. destruct VB as [LB _].
  destruct aA as [|aA0 [|aA1 [|aA2 [|]]]]; try discriminate LA. destruct aB as [|aB0 [|aB1 [|aB2 [|]]]]; try discriminate LB.
  assert (Z : 0 < pole_z p [x; y; a; b; c; xd; yd]) by (unfold pole_z; cbn [nth]; apply sqrt_lt_R0; auto).
  unfold pole_vB, pole_vA, pole_zdot. set (z := pole_z p [x; y; a; b; c; xd; yd]) in *. clearbody z.
  cbn [nth slice firstn skipn vadd vscale map map2 dot] in *.
  assert (A0 : po_me p * aA0 = u0 + 0 + tau * x) by (inversion NA; auto).
  assert (A1 : po_me p * aA1 = u1 + 0 + tau * y) by (inversion NA; auto).
  assert (A2 : po_me p * aA2 = u2 + - po_me p * po_grav p + tau * z) by (inversion NA; auto).
  assert (B0 : po_ms p * aB0 = 0 + - tau * x) by (inversion NB; auto).
  assert (B1 : po_ms p * aB1 = 0 + - tau * y) by (inversion NB; auto).
  assert (B2 : po_ms p * aB2 = - po_ms p * po_grav p + - tau * z) by (inversion NB; auto).
  clear NA NB EA EB F C H Hz. cbv beta.
  transitivity (a * (po_me p * aA0) + b * (po_me p * aA1) + c * (po_me p * aA2)
    + (a + xd) * (po_ms p * aB0) + (b + yd) * (po_ms p * aB1) + (c + - (x * xd + y * yd) / z) * (po_ms p * aB2)
    + po_me p * po_grav p * c + po_ms p * po_grav p * (c + - (x * xd + y * yd) / z)).
  - field. lra.
  - rewrite A0, A1, A2, B0, B1, B2. field. lra.
Qed.

(** The pole upright, at rest, held against gravity. *)
Lemma pole_rest : forall solve p d, lin_solve_ok solve -> 0 < po_ms p -> 0 < po_me p ->
  pole_dynamics solve p (zeros 7) [0; 0; (po_ms p + po_me p) * po_grav p] = Some d -> d = zeros 7.
Proof.
  intros solve p d So Hs He F.
  destruct (pole_equations solve p _ _ d So F) as [x [y [a [b [c [xd [yd [u0 [u1 [u2 [d2 [d3 [d4 [d5 [d6 [Es [Eu [Ed [L E]]]]]]]]]]]]]]]]]]].
  cbv [zeros repeat] in Es. inversion Es; inversion Eu; subst. clear Es Eu.
  set (z := sqrt (po_len p ^ 2 - 0 ^ 2 - 0 ^ 2)) in *. assert (Z : 0 < z) by (apply sqrt_lt_R0; auto). clearbody z.
  assert (E' : mv (pole_M p 0 0 z) [d2; d3; d4; d5; d6] = zeros 5).
  { rewrite E. cbv [vsub map2 pole_C zeros repeat]. entries; field; lra. }
  apply (pole_regular p 0 0 z Hs He Z) in E'; [|reflexivity]. cbv [zeros repeat] in E'. inversion E'. reflexivity.
Qed.

(** A straight line through a state with a velocity is a curve. *)
Definition straight (x d : vec) (t : R) : vec := vadd x (vscale t d).
Lemma straight_curve : forall n x d, length x = n -> length d = n -> curve n (straight x d) x d.
Proof.
  intros n x d Lx Ld. 
  assert (N : forall t i, (i < n)%nat -> nth i (straight x d t) 0 = nth i x 0 + t * nth i d 0).
  { intros t i Hi. unfold straight, vadd, vscale. revert x d i Lx Ld Hi. induction n; intros; [lia|].
    destruct x as [|a x]; [discriminate|]. destruct d as [|b d]; [discriminate|]. destruct i; cbn; [ring|].
    apply IHn; cbn in *; lia. }
  assert (Lt : forall t, length (straight x d t) = n).
  { intros. unfold straight. rewrite vadd_length; rewrite ?vscale_length; lia. }
  split; [|split; [auto|split; [auto|]]].
  - apply (nth_ext _ _ 0 0); [rewrite Lt; auto|]. intros i Hi. rewrite Lt in Hi. rewrite N by auto. cbv beta. ring.
  - intros i Hi. eapply d_ext; [|intros t; apply N; auto]. eapply d_eq; [repeat dd|]. cbv beta. ring.
Qed.

(** A pole of length 3 whose end is at (2, 1, 2) and swings along both axes. *)
Definition pole_ex : pole := {| po_ms := 1; po_me := 1; po_len := 3; po_grav := 981 / 100 |}.
Lemma pole_wrong : forall solve, lin_solve_ok solve ->
  exists d, pole_dynamics solve pole_ex [2; 1; 0; 0; 0; 1; 1] [0; 0; 0] = Some d /\
    forall X, curve 7 X [2; 1; 0; 0; 0; 1; 1] d -> ~ pole_newton pole_ex [2; 1; 0; 0; 0; 1; 1] [0; 0; 0] X.
Proof.
  intros solve So.
  destruct (pole_defined solve pole_ex 2 1 0 0 0 1 1 0 0 0 So) as [d [E _]]; cbn; try lra.
  exists d. split; [exact E|]. intros X C N.
  assert (M : moves 7 (pole_dynamics solve pole_ex) [2; 1; 0; 0; 0; 1; 1] [0; 0; 0] X d) by (split; auto).
  assert (P : 0 < po_ms pole_ex) by (cbn; lra). apply (pole_iff _ _ _ _ _ _ So P M) in N. cbn in N. lra.
Qed.
Lemma straight_moves : forall n f x u d, length x = n -> f x u = Some d -> length d = n -> moves n f x u (straight x d) d.
Proof. intros. split; [auto|apply straight_curve; auto]. Qed.
Lemma quad_default_ok : q_mass quad_default <> 0 /\ q_ixx quad_default <> 0 /\ q_iyy quad_default <> 0 /\
  q_izz quad_default <> 0 /\
  quad_np quad_default [0; 0; 0; 1; 0; 2; 3; 4; 5; 6; 7; 8] [1; 2; 3; 4] <> None.
Proof.
  cbn [q_mass q_ixx q_iyy q_izz quad_default]. repeat (split; [lra|]).
  rewrite quad_np_eq by (rewrite cos_0; lra). discriminate.
Qed.
Lemma plane_default_ok : pd_mass pendulum_default <> 0 /\ pd_len pendulum_default <> 0 /\
  q2_mass quad2d_default <> 0 /\ q2_inertia quad2d_default <> 0 /\
  rk_mass rocket_default <> 0 /\ rk_inertia rocket_default <> 0.
Proof. cbn. repeat split; lra. Qed.
