(** Mechanics of the quadrotor: rotation, momentum, angular momentum and energy. *)

Require Import Reals List Arith Bool Lia Lra.
Require Import Verif.Vec Verif.VecFacts Verif.ModelMisc Verif.SpecMisc Verif.SpecSlip Verif.ModelPlants
  Verif.SpecPlants Verif.ProofSlip Verif.ProofPlants Verif.ProofPlants2 Verif.ProofPlants3.
Import ListNotations.
Open Scope R_scope.
Ltac dd := ProofSlip.dd.

Lemma body_rates : forall (r q y : R -> R) a b c, cos (q 0) <> 0 ->
  derivable_pt_lim r 0 (1 * a + (sin (r 0) * (sin (q 0) / cos (q 0)) * b + (cos (r 0) * (sin (q 0) / cos (q 0)) * c + 0))) ->
  derivable_pt_lim q 0 (0 * a + (cos (r 0) * b + (- sin (r 0) * c + 0))) ->
  derivable_pt_lim y 0 (0 * a + (sin (r 0) / cos (q 0) * b + (cos (r 0) / cos (q 0) * c + 0))) ->
  matrix_derivative (fun t => rpy2rotmat_np (r t) (q t) (y t)) 0 (mm 3 (rpy2rotmat_np (r 0) (q 0) (y 0)) (skew [a; b; c])).
Proof.
  intros r q y a b c Z Dr Dq Dy. split; [split; [reflexivity|repeat constructor]|].
  intros i j Hi Hj. unfold entry.
  assert (Sr : sin (r 0) * sin (r 0) = 1 - cos (r 0) * cos (r 0)) by (pose proof (sin2_cos2 (r 0)); unfold Rsqr in *; lra).
  assert (Sq : sin (q 0) * sin (q 0) = 1 - cos (q 0) * cos (q 0)) by (pose proof (sin2_cos2 (q 0)); unfold Rsqr in *; lra).
  destruct i as [|[|[|]]]; try lia; (destruct j as [|[|[|]]]; try lia);
    cbv [rpy2rotmat_np yaw_np pitch_np roll_np mm vm map vadd map2 vscale zeros repeat nth skew];
    (eapply d_eq; [repeat dd|]); cbv beta; revert Z Sr Sq;
    generalize (sin (r 0)) (cos (r 0)) (sin (q 0)) (cos (q 0)) (sin (y 0)) (cos (y 0));
    intros sr cr sq cq sy cy Z Sr Sq; field [Sr Sq]; auto.
Qed.

Ltac quad_cases M := let F := fresh "F" in let C := fresh "C" in
  destruct M as [F C];
  lazymatch type of F with quad_np _ ?x ?u = _ =>
  destruct x as [|x0 [|x1 [|x2 [|x3 [|x4 [|x5 [|x6 [|x7 [|x8 [|x9 [|x10 [|x11 [|]]]]]]]]]]]]]; try discriminate F;
  destruct u as [|u0 [|u1 [|u2 [|u3 [|]]]]]; try discriminate F;
  assert (Z : cos x4 <> 0) by (unfold quad_np in F; destruct (Req_EM_T (cos x4) 0); [discriminate|auto]);
  rewrite quad_np_eq in F by auto; apply Some_vec in F; destruct (curve_eta _ _ _ _ C) as [EX [_ [D E0]]];
  cbn [seq map] in EX; rewrite <- F in D; clear F end.

Lemma quad_rotation : forall p x u X d, moves 12 (quad_np p) x u X d ->
  matrix_derivative (fun t => quad_R (X t)) 0 (mm 3 (quad_R x) (skew (quad_omega x))).
Proof.
  intros p x u X d M. quad_cases M.
  pose proof (D 3%nat ltac:(lia)) as D3. pose proof (D 4%nat ltac:(lia)) as D4. pose proof (D 5%nat ltac:(lia)) as D5.
  cbn [quad_list nth] in D3, D4, D5. clear D.
  assert (X3 : nth 3 (X 0) 0 = x3) by (rewrite E0; auto).
  assert (X4 : nth 4 (X 0) 0 = x4) by (rewrite E0; auto).
  assert (X5 : nth 5 (X 0) 0 = x5) by (rewrite E0; auto).
  rewrite <- X3, <- X4 in D3. rewrite <- X3 in D4. rewrite <- X3, <- X4 in D5. rewrite <- X4 in Z.
  pose proof (body_rates (fun t => nth 3 (X t) 0) (fun t => nth 4 (X t) 0) (fun t => nth 5 (X t) 0) x9 x10 x11 Z D3 D4 D5) as B.
  cbv beta in B. rewrite X3, X4, X5 in B. exact B.
Qed.

Lemma quad_force : forall p x u X d, q_mass p <> 0 -> moves 12 (quad_np p) x u X d ->
  velocity 3 (fun t => quad_momentum p (X t)) (vadd [0; 0; - q_mass p * q_grav p] (mv (quad_R x) [0; 0; vsum u])).
Proof.
  intros p x u X d Hm M. quad_cases M.
  at_index D 6%nat. at_index D 7%nat. at_index D 8%nat. cbn [quad_list nth] in Di, Di0, Di1. clear D.
  split; [reflexivity|]. split; [intros t; rewrite (EX t); reflexivity|].
  intros i Hi. 
  destruct i as [|[|[|]]]; try lia;
    (eapply d_ext; [|intros t; rewrite (EX t); unfold quad_momentum, quad_vel; cbn [slice firstn skipn vscale map nth]; reflexivity];
     (eapply d_eq; [repeat dd|]);
     cbv [quad_R rpy2rotmat_np yaw_np pitch_np roll_np mm vm mv dot vsum map vadd map2 vscale zeros repeat nth]; field; auto).
Qed.

Lemma rotmat_list : forall x, exists a b c a' b' c' a'' b'' c'', quad_R x = [[a; b; c]; [a'; b'; c']; [a''; b''; c'']].
Proof. intros. unfold quad_R, rpy2rotmat_np. do 9 eexists. reflexivity. Qed.

Lemma quad_spin : forall p x u X d, q_ixx p <> 0 -> q_iyy p <> 0 -> q_izz p <> 0 -> moves 12 (quad_np p) x u X d ->
  velocity 3 (fun t => quad_angular_momentum p (X t)) (mv (quad_R x) (quad_torque p u)).
Proof.
  intros p x u X d Hx Hy Hz M. pose proof (quad_rotation _ _ _ _ _ M) as [_ RD].
  quad_cases M.
  at_index D 9%nat. at_index D 10%nat. at_index D 11%nat. cbn [quad_list nth] in Di, Di0, Di1. clear D.
  split; [reflexivity|]. split; [intros t; unfold quad_angular_momentum; rewrite mv_length; reflexivity|].
  assert (X9 : nth 9 (X 0) 0 = x9) by (rewrite E0; auto).
  assert (X10 : nth 10 (X 0) 0 = x10) by (rewrite E0; auto).
  assert (X11 : nth 11 (X 0) 0 = x11) by (rewrite E0; auto).
  intros i Hi.
  assert (EQ : forall t, nth i (quad_angular_momentum p (X t)) 0 =
    entry i 0 (quad_R (X t)) * (q_ixx p * nth 9 (X t) 0) + entry i 1 (quad_R (X t)) * (q_iyy p * nth 10 (X t) 0)
    + entry i 2 (quad_R (X t)) * (q_izz p * nth 11 (X t) 0)).
  { intros t. unfold quad_angular_momentum, quad_omega, quad_inertia, entry. 
    replace (slice 9 3 (X t)) with [nth 9 (X t) 0; nth 10 (X t) 0; nth 11 (X t) 0] by (rewrite (EX t); reflexivity).
    destruct (rotmat_list (X t)) as [a [b [c [a' [b' [c' [a'' [b'' [c'' E]]]]]]]]]. rewrite E.
    destruct i as [|[|[|]]]; try lia; cbn; ring. }
  eapply d_ext; [|exact EQ].
  pose proof (RD i 0%nat Hi ltac:(lia)) as R0. pose proof (RD i 1%nat Hi ltac:(lia)) as R1.
  pose proof (RD i 2%nat Hi ltac:(lia)) as R2. cbv beta in R0, R1, R2.
  eapply d_eq; [repeat dd|]. cbv beta. rewrite X9, X10, X11. rewrite E0.
  destruct (rotmat_list [x0; x1; x2; x3; x4; x5; x6; x7; x8; x9; x10; x11]) as [a [b [c [a' [b' [c' [a'' [b'' [c'' E]]]]]]]]].
  rewrite E.
  destruct i as [|[|[|]]]; try lia;
    cbv [entry mm mv vm dot quad_torque quad_rotors quad_omega skew slice firstn skipn map2 map cross fold_right vadd vscale zeros repeat nth];
    field; auto.
Qed.

Lemma quad_power : forall p x u X d, q_mass p <> 0 -> q_ixx p <> 0 -> q_iyy p <> 0 -> q_izz p <> 0 ->
  moves 12 (quad_np p) x u X d ->
  derivable_pt_lim (fun t => quad_energy p (X t)) 0
    (dot (mv (quad_R x) [0; 0; vsum u]) (quad_vel x) + dot (quad_torque p u) (quad_omega x)).
Proof.
  intros p x u X d Hm Hx Hy Hz M. quad_cases M.
  at_index D 2%nat. at_index D 6%nat. at_index D 7%nat. at_index D 8%nat. 
  at_index D 9%nat. at_index D 10%nat. at_index D 11%nat. cbn [quad_list nth] in Di, Di0, Di1, Di2, Di3, Di4, Di5. clear D.
  assert (X6 : nth 6 (X 0) 0 = x6) by (rewrite E0; auto).
  assert (X7 : nth 7 (X 0) 0 = x7) by (rewrite E0; auto).
  assert (X8 : nth 8 (X 0) 0 = x8) by (rewrite E0; auto).
  assert (X9 : nth 9 (X 0) 0 = x9) by (rewrite E0; auto).
  assert (X10 : nth 10 (X 0) 0 = x10) by (rewrite E0; auto).
  assert (X11 : nth 11 (X 0) 0 = x11) by (rewrite E0; auto).
  eapply d_ext; [|intros t; rewrite (EX t); unfold quad_energy, quad_vel, quad_omega, quad_inertia;
    cbn [slice firstn skipn dot vmul map2 nth]; reflexivity].
  eapply d_eq; [repeat dd|]. cbv beta. rewrite X6, X7, X8, X9, X10, X11.
  cbv [quad_R rpy2rotmat_np yaw_np pitch_np roll_np mm vm mv dot vsum quad_vel quad_torque quad_rotors quad_omega slice firstn skipn map2 map cross fold_right vadd vscale zeros repeat nth].
  field. auto.
Qed.
