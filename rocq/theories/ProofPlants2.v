(** The gradient of the quadrotor; equilibria; the branches for numpy and torch. *)

Require Import Reals List Arith Bool Lia Lra.
Require Import Verif.Vec Verif.VecFacts Verif.ModelMisc Verif.SpecMisc Verif.SpecSlip Verif.ModelPlants
  Verif.SpecPlants Verif.ProofSlip Verif.ProofMisc Verif.ProofPlants.
Import ListNotations.
Open Scope R_scope.
Ltac dd := ProofSlip.dd.

Definition quad_list (p : quad) (r q y xd yd zd a b c u0 u1 u2 u3 : R) : vec := Eval cbv [quad_np quad_alloc
  rpy2rotmat_np yaw_np pitch_np roll_np quad_T_np quad_inertia
  set_block set_entry zerom zeros eye eyek unit_row repeat seq map map2 splice firstn skipn length
  app nth Nat.eqb Nat.add col vdivs vdiv mv mm vm dot vadd vmul vneg vscale vsum cross fst snd tan] in
      (let omega := [a; b; c] in
      let plant_input := mv (quad_alloc p) [u0; u1; u2; u3] in
      let Rm := rpy2rotmat_np r q y in
      let pos_ddot := vadd [0; 0; - q_grav p] (vdivs (mv Rm [0; 0; nth 0 plant_input 0]) (q_mass p)) in
      let omega_dot := vdiv (vadd (cross (vneg omega) (vmul (quad_inertia p) omega)) (skipn 1 plant_input))
                            (quad_inertia p) in
      let rpy_dot := mv (quad_T_np r q) omega in
      [xd; yd; zd] ++ rpy_dot ++ pos_ddot ++ omega_dot).

Lemma quad_np_eq : forall p x0 x1 x2 r q y xd yd zd a b c u0 u1 u2 u3, cos q <> 0 ->
  quad_np p [x0; x1; x2; r; q; y; xd; yd; zd; a; b; c] [u0; u1; u2; u3] =
  Some (quad_list p r q y xd yd zd a b c u0 u1 u2 u3).
Proof. intros. unfold quad_np. destruct (Req_EM_T (cos q) 0); [contradiction|]. reflexivity. Qed.

Lemma quad_grad : forall p, q_mass p <> 0 -> q_ixx p <> 0 -> q_iyy p <> 0 -> q_izz p <> 0 ->
  gradient_of 12 4 (quad_np p) (quad_gradient p).
Proof.
  intros p Hm Hx Hy Hz x u N.
  destruct x as [|x0 [|x1 [|x2 [|x3 [|x4 [|x5 [|x6 [|x7 [|x8 [|x9 [|x10 [|x11 [|]]]]]]]]]]]]]; inputs N.
  destruct u as [|u0 [|u1 [|u2 [|u3 [|]]]]]; inputs N.
  unfold quad_np in N. destruct (Req_EM_T (cos x4) 0) as [Z|Z]; [contradiction|]. clear N.
  eexists. eexists. split.
  { unfold quad_gradient. destruct (Req_EM_T (cos x4) 0) as [|_]; [contradiction|].
    cbv [gradient_np rpy2rotmat_np yaw_np pitch_np roll_np droll_np dpitch_np dyaw_np quad_T_np tan].
    lists. reflexivity. }
  shapes.
  intros X U dx du CX CU. curves CX. curves CU.
  assert (X4 : nth 4 (X 0) 0 = x4) by (rewrite E0; auto).
  destruct (near_nonzero (fun t => cos (nth 4 (X t) 0)) (- sin (nth 4 (X 0) 0) * nth 4 dx 0)) as [e [He Ne]].
  { apply (d_cos (fun t => nth 4 (X t) 0)). apply D. lia. }
  { rewrite X4. auto. }
  split.
  - exists e. split; [auto|]. intros t Ht. rewrite (EX t), (EX0 t).
    rewrite quad_np_eq by (apply Ne; auto). eexists. split; reflexivity.
  - at_index D 3%nat. at_index D 4%nat. at_index D 5%nat. at_index D 6%nat. at_index D 7%nat. at_index D 8%nat.
    at_index D 9%nat. at_index D 10%nat. at_index D 11%nat.
    at_index D0 0%nat. at_index D0 1%nat. at_index D0 2%nat. at_index D0 3%nat.
    assert (X3 : nth 3 (X 0) 0 = x3) by (rewrite E0; auto).
    assert (X5 : nth 5 (X 0) 0 = x5) by (rewrite E0; auto).
    assert (X9 : nth 9 (X 0) 0 = x9) by (rewrite E0; auto).
    assert (X10 : nth 10 (X 0) 0 = x10) by (rewrite E0; auto).
    assert (X11 : nth 11 (X 0) 0 = x11) by (rewrite E0; auto).
    assert (U0 : nth 0 (U 0) 0 = u0) by (rewrite E1; auto).
    assert (U1 : nth 1 (U 0) 0 = u1) by (rewrite E1; auto).
    assert (U2 : nth 2 (U 0) 0 = u2) by (rewrite E1; auto).
    assert (U3 : nth 3 (U 0) 0 = u3) by (rewrite E1; auto).
    assert (Z' : cos (nth 4 (X 0) 0) <> 0) by (rewrite X4; auto).
    intros i Hi. rewrite Ed, Ed0.
    destruct i as [|[|[|[|[|[|[|[|[|[|[|[|]]]]]]]]]]]]; try lia;
      (eapply d_near; [exact He|
        intros t Ht; symmetry; rewrite (EX t), (EX0 t);
        rewrite quad_np_eq by (apply Ne; replace t with (t - 0) by ring; auto);
        cbn [quad_list entry_of nth]; reflexivity|];
       (eapply d_eq; [repeat dd; auto|]); cbv beta;
       rewrite ?X3, ?X4, ?X5, ?X9, ?X10, ?X11, ?U0, ?U1, ?U2, ?U3; cbn [dot nth]; try ring;
       try (field; auto)).
  replace (cos x4 * nth 4 dx 0 * cos x4 - - sin x4 * nth 4 dx 0 * sin x4) with (nth 4 dx 0)
    by (transitivity ((sin x4 ^ 2 + cos x4 ^ 2) * nth 4 dx 0); [rewrite sc2|]; ring).
  field. auto.
Qed.

Ltac entries := repeat (match goal with
  | |- _ :: _ = _ :: _ => apply (f_equal2 (@cons R))
  | |- [] = [] => reflexivity end).
(** ** Equilibria *)
Lemma unicycle_rest : forall px py th, unicycle_np [px; py; th] [0; 0] = Some (zeros 3).
Proof. intros. cbn. do 2 f_equal; [ring|f_equal; ring]. Qed.
Lemma acar_rest : forall px py th, acar_np [px; py; th; 0] [0; 0] = Some (zeros 4).
Proof. intros. cbn. do 2 f_equal; [ring|f_equal; ring]. Qed.
Lemma pendulum_rest : forall p, pendulum_np p [0; 0] [0] = Some (zeros 2) /\ pendulum_np p [PI; 0] [0] = Some (zeros 2).
Proof.
  intros. cbn. unfold pendulum_acc. rewrite sin_0, sin_PI.
  split; do 3 f_equal; unfold Rdiv; ring.
Qed.
Lemma quad2d_hover : forall p a b, q2_mass p <> 0 ->
  quad2d_np p [a; b; 0; 0; 0; 0] (quad2d_u_equilibrium p) = Some (zeros 6).
Proof.
  intros p a b H. cbn. rewrite sin_0, cos_0. do 4 f_equal. 
  f_equal; [field; auto|]. f_equal; [field; auto|]. f_equal. unfold Rdiv. ring.
Qed.
Lemma rocket_hover : forall p a b, rk_mass p <> 0 ->
  rocket_np p [a; b; 0; 0; 0; 0] [0; hover_thrust p] = Some (zeros 6) /\
  rocket2_np p [a; b; 0; 0; 0; 0] [0; hover_thrust p] = Some (zeros 6).
Proof.
  intros p a b H. cbn. rewrite sin_0, cos_0. unfold hover_thrust.
  replace (rk_len p * 0 / (2 * rk_inertia p)) with 0 by (unfold Rdiv; ring).
  split; apply f_equal; entries; try reflexivity; try (unfold Rdiv; ring); field; auto.
Qed.
Lemma quad_hover : forall p a b c yaw, q_mass p <> 0 ->
  quad_np p [a; b; c; 0; 0; yaw; 0; 0; 0; 0; 0; 0] (repeat (quad_hover_thrust p) 4) = Some (zeros 12).
Proof.
  intros p a b c yaw H. cbn [repeat]. rewrite quad_np_eq by (rewrite cos_0; lra).
  unfold quad_list, quad_hover_thrust, zeros. cbn [repeat]. rewrite sin_0, cos_0.
  apply f_equal. entries; try (unfold Rdiv; ring); field; auto.
Qed.

(** ** numpy and torch *)
Lemma unicycle_same : forall x u, unicycle_torch x u = unicycle_np x u /\
  unicycle_gradient_torch x u = unicycle_gradient_np x u.
Proof.
  intros. destruct x as [|x0 [|x1 [|x2 [|]]]]; try (split; reflexivity).
  all: destruct u as [|u0 [|u1 [|]]]; split; reflexivity.
Qed.
Lemma pendulum_same : forall p x u, pendulum_torch p x u = pendulum_np p x u.
Proof.
  intros. destruct x as [|x0 [|x1 [|]]]; try reflexivity.
Qed.
Lemma quad2d_same : forall p x u, quad2d_torch p x u = quad2d_np p x u.
Proof.
  intros. destruct x as [|x0 [|x1 [|x2 [|x3 [|x4 [|x5 [|]]]]]]]; try reflexivity.
  all: destruct u as [|u0 [|u1 [|]]]; reflexivity.
Qed.
Lemma rocket_same : forall p x u, rocket_torch p x u = rocket_np p x u /\ rocket2_torch p x u = rocket2_np p x u.
Proof.
  intros. destruct x as [|x0 [|x1 [|x2 [|x3 [|x4 [|x5 [|]]]]]]]; try (split; reflexivity).
  all: destruct u as [|u0 [|u1 [|]]]; split; reflexivity.
Qed.
Lemma quad_same : forall p x u, quad_torch p x u = quad_np p x u.
Proof.
  intros. destruct x as [|x0 [|x1 [|x2 [|r [|q [|y [|x6 [|x7 [|x8 [|x9 [|x10 [|x11 [|]]]]]]]]]]]]]; try reflexivity.
  destruct u as [|u0 [|u1 [|u2 [|u3 [|]]]]]; try reflexivity.
  unfold quad_torch, quad_np. destruct (Req_EM_T (cos q) 0); [reflexivity|].
  rewrite rotmat_same. cbv [torch_cat rpy2rotmat_np yaw_np pitch_np roll_np quad_alloc quad_T_np]. lists.
  apply f_equal. entries; try reflexivity; unfold Rdiv; ring.
Qed.
Lemma acar_differ : forall a b th v u0 u1, acar_torch [a; b; th; v] [u0; u1] = None /\
  acar_np [a; b; th; v] [u0; u1] <> None.
Proof. intros. split; [reflexivity|discriminate]. Qed.
