(** Proofs about rotations, the integrator and grid indices. *)

Require Import Reals List Arith Lia Lra Nsatz.
Require Import Verif.Vec Verif.VecFacts Verif.ModelMisc Verif.SpecMisc.
Import ListNotations.
Open Scope R_scope.

(** ** Rotations *)
Lemma roll_same : forall a, roll_torch a = roll_np a. Proof. reflexivity. Qed.
Lemma pitch_same : forall a, pitch_torch a = pitch_np a. Proof. reflexivity. Qed.
Lemma yaw_same : forall a, yaw_torch a = yaw_np a. Proof. reflexivity. Qed.
Lemma droll_same : forall a, droll_torch a = droll_np a. Proof. reflexivity. Qed.
Lemma dpitch_same : forall a, dpitch_torch a = dpitch_np a. Proof. reflexivity. Qed.
Lemma dyaw_same : forall a, dyaw_torch a = dyaw_np a. Proof. reflexivity. Qed.
Lemma rotmat_same : forall r p y, rpy2rotmat_torch r p y = rpy2rotmat_np r p y.
Proof. intros. unfold rpy2rotmat_torch. rewrite roll_same, pitch_same, yaw_same. auto. Qed.
Lemma gradient_same : forall r p y, gradient_torch r p y = gradient_np r p y.
Proof.
  intros. unfold gradient_torch. rewrite roll_same, pitch_same, yaw_same, droll_same, dpitch_same, dyaw_same. auto.
Qed.
Lemma mat3 : forall a b c d e f g h i a' b' c' d' e' f' g' h' i' : R,
  a = a' -> b = b' -> c = c' -> d = d' -> e = e' -> f = f' -> g = g' -> h = h' -> i = i' ->
  [[a; b; c]; [d; e; f]; [g; h; i]] = [[a'; b'; c']; [d'; e'; f']; [g'; h'; i']].
Proof. intros. subst. auto. Qed.
Ltac angles := intros r p y;
  assert (Hr := sin2_cos2 r); assert (Hp := sin2_cos2 p); assert (Hy := sin2_cos2 y); unfold Rsqr in *;
  cbn -[cos sin] ; generalize dependent (cos r); generalize dependent (sin r);
  generalize dependent (cos p); generalize dependent (sin p);
  generalize dependent (cos y); generalize dependent (sin y);
  intros sy cy Hy sp cp Hp sr cr Hr.
Lemma rotmat_entries : forall r p y, rpy2rotmat_np r p y =
  [[cos y * cos p; cos y * sin p * sin r - sin y * cos r; cos y * sin p * cos r + sin y * sin r];
   [sin y * cos p; sin y * sin p * sin r + cos y * cos r; sin y * sin p * cos r - cos y * sin r];
   [- sin p; cos p * sin r; cos p * cos r]].
Proof. intros r p y. cbn -[cos sin]. apply mat3; ring. Qed.
Lemma rotmat_wf : forall r p y, wfm 3 3 (rpy2rotmat_np r p y).
Proof. intros. rewrite rotmat_entries. split; [auto|repeat constructor]. Qed.
Lemma rotmat_orthogonal : forall r p y, let M := rpy2rotmat_np r p y in
  mm 3 M (transpose 3 M) = eye 3 /\ mm 3 (transpose 3 M) M = eye 3 /\ det3 M = 1.
Proof.
  intros r p y M. unfold M. rewrite rotmat_entries. clear M. revert r p y. angles.
  split; [|split]; [apply mat3; nsatz|apply mat3; nsatz|]. unfold det3. unfold entry. cbn [List.nth]. nsatz.
Qed.

(** Derivatives, entry by entry. *)
Lemma d_eq : forall f x d d', derivable_pt_lim f x d -> d = d' -> derivable_pt_lim f x d'.
Proof. intros. subst. auto. Qed.
Ltac dstep := match goal with
  | |- derivable_pt_lim (fun t => @?f t + @?g t) _ _ => apply (derivable_pt_lim_plus f g)
  | |- derivable_pt_lim (fun t => @?f t - @?g t) _ _ => apply (derivable_pt_lim_minus f g)
  | |- derivable_pt_lim (fun t => @?f t * @?g t) _ _ => apply (derivable_pt_lim_mult f g)
  | |- derivable_pt_lim (fun t => - @?f t) _ _ => apply (derivable_pt_lim_opp f)
  | |- derivable_pt_lim (fun t => cos t) _ _ => apply derivable_pt_lim_cos
  | |- derivable_pt_lim (fun t => sin t) _ _ => apply derivable_pt_lim_sin
  | |- derivable_pt_lim (fun t => t) _ _ => apply derivable_pt_lim_id
  | |- derivable_pt_lim (fun _ => ?c) _ _ => apply derivable_pt_lim_const
  end.
Lemma d_ext : forall f g x d, (forall t, f t = g t) -> derivable_pt_lim f x d -> derivable_pt_lim g x d.
Proof.
  intros f g x d H D e He. destruct (D e He) as [dl Hd]. exists dl. intros h H0 H1. rewrite <- !H. auto.
Qed.
Ltac rot_deriv := intros r p y; split; [split; [auto|repeat constructor]|];
  intros i j Hi Hj; eapply d_ext; [intros t; rewrite rotmat_entries; reflexivity|];
  destruct i as [|[|[|]]]; try lia; destruct j as [|[|[|]]]; try lia; unfold entry; cbn -[cos sin];
  (eapply d_eq; [repeat dstep|cbn -[cos sin]; ring]).
Lemma rotmat_droll : forall r p y, matrix_derivative (fun a => rpy2rotmat_np a p y) r (fst (fst (gradient_np r p y))).
Proof. rot_deriv. Qed.
Lemma rotmat_dpitch : forall r p y, matrix_derivative (fun a => rpy2rotmat_np r a y) p (snd (fst (gradient_np r p y))).
Proof. rot_deriv. Qed.
Lemma rotmat_dyaw : forall r p y, matrix_derivative (fun a => rpy2rotmat_np r p a) y (snd (gradient_np r p y)).
Proof. rot_deriv. Qed.

(** ** The integrator *)
Ltac vlen := repeat (rewrite vscale_length || (rewrite vadd_length by vlen) || rewrite zeros_length); auto; congruence.
Lemma rk4_zero : forall f u dt x, f x u = zeros (length x) -> rk4_step f u dt x = x.
Proof.
  intros f u dt x H. assert (Z : forall k, vadd x (vscale k (zeros (length x))) = x).
  { intros k. apply vec_ext; [vlen|]. intros i Hi.
    rewrite nth_vadd by vlen. rewrite nth_vscale, nth_zeros. ring. }
  unfold rk4_step. repeat (rewrite H || rewrite Z).
  apply vec_ext; [vlen|]. intros i Hi.
  repeat (rewrite nth_vadd by vlen). rewrite nth_vscale. repeat (rewrite nth_vadd by vlen). rewrite nth_vscale, nth_zeros. ring.
Qed.
Lemma rk4_equilibrium : forall f controller x0 dt n,
  f x0 (controller x0) = zeros (length x0) ->
  rk4_constant_control f controller x0 dt n = (x0, controller x0).
Proof.
  intros f controller x0 dt n H. unfold rk4_constant_control. f_equal.
  induction n; auto. cbn [rk4_loop]. rewrite (rk4_zero _ _ _ _ H). auto.
Qed.
Lemma rk4_const_step : forall f u dt x c,
  (forall y, length y = length x -> f y u = c) -> length c = length x ->
  rk4_step f u dt x = vadd x (vscale dt c).
Proof.
  intros f u dt x c H L. unfold rk4_step.
  rewrite (H x) by auto. rewrite !(H (vadd x _)) by vlen.
  apply vec_ext; [vlen|]. intros i Hi.
  repeat ((rewrite nth_vadd by vlen) || rewrite nth_vscale). field.
Qed.
Lemma rk4_const : forall f u dt c n x,
  (forall y, length y = length x -> f y u = c) -> length c = length x ->
  rk4_loop f u dt n x = vadd x (vscale (INR n * dt) c).
Proof.
  induction n as [|n IH]; intros x H L.
  - cbn [rk4_loop INR]. apply vec_ext; [vlen|]. intros i Hi. rewrite nth_vadd by vlen. rewrite nth_vscale. ring.
  - cbn [rk4_loop]. rewrite (rk4_const_step _ _ _ _ c) by auto.
    assert (Ln : length (vadd x (vscale dt c)) = length x) by vlen.
    rewrite IH by (rewrite ?Ln; auto). rewrite S_INR.
    apply vec_ext; [vlen|]. intros i Hi. repeat ((rewrite nth_vadd by vlen) || rewrite nth_vscale). ring.
Qed.
Lemma slope_constant : forall (g : R -> R) c, (forall t, derivable_pt_lim g t c) -> forall t, g t = g 0 + t * c.
Proof.
  intros g c D t.
  assert (D0 : forall s, derivable_pt_lim (fun s => g s - s * c) s 0).
  { intros s. eapply d_eq.
    - apply (derivable_pt_lim_minus g (fun s => s * c)); [apply D|].
      apply (derivable_pt_lim_mult (fun s => s) (fun _ => c)); [apply derivable_pt_lim_id|apply derivable_pt_lim_const].
    - cbn. ring. }
  pose (pr := (fun s => exist _ 0 (D0 s)) : derivable (fun s => g s - s * c)).
  assert (C := null_derivative_1 (fun s => g s - s * c) pr).
  assert (K : constant (fun s => g s - s * c)).
  { apply C. intros s. apply derive_pt_eq_0. apply D0. }
  specialize (K t 0). cbn in K. lra.
Qed.
Lemma rk4_exact : forall f controller x0 dt n c phi,
  (forall y, length y = length x0 -> f y (controller x0) = c) -> length c = length x0 ->
  trajectory (length x0) f (controller x0) x0 phi ->
  rk4_constant_control f controller x0 dt n = (phi (INR n * dt), controller x0).
Proof.
  intros f controller x0 dt n c phi H L (P0 & PL & PD). unfold rk4_constant_control. f_equal.
  rewrite (rk4_const _ _ _ c) by auto. apply vec_ext; [rewrite PL; vlen|]. intros i Hi.
  rewrite vadd_length in Hi by vlen.
  rewrite nth_vadd by vlen. rewrite nth_vscale.
  rewrite (slope_constant (fun s => List.nth i (phi s) 0) (List.nth i c 0)).
  - rewrite P0. reflexivity.
  - intros t. specialize (PD t i Hi). rewrite H in PD by auto. auto.
Qed.
Lemma rk4_linear : forall n f u dt x, linear_map n (fun y => f y u) -> length x = n ->
  rk4_step f u dt x = taylor4 (fun y => f y u) dt x.
Proof.
  intros n f u dt x HL Lx. unfold rk4_step, taylor4. set (L := fun y => f y u) in *.
  assert (LL : forall x, length x = n -> length (L x) = n) by apply HL.
  assert (LA : forall x y, length x = n -> length y = n -> L (vadd x y) = vadd (L x) (L y)) by apply HL.
  assert (LS : forall k x, length x = n -> L (vscale k x) = vscale k (L x)) by apply HL.
  assert (L1 := LL x Lx). assert (L2 := LL _ L1). assert (L3 := LL _ L2). assert (L4 := LL _ L3).
  repeat match goal with
  | |- context [f ?y u] => change (f y u) with (L y)
  end.
  clearbody L. clear HL.
  assert (K1 : L (vadd x (vscale (dt / 2) (L x))) = vadd (L x) (vscale (dt / 2) (L (L x)))).
  { rewrite LA, LS by vlen. auto. }
  rewrite K1.
  assert (K2 : L (vadd x (vscale (dt / 2) (vadd (L x) (vscale (dt / 2) (L (L x)))))) =
    vadd (L x) (vscale (dt / 2) (vadd (L (L x)) (vscale (dt / 2) (L (L (L x))))))).
  { rewrite LA, LS, LA, LS by vlen. auto. }
  rewrite K2.
  assert (K3 : L (vadd x (vscale dt (vadd (L x) (vscale (dt / 2) (vadd (L (L x)) (vscale (dt / 2) (L (L (L x))))))))) =
    vadd (L x) (vscale dt (vadd (L (L x)) (vscale (dt / 2) (vadd (L (L (L x))) (vscale (dt / 2) (L (L (L (L x)))))))))).
  { rewrite LA, LS, LA, LS, LA, LS by vlen. auto. }
  rewrite K3.
  apply vec_ext; [vlen|]. intros i Hi.
  repeat ((rewrite nth_vadd by vlen) || rewrite nth_vscale). field.
Qed.
Lemma rk4_steps : forall f u dt m n x, rk4_loop f u dt (m + n) x = rk4_loop f u dt n (rk4_loop f u dt m x).
Proof. induction m; intros; cbn [Nat.add rk4_loop]; auto. Qed.

(** ** Grid indices *)
Lemma grid_left : forall n_xy n_angle i t, flat_to_3d n_xy n_angle i = Some t ->
  threeD_to_flat n_xy n_angle (fst (fst t)) (snd (fst t)) (snd t) = i /\
  (snd (fst t) < n_xy)%nat /\ (snd t < n_angle)%nat.
Proof.
  intros n a i t. unfold flat_to_3d, threeD_to_flat. destruct (Nat.eqb_spec (a * n) 0) as [|N]; [discriminate|].
  intros [= <-]. cbn [fst snd].
  assert (Ha : a <> 0%nat) by (intros ->; apply N; auto).
  assert (Hn : n <> 0%nat) by (intros ->; apply N; lia).
  assert (E := Nat.div_mod i (a * n) N). assert (B := Nat.mod_upper_bound i (a * n) N).
  set (q := (i / (a * n))%nat) in *. set (s := (i mod (a * n))%nat) in *.
  replace (i - a * n * q)%nat with s by lia.
  assert (E2 := Nat.div_mod s a Ha). assert (B2 := Nat.mod_upper_bound s a Ha).
  set (q2 := (s / a)%nat) in *. set (s2 := (s mod a)%nat) in *.
  replace (s - a * q2)%nat with s2 by lia. repeat split; try lia.
  apply Nat.div_lt_upper_bound; auto.
Qed.
Lemma grid_range : forall n_xy n_angle i t, flat_to_3d n_xy n_angle i = Some t ->
  (i < n_xy * n_xy * n_angle)%nat -> (fst (fst t) < n_xy)%nat.
Proof.
  intros n a i t. unfold flat_to_3d. destruct (Nat.eqb_spec (a * n) 0) as [|N]; [discriminate|].
  intros [= <-] H. cbn [fst snd]. apply Nat.div_lt_upper_bound; auto. lia.
Qed.
Lemma grid_right : forall n_xy n_angle i0 i1 i2,
  (i1 < n_xy)%nat -> (i2 < n_angle)%nat ->
  flat_to_3d n_xy n_angle (threeD_to_flat n_xy n_angle i0 i1 i2) = Some (i0, i1, i2) /\
  ((i0 < n_xy)%nat -> (threeD_to_flat n_xy n_angle i0 i1 i2 < n_xy * n_xy * n_angle)%nat).
Proof.
  intros n a i0 i1 i2 H1 H2. unfold flat_to_3d, threeD_to_flat.
  assert (B : (a * i1 + i2 < a * n)%nat) by nia.
  destruct (Nat.eqb_spec (a * n) 0) as [Z|N]; [lia|].
  assert (Q : ((a * n * i0 + a * i1 + i2) / (a * n) = i0)%nat).
  { symmetry. apply (Nat.div_unique _ _ _ (a * i1 + i2)); lia. }
  rewrite Q. replace (a * n * i0 + a * i1 + i2 - a * n * i0)%nat with (a * i1 + i2)%nat by lia.
  assert (Q2 : ((a * i1 + i2) / a = i1)%nat). { symmetry. apply (Nat.div_unique _ _ _ i2); lia. }
  rewrite Q2. split; [repeat f_equal; lia|]. intros H0. nia.
Qed.

(** ** Cases *)
Lemma yaw_case : rpy2rotmat_np 0 0 (PI / 2) = [[0; -1; 0]; [1; 0; 0]; [0; 0; 1]].
Proof. rewrite rotmat_entries, cos_0, sin_0, cos_PI2, sin_PI2. apply mat3; ring. Qed.
Lemma double_integrator_case : let f := fun (x u : vec) => [List.nth 1 x 0; 0] in
  linear_map 2 (fun x => f x []) /\
  fst (rk4_constant_control f (fun _ => []) [1; 2] 3 1) = [7; 2].
Proof.
  cbn. split.
  - split; [auto|split].
    + intros x y Hx Hy. destruct x as [|x0 [|x1 [|]]]; try discriminate.
      destruct y as [|y0 [|y1 [|]]]; try discriminate. cbn. repeat f_equal; ring.
    + intros k x Hx. destruct x as [|x0 [|x1 [|]]]; try discriminate. cbn. repeat f_equal; ring.
  - f_equal; [field|f_equal; field].
Qed.
Lemma equilibrium_case : let f := fun (x u : vec) => vsub u x in
  f [1; 2] ((fun _ => [1; 2]) [1; 2]) = zeros 2.
Proof. cbn. repeat f_equal; ring. Qed.
Lemma constant_case : let f := fun (x u : vec) => u in
  trajectory 1 f (3 :: nil) (5 :: nil) (fun t => (5 + 3 * t) :: nil).
Proof.
  cbn. split; [|split]; [f_equal; ring|auto|]. intros t i Hi. destruct i; [|lia]. cbn [List.nth].
  eapply d_eq; [repeat dstep|]. ring.
Qed.
