(** Proofs about the spring loaded inverted pendulum. *)

Require Import Reals List Arith Lia Lra.
Require Import Verif.Vec Verif.VecFacts Verif.ModelSlip Verif.SpecSlip.
Import ListNotations.
Open Scope R_scope.

(** ** Small facts *)
Ltac slip_unfold := unfold touchdown_transition, liftoff_transition, flight_phase_energy, stance_phase_energy,
  touchdown_guard, liftoff_guard, apex_guard, flight_dynamics, stance_dynamics, at_ in *.
Lemma sc2 : forall a, cos a ^ 2 = 1 - sin a ^ 2.
Proof. intros a. pose proof (sin2_cos2 a) as H. unfold Rsqr in H. lra. Qed.
Lemma list4 : forall (s : vec), length s = 4%nat -> s = [nth 0 s 0; nth 1 s 0; nth 2 s 0; nth 3 s 0].
Proof. intros s H. destruct s as [|a [|b [|c [|e [|]]]]]; try discriminate. reflexivity. Qed.
Lemma list5 : forall (s : vec), length s = 5%nat -> s = [nth 0 s 0; nth 1 s 0; nth 2 s 0; nth 3 s 0; nth 4 s 0].
Proof. intros s H. destruct s as [|a [|b [|c [|e [|f [|]]]]]]; try discriminate. reflexivity. Qed.

(** ** Transitions *)
Lemma touchdown_energy : forall p s theta, l0 p <> 0 -> touchdown_guard p s theta = 0 ->
  stance_phase_energy p (touchdown_transition p s theta) = flight_phase_energy p s.
Proof.
  intros p s theta L G. slip_unfold. cbn [nth].
  assert (Y : nth 1 s 0 = l0 p * cos theta) by lra. rewrite Y.
  generalize (nth 2 s 0) (nth 3 s 0). intros a b.
  replace (l0 p * ((- a * cos theta - b * sin theta) / l0 p)) with (- a * cos theta - b * sin theta) by (field; auto).
  transitivity (/ 2 * mass p * ((a ^ 2 + b ^ 2) * (cos theta ^ 2 + sin theta ^ 2)) + mass p * grav p * (l0 p * cos theta));
    [ring|]. rewrite sc2. ring.
Qed.
Lemma liftoff_energy : forall p s, liftoff_guard p s = 0 ->
  flight_phase_energy p (liftoff_transition p s) = stance_phase_energy p s.
Proof.
  intros p s G. slip_unfold. cbn [nth].
  assert (Y : nth 0 s 0 = l0 p) by lra. rewrite Y.
  generalize (nth 1 s 0) (nth 2 s 0) (nth 3 s 0). intros th a b.
  transitivity (/ 2 * mass p * (((l0 p * b) ^ 2 + a ^ 2) * (cos th ^ 2 + sin th ^ 2)) + mass p * grav p * (l0 p * cos th));
    [ring|]. rewrite sc2. ring.
Qed.
Lemma liftoff_touchdown : forall p s theta, length s = 4%nat -> l0 p <> 0 -> touchdown_guard p s theta = 0 ->
  liftoff_transition p (touchdown_transition p s theta) = s.
Proof.
  intros p s theta Ls L G. rewrite (list4 s Ls) at 2. slip_unfold. cbn [nth].
  assert (Y : nth 1 s 0 = l0 p * cos theta) by lra. rewrite Y.
  generalize (nth 0 s 0) (nth 2 s 0) (nth 3 s 0). intros x a b.
  assert (E1 : - l0 p * cos theta * ((- a * cos theta - b * sin theta) / l0 p) - (- a * sin theta + b * cos theta) * sin theta = a).
  { transitivity (a * (cos theta ^ 2 + sin theta ^ 2)); [field; auto|]. rewrite sc2. ring. }
  assert (E2 : - l0 p * sin theta * ((- a * cos theta - b * sin theta) / l0 p) + (- a * sin theta + b * cos theta) * cos theta = b).
  { transitivity (b * (cos theta ^ 2 + sin theta ^ 2)); [field; auto|]. rewrite sc2. ring. }
  rewrite E1, E2. f_equal. ring.
Qed.
Lemma touchdown_liftoff : forall p s, length s = 5%nat -> l0 p <> 0 -> liftoff_guard p s = 0 ->
  touchdown_transition p (liftoff_transition p s) (nth 1 s 0) = s.
Proof.
  intros p s Ls L G. rewrite (list5 s Ls) at 3. slip_unfold. cbn [nth].
  assert (Y : nth 0 s 0 = l0 p) by lra. rewrite Y.
  generalize (nth 1 s 0) (nth 2 s 0) (nth 3 s 0) (nth 4 s 0). intros th a b x.
  assert (E1 : - (- l0 p * cos th * b - a * sin th) * sin th + (- l0 p * sin th * b + a * cos th) * cos th = a).
  { transitivity (a * (cos th ^ 2 + sin th ^ 2)); [ring|]. rewrite sc2. ring. }
  assert (E2 : (- (- l0 p * cos th * b - a * sin th) * cos th - (- l0 p * sin th * b + a * cos th) * sin th) / l0 p = b).
  { transitivity (b * (cos th ^ 2 + sin th ^ 2)); [field; auto|]. rewrite sc2. ring. }
  rewrite E1, E2. do 4 f_equal. f_equal. ring.
Qed.

(** ** Derivatives *)
Lemma d_eq : forall f x d d', derivable_pt_lim f x d -> d = d' -> derivable_pt_lim f x d'.
Proof. intros. subst. auto. Qed.
Lemma d_near : forall f g x d e, 0 < e -> (forall t, Rabs (t - x) < e -> f t = g t) ->
  derivable_pt_lim f x d -> derivable_pt_lim g x d.
Proof.
  intros f g x d e He H D ep Hep. destruct (D ep Hep) as [dl Hd].
  assert (M : 0 < Rmin dl e) by (apply Rmin_pos; [apply cond_pos|auto]).
  exists (mkposreal _ M). intros h H0 H1. cbn in H1.
  rewrite <- !H.
  - apply Hd; auto. eapply Rlt_le_trans; [exact H1|apply Rmin_l].
  - replace (x - x) with 0 by ring. rewrite Rabs_R0. auto.
  - replace (x + h - x) with h by ring. eapply Rlt_le_trans; [exact H1|apply Rmin_r].
Qed.
Lemma d_cos : forall f x l, derivable_pt_lim f x l -> derivable_pt_lim (fun t => cos (f t)) x (- sin (f x) * l).
Proof. intros f x l H. apply (derivable_pt_lim_comp f cos); [auto|]. apply derivable_pt_lim_cos. Qed.
Lemma d_sin : forall f x l, derivable_pt_lim f x l -> derivable_pt_lim (fun t => sin (f t)) x (cos (f x) * l).
Proof. intros f x l H. apply (derivable_pt_lim_comp f sin); [auto|]. apply derivable_pt_lim_sin. Qed.
Lemma d_sqrt : forall f x l, 0 < f x -> derivable_pt_lim f x l ->
  derivable_pt_lim (fun t => sqrt (f t)) x (/ (2 * sqrt (f x)) * l).
Proof. intros f x l P H. apply (derivable_pt_lim_comp f sqrt); [auto|]. apply derivable_pt_lim_sqrt. auto. Qed.
Lemma d_pow2 : forall f x l, derivable_pt_lim f x l -> derivable_pt_lim (fun t => f t ^ 2) x (2 * f x * l).
Proof.
  intros f x l H. eapply d_eq.
  - apply (derivable_pt_lim_comp f (fun y => y ^ 2)); [exact H|]. apply derivable_pt_lim_pow.
  - cbn. ring.
Qed.
Lemma d_divc : forall f k x l, derivable_pt_lim f x l -> derivable_pt_lim (fun t => f t / k) x (l / k).
Proof.
  intros f k x l H. unfold Rdiv. eapply d_eq; [apply (derivable_pt_lim_mult f (fun _ => / k)); [exact H|apply derivable_pt_lim_const]|].
  ring.
Qed.
Lemma d_div : forall f g x l m, g x <> 0 -> derivable_pt_lim f x l -> derivable_pt_lim g x m ->
  derivable_pt_lim (fun t => f t / g t) x ((l * g x - m * f x) / (g x ^ 2)).
Proof.
  intros f g x l m N F G. eapply d_eq; [apply (derivable_pt_lim_div f g); eauto|]. unfold Rsqr. field. auto.
Qed.
Ltac dd := match goal with
  | H : derivable_pt_lim ?f ?x _ |- derivable_pt_lim ?f ?x _ => exact H
  | H : forall t, derivable_pt_lim ?f t _ |- derivable_pt_lim ?f _ _ => apply H
  | |- derivable_pt_lim (fun _ => ?c) _ _ => apply derivable_pt_lim_const
  | |- derivable_pt_lim (fun t => t) _ _ => apply derivable_pt_lim_id
  | |- derivable_pt_lim (fun t => @?f t + @?g t) _ _ => apply (derivable_pt_lim_plus f g)
  | |- derivable_pt_lim (fun t => @?f t - @?g t) _ _ => apply (derivable_pt_lim_minus f g)
  | |- derivable_pt_lim (fun t => @?f t * @?g t) _ _ => apply (derivable_pt_lim_mult f g)
  | |- derivable_pt_lim (fun t => - @?f t) _ _ => apply (derivable_pt_lim_opp f)
  | |- derivable_pt_lim (fun t => @?f t / ?k) _ _ => apply (d_divc f k)
  | |- derivable_pt_lim (fun t => @?f t / @?g t) _ _ => apply (d_div f g)
  | |- derivable_pt_lim (fun t => @?f t ^ 2) _ _ => apply (d_pow2 f)
  | |- derivable_pt_lim (fun t => cos (@?f t)) _ _ => apply (d_cos f)
  | |- derivable_pt_lim (fun t => sin (@?f t)) _ _ => apply (d_sin f)
  | |- derivable_pt_lim (fun t => sqrt (@?f t)) _ _ => apply (d_sqrt f)
  end.

(** ** Energy along the phases *)
Lemma constant_on : forall f a b, a <= b -> (forall t, a <= t <= b -> derivable_pt_lim f t 0) -> f b = f a.
Proof.
  intros f a b [L|E] H; [|subst; auto].
  destruct (MVT_cor2 f (fun _ => 0) a b L H) as [c [E _]]. lra.
Qed.
Lemma flight_energy_constant : forall p phi a b, a <= b -> solves 4 (flight_dynamics p) a b phi ->
  flight_phase_energy p (phi b) = flight_phase_energy p (phi a).
Proof.
  intros p phi a b L S. apply (constant_on (fun t => flight_phase_energy p (phi t)) a b L). intros t Ht.
  destruct (S t Ht) as [_ D].
  pose proof (D 1%nat ltac:(lia)) as D1. pose proof (D 2%nat ltac:(lia)) as D2. pose proof (D 3%nat ltac:(lia)) as D3.
  unfold flight_dynamics, at_ in D1, D2, D3. cbn [nth] in D1, D2, D3. unfold flight_phase_energy, at_.
  eapply d_eq; [repeat dd|]. cbv beta. field.
Qed.
Lemma stance_energy_constant : forall p phi a b, mass p <> 0 -> a <= b -> solves 5 (stance_dynamics p) a b phi ->
  (forall t, a <= t <= b -> nth 0 (phi t) 0 <> 0) ->
  stance_phase_energy p (phi b) = stance_phase_energy p (phi a).
Proof.
  intros p phi a b M L S N. apply (constant_on (fun t => stance_phase_energy p (phi t)) a b L). intros t Ht.
  destruct (S t Ht) as [_ D]. specialize (N t Ht).
  pose proof (D 0%nat ltac:(lia)) as D0. pose proof (D 1%nat ltac:(lia)) as D1.
  pose proof (D 2%nat ltac:(lia)) as D2. pose proof (D 3%nat ltac:(lia)) as D3.
  unfold stance_dynamics, at_ in D0, D1, D2, D3. cbn [nth] in D0, D1, D2, D3. unfold stance_phase_energy, at_.
  eapply d_eq; [repeat dd|]. cbv beta. field. auto.
Qed.

(** ** Free flight *)
Lemma ballistic_solves : forall p s a b, solves 4 (flight_dynamics p) a b (ballistic p s).
Proof.
  intros p s a b t _. split; [reflexivity|]. intros i Hi. unfold flight_dynamics, at_, ballistic.
  destruct i as [|[|[|[|]]]]; try lia; cbn [nth];
    (eapply d_eq; [repeat dd|cbv beta; field]).
Qed.
Lemma ballistic_start : forall p s, length s = 4%nat -> ballistic p s 0 = s.
Proof.
  intros p s L. rewrite (list4 s L) at 2. unfold ballistic.
  repeat (f_equal; try field).
Qed.

(** ** Newton's law in stance *)
Lemma stance_newton : forall p phi a b, mass p <> 0 -> solves 5 (stance_dynamics p) a b phi ->
  forall t, a <= t <= b -> nth 0 (phi t) 0 <> 0 ->
  let r := nth 0 (phi t) 0 in let theta := nth 1 (phi t) 0 in
  let force := spring p * (l0 p - r) in
  let px := fun s => nth 4 (phi s) 0 - nth 0 (phi s) 0 * sin (nth 1 (phi s) 0) in
  let pz := fun s => nth 0 (phi s) 0 * cos (nth 1 (phi s) 0) in
  let vx := fun s => nth 2 (liftoff_transition p (phi s)) 0 in
  let vz := fun s => nth 3 (liftoff_transition p (phi s)) 0 in
  derivable_pt_lim px t (vx t) /\ derivable_pt_lim pz t (vz t) /\
  derivable_pt_lim vx t (- force / mass p * sin theta) /\
  derivable_pt_lim vz t (force / mass p * cos theta - grav p).
Proof.
  intros p phi a b M S t Ht N. cbv zeta. destruct (S t Ht) as [_ D].
  pose proof (D 0%nat ltac:(lia)) as D0. pose proof (D 1%nat ltac:(lia)) as D1.
  pose proof (D 2%nat ltac:(lia)) as D2. pose proof (D 3%nat ltac:(lia)) as D3. pose proof (D 4%nat ltac:(lia)) as D4.
  unfold stance_dynamics, at_ in D0, D1, D2, D3, D4. cbn [nth] in D0, D1, D2, D3, D4.
  unfold liftoff_transition, at_. cbn [nth].
  split; [|split; [|split]]; (eapply d_eq; [repeat dd|]); cbv beta.
  - ring.
  - ring.
  - field_simplify_eq; [|auto]. ring.
  - transitivity (spring p * (l0 p - nth 0 (phi t) 0) / mass p * cos (nth 1 (phi t) 0)
                  - grav p * (cos (nth 1 (phi t) 0) ^ 2 + sin (nth 1 (phi t) 0) ^ 2));
    [field; auto|]. rewrite sc2. field. auto.
Qed.

(** ** Time to touchdown *)
Lemma ext_leb_r_iff : forall a x, ext_leb_r a x = true <-> ext_le_r a x.
Proof.
  intros [|r|] x; cbn; [tauto| |split; [discriminate|tauto]].
  unfold Rleb. destruct (Rle_dec r x); split; auto; discriminate.
Qed.
Lemma r_leb_ext_iff : forall x a, r_leb_ext x a = true <-> r_le_ext x a.
Proof.
  intros x [|r|]; cbn; [split; [discriminate|tauto]| |tauto].
  unfold Rleb. destruct (Rle_dec x r); split; auto; discriminate.
Qed.
(** The quadratic h0 + v t - g t^2/2 = 0 has one nonnegative root at which v - g t <= 0. *)
Lemma landing_root : forall g h v t, 0 < g -> 0 <= h ->
  (t = (sqrt (v ^ 2 + 2 * g * h) + v) / g <-> 0 <= t /\ h + v * t - g * t ^ 2 / 2 = 0 /\ v - g * t <= 0).
Proof.
  intros g h v t G H.
  assert (P : 0 <= v ^ 2 + 2 * g * h).
  { assert (0 <= v ^ 2) by (apply pow2_ge_0). assert (0 <= g * h) by (apply Rmult_le_pos; lra). lra. }
  pose proof (sqrt_pos (v ^ 2 + 2 * g * h)) as Q. pose proof (sqrt_sqrt _ P) as QQ.
  set (q := sqrt (v ^ 2 + 2 * g * h)) in *.
  split.
  - intros ->. assert (Vq : - v <= q).
    { destruct (Rle_dec (- v) q) as [|n]; [auto|]. exfalso. assert (0 <= g * h) by (apply Rmult_le_pos; lra). nra. }
    assert (I : 0 < / g) by (apply Rinv_0_lt_compat; auto).
    split; [|split].
    + unfold Rdiv. apply Rmult_le_pos; lra.
    + replace (h + v * ((q + v) / g) - g * ((q + v) / g) ^ 2 / 2) with ((v ^ 2 + 2 * g * h - q * q) / (2 * g)) by (field; lra).
      rewrite QQ. unfold Rdiv. replace (v ^ 2 + 2 * g * h - (v ^ 2 + 2 * g * h)) with 0 by ring. ring.
    + replace (g * ((q + v) / g)) with (q + v) by (field; lra). lra.
  - intros [T [E V]].
    assert (Z : (g * t - v - q) * (g * t - v + q) = 0).
    { transitivity (-2 * g * (h + v * t - g * t ^ 2 / 2)); [|rewrite E; ring].
      transitivity ((g * t - v) ^ 2 - q * q); [ring|]. rewrite QQ. field. }
    assert (GT : g * t = q + v).
    { apply Rmult_integral in Z. destruct Z as [Z|Z]; lra. }
    rewrite <- GT. field. lra.
Qed.
Lemma touchdown_lands : forall p s st theta t, 0 < grav p -> stone_height st <= foot_z p s theta ->
  (time_to_touchdown p s st theta = Touchdown t <-> lands p s st theta t).
Proof.
  intros p s st theta t G H. unfold foot_z in H. unfold time_to_touchdown, at_.
  unfold Rltb. destruct (Rlt_dec (nth 1 s 0 - l0 p * cos theta) (stone_height st)) as [n|_]; [lra|].
  unfold Reqb. destruct (Req_EM_T (grav p) 0) as [n|_]; [lra|].
  set (h := nth 1 s 0 - l0 p * cos theta - stone_height st) in *.
  assert (H0 : 0 <= h) by (unfold h; lra).
  pose proof (landing_root (grav p) h (nth 3 s 0) t G H0) as Root.
  set (t0 := (sqrt (nth 3 s 0 ^ 2 + 2 * grav p * h) + nth 3 s 0) / grav p) in *.
  unfold lands, foot_z, foot_x, ballistic. cbn [nth].
  assert (Zeq : nth 1 s 0 + nth 3 s 0 * t - grav p * t ^ 2 / 2 - l0 p * cos theta = stone_height st
                <-> h + nth 3 s 0 * t - grav p * t ^ 2 / 2 = 0) by (unfold h; split; intros; lra).
  rewrite Zeq.
  assert (X : nth 0 s 0 + nth 2 s 0 * t + l0 p * sin theta = nth 0 s 0 + l0 p * sin theta + nth 2 s 0 * t) by ring.
  rewrite X. rewrite <- ext_leb_r_iff, <- r_leb_ext_iff.
  destruct (andb (ext_leb_r (stone_left st) (nth 0 s 0 + l0 p * sin theta + nth 2 s 0 * t0))
                 (r_leb_ext (nth 0 s 0 + l0 p * sin theta + nth 2 s 0 * t0) (stone_right st))) eqn:B.
  - apply andb_prop in B. destruct B as [B1 B2]. split.
    + intros E. assert (T : t0 = t) by congruence. rewrite <- T in *. destruct (proj1 Root eq_refl) as [A1 [A2 A3]]. tauto.
    + intros [A1 [A2 [A3 _]]]. f_equal. symmetry. apply Root. tauto.
  - split; [discriminate|]. intros [A1 [A2 [A3 [A4 A5]]]]. exfalso.
    assert (T : t = t0) by (apply Root; tauto). rewrite <- T, A4, A5 in B. discriminate.
Qed.
Lemma touchdown_above : forall p s st theta t, 0 < grav p ->
  time_to_touchdown p s st theta = Touchdown t ->
  (forall tau, 0 < tau < t -> stone_height st < foot_z p (ballistic p s tau) theta) /\
  (stone_height st < foot_z p s theta \/ 0 < nth 3 s 0 -> 0 < t).
Proof.
  intros p s st theta t G E.
  assert (H : stone_height st <= foot_z p s theta).
  { unfold time_to_touchdown, at_, Rltb in E. unfold foot_z.
    destruct (Rlt_dec (nth 1 s 0 - l0 p * cos theta) (stone_height st)) as [n|n]; [discriminate|lra]. }
  apply touchdown_lands in E; auto. destruct E as [T [Z [V _]]].
  unfold foot_z, ballistic in *. cbn [nth] in *.
  set (h := nth 1 s 0 - l0 p * cos theta - stone_height st) in *.
  set (v := nth 3 s 0) in *. set (g := grav p) in *.
  assert (Z' : h + v * t - g * t ^ 2 / 2 = 0) by (unfold h; lra).
  assert (H0 : 0 <= h) by (unfold h; lra).
  split.
  - intros tau [A B].
    assert (E : h + v * tau - g * tau ^ 2 / 2 = (1 - tau / t) * h + g * tau * (t - tau) / 2).
    { assert (W : v = g * t / 2 - h / t) by (field_simplify_eq; [nra|lra]). rewrite W. field. lra. }
    assert (F : 0 < g * tau * (t - tau) / 2).
    { assert (0 < g * tau) by (apply Rmult_lt_0_compat; auto). assert (0 < g * tau * (t - tau)) by (apply Rmult_lt_0_compat; lra). lra. }
    assert (F2 : 0 <= (1 - tau / t) * h).
    { apply Rmult_le_pos; [|auto]. assert (tau / t <= 1); [|lra]. apply (Rmult_le_reg_r t); [lra|]. unfold Rdiv.
      rewrite Rmult_assoc, Rinv_l, Rmult_1_r, Rmult_1_l by lra. lra. }
    unfold h in *. lra.
  - intros C. destruct T as [T|T]; [auto|]. exfalso. rewrite <- T in Z', V. destruct C as [C|C].
    + assert (0 < h) by (unfold h; lra). lra.
    + lra.
Qed.

(** ** Gradients of the transitions *)
Lemma curve_at : forall n c x d i, curve n c x d -> (i < n)%nat ->
  derivable_pt_lim (fun t => nth i (c t) 0) 0 (nth i d 0) /\ nth i (c 0) 0 = nth i x 0.
Proof. intros n c x d i [E [_ [_ D]]] Hi. split; [auto|rewrite E; auto]. Qed.
Lemma stance_gradient : forall p x, nth 0 x 0 <> 0 ->
  jacobian 5 5 (stance_dynamics p) x (stance_dynamics_gradient p x).
Proof.
  intros p x N. split; [split; [reflexivity|repeat constructor]|]. intros c d C i Hi.
  assert (Ld : length d = 5%nat) by apply C. pose proof (list5 d Ld) as Ed.
  destruct (curve_at _ _ _ _ 0 C ltac:(lia)) as [D0 E0]. destruct (curve_at _ _ _ _ 1 C ltac:(lia)) as [D1 E1].
  destruct (curve_at _ _ _ _ 2 C ltac:(lia)) as [D2 E2]. destruct (curve_at _ _ _ _ 3 C ltac:(lia)) as [D3 E3].
  assert (N' : nth 0 (c 0) 0 <> 0) by (rewrite E0; auto).
  unfold stance_dynamics, stance_dynamics_gradient, at_. rewrite Ed. 
  destruct i as [|[|[|[|[|]]]]]; try lia; cbn [nth dot];
    (eapply d_eq; [repeat dd; auto|]); cbv beta; rewrite ?E0, ?E1, ?E2, ?E3; try ring; unfold Rdiv; try ring.
  field; auto.
Qed.

Lemma touchdown_gradient : forall p s theta,
  jacobian2 4 5 (fun x a => Some (touchdown_transition p x a)) s theta
    (fst (touchdown_transition_gradient p s theta)) (snd (touchdown_transition_gradient p s theta)).
Proof.
  intros p s theta. split; [split; [reflexivity|repeat constructor]|]. split; [reflexivity|].
  intros c d al b C A D. split; [exists 1; split; [lra|intros; discriminate]|]. intros i Hi.
  assert (Ld : length d = 4%nat) by apply C. pose proof (list4 d Ld) as Ed.
  destruct (curve_at _ _ _ _ 0 C ltac:(lia)) as [D0 E0]. destruct (curve_at _ _ _ _ 1 C ltac:(lia)) as [D1 E1].
  destruct (curve_at _ _ _ _ 2 C ltac:(lia)) as [D2 E2]. destruct (curve_at _ _ _ _ 3 C ltac:(lia)) as [D3 E3].
  unfold touchdown_transition, touchdown_transition_gradient, entry_of, at_. cbn [fst snd]. rewrite Ed.
  destruct i as [|[|[|[|[|]]]]]; try lia; cbn [nth dot];
    (eapply d_eq; [repeat dd; auto|]); cbv beta; rewrite ?E0, ?E1, ?E2, ?E3, ?A; unfold Rdiv; ring.
Qed.
Lemma liftoff_gradient_rest : forall p s c d, curve 5 c s d ->
  (exists e, 0 < e /\ forall t, Rabs t < e -> nth 0 (c t) 0 = l0 p) ->
  forall i, (i < 4)%nat ->
  derivable_pt_lim (fun t => nth i (liftoff_transition p (c t)) 0) 0
    (dot (nth i (liftoff_transition_gradient p s) []) d).
Proof.
  intros p s c d C [e [He R]] i Hi.
  assert (Ld : length d = 5%nat) by apply C. pose proof (list5 d Ld) as Ed.
  destruct (curve_at _ _ _ _ 1 C ltac:(lia)) as [D1 E1].
  destruct (curve_at _ _ _ _ 2 C ltac:(lia)) as [D2 E2]. destruct (curve_at _ _ _ _ 3 C ltac:(lia)) as [D3 E3].
  destruct (curve_at _ _ _ _ 4 C ltac:(lia)) as [D4 E4].
  assert (Near : forall f g l, (forall t, nth 0 (c t) 0 = l0 p -> f t = g t) -> derivable_pt_lim f 0 l -> derivable_pt_lim g 0 l).
  { intros f g l H. apply (d_near f g 0 l e He). intros t Ht. apply H, R. replace (t - 0) with t in Ht by ring. auto. }
  unfold liftoff_transition, liftoff_transition_gradient, at_. rewrite Ed.
  destruct i as [|[|[|[|]]]]; try lia; cbn [nth dot];
    (eapply Near; [intros t Ht; rewrite ?Ht; reflexivity|]);
    (eapply d_eq; [repeat dd; auto|]); cbv beta; rewrite ?E1, ?E2, ?E3, ?E4; unfold Rdiv; ring.
Qed.
(** The r-derivative of the liftoff velocity is left out of the code's gradient. *)
Lemma liftoff_gradient_wrong : forall p s, length s = 5%nat -> nth 0 s 0 = l0 p ->
  cos (nth 1 s 0) * nth 3 s 0 <> 0 ->
  ~ jacobian 5 4 (liftoff_transition p) s (liftoff_transition_gradient p s).
Proof.
  intros p s L R N [_ J].
  set (c := fun t => [nth 0 s 0 + t; nth 1 s 0; nth 2 s 0; nth 3 s 0; nth 4 s 0]).
  assert (C : curve 5 c s [1; 0; 0; 0; 0]).
  { split; [|split; [reflexivity|split; [reflexivity|]]].
    - unfold c. rewrite (list5 s L) at 6. f_equal. ring.
    - intros i Hi. unfold c. destruct i as [|[|[|[|[|]]]]]; try lia; cbn [nth];
        (eapply d_eq; [repeat dd|ring]). }
  assert (D' : derivable_pt_lim (fun t => nth 2 (liftoff_transition p (c t)) 0) 0 (- cos (nth 1 s 0) * nth 3 s 0)).
  { unfold c, liftoff_transition, at_. cbn [nth]. eapply d_eq; [repeat dd|]. cbv beta. ring. }
  pose proof (J c _ C 2%nat ltac:(lia)) as D.
  pose proof (uniqueness_limite _ _ _ _ D D') as U.
  unfold liftoff_transition_gradient in U. cbn [nth dot] in U. apply N. lra.
Qed.

(** ** From apex to touchdown and from liftoff to apex *)
Lemma near_pos : forall f l, derivable_pt_lim f 0 l -> 0 < f 0 -> exists e, 0 < e /\ forall t, Rabs t < e -> 0 < f t.
Proof.
  intros f l D P.
  assert (C : continuity_pt f 0) by (apply derivable_continuous_pt; exists l; exact D).
  destruct (C (f 0) P) as [e [He H]]. exists e. split; [auto|]. intros t Ht.
  destruct (Req_dec t 0) as [->|n]; [auto|].
  specialize (H t). unfold dist in H. cbn in H. unfold R_dist in H.
  assert (Q : Rabs (f t - f 0) < f 0).
  { apply H. split; [split; [exact I|auto]|]. replace (t - 0) with t by ring. auto. }
  apply Rabs_def2 in Q. lra.
Qed.
Definition fall (p : slip) (z a : R) : R := sqrt (2 * grav p * (z - l0 p * cos a)) / grav p.
Lemma touchdown_value : forall p apex a, 0 < grav p -> 0 <= nth 1 apex 0 - l0 p * cos a ->
  exists o, apex_to_touchdown_gradient p apex a = Some o /\
  td_t o = fall p (nth 1 apex 0) a /\
  td_x o = [nth 0 apex 0 + nth 2 apex 0 * fall p (nth 1 apex 0) a; l0 p * cos a; nth 2 apex 0;
            - grav p * fall p (nth 1 apex 0) a].
Proof.
  intros p apex a G H. unfold apex_to_touchdown_gradient, time_to_touchdown, at_. cbn [nth stone_height stone_left stone_right ext_leb_r r_leb_ext andb].
  unfold Rltb. destruct (Rlt_dec (nth 1 apex 0 - l0 p * cos a) 0) as [n|_]; [lra|].
  unfold Reqb. destruct (Req_EM_T (grav p) 0) as [n|_]; [lra|].
  assert (E : (sqrt (0 ^ 2 + 2 * grav p * (nth 1 apex 0 - l0 p * cos a - 0)) + 0) / grav p = fall p (nth 1 apex 0) a).
  { unfold fall. rewrite Rplus_0_r. do 2 f_equal. ring. }
  rewrite E. eexists. split; [reflexivity|]. split; reflexivity.
Qed.
Lemma sqrt_two_g : forall g h, 0 < g -> 0 < h -> sqrt (2 * g * h) = g * sqrt (2 / g) * sqrt h.
Proof.
  intros g h G H.
  assert (Pg : 0 < 2 / g) by (unfold Rdiv; apply Rmult_lt_0_compat; [lra|apply Rinv_0_lt_compat; auto]).
  replace (2 * g * h) with ((g * g) * ((2 / g) * h)) by (field; lra).
  assert (A : 0 <= g * g) by nra. assert (B : 0 <= 2 / g * h) by (apply Rmult_le_pos; lra).
  rewrite (sqrt_mult _ _ A B). rewrite (sqrt_mult (2 / g) h) by lra.
  rewrite sqrt_square by lra. ring.
Qed.
Lemma apex_touchdown_gradient : forall p apex a o, 0 < grav p -> 0 < nth 1 apex 0 - l0 p * cos a ->
  apex_to_touchdown_gradient p apex a = Some o ->
  jacobian2 3 5 (touchdown_outputs p) apex a (td_dx_dapex o ++ [td_dt_dapex o]) (td_dx_dangle o ++ [td_dt_dangle o]).
Proof.
  intros p apex a o G H E.
  assert (Eo : td_t o = fall p (nth 1 apex 0) a).
  { destruct (touchdown_value p apex a G ltac:(lra)) as [o' [E' [T _]]]. rewrite E in E'. injection E' as <-. exact T. }
  assert (Eo' : o = mkToTouchdown (td_dx_dapex o) (td_dx_dangle o) (td_x o) (td_dt_dapex o) (td_dt_dangle o) (td_t o)) by (destruct o; reflexivity).
  unfold apex_to_touchdown_gradient, time_to_touchdown, at_ in E.
  cbn [nth stone_height stone_left stone_right ext_leb_r r_leb_ext andb] in E.
  unfold Rltb in E. destruct (Rlt_dec (nth 1 apex 0 - l0 p * cos a) 0) as [n|_]; [lra|].
  unfold Reqb in E. destruct (Req_EM_T (grav p) 0) as [n|_]; [lra|].
  injection E as E. rewrite <- E in Eo. cbn [td_t] in Eo. rewrite Eo in E. rewrite <- E. clear E Eo Eo' o.
  cbn [td_dx_dapex td_dx_dangle td_dt_dapex td_dt_dangle app].
  split; [split; [reflexivity|repeat constructor]|]. split; [reflexivity|].
  intros c d al b C A D.
  assert (Ld : length d = 3%nat) by apply C.
  destruct (curve_at _ _ _ _ 0 C ltac:(lia)) as [D0 E0]. destruct (curve_at _ _ _ _ 1 C ltac:(lia)) as [D1 E1].
  destruct (curve_at _ _ _ _ 2 C ltac:(lia)) as [D2 E2].
  assert (Dh : derivable_pt_lim (fun t => nth 1 (c t) 0 - l0 p * cos (al t)) 0 (nth 1 d 0 + l0 p * sin a * b)).
  { eapply d_eq; [repeat dd|]. cbv beta. rewrite A. ring. }
  assert (Ph : 0 < nth 1 (c 0) 0 - l0 p * cos (al 0)) by (rewrite E1, A; auto).
  destruct (near_pos _ _ Dh Ph) as [e [He P]].
  assert (V : forall t, Rabs t < e -> touchdown_outputs p (c t) (al t) =
    Some [nth 0 (c t) 0 + nth 2 (c t) 0 * fall p (nth 1 (c t) 0) (al t); l0 p * cos (al t); nth 2 (c t) 0;
            - grav p * fall p (nth 1 (c t) 0) (al t); fall p (nth 1 (c t) 0) (al t)]).
  { intros t Ht. specialize (P t Ht). destruct (touchdown_value p (c t) (al t) G ltac:(lra)) as [o [E [T X]]].
    unfold touchdown_outputs. rewrite E, T, X. reflexivity. }
  split.
  - exists e. split; [auto|]. intros t Ht. rewrite V by auto. discriminate.
  - intros i Hi.
    set (q := sqrt (2 / grav p)). set (rt := sqrt (nth 1 apex 0 - l0 p * cos a)).
    assert (Prt : 0 < rt) by (apply sqrt_lt_R0; auto).
    assert (Pq : 0 < q).
    { apply sqrt_lt_R0. unfold Rdiv. apply Rmult_lt_0_compat; [lra|apply Rinv_0_lt_compat; auto]. }
    assert (Qq : q * q = 2 / grav p).
    { apply sqrt_sqrt. unfold Rdiv. apply Rmult_le_pos; [lra|]. left. apply Rinv_0_lt_compat. auto. }
    assert (Df : derivable_pt_lim (fun t => fall p (nth 1 (c t) 0) (al t)) 0
                   (q * (1 / 2) / rt * nth 1 d 0 + q * l0 p * sin a / (2 * rt) * b)).
    { unfold fall. eapply d_eq.
      - apply (d_divc (fun t => sqrt (2 * grav p * (nth 1 (c t) 0 - l0 p * cos (al t))))).
        apply (d_sqrt (fun t => 2 * grav p * (nth 1 (c t) 0 - l0 p * cos (al t)))).
        + apply Rmult_lt_0_compat; [lra|exact Ph].
        + apply (derivable_pt_lim_mult (fun _ => 2 * grav p)); [apply derivable_pt_lim_const|exact Dh].
      - cbv beta. rewrite E1, A. rewrite sqrt_two_g by auto. fold q rt.
        assert (Z : / grav p = q * q / 2) by (rewrite Qq; field; lra).
        transitivity (/ grav p * (/ (q * rt)) * (nth 1 d 0 + l0 p * sin a * b)).
        { field. split; [lra|]. split; lra. }
        rewrite Z. field. split; lra. }
    destruct d as [|d0 [|d1 [|d2 [|]]]]; try discriminate. cbn [nth] in D0, D1, D2, Df.
    assert (Fa : fall p (nth 1 (c 0) 0) (al 0) = fall p (nth 1 apex 0) a) by (rewrite E1, A; reflexivity).
    eapply (d_near _ _ 0 _ e He).
    { intros t Ht. replace (t - 0) with t in Ht by ring. rewrite (V t Ht). cbn [entry_of]. reflexivity. }
    destruct i as [|[|[|[|[|]]]]]; try lia; cbn [nth dot];
    (eapply d_eq; [repeat dd; auto|]); cbv beta; rewrite ?Fa, ?E0, ?E1, ?E2, ?A; try ring; fold q; fold rt; unfold Rdiv; ring.
Qed.
Lemma liftoff_apex_gradient : forall p s o, 0 < nth 3 s 0 -> grav p <> 0 ->
  liftoff_to_apex_gradient p s = Some o ->
  wfm 4 4 (ap_dx o ++ [ap_dt o]) /\
  forall c d, curve 4 c s d ->
  (exists e, 0 < e /\ forall t, Rabs t < e -> apex_outputs p (c t) <> None) /\
  forall i, (i < 4)%nat ->
  derivable_pt_lim (fun t => entry_of (apex_outputs p (c t)) i) 0 (dot (nth i (ap_dx o ++ [ap_dt o]) []) d).
Proof.
  intros p s o V G E. unfold liftoff_to_apex_gradient, at_ in E. unfold Rltb in E.
  destruct (Rlt_dec (nth 3 s 0) 0) as [n|_]; [lra|]. injection E as <-. cbn [ap_dx ap_dt app].
  split; [split; [reflexivity|repeat constructor]|]. intros c d C.
  assert (Ld : length d = 4%nat) by apply C. pose proof (list4 d Ld) as Ed.
  destruct (curve_at _ _ _ _ 0 C ltac:(lia)) as [D0 E0]. destruct (curve_at _ _ _ _ 1 C ltac:(lia)) as [D1 E1].
  destruct (curve_at _ _ _ _ 2 C ltac:(lia)) as [D2 E2]. destruct (curve_at _ _ _ _ 3 C ltac:(lia)) as [D3 E3].
  destruct (near_pos _ _ D3 ltac:(cbv beta; rewrite E3; auto)) as [e [He P]].
  assert (W : forall t, Rabs t < e -> apex_outputs p (c t) =
    Some [nth 0 (c t) 0 + nth 2 (c t) 0 * (nth 3 (c t) 0 / grav p); nth 1 (c t) 0 + nth 3 (c t) 0 ^ 2 / (2 * grav p);
          nth 2 (c t) 0; nth 3 (c t) 0 / grav p]).
  { intros t Ht. specialize (P t Ht). cbv beta in P. unfold apex_outputs, liftoff_to_apex_gradient, at_, Rltb.
    destruct (Rlt_dec (nth 3 (c t) 0) 0) as [n|_]; [lra|]. reflexivity. }
  split.
  - exists e. split; [auto|]. intros t Ht. rewrite W by auto. discriminate.
  - intros i Hi. eapply (d_near _ _ 0 _ e He).
    { intros t Ht. replace (t - 0) with t in Ht by ring. rewrite (W t Ht). cbn [entry_of]. reflexivity. }
    rewrite Ed. destruct i as [|[|[|[|]]]]; try lia; cbn [nth dot];
    (eapply d_eq; [repeat dd; auto|]); cbv beta; rewrite ?E0, ?E1, ?E2, ?E3; field; auto.
Qed.
