(** Mechanics of the pole. *)

Require Import Reals List Arith Bool Lia Lra Psatz.
Require Import Verif.Vec Verif.VecFacts Verif.ModelMisc Verif.SpecMisc Verif.SpecSlip Verif.ModelPlants
  Verif.SpecPlants Verif.ProofSlip Verif.ProofPlants Verif.ProofPlants2 Verif.ProofPlants3.
Import ListNotations.
Open Scope R_scope.
Ltac dd := ProofSlip.dd.

Lemma pole_wf : forall p x y z, wfm 5 5 (pole_M p x y z).
Proof. intros. split; [reflexivity|repeat constructor]. Qed.

Lemma vec5_inv : forall a b c d e a' b' c' d' e' : R, [a; b; c; d; e] = [a'; b'; c'; d'; e'] ->
  a = a' /\ b = b' /\ c = c' /\ d = d' /\ e = e'.
Proof. intros. inversion H. auto. Qed.

Lemma sum_squares : forall a b c, 0 < a -> 0 < b -> 0 < c -> forall x y z, a * x ^ 2 + b * y ^ 2 + c * z ^ 2 = 0 ->
  x = 0 /\ y = 0 /\ z = 0.
Proof.
  intros a b c A B C x y z E.
  pose proof (pow2_ge_0 x). pose proof (pow2_ge_0 y). pose proof (pow2_ge_0 z).
  assert (0 <= a * x ^ 2) by (apply Rmult_le_pos; lra). assert (0 <= b * y ^ 2) by (apply Rmult_le_pos; lra).
  assert (0 <= c * z ^ 2) by (apply Rmult_le_pos; lra).
  assert (K : forall k v, 0 < k -> k * v ^ 2 = 0 -> v = 0).
  { intros k v Hk Ez. apply Rmult_integral in Ez. destruct Ez as [Ez|Ez]; [lra|].
    replace (v ^ 2) with (v * v) in Ez by ring. apply Rmult_integral in Ez. destruct Ez; auto. }
  split; [apply (K a); lra|]. split; [apply (K b); lra|apply (K c); lra].
Qed.

Lemma pole_regular : forall p x y z, 0 < po_ms p -> 0 < po_me p -> 0 < z ->
  forall v, length v = 5%nat -> mv (pole_M p x y z) v = zeros 5 -> v = zeros 5.
Proof.
  intros p x y z Hs He Hz v L E. destruct v as [|a [|b [|c [|d [|e [|]]]]]]; try discriminate L.
  cbv [pole_M mv map dot zeros repeat] in E. apply vec5_inv in E. destruct E as [E0 [E1 [E2 [E3 E4]]]].
  set (ms := po_ms p) in *. set (me := po_me p) in *.
  set (w := c - (x * d + y * e) / z).
  assert (N : z <> 0) by lra.
  assert (S : me * a ^ 2 + me * b ^ 2 + me * c ^ 2 + (ms * (a + d) ^ 2 + ms * (b + e) ^ 2 + ms * w ^ 2) = 0).
  { transitivity (a * ((ms + me) * a + (0 * b + (0 * c + (ms * d + (0 * e + 0)))))
      + b * (0 * a + ((ms + me) * b + (0 * c + (0 * d + (ms * e + 0)))))
      + c * (0 * a + (0 * b + ((ms + me) * c + (- ms * x / z * d + (- ms * y / z * e + 0)))))
      + d * (ms * a + (0 * b + (- ms * x / z * c + ((ms + ms * (x / z) ^ 2) * d + (ms * x * y / z ^ 2 * e + 0)))))
      + e * (0 * a + (ms * b + (- ms * y / z * c + (ms * x * y / z ^ 2 * d + ((ms + ms * (y / z) ^ 2) * e + 0)))))).
    - unfold w. field. auto.
    - rewrite E0, E1, E2, E3, E4. ring. }
  assert (P : forall k v, 0 < k -> 0 <= k * v ^ 2) by (intros; apply Rmult_le_pos; [lra|apply pow2_ge_0]).
  pose proof (P ms (a + d) Hs). pose proof (P ms (b + e) Hs). pose proof (P ms w Hs).
  pose proof (P me a He). pose proof (P me b He). pose proof (P me c He).
  destruct (sum_squares me me me He He He a b c) as [A [B C]]; [lra|].
  destruct (sum_squares ms ms ms Hs Hs Hs (a + d) (b + e) w) as [A' [B' _]]; [lra|].
  rewrite A, B, C. replace d with 0 by lra. replace e with 0 by lra. reflexivity.
Qed.

(** The dynamics are defined for positive masses wherever the rod is not horizontal. *)
Lemma pole_defined : forall solve p x y a b c xd yd u0 u1 u2, lin_solve_ok solve -> 0 < po_ms p -> 0 < po_me p ->
  x ^ 2 + y ^ 2 < po_len p ^ 2 ->
  exists d, pole_dynamics solve p [x; y; a; b; c; xd; yd] [u0; u1; u2] = Some d /\ length d = 7%nat.
Proof.
  intros solve p x y a b c xd yd u0 u1 u2 [S1 S2] Hs He Hl. unfold pole_dynamics.
  destruct (Rlt_dec 0 (po_len p ^ 2 - x ^ 2 - y ^ 2)) as [L|L]; [|exfalso; lra].
  set (z := sqrt (po_len p ^ 2 - x ^ 2 - y ^ 2)). assert (Hz : 0 < z) by (apply sqrt_lt_R0; auto).
  destruct (S2 5%nat (pole_M p x y z) (vsub [u0; u1; u2; 0; 0] (pole_C p x y z xd yd))) as [v Ev].
  - apply pole_wf.
  - reflexivity.
  - apply pole_regular; auto.
  - rewrite Ev. eexists. split; [reflexivity|]. 
    destruct (S1 5%nat _ (vsub [u0; u1; u2; 0; 0] (pole_C p x y z xd yd)) _ (pole_wf p x y z) eq_refl Ev) as [Lv _]. rewrite app_length, Lv. reflexivity.
Qed.

(** The equations that the accelerations solve. *)
Lemma pole_equations : forall solve p s u d, lin_solve_ok solve -> pole_dynamics solve p s u = Some d ->
  exists x y a b c xd yd u0 u1 u2 d2 d3 d4 d5 d6,
    s = [x; y; a; b; c; xd; yd] /\ u = [u0; u1; u2] /\ d = [xd; yd; d2; d3; d4; d5; d6] /\
    0 < po_len p ^ 2 - x ^ 2 - y ^ 2 /\
    let z := sqrt (po_len p ^ 2 - x ^ 2 - y ^ 2) in
    mv (pole_M p x y z) [d2; d3; d4; d5; d6] = vsub [u0; u1; u2; 0; 0] (pole_C p x y z xd yd).
Proof.
  intros solve p s u d [S1 _] F. 
  destruct s as [|x [|y [|a [|b [|c [|xd [|yd [|]]]]]]]]; try discriminate F.
  destruct u as [|u0 [|u1 [|u2 [|]]]]; try discriminate F.
  unfold pole_dynamics in F. destruct (Rlt_dec 0 (po_len p ^ 2 - x ^ 2 - y ^ 2)) as [L|L]; [|discriminate F].
  set (z := sqrt (po_len p ^ 2 - x ^ 2 - y ^ 2)) in *.
  destruct (solve (pole_M p x y z) _) as [v|] eqn:Ev; [|discriminate F].
  destruct (S1 5%nat _ (vsub [u0; u1; u2; 0; 0] (pole_C p x y z xd yd)) _ (pole_wf p x y z) eq_refl Ev) as [Lv Mv]. apply Some_vec in F.
  destruct v as [|d2 [|d3 [|d4 [|d5 [|d6 [|]]]]]]; try discriminate Lv.
  exists x, y, a, b, c, xd, yd, u0, u1, u2, d2, d3, d4, d5, d6. rewrite <- F. auto.
Qed.

Section PoleMotion.
Variables (p : pole) (x y a b c xd yd d2 d3 d4 d5 d6 : R) (X : R -> vec).
Hypothesis C : curve 7 X [x; y; a; b; c; xd; yd] [xd; yd; d2; d3; d4; d5; d6].
Hypothesis L : 0 < po_len p ^ 2 - x ^ 2 - y ^ 2.
Let s := [x; y; a; b; c; xd; yd].
Let z := pole_z p s.
(** The vertical acceleration of B relative to A. *)
Let az := - (xd ^ 2 + yd ^ 2 + x * d5 + y * d6) / z - (x * xd + y * yd) ^ 2 / z ^ 3.

Lemma pole_zpos : 0 < z.
Proof. unfold z, s, pole_z. cbn [nth]. apply sqrt_lt_R0. auto. Qed.
Lemma pole_zsq : z ^ 2 = po_len p ^ 2 - x ^ 2 - y ^ 2.
Proof. unfold z, s, pole_z. cbn [nth]. rewrite <- Rsqr_pow2. apply Rsqr_sqrt. lra. Qed.

Lemma pole_height : derivable_pt_lim (fun t => pole_z p (X t)) 0 (pole_zdot p s).
Proof.
  curves C. at_index D 0%nat. at_index D 1%nat. cbn [nth] in Di, Di0.
  assert (X0 : nth 0 (X 0) 0 = x) by (rewrite E0; auto). assert (X1 : nth 1 (X 0) 0 = y) by (rewrite E0; auto).
  unfold pole_z. eapply d_eq; [repeat dd|].
  - rewrite X0, X1. auto.
  - cbv beta. rewrite X0, X1. unfold pole_zdot. fold z. unfold s. cbn [nth].
    change (sqrt (po_len p ^ 2 - x ^ 2 - y ^ 2)) with z. pose proof pole_zpos. field. lra.
Qed.
Lemma pole_rise : derivable_pt_lim (fun t => pole_zdot p (X t)) 0 az.
Proof.
  pose proof pole_height as H. curves C. at_index D 0%nat. at_index D 1%nat. at_index D 5%nat. at_index D 6%nat.
  cbn [nth] in Di, Di0, Di1, Di2.
  assert (X0 : nth 0 (X 0) 0 = x) by (rewrite E0; auto). assert (X1 : nth 1 (X 0) 0 = y) by (rewrite E0; auto).
  assert (X5 : nth 5 (X 0) 0 = xd) by (rewrite E0; auto). assert (X6 : nth 6 (X 0) 0 = yd) by (rewrite E0; auto).
  pose proof pole_zpos as Z.
  unfold pole_zdot. eapply d_eq; [repeat dd|].
  - rewrite E0. fold s. fold z. lra.
  - cbv beta. rewrite X0, X1, X5, X6, E0. fold s. fold z. unfold az, pole_zdot. fold z. unfold s. cbn [nth]. field. lra.
Qed.
Lemma pole_accA : velocity 3 (fun t => pole_vA (X t)) [d2; d3; d4].
Proof.
  curves C. at_index D 2%nat. at_index D 3%nat. at_index D 4%nat. cbn [nth] in Di, Di0, Di1.
  split; [reflexivity|]. split; [intros t; rewrite (EX t); reflexivity|]. intros i Hi.
  destruct i as [|[|[|]]]; try lia;
    (eapply d_ext; [|intros t; rewrite (EX t); unfold pole_vA; cbn [slice firstn skipn nth]; reflexivity]; cbn [nth]; assumption).
Qed.
Lemma pole_accB : velocity 3 (fun t => pole_vB p (X t)) [d2 + d5; d3 + d6; d4 + az].
Proof.
  pose proof pole_rise as Rz.
  curves C. at_index D 2%nat. at_index D 3%nat. at_index D 4%nat. at_index D 5%nat. at_index D 6%nat.
  cbn [nth] in Di, Di0, Di1, Di2, Di3.
  assert (EQ : forall t, pole_vB p (X t) = [nth 2 (X t) 0 + nth 5 (X t) 0; nth 3 (X t) 0 + nth 6 (X t) 0; nth 4 (X t) 0 + pole_zdot p (X t)]).
  { intros t. unfold pole_vB, pole_vA.
    replace (slice 2 3 (X t)) with [nth 2 (X t) 0; nth 3 (X t) 0; nth 4 (X t) 0] by (rewrite (EX t); reflexivity). reflexivity. }
  split; [reflexivity|]. split; [intros t; rewrite (EQ t); reflexivity|]. intros i Hi.
  destruct i as [|[|[|]]]; try lia;
    (eapply d_ext; [|intros t; rewrite (EQ t); cbn [nth]; reflexivity]; cbn [nth]; repeat dd).
Qed.

Variables (u0 u1 u2 : R).
Hypothesis E : mv (pole_M p x y z) [d2; d3; d4; d5; d6] = vsub [u0; u1; u2; 0; 0] (pole_C p x y z xd yd).

(** The sum of the forces that act on the two masses, apart from the rod. *)
Lemma pole_rows : (po_ms p + po_me p) * d2 + po_ms p * d5 = u0 /\ (po_ms p + po_me p) * d3 + po_ms p * d6 = u1 /\
  po_me p * d4 + po_ms p * (d4 + az) = u2 - (po_me p + po_ms p) * po_grav p - 4 * po_ms p * (x * y * xd * yd) / z ^ 3 /\
  po_ms p * (d2 + d5) = po_ms p * (po_grav p + (d4 + az)) * x / z /\
  po_ms p * (d3 + d6) = po_ms p * (po_grav p + (d4 + az)) * y / z.
Proof.
  pose proof pole_zpos as Z. pose proof pole_zsq as Q.
  cbv [pole_M pole_C mv map dot vsub map2] in E. apply vec5_inv in E. destruct E as [R0 [R1 [R2 [R3 R4]]]].
  assert (N : z <> 0) by lra.
  split; [lra|]. split; [lra|].
  replace (po_len p ^ 2 - y ^ 2) with (z ^ 2 + x ^ 2) in R2 by lra.
  replace (po_len p ^ 2 - x ^ 2) with (z ^ 2 + y ^ 2) in R2 by lra.
  clearbody z. unfold az.
  split; [|split].
  - apply Rminus_diag_uniq. apply Rminus_diag_eq in R2. rewrite <- R2. field. auto.
  - apply Rminus_diag_uniq. apply Rminus_diag_eq in R3. rewrite <- R3. field. auto.
  - apply Rminus_diag_uniq. apply Rminus_diag_eq in R4. rewrite <- R4. field. auto.
Qed.
Lemma pole_law : 0 < po_ms p -> (pole_newton p s [u0; u1; u2] X <-> x * y * xd * yd = 0).
Proof.
  intros Hs. pose proof pole_rows as [R0 [R1 [R2 [R3 R4]]]]. pose proof pole_zpos as Z. split.
  - intros [aA [aB [tau [VA [VB [NA NB]]]]]]. fold z in NA, NB. unfold s in NA, NB. cbn [nth] in NA, NB.
    destruct VA as [LA [_ VA]]. destruct VB as [LB [_ VB]].
    pose proof pole_accA as [_ [_ AA]]. pose proof pole_accB as [_ [_ AB]].
    pose proof (uniqueness_limite _ _ _ _ (VA 2%nat ltac:(lia)) (AA 2%nat ltac:(lia))) as QA.
    pose proof (uniqueness_limite _ _ _ _ (VB 2%nat ltac:(lia)) (AB 2%nat ltac:(lia))) as QB.
    cbn [nth] in QA, QB.
    destruct aA as [|aA0 [|aA1 [|aA2 [|]]]]; try discriminate LA. destruct aB as [|aB0 [|aB1 [|aB2 [|]]]]; try discriminate LB.
    cbn [vscale vadd map map2 nth] in NA, NB, QA, QB. 
    assert (N2 : po_me p * aA2 = u2 + - po_me p * po_grav p + tau * z) by (inversion NA; auto).
    assert (M2 : po_ms p * aB2 = - po_ms p * po_grav p + - tau * z) by (inversion NB; auto).
    rewrite QA in N2. rewrite QB in M2.
    assert (K : 4 * po_ms p * (x * y * xd * yd) / z ^ 3 = 0) by lra.
    assert (z ^ 3 <> 0) by (apply pow_nonzero; lra).
    assert (K' : 4 * po_ms p * (x * y * xd * yd) = 0).
    { transitivity (4 * po_ms p * (x * y * xd * yd) / z ^ 3 * z ^ 3); [field; lra|rewrite K; ring]. }
    apply Rmult_integral in K'. destruct K' as [K'|K']; [lra|auto].
  - intros K. rewrite K in R2. replace (4 * po_ms p * 0 / z ^ 3) with 0 in R2 by (unfold Rdiv; ring).
    exists [d2; d3; d4], [d2 + d5; d3 + d6; d4 + az], (- po_ms p * (po_grav p + (d4 + az)) / z).
    split; [apply pole_accA|]. split; [apply pole_accB|]. fold z. unfold s. cbn [nth vscale vadd map map2].
    assert (T : forall w, - po_ms p * (po_grav p + (d4 + az)) / z * w = - (po_ms p * (po_grav p + (d4 + az)) * w / z)).
    { intros. field. lra. }
    assert (T' : forall w, - (- po_ms p * (po_grav p + (d4 + az)) / z) * w = po_ms p * (po_grav p + (d4 + az)) * w / z).
    { intros. field. lra. }
    rewrite !T, !T', <- R3, <- R4.
    replace (po_ms p * (po_grav p + (d4 + az)) * z / z) with (po_ms p * (po_grav p + (d4 + az))) by (field; lra).
    split; entries; lra.
Qed.
End PoleMotion.
