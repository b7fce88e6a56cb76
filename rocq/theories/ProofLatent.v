(** The losses of the learner in latent space. *)

Require Import Reals List Bool Arith ZArith Lra Lia.
Require Import Verif.Vec Verif.VecFacts Verif.SpecCore Verif.ModelGrad Verif.ModelNet Verif.ModelLyapunov
  Verif.SpecLyapunov Verif.ModelSystems Verif.ModelDynLearn Verif.SpecDynLearn Verif.ModelLatent Verif.SpecLatent
  Verif.ProofLyapunov Verif.ProofDynLearn Verif.ProofDynLearn2.
Import ListNotations.
Open Scope R_scope.

Lemma vsum_cons : forall a v, vsum (a :: v) = a + vsum v.
Proof. reflexivity. Qed.

(** ** The schedule of the weight *)
Lemma sigmoid_range : forall x, 0 < sigmoid x < 1.
Proof.
  intros x. unfold sigmoid. assert (P := exp_pos (- x)). split; [apply Rinv_0_lt_compat; lra|].
  rewrite <- Rinv_1 at 2. apply Rinv_lt_contravar; lra.
Qed.
Lemma sigmoid_incr : forall x y, x < y -> sigmoid x < sigmoid y.
Proof.
  intros x y H. unfold sigmoid. assert (P := exp_pos (- x)). assert (Q := exp_pos (- y)).
  assert (E : exp (- y) < exp (- x)) by (apply exp_increasing; lra).
  apply Rinv_lt_contravar; [apply Rmult_lt_0_compat; lra|lra].
Qed.
Lemma sigmoid_zero : sigmoid 0 = / 2.
Proof. unfold sigmoid. rewrite Ropp_0, exp_0. replace (1 + 1) with 2 by ring. reflexivity. Qed.
Lemma anneal_spec : forall lo up center steps, lo < up -> (0 < steps)%Z ->
  (forall k, lo < anneal lo up center steps k < up) /\
  (forall j k, (j < k)%nat -> anneal lo up center steps j < anneal lo up center steps k) /\
  (forall k, Z.of_nat k = center -> anneal lo up center steps k = (lo + up) / 2).
Proof.
  intros lo up center steps H S. unfold anneal. split; [|split].
  - intros k. destruct (sigmoid_range ((INR k - IZR center) / IZR steps)) as [A B]. nra.
  - intros j k Hjk. apply IZR_lt in S.
    assert (E : sigmoid ((INR j - IZR center) / IZR steps) < sigmoid ((INR k - IZR center) / IZR steps)).
    { apply sigmoid_incr. apply lt_INR in Hjk. apply Rmult_lt_compat_r; [apply Rinv_0_lt_compat; lra|lra]. }
    apply Rplus_lt_compat_l, Rmult_lt_compat_l; lra.
  - intros k <-. rewrite INR_IZR_INZ. replace (IZR (Z.of_nat k) - IZR (Z.of_nat k)) with 0 by ring.
    unfold Rdiv at 1. rewrite Rmult_0_l, sigmoid_zero. field.
Qed.

(** ** Divergence *)
Lemma exp_ge : forall v, 1 + v <= exp v /\ (exp v = 1 + v -> v = 0).
Proof.
  intros v. destruct (Req_dec v 0) as [->|N]; [rewrite exp_0; split; intros; lra|].
  assert (E := exp_ineq1 v N). split; intros; lra.
Qed.
Lemma kl_coord_spec : forall m v, 0 <= kl_coordinate m v /\ (kl_coordinate m v = 0 <-> m = 0 /\ v = 0).
Proof.
  intros m v. unfold kl_coordinate. destruct (exp_ge v) as [A B]. assert (Q := pow2_ge_0 m). split; [lra|]. split.
  - intros E. assert (E1 : m ^ 2 = 0) by lra. assert (E2 : exp v = 1 + v) by lra. split; [nra|auto].
  - intros [-> ->]. rewrite exp_0. lra.
Qed.
Lemma kl_one_sum : forall mu lv, kl_one mu lv = vsum (map2 kl_coordinate mu lv).
Proof.
  unfold kl_one. induction mu as [|m mu IH]; intros [|v lv]; cbn [map2]; try (cbn; lra).
  rewrite !vsum_cons. rewrite <- IH. unfold kl_coordinate. lra.
Qed.
Lemma kl_list : forall mu lv, Forall (fun z => 0 <= z) (map2 kl_coordinate mu lv).
Proof.
  induction mu as [|m mu IH]; intros [|v lv]; cbn; constructor; auto. apply kl_coord_spec.
Qed.
Lemma kl_one_spec : forall mu lv, length mu = length lv ->
  0 <= kl_one mu lv /\ (kl_one mu lv = 0 <-> Forall (fun m => m = 0) mu /\ Forall (fun v => v = 0) lv).
Proof.
  intros mu lv E. rewrite kl_one_sum. destruct (sum_nonneg _ (kl_list mu lv)) as [P Z]. split; [auto|].
  rewrite Z. clear P Z. revert lv E. induction mu as [|m mu IH]; intros [|v lv] E; try discriminate; cbn.
  - split; auto.
  - injection E as E. rewrite !Forall_cons_iff, IH by auto. rewrite (proj2 (kl_coord_spec m v)). tauto.
Qed.
Lemma mean_nonneg : forall v, v <> [] -> Forall (fun z => 0 <= z) v ->
  exists a, mean v = Some a /\ a = average v /\ 0 <= a /\ (a = 0 <-> Forall (fun z => z = 0) v).
Proof.
  intros v Ne F. exists (average v). unfold mean. destruct v as [|x v]; [contradiction|]. split; [reflexivity|].
  split; [reflexivity|]. destruct (sum_nonneg _ F) as [P Z]. rewrite <- Z. unfold average.
  assert (Q : 0 < INR (length (x :: v))) by (apply lt_0_INR; cbn; lia).
  split; [apply Rmult_le_pos; [auto|]; left; apply Rinv_0_lt_compat; auto|]. split; intros E.
  - apply Rmult_eq_reg_r with (/ INR (length (x :: v))); [|apply Rinv_neq_0_compat; lra]. unfold Rdiv in E. lra.
  - rewrite E. unfold Rdiv. ring.
Qed.
Lemma kl_spec : forall T k codes, codes <> [] -> Forall (fun c => length (fst c) = length (snd c)) codes ->
  exists l, kl_loss T k codes = Some (kl_weight T k * l) /\
    l = average (map (fun c => vsum (map2 kl_coordinate (fst c) (snd c))) codes) /\ 0 <= l /\
    (l = 0 <-> Forall (fun c => Forall (fun m => m = 0) (fst c) /\ Forall (fun v => v = 0) (snd c)) codes).
Proof.
  intros T k codes Ne F. unfold kl_loss.
  destruct (mean_nonneg (map (fun c => kl_one (fst c) (snd c)) codes)) as (a & E & Ea & P & Z).
  - destruct codes; [contradiction|discriminate].
  - apply Forall_map. eapply Forall_impl; [|exact F]. intros c H. apply kl_one_spec. auto.
  - rewrite E. exists a. split; [reflexivity|]. split.
    + rewrite Ea. f_equal. apply map_ext. intros c. apply kl_one_sum.
    + split; [auto|]. rewrite Z, Forall_map. clear - F. split; intros G.
      * rewrite Forall_forall in *. intros c Hc. apply kl_one_spec; auto.
      * rewrite Forall_forall in *. intros c Hc. apply kl_one_spec; auto.
Qed.

(** ** Cross entropy *)
Lemma ln_le_sub : forall t, 0 < t -> ln t <= t - 1 /\ (ln t = t - 1 -> t = 1).
Proof.
  intros t H. destruct (exp_ge (ln t)) as [A B]. rewrite exp_ln in A, B by auto. split; [lra|].
  intros E. assert (ln t = 0) by (apply B; lra). lra.
Qed.
Lemma ln_quot : forall a b, 0 < a -> 0 < b -> ln (a / b) = ln a - ln b.
Proof. intros a b A B. unfold Rdiv. rewrite ln_mult, ln_Rinv; [ring| | |]; auto. apply Rinv_0_lt_compat; auto. Qed.
Definition entropy (y : R) : R := - (y * ln y + (1 - y) * ln (1 - y)).
Lemma gibbs : forall p y, 0 < p < 1 -> 0 < y < 1 ->
  entropy y <= - (y * ln p + (1 - y) * ln (1 - p)) /\
  (- (y * ln p + (1 - y) * ln (1 - p)) = entropy y -> p = y).
Proof.
  intros p y Hp Hy. unfold entropy.
  assert (A : ln (p / y) = ln p - ln y) by (apply ln_quot; lra).
  assert (B : ln ((1 - p) / (1 - y)) = ln (1 - p) - ln (1 - y)) by (apply ln_quot; lra).
  destruct (ln_le_sub (p / y)) as [A1 A2]; [apply Rmult_lt_0_compat; [lra|apply Rinv_0_lt_compat; lra]|].
  destruct (ln_le_sub ((1 - p) / (1 - y))) as [B1 B2]; [apply Rmult_lt_0_compat; [lra|apply Rinv_0_lt_compat; lra]|].
  assert (A3 : y * (p / y - 1) = p - y) by (field; lra).
  assert (B3 : (1 - y) * ((1 - p) / (1 - y) - 1) = y - p) by (field; lra).
  assert (A4 : y * ln (p / y) <= p - y) by (rewrite <- A3; apply Rmult_le_compat_l; lra).
  assert (B4 : (1 - y) * ln ((1 - p) / (1 - y)) <= y - p) by (rewrite <- B3; apply Rmult_le_compat_l; lra).
  rewrite A in A4. rewrite B in B4. split; [lra|]. intros E.
  assert (A5 : y * ln (p / y) = y * (p / y - 1)) by (rewrite A, A3; lra).
  apply Rmult_eq_reg_l in A5; [|lra]. apply A2 in A5.
  apply Rmult_eq_reg_r with (/ y); [|apply Rinv_neq_0_compat; lra]. rewrite Rinv_r by lra. exact A5.
Qed.
Lemma clamped_eq : forall p, exp (-100) <= p -> clamped_log p = ln p.
Proof.
  intros p H. assert (P := exp_pos (-100)). unfold clamped_log. destruct (Rlt_dec 0 p); [|lra].
  apply Rmax_left. rewrite <- (ln_exp (-100)). destruct H as [H|<-]; [|lra]. left. apply ln_increasing; auto.
Qed.
Lemma clamped_low : forall p, p <= exp (-100) -> clamped_log p = -100.
Proof.
  intros p H. unfold clamped_log. destruct (Rlt_dec 0 p) as [Q|]; [|auto]. apply Rmax_right.
  rewrite <- (ln_exp (-100)). destruct H as [H| ->]; [|lra]. left. apply ln_increasing; auto.
Qed.
Lemma clamped_one : clamped_log 1 = 0.
Proof. unfold clamped_log. destruct (Rlt_dec 0 1); [|lra]. rewrite ln_1. apply Rmax_left. lra. Qed.
Lemma clamped_nonpos : forall p, p <= 1 -> clamped_log p <= 0 /\ (clamped_log p = 0 -> p = 1).
Proof.
  intros p H. unfold clamped_log. destruct (Rlt_dec 0 p) as [Q|]; [|lra].
  destruct (ln_le_sub p Q) as [A B]. split.
  - apply Rmax_lub; lra.
  - unfold Rmax. destruct (Rle_dec (ln p) (-100)); intros E; lra.
Qed.
Lemma exp_small : exp (-100) < exp (-99) /\ exp (-99) < / 2.
Proof.
  split; [apply exp_increasing; lra|]. destruct (exp_ge 99) as [A _].
  replace (-99) with (- (99)) by lra. rewrite exp_Ropp. apply Rinv_lt_contravar; lra.
Qed.
Definition bval (p y : R) : R := - (y * clamped_log p + (1 - y) * clamped_log (1 - p)).
Lemma bval_sym : forall p y, bval p y = bval (1 - p) (1 - y).
Proof. intros. unfold bval. replace (1 - (1 - p)) with p by ring. replace (1 - (1 - y)) with y by ring. ring. Qed.
Lemma entropy_small : forall y, exp (-99) <= y <= 1 - exp (-99) -> entropy y < 100 * y.
Proof.
  intros y [H1 H2]. assert (P := exp_pos (-99)). unfold entropy.
  assert (A : -99 <= ln y).
  { rewrite <- (ln_exp (-99)). destruct H1 as [H1|<-]; [|lra]. left. apply ln_increasing; auto. }
  assert (Q : 0 < 1 - y) by lra.
  destruct (ln_le_sub (/ (1 - y))) as [B C]; [apply Rinv_0_lt_compat; lra|].
  rewrite ln_Rinv in B, C by lra.
  assert (D : - ln (1 - y) < / (1 - y) - 1).
  { destruct B as [B|B]; [exact B|]. specialize (C B). exfalso.
    assert (E : (1 - y) * / (1 - y) = 1) by (apply Rinv_r; lra). rewrite C in E. lra. }
  assert (F : (1 - y) * - ln (1 - y) < (1 - y) * (/ (1 - y) - 1)) by (apply Rmult_lt_compat_l; lra).
  assert (G : (1 - y) * (/ (1 - y) - 1) = y) by (field; lra).
  assert (H : - (y * ln y) <= 99 * y). { assert (0 <= y * (ln y + 99)) by (apply Rmult_le_pos; lra). lra. }
  lra.
Qed.
Lemma bval_min : forall p y, 0 <= p <= 1 -> fair_target y -> bval y y <= bval p y /\ (bval p y = bval y y -> p = y).
Proof.
  destruct exp_small as [S1 S2]. assert (S0 := exp_pos (-100)).
  assert (Z : forall p, 0 <= p <= 1 -> bval 0 0 <= bval p 0 /\ (bval p 0 = bval 0 0 -> p = 0)).
  { intros p H. unfold bval. rewrite !Rminus_0_r, clamped_one.
    destruct (clamped_nonpos (1 - p)) as [A B]; [lra|]. split; [lra|]. intros E.
    assert (1 - p = 1) by (apply B; lra). lra. }
  assert (M : forall p y, 0 <= p <= 1 -> p < exp (-100) -> exp (-99) <= y <= 1 - exp (-99) -> entropy y < bval p y).
  { intros p y H L Hy. unfold bval. rewrite (clamped_low p) by lra.
    destruct (clamped_nonpos (1 - p)) as [A _]; [lra|]. assert (E := entropy_small y Hy).
    assert (0 <= (1 - y) * - clamped_log (1 - p)) by (apply Rmult_le_pos; lra). lra. }
  intros p y Hp [-> | [-> | Hy]].
  - apply Z. auto.
  - destruct (Z (1 - p)) as [A B]; [lra|]. rewrite (bval_sym 1 1), (bval_sym p 1).
    replace (1 - 1) with 0 by ring. split; [exact A|]. intros E. specialize (B E). lra.
  - assert (Ey : bval y y = entropy y). { unfold bval, entropy. rewrite !clamped_eq by lra. reflexivity. }
    rewrite Ey. destruct (Rlt_dec p (exp (-100))) as [L|L].
    { assert (Q := M p y Hp L Hy). split; [lra|]. intros; lra. }
    destruct (Rlt_dec (1 - p) (exp (-100))) as [K|K].
    { assert (Q : entropy (1 - y) < bval (1 - p) (1 - y)) by (apply M; lra).
      rewrite <- bval_sym in Q. assert (Es : entropy (1 - y) = entropy y).
      { unfold entropy. replace (1 - (1 - y)) with y by ring. ring. }
      rewrite Es in Q. split; [lra|]. intros; lra. }
    assert (E : bval p y = - (y * ln p + (1 - y) * ln (1 - p))).
    { unfold bval. rewrite !clamped_eq by lra. reflexivity. }
    rewrite E. apply gibbs; lra.
Qed.
Lemma bce_val : forall p y, 0 <= p <= 1 -> bce p y = Some (bval p y).
Proof. intros p y [A B]. unfold bce. destruct (Rle_dec 0 p); [|lra]. destruct (Rle_dec p 1); [reflexivity|lra]. Qed.
Lemma bce_reject : forall p y, bce p y <> None <-> 0 <= p <= 1.
Proof.
  intros p y. unfold bce. destruct (Rle_dec 0 p), (Rle_dec p 1); split; intros; try discriminate; try tauto; lra.
Qed.
Lemma bces_val : forall ps ys, length ps = length ys -> Forall (fun p => 0 <= p <= 1) ps ->
  bces ps ys = Some (map2 bval ps ys).
Proof.
  unfold bces. induction ps as [|p ps IH]; intros [|y ys] E F; try discriminate; auto.
  injection E as E. inversion F; subst. cbn. rewrite bce_val by auto. rewrite IH by auto. reflexivity.
Qed.
Lemma fair_unit : forall y, fair_target y -> 0 <= y <= 1.
Proof. intros y [-> | [-> | H]]; try lra. assert (P := exp_pos (-99)). lra. Qed.
Lemma bval_sum : forall ps ys, length ps = length ys -> Forall (fun p => 0 <= p <= 1) ps -> Forall fair_target ys ->
  vsum (map2 bval ys ys) <= vsum (map2 bval ps ys) /\
  (vsum (map2 bval ps ys) = vsum (map2 bval ys ys) -> ps = ys).
Proof.
  induction ps as [|p ps IH]; intros [|y ys] E F G; try discriminate; [cbn; split; auto; lra|].
  injection E as E. inversion F; subst. inversion G; subst. cbn [map2]. rewrite !vsum_cons.
  destruct (IH ys) as [A B]; auto. destruct (bval_min p y) as [C D]; auto. split; [lra|].
  intros Q. f_equal; [apply D; lra|apply B; lra].
Qed.
Lemma mean_some : forall v, v <> [] -> mean v = Some (average v).
Proof. intros [|x v] H; [contradiction|reflexivity]. Qed.
Lemma map2_length_R : forall (f : R -> R -> R) a b, length a = length b -> length (map2 f a b) = length a.
Proof. induction a as [|x a IH]; intros [|y b] E; try discriminate; cbn; auto. Qed.
Lemma bce_loss_min : forall ps ys, ys <> [] -> length ps = length ys -> Forall (fun p => 0 <= p <= 1) ps ->
  Forall fair_target ys ->
  exists u v, bce_loss ps ys = Some u /\ bce_loss ys ys = Some v /\ v <= u /\ (u = v -> ps = ys).
Proof.
  intros ps ys Ne E F G. unfold bce_loss.
  assert (Fy : Forall (fun p => 0 <= p <= 1) ys) by (eapply Forall_impl; [|exact G]; apply fair_unit).
  rewrite !bces_val by auto.
  assert (L1 := map2_length_R bval ps ys E). assert (L2 := map2_length_R bval ys ys eq_refl).
  assert (N1 : map2 bval ps ys <> []).
  { intros Z. rewrite Z in L1. destruct ys; [contradiction|]. destruct ps; discriminate. }
  assert (N2 : map2 bval ys ys <> []).
  { intros Z. rewrite Z in L2. destruct ys; [contradiction|discriminate]. }
  rewrite !mean_some by auto. do 2 eexists. split; [reflexivity|]. split; [reflexivity|].
  destruct (bval_sum ps ys E F G) as [A B]. unfold average. rewrite L1, L2, E.
  assert (P : 0 < / INR (length ys)).
  { apply Rinv_0_lt_compat, lt_0_INR. destruct ys; [contradiction|cbn; lia]. }
  split; [apply Rmult_le_compat_r; lra|]. intros Q. apply B.
  apply Rmult_eq_reg_r in Q; [exact Q|lra].
Qed.
