(** Right derivatives through the network, and decay along solutions. *)

Require Import Reals List Lia Lra Bool Arith.
Require Import Verif.Vec Verif.VecFacts Verif.ModelMip Verif.SpecMip Verif.SpecCore
  Verif.ModelNet Verif.SpecNet Verif.ModelPattern Verif.SpecPattern
  Verif.SpecLyapunov Verif.SpecContinuous
  Verif.ProofUtils Verif.ProofNet Verif.ProofPattern Verif.ProofGradVec
  Verif.ProofContinuous.
Import ListNotations.
Open Scope R_scope.

(** ** Scalars *)

Lemma rderiv_ext : forall f g t d, (forall s, f s = g s) -> rderiv f t d -> rderiv g t d.
Proof.
  intros f g t d E H e He. destruct (H e He) as (del & Hd & K). exists del. split; auto.
  intros h Hh. rewrite <- !E. auto.
Qed.
Lemma rderiv_const : forall c t, rderiv (fun _ => c) t 0.
Proof.
  intros c t e He. exists 1. split; [lra|]. intros h Hh.
  replace (c - c - h * 0) with 0 by ring. rewrite Rabs_R0. apply Rmult_le_pos; lra.
Qed.
Lemma rderiv_plus : forall f g t a b, rderiv f t a -> rderiv g t b ->
  rderiv (fun s => f s + g s) t (a + b).
Proof.
  intros f g t a b F G e He. destruct (F (e / 2)) as (d1 & P1 & K1); [lra|].
  destruct (G (e / 2)) as (d2 & P2 & K2); [lra|].
  exists (Rmin d1 d2). split; [apply Rmin_glb_lt; auto|]. intros h Hh.
  assert (h < d1) by (eapply Rlt_le_trans; [apply Hh|apply Rmin_l]).
  assert (h < d2) by (eapply Rlt_le_trans; [apply Hh|apply Rmin_r]).
  specialize (K1 h ltac:(lra)). specialize (K2 h ltac:(lra)).
  replace (f (t + h) + g (t + h) - (f t + g t) - h * (a + b))
    with ((f (t + h) - f t - h * a) + (g (t + h) - g t - h * b)) by ring.
  eapply Rle_trans; [apply Rabs_triang|]. lra.
Qed.
Lemma rderiv_scale : forall f t a k, rderiv f t a -> rderiv (fun s => k * f s) t (k * a).
Proof.
  intros f t a k F e He. assert (Pk : 0 <= Rabs k) by apply Rabs_pos.
  destruct (F (e / (Rabs k + 1))) as (d1 & P1 & K1).
  { apply Rdiv_lt_0_compat; lra. }
  exists d1. split; auto. intros h Hh. specialize (K1 h Hh).
  replace (k * f (t + h) - k * f t - h * (k * a)) with (k * (f (t + h) - f t - h * a)) by ring.
  rewrite Rabs_mult. set (q := Rabs (f (t + h) - f t - h * a)) in *.
  assert (0 <= q) by apply Rabs_pos.
  apply Rle_trans with (Rabs k * (e / (Rabs k + 1) * h)).
  { apply Rmult_le_compat_l; auto. }
  replace (Rabs k * (e / (Rabs k + 1) * h)) with (Rabs k / (Rabs k + 1) * (e * h)) by (field; lra).
  rewrite <- (Rmult_1_l (e * h)) at 2. apply Rmult_le_compat_r; [apply Rmult_le_pos; lra|].
  apply Rmult_le_reg_r with (Rabs k + 1); [lra|].
  unfold Rdiv. rewrite Rmult_assoc, Rinv_l by lra. lra.
Qed.
Lemma rderiv_near : forall f t a, rderiv f t a -> forall e, 0 < e -> exists del, 0 < del /\
  forall h, 0 < h < del -> Rabs (f (t + h) - f t) < e.
Proof.
  intros f t a F e He. assert (Pa : 0 <= Rabs a) by apply Rabs_pos.
  destruct (F 1 ltac:(lra)) as (d1 & P1 & K1).
  exists (Rmin d1 (e / (Rabs a + 2))). split.
  { apply Rmin_glb_lt; auto. apply Rdiv_lt_0_compat; lra. }
  intros h Hh. assert (h < d1) by (eapply Rlt_le_trans; [apply Hh|apply Rmin_l]).
  assert (Hh2 : h < e / (Rabs a + 2)) by (eapply Rlt_le_trans; [apply Hh|apply Rmin_r]).
  specialize (K1 h ltac:(lra)).
  replace (f (t + h) - f t) with ((f (t + h) - f t - h * a) + h * a) by ring.
  eapply Rle_lt_trans; [apply Rabs_triang|]. rewrite Rabs_mult, (Rabs_right h) by lra.
  apply (Rmult_lt_compat_r (Rabs a + 2)) in Hh2; [|lra].
  unfold Rdiv in Hh2. rewrite Rmult_assoc, Rinv_l in Hh2 by lra. nra.
Qed.
Lemma rderiv_sign : forall f t a, rderiv f t a -> f t = 0 -> 0 < a -> exists del, 0 < del /\
  forall h, 0 < h < del -> 0 < f (t + h).
Proof.
  intros f t a F E Ha. destruct (F (a / 2)) as (d & Pd & K); [lra|]. exists d. split; auto.
  intros h Hh. specialize (K h Hh). rewrite E in K.
  assert (Q := Rle_abs (- (f (t + h) - 0 - h * a))). rewrite Rabs_Ropp in Q.
  assert (0 < h * a) by (apply Rmult_lt_0_compat; lra).
  assert (a / 2 * h = h * a / 2) by field. lra.
Qed.
Lemma rderiv_local : forall f g t a, rderiv f t a -> f t = g t ->
  (exists del, 0 < del /\ forall h, 0 < h < del -> f (t + h) = g (t + h)) -> rderiv g t a.
Proof.
  intros f g t a F E0 (d1 & P1 & E) e He. destruct (F e He) as (d2 & P2 & K).
  exists (Rmin d1 d2). split; [apply Rmin_glb_lt; auto|]. intros h Hh.
  assert (h < d1) by (eapply Rlt_le_trans; [apply Hh|apply Rmin_l]).
  assert (h < d2) by (eapply Rlt_le_trans; [apply Hh|apply Rmin_r]).
  rewrite <- E0, <- E by lra. apply K; lra.
Qed.

(** A piecewise linear function of one variable: slope 1 above 0 and k below. *)
Definition kink (k x : R) : R := if Rlt_dec 0 x then x else k * x.
Lemma kink_pos : forall k x, 0 <= x -> kink k x = x.
Proof. intros k x H. unfold kink. destruct (Rlt_dec 0 x); auto. assert (x = 0) by lra. subst. ring. Qed.
Lemma kink_neg : forall k x, x <= 0 -> kink k x = k * x.
Proof. intros k x H. unfold kink. destruct (Rlt_dec 0 x); auto. lra. Qed.

(** The flag that gives the right derivative, and that the bounds l, u allow. *)
Lemma kink_rderiv : forall k f t a l u, rderiv f t a -> l <= f t <= u ->
  (exists del, 0 < del /\ forall h, 0 < h < del -> l <= f (t + h) <= u) ->
  exists b : bool, flag_ok b (f t) /\ forced l u b /\
    rderiv (fun s => kink k (f s)) t ((if b then 1 else k) * a).
Proof.
  intros k f t a l u F B0 (d0 & P0 & B).
  assert (Cpos : 0 <= f t -> (exists del, 0 < del /\ forall h, 0 < h < del -> 0 <= f (t + h)) ->
    rderiv (fun s => kink k (f s)) t (1 * a)).
  { intros H0 (d & Pd & K). rewrite Rmult_1_l.
    apply (rderiv_local f); auto; [symmetry; apply kink_pos; auto|].
    exists d. split; auto. intros h Hh. symmetry. apply kink_pos. auto. }
  assert (Cneg : f t <= 0 -> (exists del, 0 < del /\ forall h, 0 < h < del -> f (t + h) <= 0) ->
    rderiv (fun s => kink k (f s)) t (k * a)).
  { intros H0 (d & Pd & K). apply (rderiv_local (fun s => k * f s)).
    - apply rderiv_scale; auto.
    - symmetry. apply kink_neg; auto.
    - exists d. split; auto. intros h Hh. symmetry. apply kink_neg. auto. }
  destruct (Rtotal_order (f t) 0) as [Hn|[Hz|Hp]].
  - exists false. split; [simpl; lra|]. split; [split; auto; intros; exfalso; lra|].
    apply Cneg; [lra|]. destruct (rderiv_near f t a F (- f t)) as (d & Pd & K); [lra|].
    exists d. split; auto. intros h Hh. specialize (K h Hh).
    assert (Q := Rle_abs (f (t + h) - f t)). lra.
  - destruct (Rtotal_order a 0) as [An|[Az|Ap]].
    + assert (F' := rderiv_scale f t a (-1) F).
      destruct (rderiv_sign _ _ _ F') as (d & Pd & K); [rewrite Hz; ring|lra|].
      exists false. split; [simpl; lra|]. split.
      * split; auto. intros Hl. exfalso.
        set (h := Rmin d0 d / 2). assert (0 < Rmin d0 d) by (apply Rmin_glb_lt; auto).
        assert (Q1 := Rmin_l d0 d). assert (Q2 := Rmin_r d0 d).
        specialize (K h ltac:(unfold h; lra)). specialize (B h ltac:(unfold h; lra)). lra.
      * apply Cneg; [lra|]. exists d. split; auto. intros h Hh. specialize (K h Hh). lra.
    + subst a. exists (if Rle_dec 0 l then true else false).
      split; [destruct (Rle_dec 0 l); simpl; lra|]. split.
      { destruct (Rle_dec 0 l); split; auto; intros; try lra. }
      rewrite Rmult_0_r. intros e He.
      set (c := Rmax 1 (Rabs k)). assert (Pc : 1 <= c) by apply Rmax_l.
      assert (Pk : Rabs k <= c) by apply Rmax_r.
      destruct (F (e / c)) as (d & Pd & K); [apply Rdiv_lt_0_compat; lra|].
      exists d. split; auto. intros h Hh. specialize (K h Hh).
      rewrite Hz in *. rewrite (kink_pos k 0) by lra.
      replace (f (t + h) - 0 - h * 0) with (f (t + h)) in K by ring.
      replace (kink k (f (t + h)) - 0 - h * 0) with (kink k (f (t + h))) by ring.
      apply Rle_trans with (c * Rabs (f (t + h))).
      * assert (0 <= Rabs (f (t + h))) by apply Rabs_pos.
        unfold kink. destruct (Rlt_dec 0 (f (t + h))); [|rewrite Rabs_mult];
          [rewrite <- (Rmult_1_l (Rabs _)) at 1|]; apply Rmult_le_compat_r; auto.
      * apply (Rmult_le_compat_l c) in K; [|lra].
        replace (c * (e / c * h)) with (e * h) in K by (field; lra). auto.
    + destruct (rderiv_sign _ _ _ F Hz Ap) as (d & Pd & K).
      exists true. split; [simpl; lra|]. split.
      * split; auto. intros Hl Hu. exfalso.
        set (h := Rmin d0 d / 2). assert (0 < Rmin d0 d) by (apply Rmin_glb_lt; auto).
        assert (Q1 := Rmin_l d0 d). assert (Q2 := Rmin_r d0 d).
        specialize (K h ltac:(unfold h; lra)). specialize (B h ltac:(unfold h; lra)). lra.
      * apply Cpos; [lra|]. exists d. split; auto. intros h Hh. specialize (K h Hh). lra.
  - exists true. split; [simpl; lra|]. split; [split; auto; intros; exfalso; lra|].
    apply Cpos; [lra|]. destruct (rderiv_near f t a F (f t)) as (d & Pd & K); [lra|].
    exists d. split; auto. intros h Hh. specialize (K h Hh).
    assert (Q := Rle_abs (- (f (t + h) - f t))). rewrite Rabs_Ropp in Q. lra.
Qed.

(** ** Vectors *)

Definition vrd (y : R -> vec) (t : R) (d : vec) : Prop :=
  forall i, rderiv (fun s => nth i (y s) 0) t (nth i d 0).

Lemma dot_uncons : forall a w y, dot (a :: w) y = a * nth 0 y 0 + dot w (tl y).
Proof.
  intros a w y. destruct y as [|b y]; simpl; auto.
  destruct w; simpl; ring.
Qed.
Lemma nth_tl : forall i (y : vec), nth i (tl y) 0 = nth (S i) y 0.
Proof. intros i [|a y]; simpl; auto. destruct i; auto. Qed.

Lemma vrd_dot : forall w y t d, vrd y t d -> rderiv (fun s => dot w (y s)) t (dot w d).
Proof.
  induction w as [|a w IH]; intros y t d H.
  - apply (rderiv_ext (fun _ => 0)); [auto|]. apply rderiv_const.
  - apply (rderiv_ext (fun s => a * nth 0 (y s) 0 + dot w (tl (y s)))).
    { intros s. symmetry. apply dot_uncons. }
    rewrite dot_uncons. apply rderiv_plus; [apply rderiv_scale, H|].
    apply IH. intros i. rewrite nth_tl.
    apply (rderiv_ext (fun s => nth (S i) (y s) 0)); [|apply H]. intros s. symmetry. apply nth_tl.
Qed.
Lemma nth_mv : forall A x i, nth i (mv A x) 0 = dot (nth i A []) x.
Proof.
  unfold mv. induction A as [|r A IH]; intros x i; destruct i; simpl; auto.
Qed.
Lemma vrd_mv : forall A y t d, vrd y t d -> vrd (fun s => mv A (y s)) t (mv A d).
Proof.
  intros A y t d H i. rewrite nth_mv.
  apply (rderiv_ext (fun s => dot (nth i A []) (y s))); [intros; symmetry; apply nth_mv|].
  apply vrd_dot; auto.
Qed.
Lemma nth_vadd : forall a b i, length a = length b ->
  nth i (vadd a b) 0 = nth i a 0 + nth i b 0.
Proof.
  unfold vadd. induction a as [|x a IH]; intros [|y b] i L; try discriminate.
  - destruct i; simpl; ring.
  - destruct i; simpl; auto.
Qed.
Lemma vrd_lin : forall n l y t d, lin_wf n l -> vrd y t d ->
  vrd (fun s => lin_eval l (y s)) t (mv (weight l) d).
Proof.
  intros n l y t d (_ & _ & B) H i. unfold lin_eval. destruct (bias l) as [b|].
  - apply (rderiv_ext (fun s => nth i b 0 + nth i (mv (weight l) (y s)) 0)).
    { intros s. rewrite nth_vadd; [ring|]. rewrite mv_length. unfold out_features in B. auto. }
    rewrite <- (Rplus_0_l (nth i (mv _ d) 0)). apply rderiv_plus; [apply rderiv_const|].
    apply vrd_mv; auto.
  - apply vrd_mv; auto.
Qed.

Lemma vrd_kink : forall k m y t d l u, vrd y t d -> (forall s, length (y s) = m) -> length d = m ->
  in_box l u (y t) -> (exists del, 0 < del /\ forall h, 0 < h < del -> in_box l u (y (t + h))) ->
  exists pat, Forall2 flag_ok pat (y t) /\ forced_all l u pat /\
    vrd (fun s => map (kink k) (y s)) t (map2 (fun (b : bool) v => (if b then 1 else k) * v) pat d).
Proof.
  intros k m. induction m as [|m IH]; intros y t d l u H Ly Ld B0 (del & Pd & B).
  - assert (Ey : forall s, y s = []) by (intros s; specialize (Ly s); destruct (y s); auto; discriminate).
    destruct d; [|discriminate]. destruct B0 as [B1 B2]. rewrite Ey in B1, B2.
    inversion B1; subst. inversion B2; subst.
    exists []. rewrite Ey. split; [constructor|]. split; [exact I|].
    intros i. cbn. apply (rderiv_ext (fun _ => 0)).
    + intros s. rewrite Ey. destruct i; auto.
    + destruct i; apply rderiv_const.
  - destruct d as [|d0 d]; [discriminate|].
    assert (Ey : forall s, y s = nth 0 (y s) 0 :: tl (y s)).
    { intros s. specialize (Ly s). destruct (y s); [discriminate|]. auto. }
    destruct l as [|l0 l]; [destruct B0 as [B0 _]; rewrite Ey in B0; inversion B0|].
    destruct u as [|u0 u]; [destruct B0 as [_ B0]; rewrite Ey in B0; inversion B0|].
    assert (Sp : forall s, in_box (l0 :: l) (u0 :: u) (y s) ->
       (l0 <= nth 0 (y s) 0 <= u0) /\ in_box l u (tl (y s))).
    { intros s [K1 K2]. rewrite Ey in K1, K2. apply vle_cons in K1. apply vle_cons in K2.
      split; [lra|]. split; tauto. }
    destruct (kink_rderiv k (fun s => nth 0 (y s) 0) t d0 l0 u0 (H 0%nat)) as (b & F1 & F2 & F3).
    { apply Sp; auto. }
    { exists del. split; auto. intros h Hh. apply Sp. auto. }
    destruct (IH (fun s => tl (y s)) t d l u) as (pat & G1 & G2 & G3).
    { intros i. apply (rderiv_ext (fun s => nth (S i) (y s) 0)); [intros; symmetry; apply nth_tl|].
      apply (H (S i)). }
    { intros s. specialize (Ly s). rewrite Ey in Ly. simpl in Ly. lia. }
    { simpl in Ld. lia. }
    { apply Sp; auto. }
    { exists del. split; auto. intros h Hh. apply Sp. auto. }
    exists (b :: pat). split; [rewrite Ey; constructor; auto|]. split; [split; auto|].
    intros [|i]; cbn [map2 nth].
    + apply (rderiv_ext (fun s => kink k (nth 0 (y s) 0))); auto.
      intros s. rewrite (Ey s) at 2. reflexivity.
    + apply (rderiv_ext (fun s => nth i (map (kink k) (tl (y s))) 0)); [|apply G3].
      intros s. rewrite (Ey s) at 2. reflexivity.
Qed.

Definition kslope (a : act) : R := match a with Relu => 0 | Leaky c => c end.
Lemma act_kink : forall a x, act_fun a x = kink (kslope a) x.
Proof.
  intros a x. destruct a as [|c]; unfold kink, kslope; cbn [act_fun].
  - unfold relu. destruct (Rlt_dec 0 x); [apply Rmax_left; lra|]. rewrite Rmax_right by lra. ring.
  - unfold leaky. destruct (Rlt_dec 0 x), (Rle_dec 0 x); auto; [lra|].
    assert (x = 0) by lra. subst. ring.
Qed.

(** ** The network *)

Lemma lin_len : forall n l x, lin_wf n l -> length (lin_eval l x) = out_features l.
Proof.
  intros n l x (_ & _ & B). unfold lin_eval. destruct (bias l) as [b|].
  - rewrite vadd_length; rewrite mv_length; auto.
  - apply mv_length.
Qed.
Lemma in_box_split : forall k lo up (a b : vec), length a = k -> (k <= length lo)%nat -> (k <= length up)%nat ->
  (in_box lo up (a ++ b) <->
   in_box (firstn k lo) (firstn k up) a /\ in_box (skipn k lo) (skipn k up) b).
Proof.
  intros k lo up a b L K1 K2. unfold in_box.
  rewrite <- (firstn_skipn k lo) at 1. rewrite <- (firstn_skipn k up) at 1.
  rewrite !vle_app_iff; [tauto| |]; rewrite firstn_length; unfold vec in *; lia.
Qed.

Lemma vrd_hidden : forall hs n out y t d lo up, hidden_wf n hs out -> vrd y t d ->
  length lo = num_units hs -> length up = num_units hs ->
  in_box lo up (concat (pre_acts hs (y t))) ->
  (exists del, 0 < del /\ forall h, 0 < h < del -> in_box lo up (concat (pre_acts hs (y (t + h))))) ->
  exists pats, consistent pats (pre_acts hs (y t)) /\ forced_all lo up (concat pats) /\
    vrd (fun s => hidden_eval hs (y s)) t (last (tangents hs pats d) d).
Proof.
  induction hs as [|[l a] hs IH]; intros n out y t d lo up W H L1 L2 B0 (del & Pd & B).
  - exists []. destruct lo; [|discriminate]. destruct up; [|discriminate].
    split; [constructor|]. split; [exact I|]. exact H.
  - destruct W as [W1 W2]. cbn [num_units] in L1, L2. cbn [pre_acts concat] in B0, B.
    assert (Ll := fun x => lin_len _ _ x W1).
    assert (K1 : (out_features l <= length lo)%nat) by (unfold vec in *; lia).
    assert (K2 : (out_features l <= length up)%nat) by (unfold vec in *; lia).
    assert (H1 := vrd_lin _ _ _ _ _ W1 H).
    destruct (vrd_kink (kslope a) (out_features l) _ t _ (firstn (out_features l) lo) (firstn (out_features l) up) H1)
      as (pat & F1 & F2 & F3).
    { intros s. apply Ll. }
    { apply mv_length. }
    { rewrite (in_box_split (out_features l)) in B0 by auto. apply B0. }
    { exists del. split; auto. intros h Hh. specialize (B h Hh).
      rewrite (in_box_split (out_features l)) in B by auto. apply B. }
    assert (F4 : vrd (fun s => map (act_fun a) (lin_eval l (y s))) t
       (map2 (fun b v => act_slope a b * v) pat (mv (weight l) d))).
    { intros i. apply (rderiv_ext (fun s => nth i (map (kink (kslope a)) (lin_eval l (y s))) 0)).
      - intros s. f_equal. apply map_ext. intros x. symmetry. apply act_kink.
      - exact (F3 i). }
    destruct (IH _ out (fun s => map (act_fun a) (lin_eval l (y s))) t _
      (skipn (out_features l) lo) (skipn (out_features l) up) W2 F4) as (pats & G1 & G2 & G3).
    { rewrite skipn_length. unfold vec in *. lia. }
    { rewrite skipn_length. unfold vec in *. lia. }
    { rewrite (in_box_split (out_features l)) in B0 by auto. apply B0. }
    { exists del. split; auto. intros h Hh. specialize (B h Hh).
      rewrite (in_box_split (out_features l)) in B by auto. apply B. }
    assert (Lp : length pat = out_features l).
    { apply Forall2_len in F1. rewrite F1. apply Ll. }
    exists (pat :: pats). split; [constructor; auto|]. split.
    + cbn [concat]. rewrite (forced_app (out_features l)) by (auto; unfold vec in *; lia). auto.
    + cbn [tangents hidden_eval]. rewrite last_cons. exact G3.
Qed.

(** ** The comparison lemma *)

Lemma nonincreasing : forall w b e, 0 < b -> 0 < e -> cont_on b w ->
  (forall t, 0 <= t < b -> exists d, d <= 0 /\ rderiv w t d) ->
  forall t, 0 <= t <= b -> w t <= w 0 + e * t.
Proof.
  intros w b e Pb Pe C D t0 Ht0.
  destruct (Rle_lt_dec (w t0) (w 0 + e * t0)) as [|Bad]; auto. exfalso.
  set (P := fun t => 0 <= t <= t0 /\ forall s, 0 <= s <= t -> w s <= w 0 + e * s).
  assert (P0 : P 0).
  { split; [lra|]. intros s Hs. assert (s = 0) by lra. subst. lra. }
  destruct (completeness P) as (tau & Ub & Lub).
  { exists t0. intros x [Hx _]. lra. }
  { exists 0. exact P0. }
  assert (T0 : 0 <= tau) by (apply Ub; exact P0).
  assert (T1 : tau <= t0) by (apply Lub; intros x [Hx _]; lra).
  assert (Below : forall s, 0 <= s < tau -> w s <= w 0 + e * s).
  { intros s Hs. destruct (Rle_lt_dec (w s) (w 0 + e * s)) as [|Bs]; auto. exfalso.
    assert (tau <= s); [|lra]. apply Lub. intros x [Hx1 Hx2].
    destruct (Rle_lt_dec x s); auto. specialize (Hx2 s ltac:(lra)). lra. }
  assert (At : w tau <= w 0 + e * tau).
  { destruct (Req_dec tau 0) as [->|Nz]; [lra|].
    destruct (Rle_lt_dec (w tau) (w 0 + e * tau)) as [|Bs]; auto. exfalso.
    destruct (C tau ltac:(lra) (w tau - (w 0 + e * tau)) ltac:(lra)) as (del & Pd & K).
    set (s := Rmax 0 (tau - del / 2)).
    assert (s < tau) by (apply Rmax_lub_lt; lra).
    assert (0 <= s) by apply Rmax_l. assert (tau - del / 2 <= s) by apply Rmax_r.
    specialize (K s ltac:(lra)). rewrite Rabs_left in K by lra. specialize (K ltac:(lra)).
    assert (Q := Rle_abs (- (w s - w tau))). rewrite Rabs_Ropp in Q.
    specialize (Below s ltac:(lra)). assert (e * s < e * tau) by (apply Rmult_lt_compat_l; lra). lra. }
  destruct (Req_dec tau t0) as [Et|Nt].
  { rewrite Et in At. lra. }
  destruct (D tau ltac:(lra)) as (d & Hd & Hr). destruct (Hr e Pe) as (del & Pd & K).
  set (h := Rmin (del / 2) (t0 - tau)).
  assert (Ph : 0 < h) by (apply Rmin_glb_lt; lra).
  assert (Q1 := Rmin_l (del / 2) (t0 - tau)). assert (Q2 := Rmin_r (del / 2) (t0 - tau)). fold h in Q1, Q2.
  assert (tau + h <= tau); [|lra]. apply Ub. split; [lra|].
  intros s Hs. destruct (Rle_lt_dec s tau) as [Hst|Hst].
  - destruct (Req_dec s tau) as [->|]; auto. apply Below. lra.
  - specialize (K (s - tau) ltac:(lra)). replace (tau + (s - tau)) with s in K by ring.
    assert (Q := Rle_abs (w s - w tau - (s - tau) * d)).
    assert ((s - tau) * d <= 0) by nra.
    assert (e * s = e * tau + e * (s - tau)) by ring. lra.
Qed.

Lemma nonincreasing0 : forall w b, 0 < b -> cont_on b w ->
  (forall t, 0 <= t < b -> exists d, d <= 0 /\ rderiv w t d) ->
  forall t, 0 <= t <= b -> w t <= w 0.
Proof.
  intros w b Pb C D t Ht. destruct (Rle_lt_dec (w t) (w 0)) as [|Bad]; auto. exfalso.
  set (e := (w t - w 0) / (2 * (b + 1))).
  assert (Pe : 0 < e) by (apply Rdiv_lt_0_compat; lra).
  assert (K := nonincreasing w b e Pb Pe C D t Ht).
  assert (e * t <= e * (b + 1)) by (apply Rmult_le_compat_l; lra).
  assert (e * (b + 1) = (w t - w 0) / 2) by (unfold e; field; lra). lra.
Qed.

(** Continuity on [0, b], closed under the operations of the network. *)
Lemma cont_ext : forall b f g, (forall s, f s = g s) -> cont_on b f -> cont_on b g.
Proof.
  intros b f g E H t Ht e He. destruct (H t Ht e He) as (d & Pd & K). exists d. split; auto.
  intros s Hs. rewrite <- !E. auto.
Qed.
Lemma cont_const : forall b c, cont_on b (fun _ => c).
Proof.
  intros b c t Ht e He. exists 1. split; [lra|]. intros. rewrite Rminus_diag_eq, Rabs_R0; auto.
Qed.
Lemma cont_plus : forall b f g, cont_on b f -> cont_on b g -> cont_on b (fun s => f s + g s).
Proof.
  intros b f g F G t Ht e He. destruct (F t Ht (e / 2)) as (d1 & P1 & K1); [lra|].
  destruct (G t Ht (e / 2)) as (d2 & P2 & K2); [lra|].
  exists (Rmin d1 d2). split; [apply Rmin_glb_lt; auto|]. intros s Hs Hd.
  specialize (K1 s Hs ltac:(eapply Rlt_le_trans; [apply Hd|apply Rmin_l])).
  specialize (K2 s Hs ltac:(eapply Rlt_le_trans; [apply Hd|apply Rmin_r])).
  replace (f s + g s - (f t + g t)) with ((f s - f t) + (g s - g t)) by ring.
  eapply Rle_lt_trans; [apply Rabs_triang|]. lra.
Qed.
(** Lipschitz functions of a continuous function. *)
Lemma cont_lip : forall b f g c, (forall x y, Rabs (g x - g y) <= c * Rabs (x - y)) ->
  cont_on b f -> cont_on b (fun s => g (f s)).
Proof.
  intros b f g c L F t Ht e He.
  assert (Pc : 0 <= Rabs c) by apply Rabs_pos.
  destruct (F t Ht (e / (Rabs c + 1))) as (d & Pd & K); [apply Rdiv_lt_0_compat; lra|].
  exists d. split; auto. intros s Hs Hd. specialize (K s Hs Hd).
  assert (Q := Rle_abs c). assert (Z : 0 <= Rabs (f s - f t)) by apply Rabs_pos.
  eapply Rle_lt_trans; [apply L|].
  apply (Rmult_lt_compat_l (Rabs c + 1)) in K; [|lra].
  replace ((Rabs c + 1) * (e / (Rabs c + 1))) with e in K by (field; lra). nra.
Qed.
Lemma cont_scale : forall b f k, cont_on b f -> cont_on b (fun s => k * f s).
Proof.
  intros b f k H. apply (cont_lip b f (fun x => k * x) (Rabs k)); auto.
  intros x y. rewrite <- Rmult_minus_distr_l, Rabs_mult. lra.
Qed.
Lemma kink_lip : forall k x y, Rabs (kink k x - kink k y) <= (1 + Rabs k) * Rabs (x - y).
Proof.
  intros k x y. assert (Pk := Rabs_pos k). assert (K1 := Rle_abs k).
  assert (K2 := Rle_abs (- k)). rewrite Rabs_Ropp in K2. set (a := Rabs k) in *.
  unfold kink. destruct (Rlt_dec 0 x), (Rlt_dec 0 y).
  - assert (Q := Rabs_pos (x - y)). nra.
  - rewrite (Rabs_right (x - y)) by lra. apply Rabs_le. split; nra.
  - rewrite (Rabs_left1 (x - y)) by lra. apply Rabs_le. split; nra.
  - rewrite <- Rmult_minus_distr_l, Rabs_mult. fold a. assert (Q := Rabs_pos (x - y)). nra.
Qed.
Definition vcont (b : R) (y : R -> vec) : Prop := forall i, cont_on b (fun s => nth i (y s) 0).
Lemma vcont_dot : forall w b y, vcont b y -> cont_on b (fun s => dot w (y s)).
Proof.
  induction w as [|a w IH]; intros b y H.
  - apply (cont_ext b (fun _ => 0)); auto. apply cont_const.
  - apply (cont_ext b (fun s => a * nth 0 (y s) 0 + dot w (tl (y s)))).
    { intros s. symmetry. apply dot_uncons. }
    apply cont_plus; [apply cont_scale, H|]. apply IH. intros i.
    apply (cont_ext b (fun s => nth (S i) (y s) 0)); [intros; symmetry; apply nth_tl|apply H].
Qed.
Lemma vcont_mv : forall A b y, vcont b y -> vcont b (fun s => mv A (y s)).
Proof.
  intros A b y H i. apply (cont_ext b (fun s => dot (nth i A []) (y s))).
  - intros; symmetry; apply nth_mv.
  - apply vcont_dot; auto.
Qed.
Lemma vcont_lin : forall n l b y, lin_wf n l -> vcont b y -> vcont b (fun s => lin_eval l (y s)).
Proof.
  intros n l b y (_ & _ & B) H i. unfold lin_eval. destruct (bias l) as [c|].
  - apply (cont_ext b (fun s => nth i c 0 + nth i (mv (weight l) (y s)) 0)).
    { intros s. rewrite nth_vadd; [ring|]. rewrite mv_length. unfold out_features in B. auto. }
    apply cont_plus; [apply cont_const|]. apply vcont_mv; auto.
  - apply vcont_mv; auto.
Qed.
Lemma nth_map0 : forall (g : R -> R) i y, g 0 = 0 -> nth i (map g y) 0 = g (nth i y 0).
Proof. intros g i y G. rewrite <- G at 1. apply map_nth. Qed.
Lemma vcont_kink : forall k b y, vcont b y -> vcont b (fun s => map (kink k) (y s)).
Proof.
  intros k b y H i. apply (cont_ext b (fun s => kink k (nth i (y s) 0))).
  - intros s. symmetry. apply nth_map0. apply kink_pos. lra.
  - apply (cont_lip b (fun s => nth i (y s) 0) (kink k) (1 + Rabs k)); [apply kink_lip|apply H].
Qed.
Lemma vcont_hidden : forall hs n out b y, hidden_wf n hs out -> vcont b y ->
  vcont b (fun s => hidden_eval hs (y s)).
Proof.
  induction hs as [|[l a] hs IH]; intros n out b y W H; auto.
  destruct W as [W1 W2]. cbn [hidden_eval].
  apply (IH _ out b (fun s => map (act_fun a) (lin_eval l (y s))) W2).
  intros i. apply (cont_ext b (fun s => nth i (map (kink (kslope a)) (lin_eval l (y s))) 0)).
  - intros s. f_equal. apply map_ext. intros x. symmetry. apply act_kink.
  - apply vcont_kink. apply (vcont_lin _ l b y W1 H).
Qed.

(** ** Products *)

Lemma rderiv_mult : forall f g t a c, rderiv f t a -> rderiv g t c ->
  rderiv (fun s => f s * g s) t (a * g t + f t * c).
Proof.
  intros f g t a c F G e He.
  assert (Pg := Rabs_pos (g t)). assert (Pa := Rabs_pos a). assert (Pf := Rabs_pos (f t)).
  set (e1 := e / (3 * (Rabs (g t) + 1))). set (e2 := Rmin 1 (e / (3 * (Rabs a + 1)))).
  set (e3 := e / (3 * (Rabs (f t) + 1))).
  assert (P1 : 0 < e1) by (apply Rdiv_lt_0_compat; lra).
  assert (P2 : 0 < e2) by (apply Rmin_glb_lt; [lra|apply Rdiv_lt_0_compat; lra]).
  assert (P3 : 0 < e3) by (apply Rdiv_lt_0_compat; lra).
  destruct (F e1 P1) as (d1 & D1 & K1). destruct (rderiv_near _ _ _ G e2 P2) as (d2 & D2 & K2).
  destruct (G e3 P3) as (d3 & D3 & K3).
  exists (Rmin d1 (Rmin d2 d3)). split; [repeat apply Rmin_glb_lt; auto|]. intros h Hh.
  assert (Q1 := Rmin_l d1 (Rmin d2 d3)). assert (Q2 := Rmin_r d1 (Rmin d2 d3)).
  assert (Q3 := Rmin_l d2 d3). assert (Q4 := Rmin_r d2 d3).
  specialize (K1 h ltac:(lra)). specialize (K2 h ltac:(lra)). specialize (K3 h ltac:(lra)).
  replace (f (t + h) * g (t + h) - f t * g t - h * (a * g t + f t * c))
    with ((f (t + h) - f t - h * a) * g (t + h) + (h * a) * (g (t + h) - g t)
          + f t * (g (t + h) - g t - h * c)) by ring.
  eapply Rle_trans; [apply Rabs_triang|].
  assert (A3 : Rabs (f t * (g (t + h) - g t - h * c)) <= e / 3 * h).
  { rewrite Rabs_mult. apply Rle_trans with ((Rabs (f t) + 1) * (e3 * h)).
    - apply Rmult_le_compat; auto using Rabs_pos; lra.
    - unfold e3. right. field. lra. }
  assert (A12 : Rabs ((f (t + h) - f t - h * a) * g (t + h) + (h * a) * (g (t + h) - g t)) <= e / 3 * h + e / 3 * h).
  { eapply Rle_trans; [apply Rabs_triang|]. apply Rplus_le_compat.
    - rewrite Rabs_mult. apply Rle_trans with ((e1 * h) * (Rabs (g t) + 1)).
      + apply Rmult_le_compat; auto using Rabs_pos.
        replace (g (t + h)) with ((g (t + h) - g t) + g t) by ring.
        eapply Rle_trans; [apply Rabs_triang|].
        assert (E2 : e2 <= 1) by apply Rmin_l. lra.
      + unfold e1. right. field. lra.
    - rewrite !Rabs_mult, (Rabs_right h) by lra.
      apply Rle_trans with ((h * (Rabs a + 1)) * e2).
      + apply Rmult_le_compat; auto using Rabs_pos; [apply Rmult_le_pos; lra| |lra].
        apply Rmult_le_compat_l; lra.
      + assert (E2 : e2 <= e / (3 * (Rabs a + 1))) by apply Rmin_r.
        apply Rle_trans with (h * (Rabs a + 1) * (e / (3 * (Rabs a + 1)))).
        * apply Rmult_le_compat_l; auto. apply Rmult_le_pos; lra.
        * right. field. lra. }
  lra.
Qed.
Lemma rderiv_derivable : forall f t d, derivable_pt_lim f t d -> rderiv f t d.
Proof.
  intros f t d H e He. destruct (H e He) as (del & K). exists del. split; [apply cond_pos|].
  intros h Hh. specialize (K h ltac:(lra) ltac:(rewrite Rabs_right; lra)).
  replace (f (t + h) - f t - h * d) with (((f (t + h) - f t) / h - d) * h) by (field; lra).
  rewrite Rabs_mult, (Rabs_right h) by lra. apply Rmult_le_compat_r; lra.
Qed.
Lemma exp_derivable : forall k t, derivable_pt_lim (fun s => exp (k * s)) t (k * exp (k * t)).
Proof.
  intros k t.
  assert (K := derivable_pt_lim_comp (fun s => k * s) exp t k (exp (k * t))).
  rewrite Rmult_comm. apply K.
  - assert (Q := derivable_pt_lim_scal id k t 1 (derivable_pt_lim_id t)).
    rewrite Rmult_1_r in Q. exact Q.
  - apply derivable_pt_lim_exp.
Qed.
Lemma cont_of_continuity : forall b f, (forall t, continuity_pt f t) -> cont_on b f.
Proof.
  intros b f H t Ht e He. destruct (H t e He) as (d & Pd & K). exists d. split; auto.
  intros s Hs Hd. destruct (Req_dec s t) as [->|N]; [rewrite Rminus_diag_eq, Rabs_R0; auto|].
  apply K. split; [split; [exact I|auto]|exact Hd].
Qed.
Lemma cont_mult : forall b f g, cont_on b f -> cont_on b g -> cont_on b (fun s => f s * g s).
Proof.
  intros b f g F G t Ht e He.
  assert (Pg := Rabs_pos (g t)). assert (Pf := Rabs_pos (f t)).
  set (e1 := e / (2 * (Rabs (g t) + 1))). set (e2 := Rmin 1 (e / (2 * (Rabs (f t) + 1)))).
  assert (P1 : 0 < e1) by (apply Rdiv_lt_0_compat; lra).
  assert (P2 : 0 < e2) by (apply Rmin_glb_lt; [lra|apply Rdiv_lt_0_compat; lra]).
  destruct (F t Ht e1 P1) as (d1 & D1 & K1). destruct (G t Ht e2 P2) as (d2 & D2 & K2).
  exists (Rmin d1 d2). split; [apply Rmin_glb_lt; auto|]. intros s Hs Hd.
  specialize (K1 s Hs ltac:(eapply Rlt_le_trans; [apply Hd|apply Rmin_l])).
  specialize (K2 s Hs ltac:(eapply Rlt_le_trans; [apply Hd|apply Rmin_r])).
  replace (f s * g s - f t * g t) with ((f s - f t) * g s + f t * (g s - g t)) by ring.
  eapply Rle_lt_trans; [apply Rabs_triang|]. rewrite !Rabs_mult.
  assert (E2 : e2 <= 1) by apply Rmin_l. assert (E3 : e2 <= e / (2 * (Rabs (f t) + 1))) by apply Rmin_r.
  assert (Gs : Rabs (g s) <= Rabs (g t) + 1).
  { replace (g s) with ((g s - g t) + g t) by ring. eapply Rle_trans; [apply Rabs_triang|]. lra. }
  assert (A1 : Rabs (f s - f t) * Rabs (g s) < e / 2).
  { apply Rle_lt_trans with (Rabs (f s - f t) * (Rabs (g t) + 1)).
    - apply Rmult_le_compat_l; auto using Rabs_pos.
    - apply Rlt_le_trans with (e1 * (Rabs (g t) + 1)).
      + apply Rmult_lt_compat_r; lra.
      + unfold e1. right. field. lra. }
  assert (A2 : Rabs (f t) * Rabs (g s - g t) <= e / 2).
  { apply Rle_trans with ((Rabs (f t) + 1) * (e / (2 * (Rabs (f t) + 1)))).
    - apply Rmult_le_compat; auto using Rabs_pos; lra.
    - right. field. lra. }
  lra.
Qed.

(** ** The Lyapunov function along a solution *)

Lemma abs_kink : forall x, Rabs x = kink (-1) x.
Proof.
  intros x. unfold kink. destruct (Rlt_dec 0 x); [apply Rabs_right; lra|].
  rewrite Rabs_left1 by lra. ring.
Qed.
Lemma norm1_dot : forall v, norm1 v = dot (repeat 1 (length v)) (map (kink (-1)) v).
Proof.
  unfold norm1. induction v as [|a v IH]; auto. cbn [map vsum length repeat dot].
  rewrite IH, abs_kink. ring.
Qed.
Lemma dot_signs : forall sgs v, length sgs = length v ->
  dot (repeat 1 (length v)) (map2 (fun (b : bool) x => (if b then 1 else -1) * x) sgs v)
  = dot (map sign_of sgs) v.
Proof.
  induction sgs as [|b sgs IH]; intros [|a v] L; try discriminate; auto.
  cbn [map map2 length repeat dot]. rewrite IH by (simpl in L; lia). destruct b; unfold sign_of; ring.
Qed.
Lemma nth_vsub : forall a b i, length a = length b -> nth i (vsub a b) 0 = nth i a 0 - nth i b 0.
Proof.
  unfold vsub. induction a as [|x a IH]; intros [|y b] i L; try discriminate.
  - destruct i; simpl; ring.
  - destruct i; simpl; auto.
Qed.

Section Decay.
Variable N : network.
Variable n : nat.
Variable M : mat.
Variables lam eps : R.
Variable xeq : vec.
Hypothesis W : net_wf n N.
Hypothesis Leq : length xeq = n.

Lemma V_rderiv : forall y t d blo bup ls us, (forall s, length (y s) = n) -> vrd y t d ->
  length blo = num_units (hidden N) -> length bup = num_units (hidden N) ->
  in_box blo bup (concat (pre_acts (hidden N) (y t))) -> in_box ls us (mv M (vsub (y t) xeq)) ->
  (exists del, 0 < del /\ forall h, 0 < h < del ->
     in_box blo bup (concat (pre_acts (hidden N) (y (t + h)))) /\ in_box ls us (mv M (vsub (y (t + h)) xeq))) ->
  exists pats sgs, selects N M xeq (y t) pats sgs /\ forced_all blo bup (concat pats) /\
    forced_all ls us sgs /\
    rderiv (fun s => V N M lam xeq (y s)) t (Vdot N M lam pats sgs d).
Proof.
  intros y t d blo bup ls us Ly H L1 L2 B1 B2 (del & Pd & B).
  destruct W as (_ & Wh & Wl).
  destruct (vrd_hidden _ _ _ y t d blo bup Wh H L1 L2 B1) as (pats & F1 & F2 & F3).
  { exists del. split; auto. intros h Hh. apply B; auto. }
  assert (H2 : vrd (fun s => vsub (y s) xeq) t d).
  { intros i. apply (rderiv_ext (fun s => - nth i xeq 0 + nth i (y s) 0)).
    - intros s. rewrite nth_vsub by (rewrite Ly; auto). ring.
    - rewrite <- (Rplus_0_l (nth i d 0)). apply rderiv_plus; [apply rderiv_const|apply H]. }
  assert (H3 := vrd_mv M _ t d H2).
  destruct (vrd_kink (-1) (length M) _ t _ ls us H3) as (sgs & G1 & G2 & G3); auto.
  { intros s. apply mv_length. }
  { apply mv_length. }
  { exists del. split; auto. intros h Hh. apply B; auto. }
  exists pats, sgs. split; [split; auto|]. split; auto. split; auto.
  assert (Lsg : length sgs = length (mv M d)).
  { apply Forall2_len in G1. rewrite G1, !mv_length. auto. }
  unfold V, Vdot.
  apply (rderiv_ext (fun s => (nth 0 (net_eval N (y s)) 0 + - phi N xeq)
     + lam * dot (repeat 1 (length (mv M d))) (map (kink (-1)) (mv M (vsub (y s) xeq))))).
  { intros s. unfold phi, error1. rewrite norm1_dot, !mv_length. ring. }
  apply rderiv_plus.
  - rewrite <- (Rplus_0_r (nth 0 (jvp N pats d) 0)). apply rderiv_plus; [|apply rderiv_const].
    unfold jvp, net_eval. exact (vrd_lin _ _ _ _ _ Wl F3 0%nat).
  - apply rderiv_scale. rewrite <- dot_signs by exact Lsg.
    apply vrd_dot. exact G3.
Qed.

Lemma V_cont : forall b y, (forall s, length (y s) = n) -> vcont b y ->
  cont_on b (fun s => V N M lam xeq (y s)).
Proof.
  intros b y Ly H. destruct W as (_ & Wh & Wl). unfold V.
  apply (cont_ext b (fun s => (nth 0 (net_eval N (y s)) 0 + - phi N xeq)
     + lam * dot (repeat 1 (length M)) (map (kink (-1)) (mv M (vsub (y s) xeq))))).
  { intros s. unfold phi, error1. rewrite norm1_dot, !mv_length. ring. }
  apply cont_plus.
  - apply cont_plus; [|apply cont_const].
    exact (vcont_lin _ _ b _ Wl (vcont_hidden _ _ _ b y Wh H) 0%nat).
  - apply cont_scale, vcont_dot, vcont_kink, vcont_mv. intros i.
    apply (cont_ext b (fun s => - nth i xeq 0 + nth i (y s) 0)).
    + intros s. rewrite nth_vsub by (rewrite Ly; auto). ring.
    + apply cont_plus; [apply cont_const|apply H].
Qed.

Variables lo up : vec.
Hypothesis Llo : length lo = n.
Variable T : vec -> vec -> Prop.
Variables blo bup ls us : vec.
Hypothesis L1 : length blo = num_units (hidden N).
Hypothesis L2 : length bup = num_units (hidden N).
Hypothesis B1 : forall y, in_box lo up y -> in_box blo bup (concat (pre_acts (hidden N) y)).
Hypothesis B2 : forall y, in_box lo up y -> in_box ls us (mv M (vsub y xeq)).
Variable Adm : vec -> Prop.
Hypothesis Dec : forall x v pats sgs, in_box lo up x -> T x v -> length v = n -> Adm x ->
  selects N M xeq x pats sgs -> forced_all blo bup (concat pats) -> forced_all ls us sgs ->
  Vdot N M lam pats sgs v + eps * V N M lam xeq x <= 0.

Lemma flow_decay : forall b x, flow lo up T b x -> (forall t, 0 <= t < b -> Adm (x t)) ->
  forall t, 0 <= t <= b -> V N M lam xeq (x t) <= exp (- eps * t) * V N M lam xeq (x 0).
Proof.
  intros b x [Bx Cx Dx] Ha t Ht.
  destruct (Rle_lt_dec b 0) as [Hb|Hb].
  { assert (t = 0) by lra. subst t. rewrite Rmult_0_r, exp_0. lra. }
  set (y := fun s => map (fun i => nth i (x s) 0) (seq 0 n)).
  assert (Ly : forall s, length (y s) = n) by (intros s; unfold y; rewrite map_length, seq_length; auto).
  assert (Lx : forall s, 0 <= s <= b -> length (x s) = n).
  { intros s Hs. specialize (Bx s Hs). destruct Bx as [K _]. rewrite <- Llo. symmetry. eapply vle_length; eauto. }
  assert (Ny : forall s i, nth i (y s) 0 = if Nat.ltb i n then nth i (x s) 0 else 0).
  { intros s i. unfold y. destruct (Nat.ltb i n) eqn:E.
    - apply Nat.ltb_lt in E. rewrite (nth_indep _ 0 (nth 0 (x s) 0)) by (rewrite map_length, seq_length; auto).
      rewrite (map_nth (fun j => nth j (x s) 0) (seq 0 n) 0%nat i), seq_nth; auto.
    - apply Nat.ltb_ge in E. apply nth_overflow. rewrite map_length, seq_length. auto. }
  assert (Exy : forall s, 0 <= s <= b -> y s = x s).
  { intros s Hs. apply vec_ext.
    - rewrite Ly. symmetry. auto.
    - intros i Hi. rewrite Ny. rewrite Ly in Hi. apply Nat.ltb_lt in Hi. rewrite Hi. auto. }
  assert (Cy : vcont b y).
  { intros i. destruct (Nat.ltb i n) eqn:E.
    - apply (cont_ext b (fun s => nth i (x s) 0)); [intros s; rewrite Ny, E; auto|apply Cx].
    - apply (cont_ext b (fun s => 0)); [intros s; rewrite Ny, E; auto|apply cont_const]. }
  set (g := fun s => V N M lam xeq (y s)).
  set (w := fun s => exp (eps * s) * g s).
  assert (Cg : cont_on b g) by (apply V_cont; auto).
  assert (Cw : cont_on b w).
  { apply cont_mult; auto. apply cont_of_continuity. intros s. apply derivable_continuous_pt.
    exists (eps * exp (eps * s)). apply exp_derivable. }
  assert (Dw : forall s, 0 <= s < b -> exists d, d <= 0 /\ rderiv w s d).
  { intros s Hs. destruct (Dx s Hs) as (d & HT & Ld & Hd).
    rewrite (Lx s) in Ld by lra.
    assert (Vy : vrd y s d).
    { intros i. destruct (Nat.ltb i n) eqn:E.
      - apply (rderiv_ext (fun s => nth i (x s) 0)); [intros r; rewrite Ny, E; auto|apply Hd].
      - rewrite (nth_overflow d) by (apply Nat.ltb_ge in E; lia).
        apply (rderiv_ext (fun _ => 0)); [intros r; rewrite Ny, E; auto|apply rderiv_const]. }
    assert (By : forall r, 0 <= r <= b -> in_box lo up (y r)).
    { intros r Hr. rewrite Exy by auto. apply Bx. auto. }
    destruct (V_rderiv y s d blo bup ls us Ly Vy L1 L2) as (pats & sgs & K1 & K2 & K3 & K4).
    { apply B1, By. lra. }
    { apply B2, By. lra. }
    { exists (b - s). split; [lra|]. intros h Hh. split; [apply B1, By; lra|apply B2, By; lra]. }
    assert (Q := Dec (x s) d pats sgs (Bx s ltac:(lra)) HT Ld (Ha s Hs)).
    rewrite <- (Exy s) in Q by lra. specialize (Q K1 K2 K3). fold (g s) in Q.
    exists (eps * exp (eps * s) * g s + exp (eps * s) * Vdot N M lam pats sgs d). split.
    - assert (Pe := exp_pos (eps * s)).
      replace (eps * exp (eps * s) * g s + exp (eps * s) * Vdot N M lam pats sgs d)
        with (exp (eps * s) * (Vdot N M lam pats sgs d + eps * g s)) by ring.
      rewrite <- (Rmult_0_r (exp (eps * s))). apply Rmult_le_compat_l; lra.
    - apply (rderiv_mult (fun r => exp (eps * r)) g s (eps * exp (eps * s))); auto.
      apply rderiv_derivable. apply exp_derivable. }
  assert (K := nonincreasing0 w b Hb Cw Dw t Ht). unfold w in K.
  rewrite Rmult_0_r, exp_0, Rmult_1_l in K. unfold g in K.
  rewrite !Exy in K by lra.
  replace (- eps * t) with (- (eps * t)) by ring. rewrite exp_Ropp.
  assert (Pe := exp_pos (eps * t)).
  apply (Rmult_le_reg_l (exp (eps * t))); auto.
  rewrite <- Rmult_assoc, Rinv_r, Rmult_1_l by lra. exact K.
Qed.
End Decay.
