(** Interval arithmetic and propagation through activations. *)

Require Import Reals List Bool Arith Lra Lia.
Require Import Verif.Vec Verif.VecFacts Verif.ModelMip Verif.SpecMip
  Verif.ModelUtils Verif.ModelNet Verif.SpecCore Verif.SpecNet Verif.ProofUtils.
Import ListNotations.
Open Scope R_scope.

Lemma act_forward_fun : forall a x, act_forward a x = act_fun a x.
Proof.
  intros [|c] x; simpl; auto. unfold leaky, Rltb.
  destruct (Rlt_dec 0 x), (Rle_dec 0 x); try lra.
  assert (x = 0) by lra. subst. ring.
Qed.

Lemma lin_eval_bias : forall l x, wfm (out_features l) (length x) (weight l) ->
  lin_eval l x = vadd (mv (weight l) x) (bias_of l).
Proof.
  intros l x [L _]. unfold lin_eval, bias_of. destruct (bias l); auto.
  symmetry. apply vec_ext.
  - rewrite vadd_length; auto. rewrite mv_length, zeros_length; auto.
  - intros i Hi. rewrite nth_vadd, nth_zeros by (rewrite mv_length, zeros_length; auto). ring.
Qed.

(** One row. *)
Definition ia_lo (a lb ub : vec) : R :=
  dot (select (map (fun v => Rltb 0 v) a) a) (select (map (fun v => Rltb 0 v) a) lb)
  + dot (select (map (fun v => Rleb v 0) a) a) (select (map (fun v => Rleb v 0) a) ub).

Lemma Rltb_Rleb : forall v, (Rltb 0 v = true /\ Rleb v 0 = false /\ 0 < v) \/
  (Rltb 0 v = false /\ Rleb v 0 = true /\ v <= 0).
Proof.
  intros v. destruct (Rltb 0 v) eqn:E; destruct (Rleb v 0) eqn:F; auto;
  [apply Rltb_true in E; apply Rleb_true in F; lra
  | apply Rltb_true in E; auto
  | apply Rltb_false in E; auto
  | apply Rltb_false in E; apply Rleb_false in F; lra].
Qed.

Lemma ia_lo_cons : forall a v lb l ub u,
  ia_lo (v :: a) (l :: lb) (u :: ub)
  = v * (if Rltb 0 v then l else u) + ia_lo a lb ub.
Proof.
  intros. unfold ia_lo. simpl.
  destruct (Rltb_Rleb v) as [[E [F _]]|[E [F _]]]; rewrite E, F; simpl; ring.
Qed.

Lemma ia_lo_le : forall a lb ub x, length a = length x -> vle lb x -> vle x ub ->
  ia_lo a lb ub <= dot a x.
Proof.
  induction a as [|v a IH]; intros lb ub x L H1 H2.
  - unfold ia_lo; simpl. lra.
  - destruct x as [|y x]; [discriminate|]. inversion H1; subst. inversion H2; subst.
    rewrite ia_lo_cons. cbn [dot].
    assert (Q := IH l l' x ltac:(simpl in L; lia) H5 H7).
    destruct (Rltb_Rleb v) as [[E [_ P]]|[E [_ P]]]; rewrite E.
    + assert (v * x0 <= v * y) by (apply Rmult_le_compat_l; lra). lra.
    + assert (v * y0 <= v * y) by (apply Rmult_le_compat_neg_l; lra). lra.
Qed.

(** The corner of the box that attains the bound. *)
Definition corner (a lb ub : vec) : vec :=
  map2 (fun v p => if Rltb 0 v then fst p else snd p) a (combine lb ub).
Lemma ia_lo_corner : forall a lb ub, length a = length lb -> length a = length ub ->
  dot a (corner a lb ub) = ia_lo a lb ub.
Proof.
  induction a as [|v a IH]; intros lb ub L1 L2; [unfold ia_lo; simpl; lra|].
  destruct lb, ub; try discriminate. rewrite ia_lo_cons.
  unfold corner. cbn [combine map2 dot fst snd]. fold (corner a lb ub).
  rewrite IH by (simpl in *; lia). auto.
Qed.
Lemma corner_in : forall a lb ub, length a = length lb -> vle lb ub ->
  in_box lb ub (corner a lb ub).
Proof.
  intros a lb ub L H. revert a L. induction H as [|l u lb ub Hx H IH]; intros a L.
  - destruct a; [split; constructor|discriminate].
  - destruct a as [|v a]; [discriminate|]. unfold corner.
    cbn [combine map2 fst snd]. fold (corner a lb ub).
    destruct (IH a ltac:(simpl in L; lia)) as [I1 I2].
    split; constructor; auto; destruct (Rltb 0 v); lra.
Qed.


Lemma ia_row_lo : forall a b lb ub, fst (ia_row a b lb ub) = ia_lo a lb ub + b.
Proof. reflexivity. Qed.
Lemma ia_row_up : forall a b lb ub, snd (ia_row a b lb ub) = ia_lo a ub lb + b.
Proof. reflexivity. Qed.

(** The upper value is the same sum with the roles of the bounds exchanged. *)
Lemma ia_up_ge : forall a lb ub x, length a = length x -> vle lb x -> vle x ub ->
  dot a x <= ia_lo a ub lb.
Proof.
  induction a as [|v a IH]; intros lb ub x L H1 H2.
  - unfold ia_lo; simpl. lra.
  - destruct x as [|y x]; [discriminate|]. inversion H1; subst. inversion H2; subst.
    rewrite ia_lo_cons. cbn [dot].
    assert (Q := IH l l' x ltac:(simpl in L; lia) H5 H7).
    destruct (Rltb_Rleb v) as [[E [_ P]]|[E [_ P]]]; rewrite E.
    + assert (v * y <= v * y0) by (apply Rmult_le_compat_l; lra). lra.
    + assert (v * y <= v * x0) by (apply Rmult_le_compat_neg_l; lra). lra.
Qed.
Lemma corner_in' : forall a lb ub, length a = length lb -> vle lb ub ->
  in_box lb ub (corner a ub lb).
Proof.
  intros a lb ub L H. revert a L. induction H as [|l u lb ub Hx H IH]; intros a L.
  - destruct a; [split; constructor|discriminate].
  - destruct a as [|v a]; [discriminate|]. unfold corner.
    cbn [combine map2 fst snd]. fold (corner a ub lb).
    destruct (IH a ltac:(simpl in L; lia)) as [I1 I2].
    split; constructor; auto; destruct (Rltb 0 v); lra.
Qed.

Lemma range_inv : forall n A b lb ub lo up,
  compute_range_by_IA n A b lb ub = Some (lo, up) ->
  length b = length A /\ length lb = n /\ length ub = n /\
  lo = map2 (fun a bi => ia_lo a lb ub + bi) A b /\
  up = map2 (fun a bi => ia_lo a ub lb + bi) A b.
Proof.
  unfold compute_range_by_IA. intros n A b lb ub lo up H.
  destruct (Nat.eqb (length b) (length A)) eqn:E1; [|discriminate].
  destruct (Nat.eqb (length lb) n) eqn:E2; [|discriminate].
  destruct (Nat.eqb (length ub) n) eqn:E3; [|discriminate].
  apply Nat.eqb_eq in E1. apply Nat.eqb_eq in E2. apply Nat.eqb_eq in E3.
  simpl in H. injection H as H1 H2. repeat split; auto.
  - rewrite <- H1. clear. revert b. induction A; destruct b; simpl; auto. f_equal; auto.
  - rewrite <- H2. clear. revert b. induction A; destruct b; simpl; auto. f_equal; auto.
Qed.

Lemma range_total : forall n A b lb ub,
  length b = length A -> length lb = n -> length ub = n ->
  compute_range_by_IA n A b lb ub <> None.
Proof.
  intros. unfold compute_range_by_IA. rewrite H, H0, H1, !Nat.eqb_refl. discriminate.
Qed.

Lemma range_sound : forall n A b lb ub lo up x,
  compute_range_by_IA n A b lb ub = Some (lo, up) ->
  Forall (fun r => length r = n) A -> in_box lb ub x ->
  in_box lo up (vadd (mv A x) b).
Proof.
  intros n A b lb ub lo up x H F [B1 B2].
  apply range_inv in H. destruct H as [L [L1 [L2 [E1 E2]]]]. subst lo up.
  assert (Lx : length x = n) by (rewrite <- L1; symmetry; eapply vle_length; eauto).
  clear L1 L2. revert b L. induction F as [|r A Hr F IH]; intros b L.
  - destruct b; [split; constructor|discriminate].
  - destruct b as [|bi b]; [discriminate|].
    destruct (IH b ltac:(simpl in L; lia)) as [I1 I2].
    assert (Q1 := ia_lo_le r lb ub x ltac:(congruence) B1 B2).
    assert (Q2 := ia_up_ge r lb ub x ltac:(congruence) B1 B2).
    split; cbn [map2]; constructor; auto; lra.
Qed.

Lemma range_attained : forall n A b lb ub lo up i,
  compute_range_by_IA n A b lb ub = Some (lo, up) ->
  Forall (fun r => length r = n) A -> vle lb ub -> (i < length A)%nat ->
  (exists x, in_box lb ub x /\ nth i (vadd (mv A x) b) 0 = nth i lo 0) /\
  (exists x, in_box lb ub x /\ nth i (vadd (mv A x) b) 0 = nth i up 0).
Proof.
  intros n A b lb ub lo up i H F B Hi.
  apply range_inv in H. destruct H as [L [L1 [L2 [E1 E2]]]]. subst lo up.
  assert (La : length (nth i A []) = n).
  { rewrite Forall_forall in F. apply F. apply nth_In; auto. }
  split.
  - exists (corner (nth i A []) lb ub). split; [apply corner_in; auto; congruence|].
    rewrite nth_vadd by (rewrite mv_length; auto). rewrite nth_mv by auto.
    rewrite ia_lo_corner by congruence.
    rewrite (nth_map2 (fun a bi => ia_lo a lb ub + bi) A b i [] 0 0) by (unfold vec, mat in *; lia). auto.
  - exists (corner (nth i A []) ub lb). split; [apply corner_in'; auto; congruence|].
    rewrite nth_vadd by (rewrite mv_length; auto). rewrite nth_mv by auto.
    rewrite ia_lo_corner by congruence.
    rewrite (nth_map2 (fun a bi => ia_lo a ub lb + bi) A b i [] 0 0) by (unfold vec, mat in *; lia). auto.
Qed.

(** ** Activations *)

Lemma leaky_cases : forall c x, (0 <= x /\ leaky c x = x) \/ (x < 0 /\ leaky c x = c * x).
Proof. intros; unfold leaky; destruct (Rle_dec 0 x); [left|right]; lra. Qed.
Lemma relu_cases : forall x, (0 <= x /\ relu x = x) \/ (x < 0 /\ relu x = 0).
Proof. intros; unfold relu. destruct (Rmax_case' x 0) as [[E ?]|[E ?]]; rewrite E; lra. Qed.

Ltac leaky_case c x := destruct (leaky_cases c x) as [[? ->]|[? ->]].
Ltac mul_bound c lo x :=
  first [ assert (c * lo <= c * x) by (apply Rmult_le_compat_l; lra)
        | assert (c * x <= c * lo) by (apply Rmult_le_compat_neg_l; lra) ].

Lemma propagate_sound : forall a lo up x, lo <= x <= up ->
  fst (propagate_act a lo up) <= act_fun a x <= snd (propagate_act a lo up).
Proof.
  intros [|c] lo up x H; unfold propagate_act; rewrite ?act_forward_fun; simpl.
  - destruct (relu_cases lo) as [[? ->]|[? ->]], (relu_cases x) as [[? ->]|[? ->]],
      (relu_cases up) as [[? ->]|[? ->]]; lra.
  - destruct (Rltb c 0) eqn:E.
    + apply Rltb_true in E.
      destruct (Rltb lo 0) eqn:E1; destruct (Rltb 0 up) eqn:E2; cbn [andb];
      try apply Rltb_true in E1; try apply Rltb_false in E1;
      try apply Rltb_true in E2; try apply Rltb_false in E2; simpl;
      assert (c * up <= c * x) by (apply Rmult_le_compat_neg_l; lra);
      assert (c * x <= c * lo) by (apply Rmult_le_compat_neg_l; lra);
      assert (P : x < 0 -> 0 <= c * x)
        by (intros; rewrite <- (Rmult_0_r c); apply Rmult_le_compat_neg_l; lra);
      leaky_case c lo; leaky_case c x; leaky_case c up;
      unfold Rmin, Rmax; repeat destruct Rle_dec; try specialize (P ltac:(lra)); try lra.
    + apply Rltb_false in E. simpl.
      assert (c * x <= c * up) by (apply Rmult_le_compat_l; lra).
      assert (c * lo <= c * x) by (apply Rmult_le_compat_l; lra).
      assert (P : x < 0 -> c * x <= 0)
        by (intros; rewrite <- (Rmult_0_r c); apply Rmult_le_compat_l; lra).
      assert (P' : lo < 0 -> c * lo <= 0)
        by (intros; rewrite <- (Rmult_0_r c); apply Rmult_le_compat_l; lra).
      leaky_case c lo; leaky_case c x; leaky_case c up;
      try specialize (P ltac:(lra)); try specialize (P' ltac:(lra)); lra.
Qed.

Lemma propagate_tight : forall a lo up, lo <= up ->
  (exists x, lo <= x <= up /\ act_fun a x = fst (propagate_act a lo up)) /\
  (exists x, lo <= x <= up /\ act_fun a x = snd (propagate_act a lo up)).
Proof.
  intros [|c] lo up H; unfold propagate_act; rewrite ?act_forward_fun; simpl.
  - split; [exists lo|exists up]; split; auto; lra.
  - destruct (Rltb c 0) eqn:E; simpl.
    + split.
      * destruct (Rltb lo 0 && Rltb 0 up)%bool eqn:F.
        -- apply andb_true_iff in F. destruct F as [F1 F2].
           apply Rltb_true in F1. apply Rltb_true in F2.
           exists 0. split; [lra|]. leaky_case c 0; lra.
        -- destruct (Rmin_case' (leaky c lo) (leaky c up)) as [[-> _]|[-> _]];
             [exists lo|exists up]; split; auto; lra.
      * destruct (Rmax_case' (leaky c lo) (leaky c up)) as [[-> _]|[-> _]];
             [exists lo|exists up]; split; auto; lra.
    + split; [exists lo|exists up]; split; auto; lra.
Qed.

Lemma interval_propagate : forall c lo up, lo < up ->
  leaky_relu_interval c lo up = Some (propagate_act (Leaky c) lo up).
Proof.
  intros c lo up H. unfold leaky_relu_interval, propagate_act. cbv zeta.
  rewrite (proj2 (Rltb_true lo up) H). cbn [negb]. rewrite !act_forward_fun. simpl act_fun.
  destruct (Rltb c 0) eqn:E.
  - apply Rltb_true in E. rewrite (proj2 (Rleb_false 0 c)) by lra. f_equal.
    destruct (Rleb 0 lo) eqn:E1; [apply Rleb_true in E1|apply Rleb_false in E1].
    + rewrite (proj2 (Rltb_false lo 0)) by lra. cbn [andb].
      rewrite !leaky_nonneg by lra. rewrite Rmin_left, Rmax_right by lra. auto.
    + rewrite (proj2 (Rltb_true lo 0)) by lra. cbn [andb].
      destruct (Rleb up 0) eqn:E2; [apply Rleb_true in E2|apply Rleb_false in E2].
      * rewrite (proj2 (Rltb_false 0 up)) by lra. rewrite !leaky_nonpos by lra.
        assert (c * up <= c * lo) by (apply Rmult_le_compat_neg_l; lra).
        rewrite Rmin_right, Rmax_left by lra. auto.
      * rewrite (proj2 (Rltb_true 0 up)) by lra. rewrite leaky_nonpos, leaky_nonneg by lra. auto.
  - apply Rltb_false in E. rewrite (proj2 (Rleb_true 0 c)) by lra. f_equal.
    destruct (Rleb 0 lo) eqn:E1; [apply Rleb_true in E1|apply Rleb_false in E1].
    + rewrite !leaky_nonneg by lra. auto.
    + destruct (Rleb up 0) eqn:E2; [apply Rleb_true in E2|apply Rleb_false in E2].
      * rewrite !leaky_nonpos by lra. auto.
      * rewrite leaky_nonpos, leaky_nonneg by lra. auto.
Qed.
Lemma interval_reject : forall c lo up, leaky_relu_interval c lo up = None <-> up <= lo.
Proof.
  intros. unfold leaky_relu_interval. destruct (Rltb lo up) eqn:E; cbn [negb].
  - apply Rltb_true in E. destruct (Rleb 0 c); split; intros; try discriminate; lra.
  - apply Rltb_false in E. tauto.
Qed.

(** Whole layers. *)
Lemma act_layer_sound : forall a lo up x, in_box lo up x ->
  in_box (fst (propagate_act_layer a lo up)) (snd (propagate_act_layer a lo up))
         (map (act_fun a) x).
Proof.
  intros a lo up x [H1 H2]. unfold propagate_act_layer. simpl.
  revert up H2. induction H1 as [|l v lo x Hl H1 IH]; intros up H2.
  - inversion H2; subst. split; constructor.
  - inversion H2 as [|? u ? up' Hu H3]; subst.
    destruct (IH up' H3). destruct (propagate_sound a l u v) as [P Q]; [lra|].
    simpl; split; constructor; auto; try apply P; try apply Q.
Qed.
Lemma act_layer_lengths : forall a lo up, length lo = length up ->
  length (fst (propagate_act_layer a lo up)) = length lo /\
  length (snd (propagate_act_layer a lo up)) = length lo.
Proof.
  intros. unfold propagate_act_layer. simpl. rewrite !map_length, map2_length. lia.
Qed.
Lemma act_layer_tight : forall a lo up i, vle lo up -> (i < length lo)%nat ->
  (exists x, in_box lo up x /\
     nth i (map (act_fun a) x) 0 = nth i (fst (propagate_act_layer a lo up)) 0) /\
  (exists x, in_box lo up x /\
     nth i (map (act_fun a) x) 0 = nth i (snd (propagate_act_layer a lo up)) 0).
Proof.
  intros a lo up i H. revert i. unfold propagate_act_layer. simpl.
  induction H as [|l u lo up Hl H IH]; intros i Hi; [simpl in Hi; lia|].
  destruct i as [|i].
  - destruct (propagate_tight a l u Hl) as [[x [X1 X2]] [y [Y1 Y2]]]. simpl.
    split; [exists (x :: lo)|exists (y :: lo)]; simpl; split; auto;
      split; constructor; try lra; auto; apply vle_refl.
  - destruct (IH i ltac:(simpl in Hi; lia)) as [[x [X1 X2]] [y [Y1 Y2]]]. simpl.
    split; [exists (l :: x)|exists (l :: y)]; simpl; split; auto;
      [destruct X1|destruct Y1]; split; constructor; auto; lra.
Qed.

Lemma range_prop : forall n A b lb ub,
  wfm (length b) n A -> length lb = n -> vle lb ub ->
  exists lo up, compute_range_by_IA n A b lb ub = Some (lo, up) /\
    (forall x, in_box lb ub x -> in_box lo up (vadd (mv A x) b)) /\
    (forall i, (i < length A)%nat ->
       (exists x, in_box lb ub x /\ nth i (vadd (mv A x) b) 0 = nth i lo 0) /\
       (exists x, in_box lb ub x /\ nth i (vadd (mv A x) b) 0 = nth i up 0)).
Proof.
  intros n A b lb ub [L F] Ln B.
  destruct (compute_range_by_IA n A b lb ub) as [[lo up]|] eqn:E.
  - exists lo, up. split; auto. split.
    + intros. eapply range_sound; eauto.
    + intros. eapply range_attained; eauto.
  - exfalso. revert E. apply range_total; auto. rewrite <- Ln. symmetry. eapply vle_length; eauto.
Qed.
Lemma range_reject : forall n A b lb ub,
  compute_range_by_IA n A b lb ub = None <->
  length b <> length A \/ length lb <> n \/ length ub <> n.
Proof.
  intros. unfold compute_range_by_IA.
  destruct (Nat.eqb_spec (length b) (length A)), (Nat.eqb_spec (length lb) n),
    (Nat.eqb_spec (length ub) n); simpl; split; intros; try discriminate; try tauto.
Qed.

Lemma linear_prop : forall n l lb ub, lin_wf n l -> length lb = n -> vle lb ub ->
  exists lo up, propagate_linear l lb ub = Some (lo, up) /\
    (forall x, in_box lb ub x -> in_box lo up (lin_eval l x)) /\
    (forall i, (i < out_features l)%nat ->
       (exists x, in_box lb ub x /\ nth i (lin_eval l x) 0 = nth i lo 0) /\
       (exists x, in_box lb ub x /\ nth i (lin_eval l x) 0 = nth i up 0)).
Proof.
  intros n l lb ub [E [W Hb]] L B. unfold propagate_linear. rewrite E.
  assert (Lb : length (bias_of l) = out_features l).
  { unfold bias_of. destruct (bias l); auto. apply zeros_length. }
  destruct (range_prop n (weight l) (bias_of l) lb ub) as [lo [up [R1 [R2 R3]]]]; auto.
  { rewrite Lb; auto. }
  exists lo, up. split; auto.
  assert (V : forall x, in_box lb ub x -> lin_eval l x = vadd (mv (weight l) x) (bias_of l)).
  { intros x [X _]. apply lin_eval_bias. apply vle_length in X. rewrite <- X, L. auto. }
  split.
  - intros x X. rewrite V; auto.
  - intros i Hi. destruct (R3 i Hi) as [[x [X1 X2]] [y [Y1 Y2]]].
    split; [exists x|exists y]; rewrite V; auto.
Qed.
Lemma act_prop : forall a lo up, vle lo up ->
  let '(plo, pup) := propagate_act_layer a lo up in
  (forall x, in_box lo up x -> in_box plo pup (map (act_fun a) x)) /\
  (forall i, (i < length lo)%nat ->
     (exists x, in_box lo up x /\ nth i (map (act_fun a) x) 0 = nth i plo 0) /\
     (exists x, in_box lo up x /\ nth i (map (act_fun a) x) 0 = nth i pup 0)).
Proof.
  intros a lo up H. destruct (propagate_act_layer a lo up) as [plo pup] eqn:E. split.
  - intros x X. apply (act_layer_sound a) in X. rewrite E in X. auto.
  - intros i Hi. pose proof (act_layer_tight a lo up i H Hi) as Q. rewrite E in Q. auto.
Qed.
Lemma interval_prop : forall c lo up,
  (up <= lo -> leaky_relu_interval c lo up = None) /\
  (lo < up -> exists l u, leaky_relu_interval c lo up = Some (l, u) /\
     (forall x, lo <= x <= up -> l <= leaky c x <= u) /\
     (exists x, lo <= x <= up /\ leaky c x = l) /\
     (exists x, lo <= x <= up /\ leaky c x = u)).
Proof.
  intros. split; [apply interval_reject|]. intros H.
  exists (fst (propagate_act (Leaky c) lo up)), (snd (propagate_act (Leaky c) lo up)).
  rewrite interval_propagate by auto. split; [rewrite <- surjective_pairing; auto|].
  split; [intros x X; apply (propagate_sound (Leaky c)); auto|].
  apply (propagate_tight (Leaky c)). lra.
Qed.
