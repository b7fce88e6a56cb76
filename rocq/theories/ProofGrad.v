(** Lemmas for l1_gradient, l_infinity_gradient, minkowski_sum and
    loss_reduction. *)

Require Import Reals List Bool Lia Lra Arith FinFun.
Require Import Verif.Vec Verif.VecFacts Verif.ModelMip Verif.SpecMip
  Verif.ModelUtils Verif.ModelGrad Verif.SpecCore Verif.SpecUtils Verif.ProofUtils
  Verif.ProofMaxBox.
Import ListNotations.
Open Scope R_scope.

(** ** l1 *)

Lemma split_zero_spec : forall x,
  match split_zero 0 x with
  | None => Forall (fun a => a <> 0) x
  | Some (p, q) => x = p ++ 0 :: q /\ Forall (fun a => a <> 0) p
  end.
Proof.
  induction x as [|a x IH]; simpl; [constructor|].
  destruct (Rleb (Rabs a) 0) eqn:E.
  - apply Rleb_true in E. pose proof (Rabs_pos a).
    assert (a = 0). { destruct (Req_dec a 0); auto. apply Rabs_pos_lt in H0. lra. }
    subst. simpl. auto.
  - apply Rleb_false in E.
    assert (a <> 0) by (intros Z; subst; rewrite Rabs_R0 in E; lra).
    destruct (split_zero 0 x) as [[p q]|].
    + destruct IH. subst. simpl. auto.
    + auto.
Qed.

Lemma filter_none0 : forall x, filter (fun a => Rltb (Rabs a) 0) x = [].
Proof.
  induction x; simpl; auto.
  destruct (Rltb (Rabs a) 0) eqn:E; auto.
  apply Rltb_true in E. pose proof (Rabs_pos a). lra.
Qed.

Lemma sgn_row : forall subs x, Forall (fun a => a <> 0) x ->
  forall g, l1_row subs x g <-> g = map sgn x.
Proof.
  induction x as [|a x IH]; intros F g; inversion F; subst.
  - split; intros H; [inversion H; auto|subst; constructor].
  - assert (E : sgn a = 1 /\ 0 < a \/ sgn a = -1 /\ a < 0).
    { unfold sgn. rcases; auto; lra. }
    split; intros H.
    + inversion H; subst. simpl. f_equal; [|apply IH; auto].
      destruct H4 as [[P1 P2]|[[P1 P2]|[P1 P2]]]; lra.
    + subst. simpl. constructor; [|apply IH; auto].
      unfold l1_entry. destruct E as [[E1 E2]|[E1 E2]]; rewrite E1; auto.
Qed.

Lemma l1_row_app : forall subs p q g,
  l1_row subs (p ++ q) g <->
  exists g1 g2, g = g1 ++ g2 /\ l1_row subs p g1 /\ l1_row subs q g2.
Proof.
  intros. split.
  - intros H. apply Forall2_app_inv_l in H. destruct H as [g1 [g2 [A [B C]]]]. eauto.
  - intros [g1 [g2 [A [B C]]]]. subst. apply Forall2_app; auto.
Qed.

Lemma l1_fuel_spec : forall fuel subs x, (length x < fuel)%nat ->
  exists G, l1_gradient_fuel fuel 0 subs x = Some G /\
            forall g, In g G <-> l1_row subs x g.
Proof.
  induction fuel as [|fuel IH]; intros subs x Hf; [lia|].
  simpl. pose proof (split_zero_spec x) as Sp.
  destruct (split_zero 0 x) as [[p q]|].
  - destruct Sp as [Ex Hp]. rewrite filter_none0. simpl.
    destruct (IH subs q) as [Gq [E1 E2]].
    { subst x. rewrite app_length in Hf. simpl in Hf. lia. }
    rewrite E1. eexists; split; [reflexivity|].
    intros g. subst x.
    change (map (fun gg => map sgn p ++ 1 :: gg) Gq ++
            map (fun gg => map sgn p ++ -1 :: gg) Gq ++
            concat (map (fun v => map (fun gg => map sgn p ++ v :: gg) Gq) subs))
      with (concat (map (fun v => map (fun gg => map sgn p ++ v :: gg) Gq)
                        (1 :: -1 :: subs))).
    rewrite in_concat. split.
    + intros [l [H1 H2]]. apply in_map_iff in H1. destruct H1 as [v [H1 Hv]].
      subst l. apply in_map_iff in H2. destruct H2 as [g0 [H2 Hg]]. subst g.
      apply l1_row_app. exists (map sgn p), (v :: g0). split; auto. split.
      * apply sgn_row; auto.
      * constructor; [|apply E2; auto]. right; right. auto.
    + intros H. apply l1_row_app in H. destruct H as [g1 [g2 [H1 [H2 H3]]]].
      apply sgn_row in H2; auto. inversion H3; subst.
      destruct H4 as [[C _]|[[C _]|[_ Hv]]]; [lra|lra|].
      exists (map (fun gg => map sgn p ++ y :: gg) Gq). split.
      * apply in_map_iff. eauto.
      * apply in_map_iff. exists l'. split; auto. apply E2; auto.
  - eexists; split; [reflexivity|]. intros g. rewrite sgn_row by auto.
    simpl. split; [intros [H|[]]; auto|intros; left; auto].
Qed.

Lemma NoDup_app' : forall {A} (l1 l2 : list A), NoDup l1 -> NoDup l2 ->
  (forall a, In a l1 -> ~ In a l2) -> NoDup (l1 ++ l2).
Proof.
  induction l1; simpl; intros l2 H1 H2 H; auto. inversion H1; subst.
  constructor.
  - rewrite in_app_iff. intros [C|C]; [auto|]. apply (H a); auto. 
  - apply IHl1; auto.
Qed.

Lemma l1_fuel_nodup : forall fuel subs x G,
  NoDup (1 :: -1 :: subs) ->
  l1_gradient_fuel fuel 0 subs x = Some G -> NoDup G.
Proof.
  induction fuel as [|fuel IH]; intros subs x G Hn H; [discriminate|].
  simpl in H. destruct (split_zero 0 x) as [[p q]|].
  - rewrite filter_none0 in H. simpl in H.
    destruct (l1_gradient_fuel fuel 0 subs q) as [Gq|] eqn:E; [|discriminate].
    apply IH in E; auto. injection H as H. subst G.
    change (map (fun gg => map sgn p ++ 1 :: gg) Gq ++
            map (fun gg => map sgn p ++ -1 :: gg) Gq ++
            concat (map (fun v => map (fun gg => map sgn p ++ v :: gg) Gq) subs))
      with (concat (map (fun v => map (fun gg => map sgn p ++ v :: gg) Gq)
                        (1 :: -1 :: subs))).
    revert Hn. generalize (1 :: -1 :: subs). intros L.
    induction L as [|v L IHL]; intros HL; [constructor|].
    inversion HL; subst. simpl. apply NoDup_app'; auto.
    + apply Injective_map_NoDup; auto.
      intros a b Hab. apply app_inv_head in Hab. congruence.
    + intros g Hg Hc. apply in_map_iff in Hg. destruct Hg as [g0 [E1 _]]. subst g.
      apply in_concat in Hc. destruct Hc as [l [C1 C2]].
      apply in_map_iff in C1. destruct C1 as [w [C1 C3]]. subst l.
      apply in_map_iff in C2. destruct C2 as [g1 [C2 _]].
      apply app_inv_head in C2. injection C2; intros; subst. auto.
  - injection H as H. subst. constructor; auto. constructor.
Qed.

Lemma l1_gradient_rows : forall subs x,
  Forall (fun v => -1 < v < 1) subs ->
  exists G, l1_gradient 0 subs x = Some G /\
            (forall g, In g G <-> l1_row subs x g) /\
            (NoDup subs -> NoDup G).
Proof.
  intros subs x Hs.
  assert (E : l1_gradient 0 subs x = l1_gradient_fuel (S (length x)) 0 subs x).
  { unfold l1_gradient. destruct (Rleb 0 0) eqn:E0; [|apply Rleb_false in E0; lra].
    assert (F : forallb (fun v => Rltb (-1) v && Rltb v 1)%bool subs = true).
    { apply forallb_forall. intros v Hv. rewrite Forall_forall in Hs.
      specialize (Hs v Hv). rewrite andb_true_iff, !Rltb_true. auto. }
    rewrite F. auto. }
  destruct (l1_fuel_spec (S (length x)) subs x ltac:(lia)) as [G [G1 G2]].
  exists G. rewrite E. split; auto. split; auto.
  intros Hn. eapply l1_fuel_nodup; [|exact G1].
  rewrite Forall_forall in Hs.
  constructor; [|constructor; auto].
  - simpl. intros [C|C]; [lra|]. apply Hs in C. lra.
  - intros C. apply Hs in C. lra.
Qed.

Lemma l1_row_dot : forall subs x g, l1_row subs x g -> dot g x = norm1 x.
Proof.
  intros subs x g H. unfold norm1. induction H; simpl; auto.
  rewrite IHForall2.
  destruct H as [[P1 P2]|[[P1 P2]|[P1 P2]]]; subst.
  - rewrite Rabs_pos' by lra. ring.
  - rewrite Rabs_neg' by lra. ring.
  - rewrite Rabs_R0. ring.
Qed.

Lemma l1_entry_bound : forall subs x g, Forall (fun v => -1 < v < 1) subs ->
  l1_entry subs x g -> -1 <= g <= 1.
Proof.
  intros subs x g Hs H.
  destruct H as [[P1 P2]|[[P1 P2]|[P1 [P2|[P2|P2]]]]]; subst; try lra.
  rewrite Forall_forall in Hs. apply Hs in P2. lra.
Qed.

Lemma mul_le_abs : forall a b, -1 <= a <= 1 -> a * b <= Rabs b.
Proof.
  intros a b H. unfold Rabs. destruct (Rcase_abs b); nra.
Qed.

Lemma l1_row_dual : forall subs x g, Forall (fun v => -1 < v < 1) subs ->
  l1_row subs x g -> forall y, length y = length x -> dot g y <= norm1 y.
Proof.
  intros subs x g Hs H. unfold norm1. induction H; intros z Hz.
  - destruct z; simpl; [lra|discriminate].
  - destruct z as [|b z]; [discriminate|]. simpl in *.
    apply l1_entry_bound in H; auto.
    pose proof (mul_le_abs y b H). specialize (IHForall2 z ltac:(lia)). lra.
Qed.

Lemma Forall2_length' : forall {A B} (P : A -> B -> Prop) a b,
  Forall2 P a b -> length b = length a.
Proof. intros. induction H; simpl; auto. Qed.

(** The 1-norm lies above the affine function given by each row: each row is a
    subgradient of the 1-norm at x. *)
Lemma l1_subgradient : forall subs x g, Forall (fun v => -1 < v < 1) subs ->
  l1_row subs x g -> forall y, length y = length x ->
  norm1 x + dot g (vsub y x) <= norm1 y.
Proof.
  intros subs x g Hs H y Hy.
  rewrite dot_vsub_r by auto.
  rewrite (l1_row_dot _ _ _ H).
  pose proof (l1_row_dual _ _ _ Hs H y Hy). lra.
Qed.

(** ** l-infinity *)

Lemma inf_norm_ge : forall x i, Rabs (nth i x 0) <= inf_norm x.
Proof.
  unfold inf_norm. induction x; simpl; intros i.
  - destruct i; rewrite Rabs_R0; lra.
  - destruct i.
    + apply Rmax_l.
    + eapply Rle_trans; [apply IHx|apply Rmax_r].
Qed.
Lemma inf_norm_nonneg : forall x, 0 <= inf_norm x.
Proof.
  unfold inf_norm. induction x; simpl; [lra|].
  eapply Rle_trans; [apply IHx|apply Rmax_r].
Qed.
Lemma inf_norm_attained : forall x, x <> [] ->
  exists i, (i < length x)%nat /\ Rabs (nth i x 0) = inf_norm x.
Proof.
  induction x as [|a x IH]; [congruence|]. intros _.
  destruct x as [|b x].
  - exists 0%nat. split; [simpl; lia|]. unfold inf_norm. simpl.
    rewrite Rmax_left; auto. apply Rabs_pos.
  - destruct IH as [i [I1 I2]]; [discriminate|].
    change (inf_norm (a :: b :: x)) with (Rmax (Rabs a) (inf_norm (b :: x))).
    destruct (Rmax_case' (Rabs a) (inf_norm (b :: x))) as [[E _]|[E _]]; rewrite E.
    + exists 0%nat. split; [simpl; lia|auto].
    + exists (S i). split; [simpl in *; lia|auto].
Qed.

(** A vertex of the subdifferential of the infinity norm at x: +-e_i for an
    index attaining the norm. *)
Lemma linf_sign_0 : forall n a, 0 < n ->
  (linf_sign 0 n a = 1 /\ a = n) \/ (linf_sign 0 n a = -1 /\ a = - n) \/
  (linf_sign 0 n a = 0 /\ a <> n /\ a <> - n).
Proof.
  intros n a Hn. unfold linf_sign.
  destruct (Rleb (Rabs (a - n)) 0) eqn:E1; destruct (Rleb (Rabs (a + n)) 0) eqn:E2;
    rcases.
  - exfalso. unfold Rabs in *. destruct (Rcase_abs (a - n)), (Rcase_abs (a + n)); lra.
  - left. split; [lra|]. unfold Rabs in *.
    destruct (Rcase_abs (a - n)); lra.
  - right; left. split; [lra|]. unfold Rabs in *.
    destruct (Rcase_abs (a + n)); lra.
  - right; right. split; [lra|]. split; intros C; subst.
    + replace (n - n) with 0 in E1 by ring. rewrite Rabs_R0 in E1. lra.
    + replace (- n + n) with 0 in E2 by ring. rewrite Rabs_R0 in E2. lra.
Qed.

Lemma linf_grad_rows : forall x, x <> [] ->
  exists G, l_infinity_gradient 0 x = Some G /\ G <> [] /\
            (forall g, In g G <-> linf_row x g).
Proof.
  intros x Hx.
  assert (En : inf_norm x = norminf x) by reflexivity.
  destruct (Rleb (inf_norm x) 0) eqn:E.
  - (* x = 0 *)
    assert (Z : inf_norm x = 0) by (pose proof (inf_norm_nonneg x); rcases; lra).
    assert (Zi : forall i, nth i x 0 = 0).
    { intros i. pose proof (inf_norm_ge x i). rewrite Z in H.
      destruct (Req_dec (nth i x 0) 0) as [|N]; auto.
      apply Rabs_pos_lt in N. lra. }
    exists (eye (length x) ++ eyek (length x) (-1)).
    split; [|split].
    + unfold l_infinity_gradient. destruct x; [congruence|]. rewrite E. auto.
    + destruct x; [congruence|]. discriminate.
    + intros g. rewrite in_app_iff. unfold eye, eyek. rewrite !in_map_iff. split.
      * intros [[i [H1 H2]]|[i [H1 H2]]]; apply in_seq in H2.
        -- exists i, 1. split; [lia|]. split; auto. split; auto.
           rewrite Zi, <- En, Z. ring.
        -- exists i, (-1). split; [lia|]. split; auto. split; auto.
           rewrite Zi, <- En, Z. ring.
      * intros [i [s [H1 [H2 [H3 _]]]]]. subst g.
        destruct H2; subst s; [left|right]; exists i; split; auto; apply in_seq; lia.
  - (* x <> 0 *)
    assert (P : 0 < inf_norm x) by (rcases; lra).
    set (n := inf_norm x) in *.
    set (grad := map (linf_sign 0 n) x).
    assert (Gn : forall i, (i < length x)%nat -> nth i grad 0 = linf_sign 0 n (nth i x 0)).
    { intros i Hi. unfold grad.
      rewrite (nth_indep _ 0 (linf_sign 0 n 0)) by (rewrite map_length; auto).
      apply map_nth. }
    set (idx := filter (fun i => negb (Reqb (nth i grad 0) 0)) (seq 0 (length x))).
    assert (Idx : forall i, In i idx <-> (i < length x)%nat /\ nth i grad 0 <> 0).
    { intros i. unfold idx. rewrite filter_In, in_seq, negb_true_iff, Reqb_false.
      split; intros [A B]; split; auto; lia. }
    assert (Row : forall g, (exists i, In i idx /\ g = unit_row (length x) i (nth i grad 0))
                            <-> linf_row x g).
    { intros g. split.
      - intros [i [H1 H2]]. apply Idx in H1. destruct H1 as [H1 H3].
        rewrite Gn in H2, H3 by auto. exists i, (linf_sign 0 n (nth i x 0)).
        rewrite <- En. fold n.
        destruct (linf_sign_0 n (nth i x 0) P) as [[A B]|[[A B]|[A B]]].
        + rewrite A in *. repeat split; auto. rewrite B. ring.
        + rewrite A in *. repeat split; auto. rewrite B. ring.
        + congruence.
      - intros [i [s [H1 [H2 [H3 H4]]]]]. exists i.
        assert (A : nth i grad 0 = s).
        { rewrite Gn by auto. rewrite <- En in H4. fold n in H4.
          destruct (linf_sign_0 n (nth i x 0) P) as [[A B]|[[A B]|[A [B C]]]];
            destruct H2; subst s; try lra; rewrite A; auto. }
        split; [|rewrite A; auto]. apply Idx. split; auto.
        rewrite A. destruct H2; subst; lra. }
    destruct (inf_norm_attained x Hx) as [k [K1 K2]]. fold n in K2.
    assert (Ik : In k idx).
    { apply Idx. split; auto. rewrite Gn by auto.
      destruct (linf_sign_0 n (nth k x 0) P) as [[A B]|[[A B]|[A [B C]]]];
        try (rewrite A; lra).
      exfalso. unfold Rabs in K2. destruct (Rcase_abs (nth k x 0)); [apply C|apply B]; lra. }
    exists (map (fun i => unit_row (length x) i (nth i grad 0)) idx).
    split; [|split].
    + unfold l_infinity_gradient. destruct x as [|a x]; [congruence|].
      fold n. rewrite E. fold grad. fold idx.
      destruct (Nat.eqb (length idx) 1) eqn:L; auto.
      apply Nat.eqb_eq in L. destruct idx as [|i [|]] eqn:Ei; try discriminate.
      cbn [map]. do 2 f_equal.
      assert (Lg : length grad = length (a :: x)) by (unfold grad; apply map_length).
      apply vec_ext; [rewrite unit_row_length; auto|].
      intros j Hj. rewrite nth_unit_row by (rewrite <- Lg; auto).
      destruct (Nat.eqb j i) eqn:Eji.
      * apply Nat.eqb_eq in Eji. subst. auto.
      * apply Nat.eqb_neq in Eji.
        destruct (Req_dec (nth j grad 0) 0) as [|N]; auto.
        assert (In j [i]) by (apply Idx; split; auto; rewrite <- Lg; auto).
        simpl in H. destruct H as [H|[]]. congruence.
    + destruct idx; [destruct Ik|discriminate].
    + intros g. rewrite <- Row, in_map_iff. split; intros [i [A B]]; exists i; auto.
Qed.

Lemma norminf_ge : forall y i, Rabs (nth i y 0) <= norminf y.
Proof. exact inf_norm_ge. Qed.

Lemma linf_row_facts : forall x g, linf_row x g ->
  dot g x = norminf x /\
  (forall y, length y = length x -> dot g y <= norminf y) /\
  (forall y, length y = length x -> norminf x + dot g (vsub y x) <= norminf y).
Proof.
  intros x g [i [s [H1 [H2 [H3 H4]]]]]. subst g.
  assert (A : dot (unit_row (length x) i s) x = norminf x).
  { rewrite dot_unit_row by auto. auto. }
  assert (B : forall y, length y = length x ->
                dot (unit_row (length x) i s) y <= norminf y).
  { intros y Hy. rewrite dot_unit_row by auto.
    eapply Rle_trans; [|apply (norminf_ge y i)].
    apply mul_le_abs. destruct H2; subst; lra. }
  split; auto. split; auto.
  intros y Hy. rewrite dot_vsub_r by auto. rewrite A. specialize (B y Hy). lra.
Qed.

(** ** minkowski_sum and loss_reduction *)

Lemma concat_nth : forall {A} (d : A) n (L : list (list A)) i j,
  (forall l, In l L -> length l = n) -> (i < length L)%nat -> (j < n)%nat ->
  nth (i * n + j) (concat L) d = nth j (nth i L []) d.
Proof.
  induction L as [|l L IH]; simpl; intros i j H Hi Hj; [lia|].
  assert (Hl : length l = n) by auto.
  destruct i; simpl.
  - rewrite app_nth1 by lia. auto.
  - rewrite app_nth2 by lia.
    replace (n + i * n + j - length l)%nat with (i * n + j)%nat by lia.
    apply IH; auto; lia.
Qed.

Lemma minkowski_nth : forall (x y : mat) i j, (i < length x)%nat -> (j < length y)%nat ->
  nth (i * length y + j) (minkowski_sum x y) [] = vadd (nth j y []) (nth i x []).
Proof.
  intros. unfold minkowski_sum. rewrite concat_nth.
  - rewrite (nth_indep _ [] (map (fun b => vadd b []) y)) by (rewrite map_length; auto).
    rewrite (map_nth (fun a => map (fun b => vadd b a) y) x []).
    rewrite (nth_indep _ [] (vadd [] (nth i x []))) by (rewrite map_length; auto).
    rewrite (map_nth (fun b => vadd b (nth i x [])) y []). auto.
  - intros l Hl. apply in_map_iff in Hl. destruct Hl as [a [E _]]. subst.
    apply map_length.
  - rewrite map_length; auto.
  - auto.
Qed.

Lemma minkowski_length : forall (x y : mat),
  length (minkowski_sum x y) = (length x * length y)%nat.
Proof.
  unfold minkowski_sum. induction x; simpl; intros; auto.
  rewrite app_length, map_length, IHx. auto.
Qed.

Lemma vsum_le_len : forall l m, (forall v, In v l -> v <= m) ->
  vsum l <= INR (length l) * m.
Proof.
  induction l; intros m H; simpl vsum; simpl length; [simpl; lra|].
  rewrite S_INR. specialize (IHl m ltac:(intros; apply H; simpl; auto)).
  specialize (H a ltac:(simpl; auto)). lra.
Qed.

Lemma sqrt_sqrt4 : forall v, 0 <= v -> sqrt (sqrt (v * v * v * v)) = v.
Proof.
  intros. replace (v * v * v * v) with ((v * v) * (v * v)) by ring.
  rewrite sqrt_square by nra. apply sqrt_square; auto.
Qed.

Lemma sum4_nonneg : forall l : vec, 0 <= vsum (map (fun v => v * v * v * v) l).
Proof.
  intros. apply vsum_nonneg. apply Forall_forall. intros v Hv.
  apply in_map_iff in Hv. destruct Hv as [w [E _]]. subst.
  pose proof (Rle_0_sqr (w * w)). unfold Rsqr in H. lra.
Qed.
Lemma sum4_ge : forall (l : vec) v, In v l ->
  v * v * v * v <= vsum (map (fun v => v * v * v * v) l).
Proof.
  induction l; simpl; intros v H; [tauto|].
  assert (Q : forall w : R, 0 <= w * w * w * w).
  { intros w. pose proof (Rle_0_sqr (w * w)). unfold Rsqr in H0. lra. }
  destruct H as [H|H].
  - subst. pose proof (sum4_nonneg l). lra.
  - specialize (IHl v H). pose proof (Q a). lra.
Qed.

Lemma Some_inj : forall {A} (x y : A), Some x = Some y -> x = y.
Proof. congruence. Qed.

(** A reduced loss of non-negative sample losses is 0 exactly when all samples
    have zero loss; max and 4norm dominate every sample, mean is at most max. *)
Lemma loss_zero_iff : forall l r v, Forall (fun a => 0 <= a) l ->
  loss_reduction l r = Some v ->
  0 <= v /\ (v = 0 <-> Forall (fun a => a = 0) l).
Proof.
  intros l r v Hn H. destruct l as [|a l]; [discriminate|].
  assert (Ni : 0 < INR (length (a :: l))) by (apply lt_0_INR; simpl; lia).
  assert (Zs : vsum (a :: l) = 0 <-> Forall (fun a => a = 0) (a :: l)).
  { clear H Ni. revert Hn. generalize (a :: l). induction l0; intros Hn.
    - split; auto.
    - inversion Hn; subst. pose proof (vsum_nonneg _ H2). simpl.
      rewrite Fa_cons. rewrite <- IHl0 by auto. split; intros; lra. }
  unfold loss_reduction in H. destruct r; apply Some_inj in H; subst v.
  - pose proof (vsum_nonneg _ Hn) as Hp. split.
    + apply Rmult_le_pos; auto. left. apply Rinv_0_lt_compat; auto.
    + rewrite <- Zs. split; intros Z.
      * apply Rmult_integral in Z. destruct Z as [Z|Z]; auto.
        exfalso. apply Rinv_0_lt_compat in Ni. lra.
      * rewrite Z. unfold Rdiv. ring.
  - pose proof (fold_Rmax_in l a) as In1. pose proof (fold_Rmax_ge l a) as Ge.
    rewrite Forall_forall in Hn. split; [apply Hn; auto|].
    split; intros Z.
    + apply Forall_forall. intros w Hw. specialize (Ge w Hw). specialize (Hn w Hw). lra.
    + rewrite Forall_forall in Z. apply Z. auto.
  - split; [apply sqrt_pos|].
    pose proof (sum4_nonneg (a :: l)) as Sn.
    split; intros Z.
    + apply sqrt_eq_0 in Z; [|apply sqrt_pos].
      apply sqrt_eq_0 in Z; auto.
      apply Forall_forall. intros w Hw. pose proof (sum4_ge _ _ Hw) as G.
      rewrite Z in G.
      destruct (Req_dec w 0) as [|N]; auto.
      apply Rsqr_pos_lt in N. unfold Rsqr in N.
      assert (0 < (w * w) * (w * w)) by (apply Rmult_lt_0_compat; auto). lra.
    + assert (S0 : vsum (map (fun v => v * v * v * v) (a :: l)) = 0).
      { clear - Z. induction Z; simpl; auto. rewrite IHZ, H. ring. }
      rewrite S0, sqrt_0, sqrt_0. auto.
Qed.

Lemma loss_bounds : forall l v mean mx fn, Forall (fun a => 0 <= a) l -> In v l ->
  loss_reduction l RMean = Some mean -> loss_reduction l RMax = Some mx ->
  loss_reduction l RFourNorm = Some fn ->
  v <= mx /\ mean <= mx /\ mx <= fn.
Proof.
  intros l v mean mx fn Hn Hv H1 H2 H3. destruct l as [|a l]; [discriminate|].
  unfold loss_reduction in H1, H2, H3.
  apply Some_inj in H1. apply Some_inj in H2. apply Some_inj in H3.
  pose proof (fold_Rmax_in l a) as In1. pose proof (fold_Rmax_ge l a) as Ge.
  rewrite H2 in In1, Ge. split; [apply Ge; auto|]. split.
  - assert (Ni : 0 < INR (length (a :: l))) by (apply lt_0_INR; simpl; lia).
    pose proof (vsum_le_len (a :: l) mx Ge) as S.
    rewrite <- H1. apply (mul_le_pos (INR (length (a :: l)))); auto.
    replace (INR (length (a :: l)) * (vsum (a :: l) / INR (length (a :: l))))
      with (vsum (a :: l)) by (field; lra).
    auto.
  - rewrite Forall_forall in Hn. pose proof (Hn mx In1) as Hm.
    rewrite <- H3. rewrite <- (sqrt_sqrt4 mx Hm) at 1.
    apply sqrt_le_1_alt. apply sqrt_le_1_alt.
    apply (sum4_ge (a :: l)); auto.
Qed.

(** ** Packaged statements *)

Lemma product_prop : forall lo up,
  (up < lo -> replace_binary_continuous_product lo up = None) /\
  (lo <= up -> exists rw, replace_binary_continuous_product lo up = Some rw /\
     forall x s al, is_bin al ->
       (sat4 rw x s al <-> (lo <= x <= up /\ s = al * x))).
Proof.
  intros. split; [apply product_reject|]. intros L.
  destruct (replace_binary_continuous_product lo up) as [rw|] eqn:E.
  - exists rw. split; auto. intros. eapply product_exact; eauto.
  - apply product_reject in E. lra.
Qed.

Lemma relu_prop : forall lo up,
  (~ (lo < 0 < up) -> replace_relu lo up = None) /\
  (lo < 0 < up -> exists rw, replace_relu lo up = Some rw /\
     forall x y be, is_bin be ->
       (sat4 rw x y be <->
        (lo <= x <= up /\ y = relu x /\ (be = 1 -> 0 <= x) /\ (be = 0 -> x <= 0)))).
Proof.
  intros. split; [apply relu_reject|]. intros L.
  destruct (replace_relu lo up) as [rw|] eqn:E.
  - exists rw. split; auto. intros. eapply relu_exact; eauto.
  - apply relu_reject in E. tauto.
Qed.

Lemma leaky_prop : forall a lo up,
  (~ (lo < 0 < up) -> replace_leaky_relu a lo up = None) /\
  (lo < 0 < up -> exists rw, replace_leaky_relu a lo up = Some rw /\
     forall x y be, is_bin be ->
       (a <> 1 ->
        (sat4 rw x y be <->
         (lo <= x <= up /\ y = leaky a x /\
          (be = 1 -> 0 <= x) /\ (be = 0 -> x <= 0)))) /\
       (a = 1 -> (sat4 rw x y be <-> y = x))).
Proof.
  intros. split; [apply leaky_reject|]. intros L.
  destruct (replace_leaky_relu a lo up) as [rw|] eqn:E.
  2:{ apply leaky_reject in E. tauto. }
  exists rw. split; auto. intros x y be Hb. split.
  - intros Ha. rewrite (leaky_exact a lo up rw x y be Ha E Hb). split.
    + intros [H1 [[H2 [H3 H4]]|[H2 [H3 H4]]]].
      * rewrite leaky_nonneg by auto. repeat split; try tauto; intros; lra.
      * rewrite leaky_nonpos by auto. repeat split; try tauto; intros; lra.
    + intros [H1 [H2 [H3 H4]]]. split; auto. destruct Hb as [Hb|Hb].
      * right. rewrite leaky_nonpos in H2 by auto. auto.
      * left. rewrite leaky_nonneg in H2 by auto. auto.
  - intros Ha. subst a. eapply leaky_exact_slope1; eauto.
Qed.

Lemma leaky_grad_prop : forall lo up c,
  (up < lo -> leaky_relu_gradient_times_x lo up c = None) /\
  (lo <= up -> exists rw, leaky_relu_gradient_times_x lo up c = Some rw /\
     forall x y al,
       (lo <= x <= up ->
        (sat4 rw x y 1 <-> y = x) /\ (sat4 rw x y 0 <-> y = c * x)) /\
       (is_bin al -> c <> 1 -> sat4 rw x y al -> lo <= x <= up)).
Proof.
  intros. split; [apply leaky_grad_reject|]. intros L.
  destruct (leaky_relu_gradient_times_x lo up c) as [rw|] eqn:E.
  2:{ apply leaky_grad_reject in E. lra. }
  exists rw. split; auto. intros x y al. split.
  - intros Hx.
    pose proof (leaky_grad_exact _ _ _ _ x y 1 E is_bin_1 Hx) as H1.
    pose proof (leaky_grad_exact _ _ _ _ x y 0 E is_bin_0 Hx) as H0.
    destruct (Req_EM_T 1 1); [|lra]. destruct (Req_EM_T 0 1); [lra|]. auto.
  - intros Hb Hc Hs. eapply leaky_grad_range; eauto.
Qed.

Lemma abs_prop : forall lo up bz,
  (up < lo -> abs_mic lo up bz = None) /\
  (lo <= up -> exists c, abs_mic lo up bz = Some c /\
     nin c = 1%nat /\ nsl c = 1%nat /\ nbin c = (if bz then 3 else 1)%nat /\
     (forall x s b, bins b -> rows_sat c x s b ->
        exists v, x = [v] /\ lo <= v <= up /\ s = [Rabs v] /\
                  output c x s b = [Rabs v] /\ abs_sign bz v b) /\
     (forall v, lo <= v <= up ->
        exists b, bins b /\ mic_sat c [v] [Rabs v] b /\
                  output c [v] [Rabs v] b = [Rabs v])).
Proof.
  intros. split; [apply abs_reject|]. intros L.
  destruct (abs_mic lo up bz) as [c|] eqn:E.
  2:{ apply abs_reject in E. lra. }
  destruct (abs_dims lo up bz c E) as [_ [N1 [N2 [N3 Out]]]].
  exists c. repeat (split; auto).
  - intros. eapply abs_sound; eauto.
  - intros v Hv. destruct (abs_complete lo up bz c v E Hv). eauto.
Qed.

Lemma max_prop : forall lo up c, max_mic lo up = Some c ->
  (forall x s b, bins b -> rows_sat c x s b ->
     exists y k, is_max y x /\ (k < length x)%nat /\ nth k x 0 = y /\
       s = [y] /\ b = one_hot (length x) k /\ output c x s b = [y]) /\
  (forall x y k, in_box lo up x -> is_max y x ->
     (k < length x)%nat -> nth k x 0 = y ->
     mic_sat c x [y] (one_hot (length x) k)).
Proof.
  intros lo up c H. split; intros.
  - eapply max_sound; eauto.
  - eapply max_complete; eauto.
Qed.

Lemma Rltb_t : forall a b, a < b -> Rltb a b = true.
Proof. intros. destruct (Rltb a b) eqn:E; auto. apply Rltb_false in E; lra. Qed.
Lemma Rltb_f : forall a b, b <= a -> Rltb a b = false.
Proof. intros. destruct (Rltb a b) eqn:E; auto. apply Rltb_true in E; lra. Qed.
Lemma Rleb_t : forall a b, a <= b -> Rleb a b = true.
Proof. intros. destruct (Rleb a b) eqn:E; auto. apply Rleb_false in E; lra. Qed.
Lemma Rleb_f : forall a b, b < a -> Rleb a b = false.
Proof. intros. destruct (Rleb a b) eqn:E; auto. apply Rleb_true in E; lra. Qed.

Lemma max_case : exists c, max_mic [0; 1] [2; 3] = Some c /\ in_box [0; 1] [2; 3] [1; 2].
Proof.
  destruct (max_mic [0; 1] [2; 3]) as [c|] eqn:E.
  - exists c. split; auto. split; repeat constructor; lra.
  - exfalso. apply max_reject in E.
    destruct E as [E|[E|[E|[_ [_ [i E]]]]]]; try discriminate.
    + apply E; reflexivity.
    + apply E. repeat constructor; lra.
    + unfold non_maximal_idx in E. cbn in E.
      rewrite !Rltb_f in E by lra. discriminate.
Qed.

Lemma max_total_refuted : exists lo up,
  up <> [] /\ length up = length lo /\ vle lo up /\ max_mic lo up = None.
Proof.
  exists [0; 2], [1; 3].
  assert (V : vle [0; 2] [1; 3]) by (repeat constructor; lra).
  repeat split; auto; try discriminate.
  apply max_reject. right. right. right. repeat split; auto.
  exists 0%nat. unfold non_maximal_idx. cbn.
  rewrite (Rltb_f (1 - 0)) by lra. rewrite (Rltb_t (1 - 2)) by lra.
  rewrite (Rltb_f (3 - 0)) by lra. rewrite (Rltb_f (3 - 2)) by lra. reflexivity.
Qed.

Lemma l1_prop : forall subs x,
  Forall (fun v => -1 < v < 1) subs ->
  exists G, l1_gradient 0 subs x = Some G /\
    (forall g, In g G <-> l1_row subs x g) /\
    (NoDup subs -> NoDup G) /\
    (forall g, In g G ->
       dot g x = norm1 x /\
       (forall y, length y = length x -> dot g y <= norm1 y) /\
       (forall y, length y = length x -> norm1 x + dot g (vsub y x) <= norm1 y)).
Proof.
  intros subs x H. destruct (l1_gradient_rows subs x H) as [G [A [B C]]].
  exists G. split; auto. split; auto. split; auto. intros g Hg. apply B in Hg.
  split; [eapply l1_row_dot; eauto|]. split; intros.
  - eapply l1_row_dual; eauto.
  - eapply l1_subgradient; eauto.
Qed.

Lemma linf_prop : forall x, x <> [] ->
  exists G, l_infinity_gradient 0 x = Some G /\ G <> [] /\
    (forall g, In g G <-> linf_row x g) /\
    (forall g, In g G ->
       dot g x = norminf x /\
       (forall y, length y = length x -> dot g y <= norminf y) /\
       (forall y, length y = length x -> norminf x + dot g (vsub y x) <= norminf y)).
Proof.
  intros x H. destruct (linf_grad_rows x H) as [G [A [B C]]].
  exists G. split; auto. split; auto. split; auto. intros g Hg. apply C in Hg.
  apply linf_row_facts; auto.
Qed.

Lemma l1_gradient_tol_refuted : exists tol x G,
  0 < tol /\ Rabs (nth 0 x 0) < tol /\ l1_gradient tol [] x = Some G /\
  ~ (exists g, In g G /\ nth 0 g 0 = -1).
Proof.
  exists (1/10), [1/20; 1], [[1; 1]; [1; 1]].
  assert (A1 : Rabs (1/20) = 1/20) by (apply Rabs_pos'; lra).
  assert (A2 : Rabs 1 = 1) by (apply Rabs_pos'; lra).
  split; [lra|]. split; [simpl; rewrite A1; lra|]. split.
  - unfold l1_gradient. cbn [forallb andb]. rewrite Rleb_t by lra. cbn [andb].
    cbn [length l1_gradient_fuel split_zero filter].
    rewrite A1, A2. rewrite (Rleb_t (1/20)) by lra.
    rewrite (Rltb_t (1/20)) by lra. rewrite (Rltb_f 1) by lra.
    cbn [length Nat.eqb map fill_small sgn].
    unfold fill_small, sgn. rewrite (Rltb_t 0 (1/20)), (Rltb_t 0 1) by lra.
    cbn [map]. rewrite A2. rewrite (Rleb_f 1) by lra. reflexivity.
  - intros [g [[G|[G|[]]] E]]; subst g; simpl in E; lra.
Qed.

Lemma bb_prop : forall lo up x, vle lo up ->
  exists c, box_boundary lo up = Some c /\
  ((exists s b, bins b /\ mic_sat c x s b) <-> on_boundary lo up x).
Proof.
  intros lo up x V. destruct (box_boundary lo up) as [c|] eqn:E.
  - exists c. split; auto. apply bb_exact; auto.
  - exfalso. unfold box_boundary in E. apply vle_length in V.
    rewrite V, Nat.eqb_refl in E. discriminate.
Qed.

Lemma bb_case : vle [0; 1] [2; 3] /\ on_boundary [0; 1] [2; 3] [1; 3].
Proof.
  split; [repeat constructor; lra|]. split; [split; repeat constructor; lra|].
  exists 1%nat. split; [simpl; lia|]. right. reflexivity.
Qed.
