(** Values of the layers and the pixels that they depend on. *)

Require Import Reals List Bool Arith ZArith Lia Lra ZifyNat ZifyClasses.
Require Import Verif.Vec Verif.VecFacts Verif.ModelNet Verif.SpecNet Verif.ModelLatent Verif.ModelImage Verif.SpecImage
  Verif.ProofImage Verif.ProofImage2 Verif.ProofImage3.
Import ListNotations.
Open Scope R_scope.
Ltac Zify.zify_post_hook ::= Z.to_euclidean_division_equations.

Ltac dif A := match goal with |- context [if ?b then _ else _] => destruct b eqn:A end.
Ltac dif_in E A := match type of E with context [if ?b then _ else _] => destruct b eqn:A end.

Lemma padded_extended : forall pad x c i j,
  padded pad x c i j = extended x c (Z.of_nat i - Z.of_nat pad) (Z.of_nat j - Z.of_nat pad).
Proof.
  intros. unfold padded, extended.
  dif A; dif B; auto.
  - f_equal; rewrite !andb_true_iff, !Nat.leb_le, !Nat.ltb_lt in A; lia.
  - rewrite !andb_true_iff, !Nat.leb_le, !Nat.ltb_lt in A.
    rewrite !andb_false_iff, !Z.leb_gt, !Z.ltb_ge in B. lia.
  - rewrite !andb_true_iff, !Z.leb_le, !Z.ltb_lt in B.
    rewrite !andb_false_iff, !Nat.leb_gt, !Nat.ltb_ge in A. lia.
Qed.
Lemma conv_value : forall cin cout k stride pad K x y o i j, apply_layer (Conv cin cout k stride pad K) x = Some y ->
  t_at y o i j = k_b K o + sum_n cin (fun c => sum_n k (fun a => sum_n k (fun b => k_w K o c a b *
    extended x c (Z.of_nat (i * stride + a) - Z.of_nat pad) (Z.of_nat (j * stride + b) - Z.of_nat pad)))).
Proof.
  intros cin cout k stride pad K x y o i j E. cbn [apply_layer] in E. dif_in E G; [|discriminate].
  apply some_inj in E. subst y. cbn [t_at]. f_equal. apply sum_n_ext. intros c _. apply sum_n_ext. intros a _.
  apply sum_n_ext. intros b _. now rewrite padded_extended.
Qed.
Lemma pool_value : forall x y c i j, apply_layer Pool x = Some y -> inside y c i j ->
  (forall a b, (a < 2)%nat -> (b < 2)%nat -> inside x c (2 * i + a) (2 * j + b) /\ t_at x c (2 * i + a) (2 * j + b) <= t_at y c i j) /\
  exists a b, (a < 2)%nat /\ (b < 2)%nat /\ t_at y c i j = t_at x c (2 * i + a)%nat (2 * j + b)%nat.
Proof.
  intros x y c i j E (Hc & Hi & Hj). cbn [apply_layer] in E. dif_in E G; [|discriminate].
  apply some_inj in E. subst y. cbn [t_at t_c t_w t_h] in *. split.
  - intros a b Ha Hb. split; [repeat split; auto; lia|].
    destruct a as [|[|]]; [| |lia]; (destruct b as [|[|]]; [| |lia]); rewrite ?Nat.add_0_r.
    + eapply Rle_trans; [|apply Rmax_l]. apply Rmax_l.
    + eapply Rle_trans; [|apply Rmax_l]. apply Rmax_r.
    + eapply Rle_trans; [|apply Rmax_r]. apply Rmax_l.
    + eapply Rle_trans; [|apply Rmax_r]. apply Rmax_r.
  - unfold Rmax at 1. destruct (Rle_dec _ _).
    + unfold Rmax. destruct (Rle_dec _ _); [exists 1%nat, 1%nat|exists 1%nat, 0%nat]; rewrite ?Nat.add_0_r; auto.
    + unfold Rmax. destruct (Rle_dec _ _); [exists 0%nat, 1%nat|exists 0%nat, 0%nat]; rewrite ?Nat.add_0_r; auto.
Qed.
Lemma up_value : forall x y c i j, apply_layer Up x = Some y -> inside x c i j -> forall a b, (a < 2)%nat -> (b < 2)%nat ->
  t_at y c (2 * i + a)%nat (2 * j + b)%nat = t_at x c i j.
Proof.
  intros x y c i j E _ a b Ha Hb. cbn [apply_layer] in E. apply some_inj in E. subst y. cbn [t_at]. f_equal; lia.
Qed.

(** ** Receptive fields *)

Lemma conv_local : forall cin cout k s p K x x' y y' o i j,
  apply_layer (Conv cin cout k s p K) x = Some y -> apply_layer (Conv cin cout k s p K) x' = Some y' -> (0 < k)%nat ->
  agree_on x x' (i * s - p) (i * s + (k - 1) - p) (j * s - p) (j * s + (k - 1) - p) -> t_at y o i j = t_at y' o i j.
Proof.
  intros cin cout k s p K x x' y y' o i j E E' Hk ((A1 & A2 & A3) & A). cbn [apply_layer] in E, E'.
  dif_in E G; [|discriminate]. dif_in E' G'; [|discriminate].
  rewrite !andb_true_iff, Nat.eqb_eq in G.
  apply some_inj in E. apply some_inj in E'. subst y y'. cbn [t_at]. f_equal. apply sum_n_ext. intros c Hc. apply sum_n_ext. intros a Ha.
  apply sum_n_ext. intros b Hb. f_equal. unfold padded. rewrite A2, A3.
  dif B; auto. rewrite !andb_true_iff, !Nat.leb_le, !Nat.ltb_lt in B.
  apply A; [repeat split|..]; lia.
Qed.
Lemma pool_local : forall x x' y y' c i j, apply_layer Pool x = Some y -> apply_layer Pool x' = Some y' -> inside y c i j ->
  agree_on x x' (2 * i) (2 * i + 1) (2 * j) (2 * j + 1) -> t_at y c i j = t_at y' c i j.
Proof.
  intros x x' y y' c i j E E' (Hc & Hi & Hj) ((A1 & A2 & A3) & A). cbn [apply_layer] in E, E'.
  dif_in E G; [|discriminate]. dif_in E' G'; [|discriminate].
  apply some_inj in E. apply some_inj in E'. subst y y'. cbn [t_at t_c t_w t_h] in *.
  rewrite !A; auto; try lia; repeat split; lia.
Qed.
Lemma convt_local : forall cin cout k s K x x' y y' o i j,
  apply_layer (ConvT cin cout k s K) x = Some y -> apply_layer (ConvT cin cout k s K) x' = Some y' ->
  agree_on x x' ((i - (k - 1)) / s) (i / s) ((j - (k - 1)) / s) (j / s) -> (0 < s)%nat -> t_at y o i j = t_at y' o i j.
Proof.
  intros cin cout k s K x x' y y' o i j E E' ((A1 & A2 & A3) & A) Hs. cbn [apply_layer] in E, E'.
  dif_in E G; [|discriminate]. dif_in E' G'; [|discriminate].
  rewrite !andb_true_iff, Nat.eqb_eq in G.
  apply some_inj in E. apply some_inj in E'. subst y y'. cbn [t_at]. f_equal. apply sum_n_ext. intros c Hc. apply sum_n_ext. intros a Ha.
  apply sum_n_ext. intros b Hb. rewrite A2, A3.
  dif B; auto. f_equal. rewrite !andb_true_iff, !Nat.leb_le, !Nat.ltb_lt, !Nat.eqb_eq in B.
  apply A; [repeat split; lia|split; apply Nat.div_le_mono; lia|split; apply Nat.div_le_mono; lia].
Qed.
Lemma up_local : forall x x' y y' c i j, apply_layer Up x = Some y -> apply_layer Up x' = Some y' -> inside y c i j ->
  agree_on x x' (i / 2) (i / 2) (j / 2) (j / 2) -> t_at y c i j = t_at y' c i j.
Proof.
  intros x x' y y' c i j E E' (Hc & Hi & Hj) ((A1 & A2 & A3) & A). cbn [apply_layer] in E, E'.
  apply some_inj in E. apply some_inj in E'. subst y y'. cbn [t_at t_c t_w t_h] in *. apply A; [repeat split; lia|lia|lia].
Qed.

Lemma agree_shape : forall l x x' y y', apply_layer l x = Some y -> apply_layer l x' = Some y' ->
  has_shape (t_c x) (t_w x) (t_h x) x' -> has_shape (t_c y) (t_w y) (t_h y) y'.
Proof.
  intros l x x' y y' E E' (A1 & A2 & A3). pose proof (apply_shape l x) as P. pose proof (apply_shape l x') as P'.
  rewrite E in P. rewrite E' in P'. cbn [option_map] in *.
  assert (Q : shape_of x' = shape_of x) by (unfold shape_of; congruence). rewrite Q, <- P in P'.
  unfold shape_of in P'. injection P' as Q1 Q2 Q3. repeat split; auto.
Qed.
Lemma agree_relu : forall x x' a b c d, agree_on x x' a b c d -> agree_on (trelu x) (trelu x') a b c d.
Proof.
  intros x x' a b c d (S & A). split; [exact S|]. intros ch i j I Hi Hj. cbn [trelu tmap t_at]. f_equal. apply A; auto.
Qed.
Lemma agree_conv : forall cin cout k s p K x x' y y' a b a' b',
  apply_layer (Conv cin cout k s p K) x = Some y -> apply_layer (Conv cin cout k s p K) x' = Some y' -> (0 < k)%nat ->
  agree_on x x' (a * s - p) (b * s + (k - 1) - p) (a' * s - p) (b' * s + (k - 1) - p) -> agree_on y y' a b a' b'.
Proof.
  intros cin cout k s p K x x' y y' a b a' b' E E' Hk (S & A). split; [exact (agree_shape _ _ _ _ _ E E' S)|].
  intros o i j I Hi Hj. apply (conv_local _ _ _ _ _ _ _ _ _ _ _ _ _ E E' Hk). split; auto.
  intros c r q I' Hr Hq. apply A; auto; nia.
Qed.
Lemma agree_pool : forall x x' y y' a b a' b',
  apply_layer Pool x = Some y -> apply_layer Pool x' = Some y' ->
  agree_on x x' (2 * a) (2 * b + 1) (2 * a') (2 * b' + 1) -> agree_on y y' a b a' b'.
Proof.
  intros x x' y y' a b a' b' E E' (S & A). split; [exact (agree_shape _ _ _ _ _ E E' S)|].
  intros o i j I Hi Hj. apply (pool_local _ _ _ _ _ _ _ E E' I). split; auto.
  intros c r q I' Hr Hq. apply A; auto; lia.
Qed.
Lemma agree_convt : forall cin cout k s K x x' y y' a b a' b',
  apply_layer (ConvT cin cout k s K) x = Some y -> apply_layer (ConvT cin cout k s K) x' = Some y' -> (0 < s)%nat ->
  agree_on x x' ((a - (k - 1)) / s) (b / s) ((a' - (k - 1)) / s) (b' / s) -> agree_on y y' a b a' b'.
Proof.
  intros cin cout k s K x x' y y' a b a' b' E E' Hs (S & A). split; [exact (agree_shape _ _ _ _ _ E E' S)|].
  intros o i j I Hi Hj. apply (convt_local _ _ _ _ _ _ _ _ _ _ _ _ E E'); auto. split; auto.
  intros c r q I' (Hr & Hr') (Hq & Hq'). apply A; auto; split.
  - eapply Nat.le_trans; [|exact Hr]. apply Nat.div_le_mono; lia.
  - eapply Nat.le_trans; [exact Hr'|]. apply Nat.div_le_mono; lia.
  - eapply Nat.le_trans; [|exact Hq]. apply Nat.div_le_mono; lia.
  - eapply Nat.le_trans; [exact Hq'|]. apply Nat.div_le_mono; lia.
Qed.
Lemma agree_up : forall x x' y y' a b a' b', apply_layer Up x = Some y -> apply_layer Up x' = Some y' ->
  agree_on x x' (a / 2) (b / 2) (a' / 2) (b' / 2) -> agree_on y y' a b a' b'.
Proof.
  intros x x' y y' a b a' b' E E' (S & A). split; [exact (agree_shape _ _ _ _ _ E E' S)|].
  intros o i j I Hi Hj. apply (up_local _ _ _ _ _ _ _ E E' I). split; auto.
  intros c r q I' Hr Hq. apply A; auto; lia.
Qed.
Lemma agree_more : forall x x' a b c d a2 b2 c2 d2, agree_on x x' a2 b2 c2 d2 ->
  (a2 <= a)%nat -> (b <= b2)%nat -> (c2 <= c)%nat -> (d <= d2)%nat -> agree_on x x' a b c d.
Proof. intros x x' a b c d a2 b2 c2 d2 (S & A) H1 H2 H3 H4. split; auto. intros. apply A; auto; lia. Qed.

Lemma enc1_field : forall c K1 K2 x x' y y' o i j,
  relu_layers (enc1_layers c K1 K2) x = Some y -> relu_layers (enc1_layers c K1 K2) x' = Some y' -> inside y o i j ->
  agree_on x x' (4 * i - 3) (4 * i + 6) (4 * j - 3) (4 * j + 6) -> t_at y o i j = t_at y' o i j.
Proof.
  intros c K1 K2 x x' y y' o i j E E' I A. unfold enc1_layers in *. cbn [relu_layers] in E, E'.
  destruct (apply_layer (Conv c 16 3 1 1 K1) x) as [x1|] eqn:E1; [|discriminate].
  destruct (apply_layer (Conv c 16 3 1 1 K1) x') as [x1'|] eqn:E1'; [|discriminate].
  destruct (apply_layer Pool (trelu x1)) as [x2|] eqn:E2; [|discriminate].
  destruct (apply_layer Pool (trelu x1')) as [x2'|] eqn:E2'; [|discriminate].
  destruct (apply_layer (Conv 16 4 3 1 1 K2) (trelu x2)) as [x3|] eqn:E3; [|discriminate].
  destruct (apply_layer (Conv 16 4 3 1 1 K2) (trelu x2')) as [x3'|] eqn:E3'; [|discriminate].
  destruct (apply_layer Pool (trelu x3)) as [x4|] eqn:E4; [|discriminate].
  destruct (apply_layer Pool (trelu x3')) as [x4'|] eqn:E4'; [|discriminate].
  apply some_inj in E. apply some_inj in E'. subst y y'.
  assert (B : agree_on (trelu x4) (trelu x4') i i j j); [|destruct B as (_ & B); apply B; auto].
  apply agree_relu. eapply agree_pool; [exact E4|exact E4'|].
  apply agree_relu. eapply agree_conv; [exact E3|exact E3'|lia|].
  apply agree_relu. eapply agree_pool; [exact E2|exact E2'|].
  apply agree_relu. eapply agree_conv; [exact E1|exact E1'|lia|].
  eapply agree_more; [exact A|..]; lia.
Qed.
Lemma enc2_field : forall c K1 K2 K3 K4 x x' y y' o i j,
  relu_layers (enc2_layers c K1 K2 K3 K4) x = Some y -> relu_layers (enc2_layers c K1 K2 K3 K4) x' = Some y' -> inside y o i j ->
  agree_on x x' (8 * i) (8 * i + 32) (8 * j) (8 * j + 32) -> t_at y o i j = t_at y' o i j.
Proof.
  intros c K1 K2 K3 K4 x x' y y' o i j E E' I A. unfold enc2_layers in *. cbn [relu_layers] in E, E'.
  destruct (apply_layer (Conv c 32 5 1 0 K1) x) as [x1|] eqn:E1; [|discriminate].
  destruct (apply_layer (Conv c 32 5 1 0 K1) x') as [x1'|] eqn:E1'; [|discriminate].
  destruct (apply_layer (Conv 32 32 5 2 0 K2) (trelu x1)) as [x2|] eqn:E2; [|discriminate].
  destruct (apply_layer (Conv 32 32 5 2 0 K2) (trelu x1')) as [x2'|] eqn:E2'; [|discriminate].
  destruct (apply_layer (Conv 32 32 5 2 0 K3) (trelu x2)) as [x3|] eqn:E3; [|discriminate].
  destruct (apply_layer (Conv 32 32 5 2 0 K3) (trelu x2')) as [x3'|] eqn:E3'; [|discriminate].
  destruct (apply_layer (Conv 32 10 5 2 0 K4) (trelu x3)) as [x4|] eqn:E4; [|discriminate].
  destruct (apply_layer (Conv 32 10 5 2 0 K4) (trelu x3')) as [x4'|] eqn:E4'; [|discriminate].
  apply some_inj in E. apply some_inj in E'. subst y y'.
  assert (B : agree_on (trelu x4) (trelu x4') i i j j); [|destruct B as (_ & B); apply B; auto].
  apply agree_relu. eapply agree_conv; [exact E4|exact E4'|lia|].
  apply agree_relu. eapply agree_conv; [exact E3|exact E3'|lia|].
  apply agree_relu. eapply agree_conv; [exact E2|exact E2'|lia|].
  apply agree_relu. eapply agree_conv; [exact E1|exact E1'|lia|].
  eapply agree_more; [exact A|..]; lia.
Qed.
Lemma dec2_field : forall c K1 K2 K3 x x' y y' o i j,
  decoder_layers (dec2_layers c K1 K2 K3) x = Some y -> decoder_layers (dec2_layers c K1 K2 K3) x' = Some y' -> inside y o i j ->
  agree_on x x' (((i - 4) / 2 - 4) / 2 - 4) (i / 4) (((j - 4) / 2 - 4) / 2 - 4) (j / 4) -> t_at y o i j = t_at y' o i j.
Proof.
  intros c K1 K2 K3 x x' y y' o i j E E' I A. unfold dec2_layers in *. cbn [decoder_layers] in E, E'.
  destruct (apply_layer (ConvT 1 32 5 1 K1) x) as [x1|] eqn:E1; [|discriminate].
  destruct (apply_layer (ConvT 1 32 5 1 K1) x') as [x1'|] eqn:E1'; [|discriminate].
  destruct (apply_layer Up (trelu x1)) as [x2|] eqn:E2; [|discriminate].
  destruct (apply_layer Up (trelu x1')) as [x2'|] eqn:E2'; [|discriminate].
  destruct (apply_layer (ConvT 32 32 5 1 K2) (trelu x2)) as [x3|] eqn:E3; [|discriminate].
  destruct (apply_layer (ConvT 32 32 5 1 K2) (trelu x2')) as [x3'|] eqn:E3'; [|discriminate].
  destruct (apply_layer Up (trelu x3)) as [x4|] eqn:E4; [|discriminate].
  destruct (apply_layer Up (trelu x3')) as [x4'|] eqn:E4'; [|discriminate].
  assert (B : agree_on y y' i i j j); [|destruct B as (_ & B); apply B; auto].
  eapply agree_convt; [exact E|exact E'|lia|].
  apply agree_relu. eapply agree_up; [exact E4|exact E4'|].
  apply agree_relu. eapply agree_convt; [exact E3|exact E3'|lia|].
  apply agree_relu. eapply agree_up; [exact E2|exact E2'|].
  apply agree_relu. eapply agree_convt; [exact E1|exact E1'|lia|].
  eapply agree_more; [exact A|..]; lia.
Qed.
