(** Facts about the list-based linear algebra of [Vec]. *)

Require Import Reals List Bool Lia Lra Arith.
Require Import Verif.Vec.
Import ListNotations.
Open Scope R_scope.

Lemma map2_length : forall {A B C} (f : A -> B -> C) a b,
  length (map2 f a b) = Nat.min (length a) (length b).
Proof. induction a; destruct b; simpl; auto. Qed.

Lemma vadd_length : forall a b, length a = length b ->
  length (vadd a b) = length a.
Proof. intros. unfold vadd. rewrite map2_length. lia. Qed.
Lemma vsub_length : forall a b, length a = length b ->
  length (vsub a b) = length a.
Proof. intros. unfold vsub. rewrite map2_length. lia. Qed.
Lemma vmul_length : forall a b, length a = length b ->
  length (vmul a b) = length a.
Proof. intros. unfold vmul. rewrite map2_length. lia. Qed.
Lemma vscale_length : forall k a, length (vscale k a) = length a.
Proof. intros; apply map_length. Qed.
Lemma vneg_length : forall a, length (vneg a) = length a.
Proof. intros; apply map_length. Qed.
Lemma zeros_length : forall n, length (zeros n) = n.
Proof. intros; apply repeat_length. Qed.
Lemma ones_length : forall n, length (ones n) = n.
Proof. intros; apply repeat_length. Qed.
Lemma mv_length : forall A x, length (mv A x) = length A.
Proof. intros; apply map_length. Qed.
Lemma unit_row_length : forall n j k, length (unit_row n j k) = n.
Proof. intros. unfold unit_row. rewrite map_length, seq_length. auto. Qed.
Lemma vm_length : forall n r B,
  Forall (fun b => length b = n) B -> length (vm n r B) = n.
Proof.
  induction r; intros B H; simpl.
  - apply zeros_length.
  - destruct B; simpl.
    + apply zeros_length.
    + inversion H; subst. rewrite vadd_length; rewrite vscale_length; auto.
      rewrite IHr; auto.
Qed.

Lemma splice_length : forall off v row,
  (off + length v <= length row)%nat -> length (splice off v row) = length row.
Proof.
  intros. unfold splice. rewrite !app_length, firstn_length, skipn_length. lia.
Qed.

Lemma slice_length : forall {A} off n (x : list A),
  (off + n <= length x)%nat -> length (slice off n x) = n.
Proof.
  intros. unfold slice. rewrite firstn_length, skipn_length. lia.
Qed.

(** ** dot *)

Lemma dot_nil_r : forall a, dot a [] = 0.
Proof. destruct a; reflexivity. Qed.

Lemma dot_comm : forall a b, dot a b = dot b a.
Proof. induction a; destruct b; simpl; auto. rewrite IHa. ring. Qed.

Lemma dot_zeros_l : forall n x, dot (zeros n) x = 0.
Proof.
  induction n; simpl; auto. destruct x; auto. simpl.
  fold (zeros n). rewrite IHn. ring.
Qed.
Lemma dot_zeros_r : forall n x, dot x (zeros n) = 0.
Proof. intros. rewrite dot_comm. apply dot_zeros_l. Qed.

Lemma dot_app : forall a1 a2 b1 b2, length a1 = length b1 ->
  dot (a1 ++ a2) (b1 ++ b2) = dot a1 b1 + dot a2 b2.
Proof.
  induction a1; destruct b1; simpl; intros; try discriminate.
  - ring.
  - rewrite IHa1; auto. ring.
Qed.

Lemma dot_vadd_l : forall a b x, length a = length b ->
  dot (vadd a b) x = dot a x + dot b x.
Proof.
  induction a; destruct b; simpl; intros; try discriminate.
  - ring.
  - destruct x; [ring|]. simpl in *. unfold vadd in IHa. rewrite IHa; auto. ring.
Qed.
Lemma dot_vadd_r : forall a b x, length a = length b ->
  dot x (vadd a b) = dot x a + dot x b.
Proof. intros. rewrite dot_comm, dot_vadd_l, (dot_comm a), (dot_comm b); auto. Qed.

Lemma dot_vsub_r : forall a b x, length a = length b ->
  dot x (vsub a b) = dot x a - dot x b.
Proof.
  induction a; destruct b; simpl; intros; try discriminate.
  - rewrite dot_nil_r. ring.
  - destruct x; simpl; [ring|]. unfold vsub in IHa. rewrite IHa; auto. ring.
Qed.
Lemma dot_vsub_l : forall a b x, length a = length b ->
  dot (vsub a b) x = dot a x - dot b x.
Proof. intros. rewrite dot_comm, dot_vsub_r, (dot_comm a), (dot_comm b); auto. Qed.

Lemma dot_vscale_l : forall k a x, dot (vscale k a) x = k * dot a x.
Proof.
  induction a; simpl; intros; [ring|]. destruct x; simpl; [ring|].
  unfold vscale in IHa. rewrite IHa. ring.
Qed.
Lemma dot_vscale_r : forall k a x, dot x (vscale k a) = k * dot x a.
Proof. intros. rewrite dot_comm, dot_vscale_l, dot_comm. auto. Qed.

Lemma dot_vneg_l : forall a x, dot (vneg a) x = - dot a x.
Proof.
  induction a; simpl; intros; [ring|]. destruct x; simpl; [ring|].
  unfold vneg in IHa. rewrite IHa. ring.
Qed.
Lemma dot_vneg_r : forall a x, dot x (vneg a) = - dot x a.
Proof. intros. rewrite dot_comm, dot_vneg_l, dot_comm. auto. Qed.

Lemma dot_repeat_l : forall k n x, length x = n ->
  dot (repeat k n) x = k * vsum x.
Proof.
  induction n; destruct x; simpl; intros; try discriminate.
  - ring.
  - rewrite IHn; auto. ring.
Qed.
Lemma dot_ones_l : forall n x, length x = n -> dot (ones n) x = vsum x.
Proof. intros. unfold ones. rewrite dot_repeat_l; auto. ring. Qed.

Lemma dot_unit_aux : forall x s j k,
  dot (map (fun i => if Nat.eqb i j then k else 0) (seq s (length x))) x
  = if (Nat.leb s j && Nat.ltb j (s + length x))%bool
    then k * nth (j - s) x 0 else 0.
Proof.
  induction x; intros s j k; simpl.
  - destruct (Nat.leb s j && Nat.ltb j (s + 0))%bool eqn:E; auto.
    apply andb_prop in E. destruct E as [E1 E2].
    apply Nat.leb_le in E1. apply Nat.ltb_lt in E2. lia.
  - rewrite IHx. destruct (Nat.eqb_spec s j).
    + subst. rewrite Nat.leb_refl, Nat.sub_diag.
      replace (Nat.leb (S j) j) with false
        by (symmetry; apply Nat.leb_gt; lia).
      replace (Nat.ltb j (j + S (length x))) with true
        by (symmetry; apply Nat.ltb_lt; lia).
      simpl. ring.
    + destruct (Nat.leb_spec s j); destruct (Nat.leb_spec (S s) j);
        destruct (Nat.ltb_spec j (S s + length x));
        destruct (Nat.ltb_spec j (s + S (length x)));
        cbn [andb]; try lia; try ring.
      replace (j - s)%nat with (S (j - S s)) by lia. cbn [nth]. ring.
Qed.

Lemma dot_unit_row : forall n j k x, length x = n -> (j < n)%nat ->
  dot (unit_row n j k) x = k * nth j x 0.
Proof.
  intros. unfold unit_row. subst n. rewrite dot_unit_aux.
  replace (Nat.ltb j (0 + length x)) with true
    by (symmetry; apply Nat.ltb_lt; lia).
  rewrite Nat.leb_refl || idtac. simpl. rewrite Nat.sub_0_r. reflexivity.
Qed.

Lemma firstn_skipn_split : forall {A} n (x : list A),
  x = firstn n x ++ skipn n x.
Proof. intros; symmetry; apply firstn_skipn. Qed.

Lemma skipn_skipn' : forall {A} m n (x : list A),
  skipn m (skipn n x) = skipn (n + m) x.
Proof.
  induction n; simpl; intros; auto. destruct x; auto.
  rewrite skipn_nil. auto.
Qed.

Lemma split3 : forall {A} off n (x : list A),
  x = firstn off x ++ slice off n x ++ skipn (off + n) x.
Proof.
  intros. unfold slice. rewrite <- skipn_skipn'.
  rewrite (firstn_skipn n (skipn off x)). symmetry; apply firstn_skipn.
Qed.

(** Writing a slice changes the inner product by the slice's contribution. *)
Lemma dot_splice : forall off v row x,
  length row = length x -> (off + length v <= length x)%nat ->
  dot (splice off v row) x
  = dot row x - dot (slice off (length v) row) (slice off (length v) x)
    + dot v (slice off (length v) x).
Proof.
  intros off v row x Hl Hle. unfold splice.
  rewrite (split3 off (length v) row) at 3.
  rewrite (split3 off (length v) x) at 1 2.
  assert (L1 : length (firstn off row) = length (firstn off x))
    by (rewrite !firstn_length; lia).
  assert (L2 : length (slice off (length v) row)
               = length (slice off (length v) x))
    by (rewrite !slice_length; lia).
  assert (L3 : length v = length (slice off (length v) x))
    by (rewrite slice_length; lia).
  rewrite !dot_app; auto. ring.
Qed.

(** ** vsum *)

Lemma vsum_app : forall a b, vsum (a ++ b) = vsum a + vsum b.
Proof. induction a; simpl; intros; [ring|]. rewrite IHa. ring. Qed.
Lemma vsum_zeros : forall n, vsum (zeros n) = 0.
Proof. induction n; simpl; auto. fold (zeros n). rewrite IHn. ring. Qed.
Lemma vsum_nonneg : forall a, Forall (fun x => 0 <= x) a -> 0 <= vsum a.
Proof. induction 1; simpl; lra. Qed.

(** ** nth of the vector operations *)

Lemma nth_map2 : forall {A B C} (f : A -> B -> C) a b i da db dc,
  (i < length a)%nat -> (i < length b)%nat ->
  nth i (map2 f a b) dc = f (nth i a da) (nth i b db).
Proof.
  induction a; simpl; intros; [lia|]. destruct b; simpl in *; [lia|].
  destruct i; auto. apply IHa; lia.
Qed.

Lemma nth_vadd : forall a b i, length a = length b ->
  nth i (vadd a b) 0 = nth i a 0 + nth i b 0.
Proof.
  induction a; destruct b; simpl; intros; try discriminate.
  - destruct i; ring.
  - destruct i; simpl; auto; apply IHa; auto.
Qed.
Lemma nth_vsub : forall a b i, length a = length b ->
  nth i (vsub a b) 0 = nth i a 0 - nth i b 0.
Proof.
  induction a; destruct b; simpl; intros; try discriminate.
  - destruct i; ring.
  - destruct i; simpl; auto; apply IHa; auto.
Qed.
Lemma nth_vscale : forall k a i, nth i (vscale k a) 0 = k * nth i a 0.
Proof. induction a; destruct i; simpl; try ring. apply IHa. Qed.
Lemma nth_vneg : forall a i, nth i (vneg a) 0 = - nth i a 0.
Proof. induction a; destruct i; simpl; try ring. apply IHa. Qed.
Lemma nth_zeros : forall n i, nth i (zeros n) 0 = 0.
Proof. induction n; destruct i; simpl; auto. Qed.
Lemma nth_mv : forall A x i, (i < length A)%nat ->
  nth i (mv A x) 0 = dot (nth i A []) x.
Proof.
  intros. unfold mv. rewrite nth_indep with (d' := dot [] x).
  - rewrite map_nth with (f := fun r => dot r x). auto.
  - rewrite map_length; auto.
Qed.

Lemma nth_unit_row : forall n j k i, (i < n)%nat ->
  nth i (unit_row n j k) 0 = if Nat.eqb i j then k else 0.
Proof.
  intros. unfold unit_row.
  set (f := fun i0 => if Nat.eqb i0 j then k else 0).
  rewrite nth_indep with (d' := f 0%nat) by (rewrite map_length, seq_length; auto).
  rewrite map_nth. rewrite seq_nth; auto.
Qed.

Lemma vec_ext : forall (a b : vec), length a = length b ->
  (forall i, (i < length a)%nat -> nth i a 0 = nth i b 0) -> a = b.
Proof.
  intros. apply nth_ext with 0 0; auto.
Qed.

(** ** mv *)

Lemma mv_app : forall A B x, mv (A ++ B) x = mv A x ++ mv B x.
Proof. intros; apply map_app. Qed.

Lemma vm_dot : forall n r B x,
  Forall (fun b => length b = n) B -> length x = n ->
  dot (vm n r B) x = dot r (mv B x).
Proof.
  induction r; intros B x H Hx; simpl.
  - apply dot_zeros_l.
  - destruct B; simpl.
    + apply dot_zeros_l.
    + inversion H; subst. rewrite dot_vadd_l.
      * rewrite dot_vscale_l. rewrite IHr; auto.
      * rewrite vscale_length, vm_length; auto.
Qed.

Lemma mv_mm : forall n A B x,
  Forall (fun b => length b = n) B -> length x = n ->
  mv (mm n A B) x = mv A (mv B x).
Proof.
  intros. unfold mm, mv at 1 2. rewrite map_map. apply map_ext.
  intros. apply vm_dot; auto.
Qed.

Lemma mv_vadd : forall A x y, length x = length y ->
  mv A (vadd x y) = vadd (mv A x) (mv A y).
Proof.
  intros. unfold mv. induction A as [|r A IH]; simpl; auto.
  rewrite dot_vadd_r, IH; auto.
Qed.
Lemma mv_vsub : forall A x y, length x = length y ->
  mv A (vsub x y) = vsub (mv A x) (mv A y).
Proof.
  intros. unfold mv. induction A as [|r A IH]; simpl; auto.
  rewrite dot_vsub_r, IH; auto.
Qed.
Lemma mv_vscale : forall A k x, mv A (vscale k x) = vscale k (mv A x).
Proof.
  intros. unfold mv, vscale at 2. rewrite map_map. apply map_ext.
  intros; apply dot_vscale_r.
Qed.
Lemma mv_zerom : forall m n x, mv (zerom m n) x = zeros m.
Proof.
  induction m; intros; auto. change (zeros (S m)) with (0 :: zeros m).
  rewrite <- (IHm n x). simpl. rewrite dot_zeros_l. reflexivity.
Qed.

Lemma wfm_row : forall m n A i, wfm m n A -> (i < m)%nat ->
  length (nth i A []) = n.
Proof.
  intros m n A i [H1 H2] Hi. rewrite Forall_forall in H2. apply H2.
  apply nth_In. lia.
Qed.

Lemma wfm_app : forall m1 m2 n A B, wfm m1 n A -> wfm m2 n B ->
  wfm (m1 + m2) n (A ++ B).
Proof.
  intros m1 m2 n A B [H1 H2] [H3 H4]. split.
  - rewrite app_length; lia.
  - apply Forall_app; auto.
Qed.
Lemma wfm_zerom : forall m n, wfm m n (zerom m n).
Proof.
  intros. split; unfold zerom. apply repeat_length.
  apply Forall_forall. intros. apply repeat_spec in H. subst.
  apply zeros_length.
Qed.
Lemma wfm_eyek : forall n k, wfm n n (eyek n k).
Proof.
  intros; unfold eyek; split.
  - rewrite map_length, seq_length; auto.
  - apply Forall_forall. intros. apply in_map_iff in H.
    destruct H as [j [H _]]. subst. apply unit_row_length.
Qed.
Lemma wfm_mm : forall m k n A B, wfm m k A -> wfm k n B -> wfm m n (mm n A B).
Proof.
  intros m k n A B [H1 H2] [H3 H4]. split; unfold mm.
  - rewrite map_length; auto.
  - apply Forall_forall. intros. apply in_map_iff in H.
    destruct H as [r [H _]]. subst. apply vm_length; auto.
Qed.

Lemma map_seq_nth : forall (x : vec) (k : R),
  map (fun j => k * nth j x 0) (seq 0 (length x)) = vscale k x.
Proof.
  intros. apply vec_ext.
  - rewrite map_length, seq_length, vscale_length; auto.
  - intros i Hi. rewrite map_length, seq_length in Hi.
    rewrite nth_vscale.
    set (f := fun j => k * nth j x 0).
    rewrite nth_indep with (d' := f 0%nat)
      by (rewrite map_length, seq_length; auto).
    rewrite map_nth, seq_nth; auto.
Qed.

Lemma mv_eyek : forall n k x, length x = n -> mv (eyek n k) x = vscale k x.
Proof.
  intros. unfold mv, eyek. rewrite map_map.
  rewrite <- map_seq_nth. subst n. apply map_ext_in.
  intros j Hj. apply in_seq in Hj. apply dot_unit_row; auto. lia.
Qed.

Lemma vscale_1 : forall x, vscale 1 x = x.
Proof. induction x; simpl; auto. rewrite Rmult_1_l. f_equal; auto. Qed.
Lemma vscale_m1 : forall x, vscale (-1) x = vneg x.
Proof. induction x; simpl; auto. f_equal; auto. ring. Qed.

Lemma mv_eye : forall n x, length x = n -> mv (eye n) x = x.
Proof. intros. unfold eye. rewrite mv_eyek; auto. apply vscale_1. Qed.

Lemma mv_hcat : forall A B x y n, length A = length B ->
  Forall (fun r => length r = n) A -> length x = n ->
  mv (hcat A B) (x ++ y) = vadd (mv A x) (mv B y).
Proof.
  induction A; destruct B; simpl; intros; try discriminate; auto.
  inversion H0; subst. unfold vadd; simpl. rewrite dot_app by lia.
  f_equal. apply IHA with (length x); auto.
Qed.

Lemma mv_col : forall v y, mv (col v) [y] = vscale y v.
Proof.
  intros. unfold mv, col, vscale. rewrite map_map. apply map_ext.
  intros; simpl; ring.
Qed.

(** ** vle *)

Lemma Forall2_len : forall {A B} (P : A -> B -> Prop) a b,
  Forall2 P a b -> length a = length b.
Proof. induction 1; simpl; auto. Qed.

Lemma vle_length : forall a b, vle a b -> length a = length b.
Proof. intros; eapply Forall2_len; eauto. Qed.

Lemma vle_nth : forall a b, vle a b <->
  length a = length b /\ forall i, (i < length a)%nat -> nth i a 0 <= nth i b 0.
Proof.
  induction a; destruct b; split; intros H.
  - split; auto. simpl; intros; lia.
  - constructor.
  - inversion H.
  - destruct H; discriminate.
  - inversion H.
  - destruct H; discriminate.
  - inversion H; subst. apply IHa in H5. destruct H5. split; simpl; auto.
    intros i Hi. destruct i; auto. apply H1; lia.
  - destruct H as [H1 H2]. constructor.
    + apply (H2 0%nat). simpl; lia.
    + apply IHa. split. simpl in H1; lia.
      intros i Hi. apply (H2 (S i)). simpl; lia.
Qed.

Lemma vle_refl : forall a, vle a a.
Proof. induction a; constructor; auto. lra. Qed.

Lemma vle_app : forall a b c d, vle a b -> vle c d -> vle (a ++ c) (b ++ d).
Proof. intros; apply Forall2_app; auto. Qed.

Lemma Forall2_app_iff : forall {A B} (P : A -> B -> Prop) a b c d,
  length a = length b ->
  (Forall2 P (a ++ c) (b ++ d) <-> Forall2 P a b /\ Forall2 P c d).
Proof.
  induction a; destruct b; simpl; intros; try discriminate.
  - split; intros; [split; auto|]. tauto.
  - injection H; intro. split; intros.
    + inversion H1; subst. apply IHa in H7; auto. destruct H7. split; auto.
    + destruct H1. inversion H1; subst. constructor; auto. apply IHa; auto.
Qed.

Lemma vle_app_iff : forall a b c d, length a = length b ->
  (vle (a ++ c) (b ++ d) <-> vle a b /\ vle c d).
Proof. intros; apply Forall2_app_iff; auto. Qed.

Lemma vle_vneg : forall a b, vle (vneg a) (vneg b) <-> vle b a.
Proof.
  induction a; destruct b; split; intros H; try (now inversion H);
    try constructor; inversion H; subst; try lra; apply IHa; auto.
Qed.

Lemma Rltb_true : forall a b, Rltb a b = true <-> a < b.
Proof. intros; unfold Rltb; destruct (Rlt_dec a b); split; auto; discriminate. Qed.
Lemma Rltb_false : forall a b, Rltb a b = false <-> b <= a.
Proof.
  intros; unfold Rltb; destruct (Rlt_dec a b); split; intros; auto;
    try discriminate; lra.
Qed.
Lemma Rleb_true : forall a b, Rleb a b = true <-> a <= b.
Proof. intros; unfold Rleb; destruct (Rle_dec a b); split; auto; discriminate. Qed.
Lemma Rleb_false : forall a b, Rleb a b = false <-> b < a.
Proof.
  intros; unfold Rleb; destruct (Rle_dec a b); split; intros; auto;
    try discriminate; lra.
Qed.
Lemma Reqb_true : forall a b, Reqb a b = true <-> a = b.
Proof. intros; unfold Reqb; destruct (Req_EM_T a b); split; auto; discriminate. Qed.
Lemma Reqb_false : forall a b, Reqb a b = false <-> a <> b.
Proof.
  intros; unfold Reqb; destruct (Req_EM_T a b); split; intros; auto;
    try discriminate; contradiction.
Qed.

(** Case split on every boolean real comparison in the goal/context. *)
Ltac rcases :=
  repeat match goal with
  | H : Rltb _ _ = true |- _ => apply Rltb_true in H
  | H : Rltb _ _ = false |- _ => apply Rltb_false in H
  | H : Rleb _ _ = true |- _ => apply Rleb_true in H
  | H : Rleb _ _ = false |- _ => apply Rleb_false in H
  | H : Reqb _ _ = true |- _ => apply Reqb_true in H
  | H : Reqb _ _ = false |- _ => apply Reqb_false in H
  | |- context [Rltb ?a ?b] => destruct (Rltb a b) eqn:?
  | |- context [Rleb ?a ?b] => destruct (Rleb a b) eqn:?
  | |- context [Reqb ?a ?b] => destruct (Reqb a b) eqn:?
  | H : context [Rltb ?a ?b] |- _ => destruct (Rltb a b) eqn:?
  | H : context [Rleb ?a ?b] |- _ => destruct (Rleb a b) eqn:?
  | H : context [Reqb ?a ?b] |- _ => destruct (Reqb a b) eqn:?
  end.

Lemma Rmax_case' : forall a b, (Rmax a b = a /\ b <= a) \/ (Rmax a b = b /\ a <= b).
Proof. intros; unfold Rmax; destruct (Rle_dec a b); lra. Qed.
Lemma Rmin_case' : forall a b, (Rmin a b = a /\ a <= b) \/ (Rmin a b = b /\ b <= a).
Proof. intros; unfold Rmin; destruct (Rle_dec a b); lra. Qed.
