(** Lemmas for concatenate_mixed_integer_constraints and transform_input. *)

Require Import Reals List Bool Lia Lra Arith.
Require Import Verif.Vec Verif.VecFacts Verif.ModelMip Verif.SpecMip
  Verif.SpecCore Verif.ProofUtils Verif.ProofMaxBox Verif.ProofMip.
Import ListNotations.
Open Scope R_scope.

Lemma mv_app_rows : forall A B x, mv (A ++ B) x = mv A x ++ mv B x.
Proof. intros. unfold mv. apply map_app. Qed.

Lemma zeros_app : forall a b, zeros (a + b) = zeros a ++ zeros b.
Proof. intros. unfold zeros. apply repeat_app. Qed.

Lemma term_stack : forall m1 m2 n a b x, owf m1 n a -> owf m2 n b -> length x = n ->
  term (m1 + m2) (stack_matrix a b m1 n m2 n) x = term m1 a x ++ term m2 b x.
Proof.
  intros m1 m2 n a b x Ha Hb L. destruct a as [A|], b as [B|]; simpl.
  - apply mv_app_rows.
  - rewrite mv_app_rows. rewrite mv_zerom by auto. auto.
  - rewrite mv_app_rows. rewrite mv_zerom by auto. auto.
  - apply zeros_app.
Qed.

Lemma block_diag_mv' : forall m1 m2 n1 n2 A B x y,
  wfm m1 n1 A -> wfm m2 n2 B -> length x = n1 -> length y = n2 ->
  mv (block_diag n1 n2 A B) (x ++ y) = mv A x ++ mv B y.
Proof.
  intros m1 m2 n1 n2 A B x y [_ WA] [_ WB] Lx Ly. unfold block_diag. rewrite mv_app_rows.
  f_equal.
  - unfold mv. rewrite map_map. apply map_ext_in. intros r Hr.
    rewrite Forall_forall in WA. rewrite dot_app by (rewrite WA; auto).
    rewrite dot_zeros_l. ring.
  - unfold mv. rewrite map_map. apply map_ext_in. intros r Hr.
    rewrite dot_app by (rewrite zeros_length; auto).
    rewrite dot_zeros_l. ring.
Qed.

Lemma term_blk : forall m1 m2 n1 n2 a b x1 x2, owf m1 n1 a -> owf m2 n2 b ->
  length x1 = n1 -> length x2 = n2 ->
  term (m1 + m2) (blk_diagonize_matrix a b m1 m2 n1 n2) (x1 ++ x2)
  = term m1 a x1 ++ term m2 b x2.
Proof.
  intros m1 m2 n1 n2 a b x1 x2 Ha Hb L1 L2. destruct a as [A|], b as [B|]; simpl.
  - apply (block_diag_mv' m1 m2); auto.
  - rewrite (block_diag_mv' m1 m2); auto; [|apply wfm_zerom]. rewrite mv_zerom; auto.
  - rewrite (block_diag_mv' m1 m2); auto; [|apply wfm_zerom]. rewrite mv_zerom; auto.
  - apply zeros_app.
Qed.

Definition stk (same : bool) (m1 m2 : nat) (a b : option mat) (n1 n2 : nat) :=
  if same then stack_matrix a b m1 n1 m2 n2 else blk_diagonize_matrix a b m1 m2 n1 n2.

Lemma term_stk : forall same m1 m2 n1 n2 a b x1 x2, owf m1 n1 a -> owf m2 n2 b ->
  length x1 = n1 -> length x2 = n2 -> (same = true -> x1 = x2) ->
  term (m1 + m2) (stk same m1 m2 a b n1 n2) (join same x1 x2)
  = term m1 a x1 ++ term m2 b x2.
Proof.
  intros same m1 m2 n1 n2 a b x1 x2 Ha Hb L1 L2 E. destruct same; simpl.
  - specialize (E eq_refl). subst x2.
    rewrite L1 in L2. subst n2. unfold stk. apply term_stack; auto.
  - apply term_blk; auto.
Qed.

Lemma lhs_join : forall ss sb m1 m2 ni s1 s2 b1 b2 Ax1 As1 Ab1 Ax2 As2 Ab2 x vs1 vs2 vb1 vb2,
  owf m1 ni Ax1 -> owf m2 ni Ax2 -> owf m1 s1 As1 -> owf m2 s2 As2 ->
  owf m1 b1 Ab1 -> owf m2 b2 Ab2 ->
  length x = ni -> length vs1 = s1 -> length vs2 = s2 -> length vb1 = b1 -> length vb2 = b2 ->
  (ss = true -> vs1 = vs2) -> (sb = true -> vb1 = vb2) ->
  lhs (m1 + m2) (stack_matrix Ax1 Ax2 m1 ni m2 ni) (stk ss m1 m2 As1 As2 s1 s2)
      (stk sb m1 m2 Ab1 Ab2 b1 b2) x (join ss vs1 vs2) (join sb vb1 vb2)
  = lhs m1 Ax1 As1 Ab1 x vs1 vb1 ++ lhs m2 Ax2 As2 Ab2 x vs2 vb2.
Proof.
  intros. unfold lhs. rewrite term_stack, !term_stk by auto.
  assert (T1 : length (term m1 Ax1 x) = m1) by (eapply term_length; eauto).
  assert (T2 : length (term m1 As1 vs1) = m1) by (eapply term_length; eauto).
  assert (T3 : length (term m1 Ab1 vb1) = m1) by (eapply term_length; eauto).
  rewrite vadd_app by lia. rewrite vadd_app; auto.
  rewrite vadd_length; lia.
Qed.

Lemma vle_app_iff' : forall a b c d, length a = length c ->
  (vle (a ++ b) (c ++ d) <-> vle a c /\ vle b d).
Proof. intros. apply vle_app_iff; auto. Qed.

Lemma app_eq_iff : forall (a b c d : vec), length a = length c ->
  (a ++ b = c ++ d <-> a = c /\ b = d).
Proof.
  intros a b c d L. split; [|intros [-> ->]; auto].
  revert c L. induction a; destruct c; simpl; intros L H; try discriminate; auto.
  injection H as H1 H2. apply IHa in H2; [|lia]. destruct H2; subst; auto.
Qed.

(** Rows with a possibly absent right hand side. *)
Definition rhs_list (r : option vec) : vec := match r with None => [] | Some r => r end.

Lemma rhs_list_stack : forall a b, rhs_list (stack_rhs a b) = rhs_list a ++ rhs_list b.
Proof. intros [a|] [b|]; simpl; auto. rewrite app_nil_r; auto. Qed.

Lemma num_ineq_list : forall c, num_ineq c = length (rhs_list (rhs_in c)).
Proof. intros. unfold num_ineq. destruct (rhs_in c); auto. Qed.
Lemma num_eq_list : forall c, num_eq c = length (rhs_list (rhs_eq c)).
Proof. intros. unfold num_eq. destruct (rhs_eq c); auto. Qed.

Lemma sat_in_list : forall c x s b, mic_wf c ->
  (sat_in c x s b <->
   vle (lhs (num_ineq c) (Ain_input c) (Ain_slack c) (Ain_binary c) x s b)
       (rhs_list (rhs_in c))).
Proof.
  intros c x s b W. unfold sat_in, num_ineq.
  destruct (rhs_in c) as [r|] eqn:E; simpl; [tauto|].
  destruct W as (_ & _ & _ & _ & _ & _ & _ & [N1 [N2 N3]] & _).
  rewrite E in N1, N2, N3. simpl in N1, N2, N3. rewrite N1, N2, N3. cbn.
  rewrite vle_nil. tauto.
Qed.
Lemma sat_eq_list : forall c x s b, mic_wf c ->
  (sat_eq c x s b <->
   lhs (num_eq c) (Aeq_input c) (Aeq_slack c) (Aeq_binary c) x s b
       = rhs_list (rhs_eq c)).
Proof.
  intros c x s b W. unfold sat_eq, num_eq.
  destruct (rhs_eq c) as [r|] eqn:E; simpl; [tauto|].
  destruct W as (_ & _ & _ & _ & _ & _ & _ & _ & _ & _ & _ & [N1 [N2 N3]] & _).
  rewrite E in N1, N2, N3. simpl in N1, N2, N3. rewrite N1, N2, N3. cbn. tauto.
Qed.

(** Bounds. *)
Lemma lo_take : forall a b (x : vec), olen_is (length x) a -> olen_is (length x) b ->
  (lo_ok (take_with ext_max a b) x <-> lo_ok a x /\ lo_ok b x).
Proof.
  intros [a|] [b|] x La Lb; simpl in *; try tauto.
  revert b x La Lb. induction a; destruct b, x; simpl; intros; try discriminate.
  - split; auto.
  - rewrite !F2_cons, IHa by lia.
    assert (E : ext_le_r (ext_max a e) r <-> ext_le_r a r /\ ext_le_r e r).
    { destruct a, e; simpl; try tauto.
      split; [intros; split; eapply Rle_trans; eauto; [apply Rmax_l|apply Rmax_r]|].
      intros [? ?]. apply Rmax_lub; auto. }
    rewrite E. tauto.
Qed.
Lemma up_take : forall a b (x : vec), olen_is (length x) a -> olen_is (length x) b ->
  (up_ok (take_with ext_min a b) x <-> up_ok a x /\ up_ok b x).
Proof.
  intros [a|] [b|] x La Lb; simpl in *; try tauto.
  revert b x La Lb. induction a; destruct b, x; simpl; intros; try discriminate.
  - split; auto.
  - rewrite !F2_cons, IHa by lia.
    assert (E : r_le_ext r (ext_min a e) <-> r_le_ext r a /\ r_le_ext r e).
    { destruct a, e; simpl; try tauto.
      split; [intros; split; eapply Rle_trans; eauto; [apply Rmin_l|apply Rmin_r]|].
      intros [? ?]. apply Rmin_glb; auto. }
    rewrite E. tauto.
Qed.

Lemma F2_repeat_N : forall n x, length x = n -> Forall2 ext_le_r (repeat NInf n) x.
Proof. induction n; destruct x; simpl; intros; try discriminate; constructor; simpl; auto. Qed.
Lemma F2_repeat_P : forall n x, length x = n -> Forall2 r_le_ext x (repeat PInf n).
Proof. induction n; destruct x; simpl; intros; try discriminate; constructor; simpl; auto. Qed.
Lemma F2_app_iff : forall {A B} (P : A -> B -> Prop) a b c d, length a = length c ->
  (Forall2 P (a ++ b) (c ++ d) <-> Forall2 P a c /\ Forall2 P b d).
Proof.
  induction a; destruct c; simpl; intros; try discriminate.
  - split; [auto|tauto].
  - rewrite !F2_cons, IHa by lia. tauto.
Qed.

Lemma lo_stack : forall a b n1 n2 c x1 x2, stack_bounds a b n1 n2 NInf = Some c ->
  olen_is n1 a -> olen_is n2 b -> length x1 = n1 -> length x2 = n2 ->
  (lo_ok c (x1 ++ x2) <-> lo_ok a x1 /\ lo_ok b x2) /\ olen_is (n1 + n2) c.
Proof.
  intros [a|] [b|] n1 n2 c x1 x2 H La Lb L1 L2; simpl in H, La, Lb.
  - injection H as H; subst. simpl. rewrite F2_app_iff by lia.
    rewrite app_length. split; [tauto|lia].
  - rewrite La, Nat.eqb_refl in H. injection H as H; subst. simpl.
    rewrite F2_app_iff by lia. rewrite app_length, repeat_length.
    split; [|lia]. split; [tauto|]. intros; split; [tauto|apply F2_repeat_N; auto].
  - rewrite Lb, Nat.eqb_refl in H. injection H as H; subst. simpl.
    rewrite F2_app_iff by (rewrite repeat_length; lia). rewrite app_length, repeat_length.
    split; [|lia]. split; [tauto|]. intros; split; [apply F2_repeat_N; auto|tauto].
  - injection H as H; subst. simpl. tauto.
Qed.
Lemma up_stack : forall a b n1 n2 c x1 x2, stack_bounds a b n1 n2 PInf = Some c ->
  olen_is n1 a -> olen_is n2 b -> length x1 = n1 -> length x2 = n2 ->
  (up_ok c (x1 ++ x2) <-> up_ok a x1 /\ up_ok b x2) /\ olen_is (n1 + n2) c.
Proof.
  intros [a|] [b|] n1 n2 c x1 x2 H La Lb L1 L2; simpl in H, La, Lb.
  - injection H as H; subst. simpl. rewrite F2_app_iff by lia.
    rewrite app_length. split; [tauto|lia].
  - rewrite La, Nat.eqb_refl in H. injection H as H; subst. simpl.
    rewrite F2_app_iff by lia. rewrite app_length, repeat_length.
    split; [|lia]. split; [tauto|]. intros; split; [tauto|apply F2_repeat_P; auto].
  - rewrite Lb, Nat.eqb_refl in H. injection H as H; subst. simpl.
    rewrite F2_app_iff by (rewrite repeat_length; lia). rewrite app_length, repeat_length.
    split; [|lia]. split; [tauto|]. intros; split; [apply F2_repeat_P; auto|tauto].
  - injection H as H; subst. simpl. tauto.
Qed.

Lemma stack_bounds_some : forall a b n1 n2 d, olen_is n1 a -> olen_is n2 b ->
  exists c, stack_bounds a b n1 n2 d = Some c.
Proof.
  intros [a|] [b|] n1 n2 d La Lb; simpl in *; eauto; rewrite ?La, ?Lb, Nat.eqb_refl; eauto.
Qed.

Lemma stack_bounds_fine : forall a b n1 n2 d, olen_is n2 b -> olen_is n1 a ->
  (n1 = n2 \/ (a = None /\ b = None) \/ (a <> None /\ b <> None)) ->
  stack_bounds a b n1 n1 d = stack_bounds a b n1 n2 d.
Proof.
  intros a b n1 n2 d Lb La [E|[[E1 E2]|[E1 E2]]]; subst; auto.
  destruct a, b; try congruence. auto.
Qed.

Lemma take_len : forall f a b n, olen_is n a -> olen_is n b -> olen_is n (take_with f a b).
Proof.
  intros f [a|] [b|] n La Lb; simpl in *; auto. rewrite map2_length. lia.
Qed.

Lemma owf_stack : forall a b m1 m2 n, owf m1 n a -> owf m2 n b ->
  owf (m1 + m2) n (stack_matrix a b m1 n m2 n).
Proof.
  intros [a|] [b|] m1 m2 n Ha Hb; simpl in *; auto;
    apply wfm_app; auto; apply wfm_zerom.
Qed.
Lemma wfm_block : forall m1 m2 n1 n2 A B, wfm m1 n1 A -> wfm m2 n2 B ->
  wfm (m1 + m2) (n1 + n2) (block_diag n1 n2 A B).
Proof.
  intros m1 m2 n1 n2 A B [L1 F1] [L2 F2]. unfold block_diag. split.
  - rewrite app_length, !map_length. lia.
  - apply Forall_app. split; apply Forall_map; eapply Forall_impl;
      try exact F1; try exact F2; simpl; intros r Hr; rewrite app_length, zeros_length; lia.
Qed.
Lemma owf_blk : forall a b m1 m2 n1 n2, owf m1 n1 a -> owf m2 n2 b ->
  owf (m1 + m2) (n1 + n2) (blk_diagonize_matrix a b m1 m2 n1 n2).
Proof.
  intros [a|] [b|] m1 m2 n1 n2 Ha Hb; simpl in *; auto;
    apply wfm_block; auto; apply wfm_zerom.
Qed.
Lemma owf_stk : forall same a b m1 m2 n1 n2, owf m1 n1 a -> owf m2 n2 b ->
  (same = true -> n1 = n2) ->
  owf (m1 + m2) (if same then n1 else n1 + n2)%nat (stk same m1 m2 a b n1 n2).
Proof.
  intros [|] a b m1 m2 n1 n2 Ha Hb E; simpl.
  - specialize (E eq_refl). subst. apply owf_stack; auto.
  - apply owf_blk; auto.
Qed.
Lemma stack_vector_len : forall a b m1 m2, olen_is m1 a -> olen_is m2 b ->
  olen_is (m1 + m2) (stack_vector a b m1 m2).
Proof.
  intros [a|] [b|] m1 m2 Ha Hb; simpl in *; auto;
    rewrite app_length, ?zeros_length; lia.
Qed.
Lemma stk_none : forall same m1 m2 a b n1 n2,
  stk same m1 m2 a b n1 n2 = None <-> a = None /\ b = None.
Proof.
  intros [|] m1 m2 [a|] [b|] n1 n2; simpl; split; intros H; try discriminate;
    destruct H; try discriminate; auto.
Qed.
Lemma stack_none : forall a b m1 m2 n1 n2,
  stack_matrix a b m1 n1 m2 n2 = None <-> a = None /\ b = None.
Proof.
  intros [a|] [b|] m1 m2 n1 n2; simpl; split; intros H; try discriminate;
    destruct H; try discriminate; auto.
Qed.

(** num_out of the result. *)
Lemma num_out_stack : forall o1 o2 A1 A2 A3 B1 B2 B3 k1 k2 ni s1 s2 b1 b2 ss sb
  (c1 c2 c : mic),
  num_out c1 = o1 -> num_out c2 = o2 ->
  Aout_input c1 = A1 -> Aout_slack c1 = A2 -> Aout_binary c1 = A3 -> Cout c1 = k1 ->
  Aout_input c2 = B1 -> Aout_slack c2 = B2 -> Aout_binary c2 = B3 -> Cout c2 = k2 ->
  mic_wf c1 -> mic_wf c2 ->
  Aout_input c = stack_matrix A1 B1 o1 ni o2 ni ->
  Aout_slack c = stk ss o1 o2 A2 B2 s1 s2 ->
  Aout_binary c = stk sb o1 o2 A3 B3 b1 b2 ->
  Cout c = stack_vector k1 k2 o1 o2 ->
  ni = nin c1 -> ni = nin c2 -> s1 = nsl c1 -> s2 = nsl c2 -> b1 = nbin c1 -> b2 = nbin c2 ->
  (ss = true -> s1 = s2) -> (sb = true -> b1 = b2) ->
  num_out c = (o1 + o2)%nat.
Proof.
  intros o1 o2 A1 A2 A3 B1 B2 B3 k1 k2 ni s1 s2 b1 b2 ss sb c1 c2 c
    O1 O2 EA1 EA2 EA3 Ek1 EB1 EB2 EB3 Ek2 W1 W2 C1 C2 C3 C4 N1 N2 S1 S2 T1 T2 Ss Sb.
  destruct W1 as (P1 & P2 & P3 & P4 & _). destruct W2 as (Q1 & Q2 & Q3 & Q4 & _).
  rewrite O1, EA1, <- N1 in P1. rewrite O1, EA2, <- S1 in P2.
  rewrite O1, EA3, <- T1 in P3. rewrite O1, Ek1 in P4.
  rewrite O2, EB1, <- N2 in Q1. rewrite O2, EB2, <- S2 in Q2.
  rewrite O2, EB3, <- T2 in Q3. rewrite O2, Ek2 in Q4.
  pose proof (owf_stack _ _ _ _ _ P1 Q1) as R1. rewrite <- C1 in R1.
  pose proof (owf_stk ss _ _ _ _ _ _ P2 Q2 Ss) as R2. rewrite <- C2 in R2.
  pose proof (owf_stk sb _ _ _ _ _ _ P3 Q3 Sb) as R3. rewrite <- C3 in R3.
  pose proof (stack_vector_len _ _ _ _ P4 Q4) as R4. rewrite <- C4 in R4.
  unfold num_out. 
  destruct (Aout_input c) eqn:D1; [apply R1|].
  destruct (Aout_slack c) eqn:D2; [apply R2|].
  destruct (Aout_binary c) eqn:D3; [apply R3|].
  destruct (Cout c) eqn:D4; [apply R4|]. simpl.
  symmetry in C1, C2, C3. apply stack_none in C1. apply stk_none in C2, C3.
  destruct C1, C2, C3. subst A1 A2 A3 B1 B2 B3.
  unfold num_out in O1, O2. rewrite H, H1, H3 in O1. rewrite H0, H2, H4 in O2.
  destruct k1, k2; try discriminate. rewrite Ek1 in O1. rewrite Ek2 in O2.
  simpl in O1, O2. lia.
Qed.

Lemma concat_inv : forall c1 c2 ss sb so c,
  concatenate c1 c2 ss sb so = Some c ->
  nin c1 = nin c2 /\ (ss = true -> nsl c1 = nsl c2) /\ (sb = true -> nbin c1 = nbin c2) /\
  nin c = nin c1 /\
  nsl c = (if ss then nsl c1 else nsl c1 + nsl c2)%nat /\
  nbin c = (if sb then nbin c1 else nbin c1 + nbin c2)%nat /\
  Ain_input c = stack_matrix (Ain_input c1) (Ain_input c2) (num_ineq c1) (nin c1) (num_ineq c2) (nin c1) /\
  Ain_slack c = stk ss (num_ineq c1) (num_ineq c2) (Ain_slack c1) (Ain_slack c2) (nsl c1) (nsl c2) /\
  Ain_binary c = stk sb (num_ineq c1) (num_ineq c2) (Ain_binary c1) (Ain_binary c2) (nbin c1) (nbin c2) /\
  rhs_in c = stack_rhs (rhs_in c1) (rhs_in c2) /\
  Aeq_input c = stack_matrix (Aeq_input c1) (Aeq_input c2) (num_eq c1) (nin c1) (num_eq c2) (nin c1) /\
  Aeq_slack c = stk ss (num_eq c1) (num_eq c2) (Aeq_slack c1) (Aeq_slack c2) (nsl c1) (nsl c2) /\
  Aeq_binary c = stk sb (num_eq c1) (num_eq c2) (Aeq_binary c1) (Aeq_binary c2) (nbin c1) (nbin c2) /\
  rhs_eq c = stack_rhs (rhs_eq c1) (rhs_eq c2) /\
  input_lo c = take_with ext_max (input_lo c1) (input_lo c2) /\
  input_up c = take_with ext_min (input_up c1) (input_up c2) /\
  (if ss then slack_lo c = take_with ext_max (slack_lo c1) (slack_lo c2)
   else stack_bounds (slack_lo c1) (slack_lo c2) (nsl c1) (nsl c2) NInf = Some (slack_lo c)) /\
  (if ss then slack_up c = take_with ext_min (slack_up c1) (slack_up c2)
   else stack_bounds (slack_up c1) (slack_up c2) (nsl c1) (nsl c2) PInf = Some (slack_up c)) /\
  (if sb then binary_lo c = take_with ext_max (binary_lo c1) (binary_lo c2)
   else stack_bounds (binary_lo c1) (binary_lo c2) (nbin c1) (nbin c1) NInf = Some (binary_lo c)) /\
  (if sb then binary_up c = take_with ext_min (binary_up c1) (binary_up c2)
   else stack_bounds (binary_up c1) (binary_up c2) (nbin c1) (nbin c1) PInf = Some (binary_up c)) /\
  (so = true ->
    Aout_input c = stack_matrix (Aout_input c1) (Aout_input c2) (num_out c1) (nin c1) (num_out c2) (nin c1) /\
    Aout_slack c = stk ss (num_out c1) (num_out c2) (Aout_slack c1) (Aout_slack c2) (nsl c1) (nsl c2) /\
    Aout_binary c = stk sb (num_out c1) (num_out c2) (Aout_binary c1) (Aout_binary c2) (nbin c1) (nbin c2) /\
    Cout c = stack_vector (Cout c1) (Cout c2) (num_out c1) (num_out c2)) /\
  (so = false -> Aout_input c = None /\ Aout_slack c = None /\ Aout_binary c = None /\ Cout c = None).
Proof.
  intros c1 c2 ss sb so c H. unfold concatenate in H.
  destruct (Nat.eqb (nin c1) (nin c2)) eqn:E1; cbn [negb] in H; [|discriminate].
  apply Nat.eqb_eq in E1.
  assert (E2 : ss = true -> nsl c1 = nsl c2).
  { intros; subst ss. cbn [andb] in H. destruct (Nat.eqb (nsl c1) (nsl c2)) eqn:E;
      [apply Nat.eqb_eq; auto|discriminate]. }
  replace (ss && negb (nsl c1 =? nsl c2)%nat)%bool with false in H
    by (destruct ss; auto; rewrite E2, Nat.eqb_refl; auto).
  assert (E3 : sb = true -> nbin c1 = nbin c2).
  { intros; subst sb. cbn [andb] in H. destruct (Nat.eqb (nbin c1) (nbin c2)) eqn:E;
      [apply Nat.eqb_eq; auto|discriminate]. }
  replace (sb && negb (nbin c1 =? nbin c2)%nat)%bool with false in H
    by (destruct sb; auto; rewrite E3, Nat.eqb_refl; auto).
  cbv zeta in H.
  destruct (if ss then Some (take_with ext_max (slack_lo c1) (slack_lo c2))
     else stack_bounds (slack_lo c1) (slack_lo c2) (nsl c1) (nsl c2) NInf) as [slo|] eqn:F1;
    [|discriminate].
  destruct (if ss then Some (take_with ext_min (slack_up c1) (slack_up c2))
     else stack_bounds (slack_up c1) (slack_up c2) (nsl c1) (nsl c2) PInf) as [sup|] eqn:F2;
    [|discriminate].
  destruct (if sb then Some (take_with ext_max (binary_lo c1) (binary_lo c2))
     else stack_bounds (binary_lo c1) (binary_lo c2) (nbin c1) (nbin c1) NInf) as [blo|] eqn:F3;
    [|discriminate].
  destruct (if sb then Some (take_with ext_min (binary_up c1) (binary_up c2))
     else stack_bounds (binary_up c1) (binary_up c2) (nbin c1) (nbin c1) PInf) as [bup|] eqn:F4;
    [|discriminate].
  injection H as H. subst c. cbn.
  repeat (split; [first [exact E1 | exact E2 | exact E3 | reflexivity
    | destruct ss; [injection F1 as F1; auto|exact F1]
    | destruct ss; [injection F2 as F2; auto|exact F2]
    | destruct sb; [injection F3 as F3; auto|exact F3]
    | destruct sb; [injection F4 as F4; auto|exact F4]] |]).
  split; intros; subst so; auto.
Qed.

Ltac wf_split W := destruct W as (?O1 & ?O2 & ?O3 & ?O4 & ?I1 & ?I2 & ?I3 & ?N &
                                  ?E1 & ?E2 & ?E3 & ?M & ?X1 & ?X2 & ?S1 & ?S2 & ?B1 & ?B2).

Lemma concat_sat : forall c1 c2 ss sb so c x s1 s2 b1 b2,
  concatenate c1 c2 ss sb so = Some c -> mic_wf c1 -> mic_wf c2 ->
  bin_bounds_fine sb c1 c2 ->
  length x = nin c1 -> length s1 = nsl c1 -> length s2 = nsl c2 ->
  length b1 = nbin c1 -> length b2 = nbin c2 ->
  (ss = true -> s1 = s2) -> (sb = true -> b1 = b2) ->
  mic_wf c /\
  (rows_sat c x (join ss s1 s2) (join sb b1 b2) <->
   rows_sat c1 x s1 b1 /\ rows_sat c2 x s2 b2) /\
  (bounds_ok c x (join ss s1 s2) (join sb b1 b2) <->
   bounds_ok c1 x s1 b1 /\ bounds_ok c2 x s2 b2) /\
  (so = true ->
   output c x (join ss s1 s2) (join sb b1 b2) = output c1 x s1 b1 ++ output c2 x s2 b2) /\
  (so = false -> num_out c = 0%nat).
Proof.
  intros c1 c2 ss sb so c x s1 s2 b1 b2 H W1 W2 Fb Lx L1 L2 L3 L4 Es Eb.
  destruct (concat_inv _ _ _ _ _ _ H) as
    (K1 & K2 & K3 & K4 & K5 & K6 & J1 & J2 & J3 & J4 & J5 & J6 & J7 & J8 & V1 & V2 &
     V3 & V4 & V5 & V6 & P & Q).
  assert (W1' := W1). assert (W2' := W2).
  destruct W1' as (A1 & A2 & A3 & A4 & A5 & A6 & A7 & A8 & A9 & A10 & A11 & A12 &
                   A13 & A14 & A15 & A16 & A17 & A18).
  destruct W2' as (D1 & D2 & D3 & D4 & D5 & D6 & D7 & D8 & D9 & D10 & D11 & D12 &
                   D13 & D14 & D15 & D16 & D17 & D18).
  rewrite <- K1 in D1, D5, D9, D13, D14.
  assert (Ni : num_ineq c = (num_ineq c1 + num_ineq c2)%nat).
  { rewrite !num_ineq_list, J4, rhs_list_stack, app_length. auto. }
  assert (Ne : num_eq c = (num_eq c1 + num_eq c2)%nat).
  { rewrite !num_eq_list, J8, rhs_list_stack, app_length. auto. }
  assert (Lj : length (join ss s1 s2) = nsl c).
  { rewrite K5. destruct ss; simpl; auto. rewrite app_length. lia. }
  assert (Lb : length (join sb b1 b2) = nbin c).
  { rewrite K6. destruct sb; simpl; auto. rewrite app_length. lia. }
  (* binary bounds *)
  assert (Vb5 : if sb then binary_lo c = take_with ext_max (binary_lo c1) (binary_lo c2)
     else stack_bounds (binary_lo c1) (binary_lo c2) (nbin c1) (nbin c2) NInf = Some (binary_lo c)).
  { destruct sb; auto. rewrite <- V5. symmetry. apply stack_bounds_fine; auto.
    destruct Fb as [F|[F|[F|F]]]; [discriminate|auto|right; left|right; right]; tauto. }
  assert (Vb6 : if sb then binary_up c = take_with ext_min (binary_up c1) (binary_up c2)
     else stack_bounds (binary_up c1) (binary_up c2) (nbin c1) (nbin c2) PInf = Some (binary_up c)).
  { destruct sb; auto. rewrite <- V6. symmetry. apply stack_bounds_fine; auto.
    destruct Fb as [F|[F|[F|F]]]; [discriminate|auto|right; left|right; right]; tauto. }
  clear V5 V6.
  (* bounds equivalences *)
  assert (BS1 : (lo_ok (slack_lo c) (join ss s1 s2) <-> lo_ok (slack_lo c1) s1 /\ lo_ok (slack_lo c2) s2)
                /\ olen_is (nsl c) (slack_lo c)).
  { rewrite K5. destruct ss.
    - rewrite V3. specialize (Es eq_refl). subst s2. simpl. rewrite <- L2 in D15.
      rewrite <- L1 in A15. split; [apply lo_take; auto|].
      rewrite <- L1. apply take_len; auto.
    - simpl. apply lo_stack; auto. }
  assert (BS2 : (up_ok (slack_up c) (join ss s1 s2) <-> up_ok (slack_up c1) s1 /\ up_ok (slack_up c2) s2)
                /\ olen_is (nsl c) (slack_up c)).
  { rewrite K5. destruct ss.
    - rewrite V4. specialize (Es eq_refl). subst s2. simpl. rewrite <- L2 in D16.
      rewrite <- L1 in A16. split; [apply up_take; auto|].
      rewrite <- L1. apply take_len; auto.
    - simpl. apply up_stack; auto. }
  assert (BB1 : (lo_ok (binary_lo c) (join sb b1 b2) <-> lo_ok (binary_lo c1) b1 /\ lo_ok (binary_lo c2) b2)
                /\ olen_is (nbin c) (binary_lo c)).
  { rewrite K6. destruct sb.
    - rewrite Vb5. specialize (Eb eq_refl). subst b2. simpl. rewrite <- L4 in D17.
      rewrite <- L3 in A17. split; [apply lo_take; auto|].
      rewrite <- L3. apply take_len; auto.
    - simpl. apply lo_stack; auto. }
  assert (BB2 : (up_ok (binary_up c) (join sb b1 b2) <-> up_ok (binary_up c1) b1 /\ up_ok (binary_up c2) b2)
                /\ olen_is (nbin c) (binary_up c)).
  { rewrite K6. destruct sb.
    - rewrite Vb6. specialize (Eb eq_refl). subst b2. simpl. rewrite <- L4 in D18.
      rewrite <- L3 in A18. split; [apply up_take; auto|].
      rewrite <- L3. apply take_len; auto.
    - simpl. apply up_stack; auto. }
  assert (BI1 : lo_ok (input_lo c) x <-> lo_ok (input_lo c1) x /\ lo_ok (input_lo c2) x).
  { rewrite V1. apply lo_take; rewrite Lx; auto. }
  assert (BI2 : up_ok (input_up c) x <-> up_ok (input_up c1) x /\ up_ok (input_up c2) x).
  { rewrite V2. apply up_take; rewrite Lx; auto. }
  assert (No : so = true -> num_out c = (num_out c1 + num_out c2)%nat).
  { intros E. destruct (P E) as (P1 & P2 & P3 & P4).
    eapply num_out_stack with (c1 := c1) (c2 := c2); eauto. }
  assert (No0 : so = false -> num_out c = 0%nat).
  { intros E. destruct (Q E) as (Q1 & Q2 & Q3 & Q4). unfold num_out.
    rewrite Q1, Q2, Q3, Q4. auto. }
  assert (Wc : mic_wf c).
  { unfold mic_wf. rewrite Ni, Ne, K4.
    assert (Wo : owf (num_out c) (nin c1) (Aout_input c) /\
      owf (num_out c) (nsl c) (Aout_slack c) /\
      owf (num_out c) (nbin c) (Aout_binary c) /\
      olen_is (num_out c) (Cout c)).
    { destruct so.
      - rewrite No by auto. destruct (P eq_refl) as (P1 & P2 & P3 & P4).
        rewrite P1, P2, P3, P4, K5, K6.
        split; [apply owf_stack; auto|]. split; [apply owf_stk; auto|].
        split; [apply owf_stk; auto|]. apply stack_vector_len; auto.
      - destruct (Q eq_refl) as (Q1 & Q2 & Q3 & Q4). rewrite Q1, Q2, Q3, Q4. simpl. auto. }
    destruct Wo as (Wo1 & Wo2 & Wo3 & Wo4).
    repeat apply conj; auto; try apply BS1; try apply BS2; try apply BB1; try apply BB2.
    - rewrite J1. apply owf_stack; auto.
    - rewrite J2, K5. apply owf_stk; auto.
    - rewrite J3, K6. apply owf_stk; auto.
    - rewrite J4, J1. destruct (rhs_in c1), (rhs_in c2); simpl; auto.
      destruct A8 as (N1 & _), D8 as (N2 & _). simpl in N1, N2. rewrite N1, N2. auto.
    - rewrite J4, J2. destruct (rhs_in c1), (rhs_in c2); simpl; auto.
      destruct A8 as (_ & N1 & _), D8 as (_ & N2 & _). simpl in N1, N2.
      apply stk_none. auto.
    - rewrite J4, J3. destruct (rhs_in c1), (rhs_in c2); simpl; auto.
      destruct A8 as (_ & _ & N1), D8 as (_ & _ & N2). simpl in N1, N2.
      apply stk_none. auto.
    - rewrite J5. apply owf_stack; auto.
    - rewrite J6, K5. apply owf_stk; auto.
    - rewrite J7, K6. apply owf_stk; auto.
    - rewrite J8, J5. destruct (rhs_eq c1), (rhs_eq c2); simpl; auto.
      destruct A12 as (N1 & _), D12 as (N2 & _). simpl in N1, N2. rewrite N1, N2. auto.
    - rewrite J8, J6. destruct (rhs_eq c1), (rhs_eq c2); simpl; auto.
      destruct A12 as (_ & N1 & _), D12 as (_ & N2 & _). simpl in N1, N2.
      apply stk_none. auto.
    - rewrite J8, J7. destruct (rhs_eq c1), (rhs_eq c2); simpl; auto.
      destruct A12 as (_ & _ & N1), D12 as (_ & _ & N2). simpl in N1, N2.
      apply stk_none. auto.
    - rewrite V1. apply take_len; auto.
    - rewrite V2. apply take_len; auto. }
  split; auto. split; [|split; [|split]]; auto.
  - unfold rows_sat. rewrite (sat_in_list c), (sat_in_list c1), (sat_in_list c2) by auto.
    rewrite (sat_eq_list c), (sat_eq_list c1), (sat_eq_list c2) by auto.
    rewrite Ni, Ne, J1, J2, J3, J5, J6, J7.
    rewrite !lhs_join by auto.
    rewrite J4, J8, !rhs_list_stack.
    assert (M1 : length (lhs (num_ineq c1) (Ain_input c1) (Ain_slack c1) (Ain_binary c1) x s1 b1)
                 = length (rhs_list (rhs_in c1))).
    { rewrite (lhs_length _ _ _ _ _ _ _ _ _ _ A5 A6 A7). apply num_ineq_list. }
    assert (M2 : length (lhs (num_eq c1) (Aeq_input c1) (Aeq_slack c1) (Aeq_binary c1) x s1 b1)
                 = length (rhs_list (rhs_eq c1))).
    { rewrite (lhs_length _ _ _ _ _ _ _ _ _ _ A9 A10 A11). apply num_eq_list. }
    rewrite vle_app_iff', app_eq_iff by auto.
    rewrite Lj, Lb, K4, K1 in *. rewrite <- K1 in *. intuition congruence.
  - unfold bounds_ok. tauto.
  - intros E. unfold output. cbv zeta. destruct (P E) as (P1 & P2 & P3 & P4).
    rewrite (No E), P1, P2, P3, P4.
    rewrite !lhs_join by auto.
    rewrite <- vadd_app.
    + f_equal. destruct (Cout c1) as [k1|], (Cout c2) as [k2|]; simpl; auto.
      apply zeros_app.
    + rewrite (lhs_length _ _ _ _ _ _ _ _ _ _ A1 A2 A3).
      destruct (Cout c1) eqn:Ec; simpl in A4; auto. symmetry. apply zeros_length.
Qed.

Lemma concat_total : forall c1 c2 ss sb so, mic_wf c1 -> mic_wf c2 ->
  bin_bounds_fine sb c1 c2 -> nin c1 = nin c2 ->
  (ss = true -> nsl c1 = nsl c2) -> (sb = true -> nbin c1 = nbin c2) ->
  exists c, concatenate c1 c2 ss sb so = Some c.
Proof.
  intros c1 c2 ss sb so W1 W2 Fb E1 E2 E3. unfold concatenate.
  rewrite E1, Nat.eqb_refl. cbn [negb].
  replace (ss && negb (nsl c1 =? nsl c2)%nat)%bool with false
    by (destruct ss; auto; rewrite E2, Nat.eqb_refl; auto).
  replace (sb && negb (nbin c1 =? nbin c2)%nat)%bool with false
    by (destruct sb; auto; rewrite E3, Nat.eqb_refl; auto).
  cbv zeta.
  destruct W1 as (_ & _ & _ & _ & _ & _ & _ & _ & _ & _ & _ & _ & _ & _ & S1 & S2 & B1 & B2).
  destruct W2 as (_ & _ & _ & _ & _ & _ & _ & _ & _ & _ & _ & _ & _ & _ & T1 & T2 & C1 & C2).
  destruct (stack_bounds_some _ _ _ _ NInf S1 T1) as [x1 H1].
  destruct (stack_bounds_some _ _ _ _ PInf S2 T2) as [x2 H2].
  destruct (stack_bounds_some _ _ _ _ NInf B1 C1) as [x3 H3].
  destruct (stack_bounds_some _ _ _ _ PInf B2 C2) as [x4 H4].
  rewrite H1, H2.
  destruct sb.
  - destruct ss; eauto.
  - rewrite (stack_bounds_fine (binary_lo c1) (binary_lo c2) (nbin c1) (nbin c2));
      [|auto|auto|destruct Fb as [F|[F|[F|F]]];
         [discriminate|auto|right; left|right; right]; tauto].
    rewrite (stack_bounds_fine (binary_up c1) (binary_up c2) (nbin c1) (nbin c2));
      [|auto|auto|destruct Fb as [F|[F|[F|F]]];
         [discriminate|auto|right; left|right; right]; tauto].
    rewrite H3, H4. destruct ss; eauto.
Qed.

(** A constraint set with one binary, no bounds; and one with two binaries and
    bounds on them. *)
Definition cex1 : mic :=
  mkMic 1 0 1 None None None None (Some [[1]]) None (Some [[1]]) (Some [1])
        None None None None None None None None None None.
Definition cex2 : mic :=
  mkMic 1 0 2 None None None None (Some [[1]]) None (Some [[1; 1]]) (Some [1])
        None None None None None None None None
        (Some [Fin 0; Fin 0]) (Some [Fin 1; Fin 1]).

Lemma cex_wf : mic_wf cex1 /\ mic_wf cex2.
Proof.
  unfold mic_wf, cex1, cex2, num_ineq, num_eq, num_out; cbn; unfold wfm;
    repeat split; repeat constructor.
Qed.

(** The concatenation raises although nothing is wrong with its arguments. *)
Lemma concat_total_refuted : exists c1 c2,
  mic_wf c1 /\ mic_wf c2 /\ nin c1 = nin c2 /\
  concatenate c1 c2 false false true = None.
Proof.
  exists cex1, cex2. split; [apply cex_wf|]. split; [apply cex_wf|]. split; reflexivity.
Qed.
(** ... or returns a bound vector of the wrong length. *)
Lemma concat_wf_refuted : exists c1 c2 c,
  mic_wf c1 /\ mic_wf c2 /\ concatenate c1 c2 false false true = Some c /\ ~ mic_wf c.
Proof.
  exists cex2, cex1. eexists. split; [apply cex_wf|]. split; [apply cex_wf|].
  split; [reflexivity|]. intros W.
  destruct W as (_ & _ & _ & _ & _ & _ & _ & _ & _ & _ & _ & _ & _ & _ & _ & _ & B & _).
  cbn in B. discriminate.
Qed.

(** ** transform_input *)

Lemma term_transform : forall m k n M A b x, wfm m k M -> wfm k n A -> length b = k ->
  length x = n ->
  vadd (mv (mm n M A) x) (mv M b) = mv M (vadd (mv A x) b).
Proof.
  intros m k n M A b x W1 W2 Lb Lx.
  rewrite mv_mm by (destruct W2; auto).
  rewrite mv_vadd; auto. rewrite mv_length. destruct W2; lia.
Qed.

Lemma transform_total : forall n A b c, mic_wf c ->
  exists c', transform_input n A b c = Some c'.
Proof.
  intros n A b c W. unfold transform_input.
  destruct W as (_ & _ & _ & _ & _ & _ & _ & (N1 & _) & _ & _ & _ & (N2 & _) & _).
  destruct (Ain_input c), (rhs_in c), (Aeq_input c), (rhs_eq c); simpl in *;
    try discriminate; destruct (Aout_input c); eauto.
Qed.

Lemma vle_shift : forall a b k, length a = length b -> length k = length b ->
  (vle a (vsub b k) <-> vle (vadd a k) b).
Proof.
  unfold vsub, vadd. induction a; destruct b, k; simpl; intros; try discriminate.
  - tauto.
  - rewrite !vle_cons, IHa by lia. intuition lra.
Qed.
Lemma eq_shift : forall a b k, length a = length b -> length k = length b ->
  (a = vsub b k <-> vadd a k = b).
Proof.
  unfold vsub, vadd. induction a; destruct b, k; simpl; intros; try discriminate.
  - tauto.
  - rewrite !cons_eq_iff, IHa by lia. intuition lra.
Qed.
Lemma vadd_perm : forall a b c d, vadd (vadd (vadd a b) c) d = vadd (vadd (vadd a d) b) c.
Proof.
  intros. rewrite (vadd_assoc (vadd a b) c d), (vadd_comm c d), <- vadd_assoc.
  f_equal. rewrite vadd_assoc, (vadd_comm b d), <- vadd_assoc. auto.
Qed.

Lemma transform_spec : forall n A b c c' x s bi,
  transform_input n A b c = Some c' -> mic_wf c -> wfm (nin c) n A -> length b = nin c ->
  length x = n ->
  (rows_sat c' x s bi <-> rows_sat c (vadd (mv A x) b) s bi) /\
  output c' x s bi = output c (vadd (mv A x) b) s bi.
Proof.
  intros n A b c c' x s bi H W WA Lb Lx.
  destruct W as (O1 & O2 & O3 & O4 & I1 & I2 & I3 & (N1 & N2 & N3) & E1 & E2 & E3 &
                 (M1 & M2 & M3) & _).
  assert (Ly : length (vadd (mv A x) b) = nin c).
  { rewrite vadd_length; rewrite mv_length; destruct WA; lia. }
  assert (Tin : sat_in c' x s bi <-> sat_in c (vadd (mv A x) b) s bi).
  { unfold transform_input in H. unfold sat_in.
    destruct (Ain_input c) as [M|] eqn:EA.
    - destruct (rhs_in c) as [r|] eqn:ER; [|discriminate].
      destruct (match Aeq_input c with
        | Some M => match rhs_eq c with
          | Some r => Some (Some (mm n M A), Some (vsub r (mv M b))) | None => None end
        | None => Some (None, rhs_eq c) end) as [[aeq req]|]; [|discriminate].
      destruct (match Aout_input c with
        | Some M => (Some (mm n M A), Some (match Cout c with Some k => vadd k (mv M b) | None => mv M b end))
        | None => (None, Cout c) end) as [aout co].
      injection H as H. subst c'. cbn [rhs_in Ain_input Ain_slack Ain_binary].
      unfold num_ineq in I1, I2, I3. rewrite ER in I1, I2, I3. simpl in I1.
      assert (LM : length (mv M b) = length r) by (rewrite mv_length; apply I1).
      assert (Ls : length (vsub r (mv M b)) = length r) by (rewrite vsub_length; auto).
      rewrite Ls.
      assert (Wm : wfm (length r) n (mm n M A)) by (eapply wfm_mm; eauto).
      rewrite vle_shift; auto.
      + unfold lhs. rewrite vadd_perm. cbn [term].
        rewrite (term_transform (length r) (nin c)) by auto. tauto.
      + apply (lhs_length (length r) (Some (mm n M A)) _ _ n (nsl c) (nbin c)); auto.
    - destruct (match Aeq_input c with
        | Some M => match rhs_eq c with
          | Some r => Some (Some (mm n M A), Some (vsub r (mv M b))) | None => None end
        | None => Some (None, rhs_eq c) end) as [[aeq req]|]; [|discriminate].
      destruct (match Aout_input c with
        | Some M => (Some (mm n M A), Some (match Cout c with Some k => vadd k (mv M b) | None => mv M b end))
        | None => (None, Cout c) end) as [aout co].
      injection H as H. subst c'. cbn [rhs_in Ain_input Ain_slack Ain_binary].
      unfold lhs. cbn [term]. tauto. }
  assert (Teq : sat_eq c' x s bi <-> sat_eq c (vadd (mv A x) b) s bi).
  { unfold transform_input in H. unfold sat_eq.
    destruct (match Ain_input c with
        | Some M => match rhs_in c with
          | Some r => Some (Some (mm n M A), Some (vsub r (mv M b))) | None => None end
        | None => Some (None, rhs_in c) end) as [[ain rin]|]; [|discriminate].
    destruct (Aeq_input c) as [M|] eqn:EA.
    - destruct (rhs_eq c) as [r|] eqn:ER; [|discriminate].
      destruct (match Aout_input c with
        | Some M => (Some (mm n M A), Some (match Cout c with Some k => vadd k (mv M b) | None => mv M b end))
        | None => (None, Cout c) end) as [aout co].
      injection H as H. subst c'. cbn [rhs_eq Aeq_input Aeq_slack Aeq_binary].
      unfold num_eq in E1, E2, E3. rewrite ER in E1, E2, E3. simpl in E1.
      assert (LM : length (mv M b) = length r) by (rewrite mv_length; apply E1).
      assert (Ls : length (vsub r (mv M b)) = length r) by (rewrite vsub_length; auto).
      rewrite Ls.
      assert (Wm : wfm (length r) n (mm n M A)) by (eapply wfm_mm; eauto).
      rewrite eq_shift; auto.
      + unfold lhs. rewrite vadd_perm. cbn [term].
        rewrite (term_transform (length r) (nin c)) by auto. tauto.
      + apply (lhs_length (length r) (Some (mm n M A)) _ _ n (nsl c) (nbin c)); auto.
    - destruct (match Aout_input c with
        | Some M => (Some (mm n M A), Some (match Cout c with Some k => vadd k (mv M b) | None => mv M b end))
        | None => (None, Cout c) end) as [aout co].
      injection H as H. subst c'. cbn [rhs_eq Aeq_input Aeq_slack Aeq_binary].
      unfold lhs. cbn [term]. tauto. }
  assert (Dims : nin c' = n /\ nsl c' = nsl c /\ nbin c' = nbin c).
  { unfold transform_input in H.
    destruct (match Ain_input c with
        | Some M => match rhs_in c with
          | Some r => Some (Some (mm n M A), Some (vsub r (mv M b))) | None => None end
        | None => Some (None, rhs_in c) end) as [[ain rin]|]; [|discriminate].
    destruct (match Aeq_input c with
        | Some M => match rhs_eq c with
          | Some r => Some (Some (mm n M A), Some (vsub r (mv M b))) | None => None end
        | None => Some (None, rhs_eq c) end) as [[aeq req]|]; [|discriminate].
    destruct (match Aout_input c with
        | Some M => (Some (mm n M A), Some (match Cout c with Some k => vadd k (mv M b) | None => mv M b end))
        | None => (None, Cout c) end) as [aout co].
    injection H as H. subst c'. auto. }
  destruct Dims as (Q1 & Q2 & Q3).
  split.
  - unfold rows_sat. rewrite Q1, Q2, Q3, Tin, Teq. intuition.
  - clear Tin Teq. unfold transform_input in H.
    destruct (match Ain_input c with
        | Some M => match rhs_in c with
          | Some r => Some (Some (mm n M A), Some (vsub r (mv M b))) | None => None end
        | None => Some (None, rhs_in c) end) as [[ain rin]|]; [|discriminate].
    destruct (match Aeq_input c with
        | Some M => match rhs_eq c with
          | Some r => Some (Some (mm n M A), Some (vsub r (mv M b))) | None => None end
        | None => Some (None, rhs_eq c) end) as [[aeq req]|]; [|discriminate].
    destruct (Aout_input c) as [M|] eqn:EA.
    + injection H as H. subst c'. unfold output.
      assert (No : num_out c = length M) by (unfold num_out; rewrite EA; auto).
      rewrite No in *. cbv zeta. rewrite EA.
      unfold num_out at 1 2. cbn [Aout_input Aout_slack Aout_binary Cout olen].
      simpl in O1.
      assert (Wm : wfm (length M) n (mm n M A)) by (eapply wfm_mm; eauto).
      replace (length (mm n M A)) with (length M) by (symmetry; apply Wm).
      unfold lhs. cbn [term].
      rewrite <- (term_transform (length M) (nin c) n) by auto.
      destruct (Cout c) as [k|].
      * rewrite (vadd_comm k), <- vadd_assoc. f_equal. apply vadd_perm.
      * rewrite vadd_perm. rewrite vadd_zeros_r; auto.
        assert (T1 : length (term (length M) (Aout_slack c) s) = length M) by (eapply term_length; eauto).
        assert (T2 : length (term (length M) (Aout_binary c) bi) = length M) by (eapply term_length; eauto).
        assert (T3 : length (mv (mm n M A) x) = length M) by (rewrite mv_length; apply Wm).
        assert (T4 : length (mv M b) = length M) by apply mv_length.
        rewrite !vadd_length; rewrite ?vadd_length; rewrite ?vadd_length; lia.
    + injection H as H. subst c'. unfold output, num_out, lhs. cbn.
      rewrite EA. cbn [olen term]. auto.
Qed.

Lemma transform_bounds : forall n A b c c',
  transform_input n A b c = Some c' ->
  nin c' = n /\ nsl c' = nsl c /\ nbin c' = nbin c /\
  input_lo c' = input_lo c /\ input_up c' = input_up c /\
  slack_lo c' = slack_lo c /\ slack_up c' = slack_up c /\
  binary_lo c' = binary_lo c /\ binary_up c' = binary_up c.
Proof.
  intros n A b c c' H. unfold transform_input in H.
  destruct (Ain_input c), (rhs_in c), (Aeq_input c), (rhs_eq c), (Aout_input c);
    try discriminate; injection H as H; subst c'; repeat split.
Qed.

Lemma transform_sat : forall n A b c c' x s bi,
  transform_input n A b c = Some c' -> mic_wf c -> wfm (nin c) n A -> length b = nin c ->
  length x = n -> input_lo c = None -> input_up c = None ->
  (mic_sat c' x s bi <-> mic_sat c (vadd (mv A x) b) s bi) /\
  output c' x s bi = output c (vadd (mv A x) b) s bi.
Proof.
  intros n A b c c' x s bi H W WA Lb Lx B1 B2.
  destruct (transform_spec n A b c c' x s bi H W WA Lb Lx) as [R1 R2].
  destruct (transform_bounds _ _ _ _ _ H) as (_ & _ & _ & K1 & K2 & K3 & K4 & K5 & K6).
  split; auto. unfold mic_sat, bounds_ok.
  rewrite R1, K1, K2, K3, K4, K5, K6, B1, B2. simpl. tauto.
Qed.

Definition tex : mic :=
  mkMic 1 0 0 (Some [[1]]) None None None (Some [[1]]) None None (Some [10])
        None None None None (Some [Fin 0]) None None None None None.

Lemma tex_wf : mic_wf tex.
Proof. unfold mic_wf, num_ineq, num_eq, num_out; cbn; unfold wfm; repeat split; repeat constructor. Qed.

(** Input bounds of the object are left as they are, so a point is accepted
    whose image violates the original bounds. *)
Lemma transform_bounds_refuted : exists n A b c c' x s bi,
  mic_wf c /\ wfm (nin c) n A /\ length b = nin c /\ length x = n /\
  transform_input n A b c = Some c' /\
  mic_sat c' x s bi /\ ~ mic_sat c (vadd (mv A x) b) s bi.
Proof.
  exists 1%nat, [[1]], [-5], tex. eexists. exists [1], [], [].
  split; [apply tex_wf|]. split; [unfold wfm; split; repeat constructor|].
  split; [reflexivity|]. split; [reflexivity|]. split; [reflexivity|]. split.
  - split.
    + unfold rows_sat, sat_in, sat_eq, lhs, vle. cbn.
      repeat apply conj; auto. constructor; auto. lra.
    + unfold bounds_ok, lo_ok, up_ok. cbn. repeat apply conj; auto.
      constructor; auto. simpl. lra.
  - intros [_ B]. unfold bounds_ok, lo_ok in B. cbn in B. destruct B as [B _].
    inversion B; subst. simpl in *. lra.
Qed.
