(** Lemmas for the max and box-boundary encodings. *)

Require Import Reals List Bool Lia Lra Arith.
Require Import Verif.Vec Verif.VecFacts Verif.ModelMip Verif.SpecMip
  Verif.ModelUtils Verif.ModelGrad Verif.SpecCore Verif.SpecUtils Verif.ProofUtils.
Import ListNotations.
Open Scope R_scope.

Lemma vadd_app : forall a b c d, length a = length c ->
  vadd (a ++ b) (c ++ d) = vadd a c ++ vadd b d.
Proof.
  induction a as [|x a IH]; destruct c; simpl; intros; try discriminate; auto.
  unfold vadd in *. simpl. f_equal. apply IH. lia.
Qed.

Lemma vadd_zeros_l : forall n x, length x = n -> vadd (zeros n) x = x.
Proof.
  induction n; destruct x; simpl; intros; try discriminate; auto.
  unfold vadd in *. simpl. f_equal; [ring|]. apply IHn; lia.
Qed.
Lemma vadd_zeros_r : forall n x, length x = n -> vadd x (zeros n) = x.
Proof.
  induction n; destruct x; simpl; intros; try discriminate; auto.
  unfold vadd in *. simpl. f_equal; [ring|]. apply IHn; lia.
Qed.

Lemma diag_length : forall v, length (diag v) = length v.
Proof. intros; unfold diag; rewrite map_length, seq_length; auto. Qed.

Lemma nth_vmul : forall a b i, length a = length b ->
  nth i (vmul a b) 0 = nth i a 0 * nth i b 0.
Proof.
  induction a; destruct b; simpl; intros; try discriminate.
  - destruct i; ring.
  - destruct i; simpl; auto.
Qed.

Lemma nth_map_seq : forall {A} (f : nat -> A) n i d, (i < n)%nat ->
  nth i (map f (seq 0 n)) d = f i.
Proof.
  intros. rewrite (nth_indep _ d (f 0%nat)) by (rewrite map_length, seq_length; auto).
  rewrite map_nth. rewrite seq_nth; auto.
Qed.

Lemma mv_diag : forall v x, length x = length v -> mv (diag v) x = vmul v x.
Proof.
  intros. apply vec_ext.
  - rewrite mv_length, diag_length, vmul_length; auto.
  - intros i Hi. rewrite mv_length, diag_length in Hi.
    rewrite nth_mv by (rewrite diag_length; auto).
    unfold diag. rewrite nth_map_seq by auto.
    rewrite dot_unit_row by auto. rewrite nth_vmul by auto. auto.
Qed.

Lemma mv_repeat_row : forall r n x, mv (repeat r n) x = repeat (dot r x) n.
Proof. induction n; simpl; intros; auto. f_equal. apply IHn. Qed.

Lemma nth_repeat_lt : forall {A} (a d : A) n i, (i < n)%nat -> nth i (repeat a n) d = a.
Proof. induction n; simpl; intros; [lia|]. destruct i; auto. apply IHn; lia. Qed.

Lemma eyek_length : forall n k, length (eyek n k) = n.
Proof. intros; unfold eyek; rewrite map_length, seq_length; auto. Qed.

(** ** One-hot vectors *)

Lemma vsum_bins_ge0 : forall b, bins b -> 0 <= vsum b.
Proof.
  induction b; simpl; intros; [lra|]. inversion H; subst.
  specialize (IHb H3). destruct H2; subst; lra.
Qed.
Lemma bins_sum0 : forall b, bins b -> vsum b = 0 -> b = zeros (length b).
Proof.
  induction b; simpl; intros; auto. inversion H; subst.
  pose proof (vsum_bins_ge0 b H4). destruct H3; subst; [|lra].
  change (zeros (S (length b))) with (0 :: zeros (length b)). f_equal. apply IHb; auto. lra.
Qed.
Lemma bins_sum1_pos : forall b, bins b -> vsum b = 1 ->
  exists k, (k < length b)%nat /\ nth k b 0 = 1 /\
            forall i, (i < length b)%nat -> i <> k -> nth i b 0 = 0.
Proof.
  induction b; simpl; intros H Hs; [lra|]. inversion H; subst.
  destruct H2; subst.
  - destruct IHb as [k [K1 [K2 K3]]]; auto; [lra|].
    exists (S k). repeat split; [lia|auto|].
    intros i Hi Hn. destruct i; auto. apply K3; lia.
  - exists 0%nat. repeat split; [lia|].
    intros i Hi Hn. destruct i; [lia|].
    rewrite (bins_sum0 b) by (auto; lra). apply nth_zeros.
Qed.

Lemma bins_one_hot : forall n k, bins (one_hot n k).
Proof.
  intros. unfold one_hot, unit_row. apply Forall_forall. intros v Hv.
  apply in_map_iff in Hv. destruct Hv as [i [E _]]. subst.
  destruct (Nat.eqb i k); [apply is_bin_1|apply is_bin_0].
Qed.
Lemma one_hot_length : forall n k, length (one_hot n k) = n.
Proof. intros; apply unit_row_length. Qed.
Lemma nth_one_hot : forall n k i, (i < n)%nat ->
  nth i (one_hot n k) 0 = if Nat.eqb i k then 1 else 0.
Proof. intros; unfold one_hot. apply nth_unit_row; auto. Qed.
Lemma vsum_one_hot : forall n k, (k < n)%nat -> vsum (one_hot n k) = 1.
Proof.
  intros. rewrite <- (dot_ones_l n) by apply one_hot_length.
  rewrite dot_comm. unfold one_hot.
  rewrite dot_unit_row by (auto; apply ones_length).
  unfold ones. rewrite nth_repeat_lt by auto. ring.
Qed.

(** ** max *)

Lemma fold_Rmax_ge : forall l d v, In v (d :: l) -> v <= fold_right Rmax d l.
Proof.
  induction l; simpl; intros d v H.
  - destruct H as [H|[]]; subst; lra.
  - destruct H as [H|[H|H]]; subst.
    + eapply Rle_trans; [apply (IHl v v); simpl; auto|apply Rmax_r].
    + apply Rmax_l.
    + eapply Rle_trans; [apply (IHl d v); simpl; auto|apply Rmax_r].
Qed.
Lemma fold_Rmax_in : forall l d, In (fold_right Rmax d l) (d :: l).
Proof.
  induction l; simpl; intros; auto.
  destruct (Rmax_case' a (fold_right Rmax d l)) as [[E _]|[E _]]; rewrite E; auto.
  destruct (IHl d); auto.
Qed.
Lemma vmax_is_max : forall u l, is_max (vmax u l) (u :: l).
Proof.
  intros; split.
  - apply fold_Rmax_in.
  - apply fold_Rmax_ge.
Qed.

(** The three groups of rows of [max_mic], entry by entry. *)
Definition max_rows (lo : vec) (mx y : R) (x b : vec) : Prop :=
  (forall i, (i < length lo)%nat -> nth i x 0 <= y) /\
  (forall i, (i < length lo)%nat ->
     y <= nth i x 0 + (1 - nth i b 0) * (mx - nth i lo 0)) /\
  vsum b = 1.

Lemma max_ineq_iff : forall lo mx x y b n,
  length lo = n -> length x = n -> length b = n ->
  let gap := map (fun l => mx - l) lo in
  (vle (vadd (vadd (mv (eye n ++ eyek n (-1)) x)
                   (mv (repeat [-1] n ++ repeat [1] n) [y]))
             (mv (zerom n n ++ diag gap) b))
       (zeros n ++ gap)
   <-> (forall i, (i < n)%nat -> nth i x 0 <= y) /\
       (forall i, (i < n)%nat ->
          y <= nth i x 0 + (1 - nth i b 0) * (mx - nth i lo 0))).
Proof.
  intros lo mx x y b n L1 L2 L3 gap.
  assert (Lg : length gap = n) by (unfold gap; rewrite map_length; auto).
  rewrite !mv_app, mv_eye, mv_eyek, vscale_m1, !mv_repeat_row, mv_zerom, mv_diag
    by lia.
  cbn [dot].
  assert (Lr : forall a : R, length (repeat a n) = n) by (intros; apply repeat_length).
  rewrite !vadd_app by (rewrite ?Lr, ?vadd_length, ?zeros_length; rewrite ?Lr; lia).
  rewrite vle_app_iff.
  2:{ rewrite vadd_length; rewrite vadd_length; rewrite ?Lr, ?zeros_length; lia. }
  rewrite !vle_nth.
  rewrite !vadd_length; rewrite ?vadd_length; rewrite ?vneg_length, ?zeros_length,
    ?vmul_length, ?Lr; try lia.
  split.
  - intros [[_ H1] [_ H2]]. split; intros i Hi.
    + specialize (H1 i). rewrite !nth_vadd, !nth_zeros, nth_repeat_lt in H1
        by (rewrite ?vadd_length; rewrite ?zeros_length, ?Lr; lia).
      assert (nth i x 0 + (-1 * y + 0) + 0 <= 0) by (apply H1; lia). lra.
    + specialize (H2 i). rewrite !nth_vadd, nth_vneg, nth_vmul, nth_repeat_lt in H2
        by (rewrite ?vadd_length; rewrite ?vneg_length, ?vmul_length, ?Lr; lia).
      assert (Hg : nth i gap 0 = mx - nth i lo 0).
      { unfold gap. rewrite (nth_indep _ 0 (mx - 0)) by (rewrite map_length; lia).
        apply (map_nth (fun l => mx - l)). }
      rewrite Hg in H2. specialize (H2 ltac:(lia)). lra.
  - intros [H1 H2]. split; split; try lia; intros i Hi.
    + rewrite !nth_vadd, !nth_zeros, nth_repeat_lt
        by (rewrite ?vadd_length; rewrite ?zeros_length, ?Lr; lia).
      specialize (H1 i ltac:(lia)). lra.
    + rewrite !nth_vadd, nth_vneg, nth_vmul, nth_repeat_lt
        by (rewrite ?vadd_length; rewrite ?vneg_length, ?vmul_length, ?Lr; lia).
      assert (Hg : nth i gap 0 = mx - nth i lo 0).
      { unfold gap. rewrite (nth_indep _ 0 (mx - 0)) by (rewrite map_length; lia).
        apply (map_nth (fun l => mx - l)). }
      rewrite Hg. specialize (H2 i ltac:(lia)). lra.
Qed.

Lemma nm_spec : forall lo up i, In i (non_maximal_idx lo up) <->
  (i < length up)%nat /\ exists l, In l lo /\ nth i up 0 < l.
Proof.
  intros. unfold non_maximal_idx. rewrite filter_In, in_seq, existsb_exists.
  split.
  - intros [H1 [l [H2 H3]]]. split; [lia|]. exists l. split; auto.
    apply Rltb_true in H3. lra.
  - intros [H1 [l [H2 H3]]]. split; [lia|]. exists l. split; auto.
    apply Rltb_true. lra.
Qed.

(** Shape of a successful result. *)
Lemma max_mic_inv : forall lo up c, max_mic lo up = Some c ->
  exists u0 ur,
    up = u0 :: ur /\ length up = length lo /\ vle lo up /\
    nin c = length lo /\ nsl c = 1%nat /\ nbin c = length lo /\
    Aout_input c = None /\ Aout_slack c = Some [[1]] /\ Aout_binary c = None /\
    Cout c = None /\
    Ain_input c = Some (eye (length lo) ++ eyek (length lo) (-1)) /\
    Ain_slack c = Some (repeat [-1] (length lo) ++ repeat [1] (length lo)) /\
    Ain_binary c = Some (zerom (length lo) (length lo)
                         ++ diag (map (fun l => vmax u0 ur - l) lo)) /\
    rhs_in c = Some (zeros (length lo) ++ map (fun l => vmax u0 ur - l) lo) /\
    Aeq_input c = None /\ Aeq_slack c = None /\
    input_lo c = None /\ input_up c = None /\ slack_lo c = None /\
    slack_up c = None /\
    Aeq_binary c = Some (ones (length lo) ::
                     map (fun i => unit_row (length lo) i 1)
                         (non_maximal_idx lo up)) /\
    rhs_eq c = Some (1 :: zeros (length (non_maximal_idx lo up))) /\
    (non_maximal_idx lo up = [] /\ binary_lo c = None /\ binary_up c = None \/
     non_maximal_idx lo up <> [] /\
     binary_lo c = Some (repeat (Fin 0) (length lo)) /\
     binary_up c = Some (map (fun i => if existsb (Nat.eqb i) (non_maximal_idx lo up)
                                       then Fin 0 else Fin 1) (seq 0 (length lo)))).
Proof.
  intros lo up c H. unfold max_mic in H.
  destruct up as [|u0 ur]; [discriminate|].
  destruct (Nat.eqb (length (u0 :: ur)) (length lo)) eqn:E; [|discriminate].
  apply Nat.eqb_eq in E. cbn [negb] in H.
  destruct (forallb (fun p => Rleb (fst p) (snd p)) (combine lo (u0 :: ur))) eqn:F;
    [|discriminate].
  cbn [negb] in H.
  assert (V : vle lo (u0 :: ur)).
  { clear H. revert E F. generalize (u0 :: ur). intros l. revert l.
    induction lo; destruct l; simpl; intros; try discriminate; constructor.
    - apply andb_prop in F. destruct F. apply Rleb_true; auto.
    - apply andb_prop in F. destruct F. apply IHlo; auto. }
  exists u0, ur.
  destruct (non_maximal_idx lo (u0 :: ur)) as [|i0 [|i1 nm]] eqn:N;
    [| discriminate |];
    injection H as H; subst c; cbn;
    repeat (split; [solve [auto]|]); auto.
  right. split; [discriminate|auto].
Qed.

Lemma max_eq_iff : forall n nm b, length b = n -> bins b ->
  (forall i, In i nm -> (i < n)%nat) ->
  (mv (ones n :: map (fun i => unit_row n i 1) nm) b = 1 :: zeros (length nm)
   <-> vsum b = 1 /\ forall i, In i nm -> nth i b 0 = 0).
Proof.
  intros n nm b L B Hn. cbn [mv map]. rewrite dot_ones_l by auto.
  assert (E : map (fun r => dot r b) (map (fun i => unit_row n i 1) nm)
              = map (fun i => nth i b 0) nm).
  { rewrite map_map. apply map_ext_in. intros i Hi.
    rewrite dot_unit_row by auto. ring. }
  rewrite E. clear E. split.
  - intros H. injection H as H1 H2. split; auto. clear H1 Hn.
    induction nm as [|j nm IH]; simpl in *; [tauto|].
    apply cons_eq_iff in H2. destruct H2 as [H2 H3].
    intros i [H|H]; subst; auto.
  - intros [H1 H2]. f_equal; auto. clear Hn H1.
    induction nm; simpl; auto. apply cons_eq_iff; split.
    + apply H2; simpl; auto.
    + apply IHnm. intros; apply H2; simpl; auto.
Qed.

(** Rows of the max encoding. *)
Lemma max_rows_iff : forall lo up c x s b,
  max_mic lo up = Some c -> bins b ->
  (rows_sat c x s b <->
   exists y, s = [y] /\ length x = length lo /\ length b = length lo /\
     (forall i, (i < length lo)%nat -> nth i x 0 <= y) /\
     (forall i, (i < length lo)%nat ->
        y <= nth i x 0 + (1 - nth i b 0) * (vmax (hd 0 up) (tl up) - nth i lo 0)) /\
     vsum b = 1 /\ (forall i, In i (non_maximal_idx lo up) -> nth i b 0 = 0)).
Proof.
  intros lo up c x s b H B.
  destruct (max_mic_inv _ _ _ H)
    as (u0 & ur & Eu & El & V & E1 & E2 & E3 & E4 & E5 & E6 & E7 & E8 & E9 & E10 &
        E11 & E12 & E13 & _ & _ & _ & _ & E14 & E15 & _).
  assert (Hn : forall i, In i (non_maximal_idx lo up) -> (i < length lo)%nat).
  { intros i Hi. apply nm_spec in Hi. lia. }
  unfold rows_sat, sat_in, sat_eq, lhs, term.
  rewrite E1, E2, E3, E8, E9, E10, E11, E12, E13, E14, E15.
  clear E1 E2 E3 E4 E5 E6 E7 E8 E9 E10 E11 E12 E13 E14 E15 H.
  assert (Hd : vmax (hd 0 up) (tl up) = vmax u0 ur) by (rewrite Eu; auto).
  rewrite Hd.
  set (n := length lo) in *.
  split.
  - intros [L1 [L2 [L3 [H1 H2]]]]. apply len1 in L2. destruct L2 as [y Es]. subst s.
    exists y. split; auto. split; auto. split; auto.
    rewrite max_ineq_iff in H1 by auto. destruct H1 as [H1 H1'].
    split; auto. split; auto.
    rewrite !vadd_zeros_l in H2.
    + rewrite max_eq_iff in H2; auto.
    + cbn [length mv map]. rewrite zeros_length, !map_length. auto.
    + simpl. rewrite !zeros_length. auto.
  - intros [y [Es [L1 [L3 [H1 [H2 [H3 H4]]]]]]]. subst s.
    repeat (split; [solve [auto]|]). split.
    + rewrite max_ineq_iff by auto. auto.
    + rewrite !vadd_zeros_l.
      * rewrite max_eq_iff; auto.
      * cbn [length mv map]. rewrite zeros_length, !map_length. auto.
      * simpl. rewrite !zeros_length. auto.
Qed.

Lemma max_output : forall lo up c x y b,
  max_mic lo up = Some c -> output c x [y] b = [y].
Proof.
  intros lo up c x y b H.
  destruct (max_mic_inv _ _ _ H)
    as (u0 & ur & _ & _ & _ & _ & _ & _ & E4 & E5 & E6 & E7 & _).
  unfold output, lhs, num_out. rewrite E4, E5, E6, E7. cbn. f_equal. ring.
Qed.

Lemma max_sound : forall lo up c x s b,
  max_mic lo up = Some c -> bins b -> rows_sat c x s b ->
  exists y k, is_max y x /\ (k < length x)%nat /\ nth k x 0 = y /\
    s = [y] /\ b = one_hot (length x) k /\ output c x s b = [y].
Proof.
  intros lo up c x s b H B Hr.
  rewrite (max_rows_iff _ _ _ _ _ _ H B) in Hr.
  destruct Hr as [y [Es [L1 [L3 [H1 [H2 [H3 H4]]]]]]].
  destruct (bins_sum1_pos b B H3) as [k [K1 [K2 K3]]].
  exists y, k. subst s.
  assert (Ek : nth k x 0 = y).
  { specialize (H1 k ltac:(lia)). specialize (H2 k ltac:(lia)).
    rewrite K2 in H2. lra. }
  split; [|split; [lia|split; [auto|split; [auto|split]]]].
  - split.
    + rewrite <- Ek. apply nth_In. lia.
    + intros v Hv. apply (In_nth _ _ 0) in Hv. destruct Hv as [i [I1 I2]].
      subst v. apply H1. lia.
  - apply vec_ext; [rewrite one_hot_length; lia|].
    intros i Hi. rewrite nth_one_hot by lia.
    destruct (Nat.eqb i k) eqn:E.
    + apply Nat.eqb_eq in E. subst. auto.
    + apply Nat.eqb_neq in E. apply K3; auto.
  - eapply max_output; eauto.
Qed.

Lemma vle_nth_lt : forall a b i, vle a b -> (i < length a)%nat -> nth i a 0 <= nth i b 0.
Proof. intros a b i H Hi. apply vle_nth in H. destruct H. auto. Qed.

Lemma lo0_ok : forall n (v : vec), length v = n -> Forall (fun a => 0 <= a) v ->
  Forall2 ext_le_r (repeat (Fin 0) n) v.
Proof.
  induction n; destruct v; simpl; intros L Q; try discriminate; constructor.
  - inversion Q; auto.
  - apply IHn; auto. inversion Q; auto.
Qed.

Lemma max_complete : forall lo up c x y k,
  max_mic lo up = Some c -> in_box lo up x -> is_max y x ->
  (k < length x)%nat -> nth k x 0 = y ->
  mic_sat c x [y] (one_hot (length x) k).
Proof.
  intros lo up c x y k H [Hlo Hup] [Hin Hmax] Hk Ek.
  assert (L : length x = length lo) by (apply vle_length in Hlo; auto).
  assert (B := bins_one_hot (length x) k).
  destruct (max_mic_inv _ _ _ H)
    as (u0 & ur & Eu & El & V & _ & _ & E3 & _ & _ & _ & _ & _ & _ & _ &
        _ & _ & _ & F1 & F2 & F3 & F4 & _ & _ & F5).
  assert (Nk : forall i, In i (non_maximal_idx lo up) -> i <> k).
  { intros i Hi E. subst i. apply nm_spec in Hi. destruct Hi as [I1 [l [I2 I3]]].
    apply (In_nth _ _ 0) in I2. destruct I2 as [j [J1 J2]]. subst l.
    pose proof (vle_nth_lt _ _ j Hlo J1).
    pose proof (vle_nth_lt _ _ k Hup ltac:(lia)).
    pose proof (Hmax (nth j x 0) ltac:(apply nth_In; lia)). lra. }
  assert (Mx : forall i, (i < length x)%nat -> nth i x 0 <= vmax u0 ur).
  { intros i Hi. eapply Rle_trans; [apply (vle_nth_lt _ _ i Hup Hi)|].
    apply vmax_is_max. rewrite <- Eu. apply nth_In.
    apply vle_length in Hup. lia. }
  split.
  - rewrite (max_rows_iff _ _ _ _ _ _ H B). exists y.
    rewrite one_hot_length.
    split; [auto|split; [auto|split; [auto|split; [|split; [|split]]]]].
    + intros i Hi. apply Hmax. apply nth_In. lia.
    + intros i Hi. rewrite nth_one_hot by lia.
      rewrite Eu. cbn [hd tl].
      destruct (Nat.eqb i k) eqn:E.
      * apply Nat.eqb_eq in E. subst i. rewrite Ek. lra.
      * pose proof (vle_nth_lt _ _ i Hlo ltac:(lia)).
        pose proof (Mx k ltac:(lia)). rewrite Ek in H1. lra.
    + apply vsum_one_hot. auto.
    + intros i Hi. assert (i < length x)%nat by (apply nm_spec in Hi; lia).
      rewrite nth_one_hot by auto.
      destruct (Nat.eqb i k) eqn:E; auto.
      apply Nat.eqb_eq in E. exfalso. apply (Nk i); auto.
  - unfold bounds_ok. rewrite F1, F2, F3, F4. cbn.
    repeat (split; [exact I|]).
    destruct F5 as [[_ [F6 F7]]|[_ [F6 F7]]]; rewrite F6, F7; cbn; auto.
    rewrite <- L. split.
    + assert (Q : Forall (fun v => 0 <= v) (one_hot (length x) k)).
      { eapply Forall_impl; [|apply B]. intros v [E|E]; subst; lra. }
      apply lo0_ok; auto. apply one_hot_length.
    + unfold one_hot, unit_row.
      assert (Q : forall i, In i (seq 0 (length x)) -> r_le_ext (if Nat.eqb i k then 1 else 0)
          (if existsb (Nat.eqb i) (non_maximal_idx lo up) then Fin 0 else Fin 1)).
      { intros i _. destruct (Nat.eqb i k) eqn:E.
        - apply Nat.eqb_eq in E. subst i.
          destruct (existsb (Nat.eqb k) (non_maximal_idx lo up)) eqn:Ex; simpl; [|lra].
          apply existsb_exists in Ex. destruct Ex as [j [J1 J2]].
          apply Nat.eqb_eq in J2. subst j. exfalso. eapply Nk; eauto.
        - destruct (existsb _ _); simpl; lra. }
      revert Q. generalize (seq 0 (length x)). intros l.
      induction l; simpl; intros; constructor; auto.
Qed.

Lemma is_max_exists : forall x : vec, x <> [] -> exists k, (k < length x)%nat /\
  is_max (nth k x 0) x.
Proof.
  intros x Hx. destruct x as [|a l]; [congruence|].
  pose proof (vmax_is_max a l) as [H1 H2].
  assert (H1' := H1). apply (In_nth _ _ 0) in H1'. destruct H1' as [k [K1 K2]].
  exists k. split; auto. rewrite K2. split; auto.
Qed.

(** Exactly when the code raises. *)
Lemma max_reject : forall lo up,
  max_mic lo up = None <->
  up = [] \/ length up <> length lo \/ ~ vle lo up \/
  (length up = length lo /\ vle lo up /\ exists i, non_maximal_idx lo up = [i]).
Proof.
  intros. unfold max_mic. destruct up as [|u0 ur]; [split; auto|].
  destruct (Nat.eqb (length (u0 :: ur)) (length lo)) eqn:E; cbn [negb].
  2:{ apply Nat.eqb_neq in E. split; auto. }
  apply Nat.eqb_eq in E.
  assert (V : forallb (fun p => Rleb (fst p) (snd p)) (combine lo (u0 :: ur)) = true
              <-> vle lo (u0 :: ur)).
  { revert E. generalize (u0 :: ur). intros l. revert l.
    induction lo; destruct l; simpl; intros; try discriminate.
    - split; auto. intros; constructor.
    - rewrite vle_cons, andb_true_iff, Rleb_true, IHlo by lia. tauto. }
  destruct (forallb _ _) eqn:F; cbn [negb].
  2:{ split; auto. intros _. right; right; left. intros Hc. apply V in Hc. discriminate. }
  assert (Vt : vle lo (u0 :: ur)) by (apply V; auto).
  destruct (non_maximal_idx lo (u0 :: ur)) as [|i0 [|i1 nm]] eqn:N.
  - split; intros H; [discriminate|].
    destruct H as [H|[H|[H|[_ [_ [i H]]]]]]; try discriminate; tauto.
  - split; auto. intros _. right; right; right. repeat split; eauto.
  - split; intros H; [discriminate|].
    destruct H as [H|[H|[H|[_ [_ [i H]]]]]]; try discriminate; tauto.
Qed.

(** ** Box boundary *)

Lemma block_diag_mv : forall n1 n2 A B x y,
  wfm n1 n1 A -> wfm n2 n2 B -> length x = n1 -> length y = n2 ->
  mv (block_diag n1 n2 A B) (x ++ y) = mv A x ++ mv B y.
Proof.
  intros n1 n2 A B x y [_ WA] [_ WB] Lx Ly. unfold block_diag. rewrite mv_app. f_equal.
  - unfold mv. rewrite map_map. apply map_ext_in. intros r Hr.
    rewrite Forall_forall in WA. rewrite dot_app by (rewrite WA; auto).
    rewrite dot_zeros_l. ring.
  - unfold mv. rewrite map_map. apply map_ext_in. intros r Hr.
    rewrite dot_app by (rewrite zeros_length; auto).
    rewrite dot_zeros_l. ring.
Qed.

Lemma wfm_diag : forall v, wfm (length v) (length v) (diag v).
Proof.
  intros. split; [apply diag_length|]. unfold diag. apply Forall_forall.
  intros r Hr. apply in_map_iff in Hr. destruct Hr as [j [E _]]. subst.
  apply unit_row_length.
Qed.

Lemma bb_rows_iff : forall lo up c x s b,
  box_boundary lo up = Some c ->
  (rows_sat c x s b <->
   length x = length lo /\ s = [] /\
   exists b1 b2, b = b1 ++ b2 /\ length b1 = length lo /\ length b2 = length lo /\
     (forall i, (i < length lo)%nat ->
        nth i lo 0 + (nth i up 0 - nth i lo 0) * nth i b1 0 <= nth i x 0) /\
     (forall i, (i < length lo)%nat ->
        nth i x 0 <= nth i up 0 - (nth i up 0 - nth i lo 0) * nth i b2 0) /\
     vsum b1 + vsum b2 = 1).
Proof.
  intros lo up c x s b H. unfold box_boundary in H.
  destruct (Nat.eqb (length up) (length lo)) eqn:E; [|discriminate].
  apply Nat.eqb_eq in E. cbn [negb] in H. injection H as H. subst c.
  unfold rows_sat, sat_in, sat_eq, lhs, term.
  cbn [nin nsl nbin rhs_in rhs_eq Ain_input Ain_slack Ain_binary Aeq_input Aeq_slack Aeq_binary].
  set (n := length lo) in *.
  assert (Lw : length (vsub up lo) = n) by (rewrite vsub_length; auto).
  assert (Key : forall b1 b2, length x = n -> length b1 = n -> length b2 = n ->
    ((vle (vadd (vadd (mv (eyek n (-1) ++ eye n) x) (zeros (length (vneg lo ++ up))))
               (mv (block_diag n n (diag (vsub up lo)) (diag (vsub up lo))) (b1 ++ b2)))
         (vneg lo ++ up) /\
      vadd (vadd (zeros 1) (zeros 1)) (mv [ones (n + n)] (b1 ++ b2)) = [1]) <->
    ((forall i, (i < n)%nat ->
        nth i lo 0 + (nth i up 0 - nth i lo 0) * nth i b1 0 <= nth i x 0) /\
     (forall i, (i < n)%nat ->
        nth i x 0 <= nth i up 0 - (nth i up 0 - nth i lo 0) * nth i b2 0) /\
     vsum b1 + vsum b2 = 1))).
  { intros b1 b2 L1 L2 L3.
    assert (W := wfm_diag (vsub up lo)). rewrite Lw in W.
    rewrite block_diag_mv by auto.
    rewrite mv_app, mv_eye, mv_eyek, vscale_m1, !mv_diag by lia.
    rewrite vadd_zeros_r.
    2:{ rewrite !app_length, !vneg_length. lia. }
    rewrite vadd_app by (rewrite vneg_length, vmul_length; lia).
    rewrite vle_app_iff.
    2:{ rewrite vadd_length, !vneg_length; auto. rewrite vneg_length, vmul_length; lia. }
    cbn [mv map]. rewrite dot_ones_l by (rewrite app_length; lia).
    rewrite vsum_app.
    cbn [zeros repeat vadd map2]. rewrite cons_eq_iff.
    rewrite !vle_nth.
    rewrite !vadd_length by (rewrite ?vneg_length, ?vmul_length; lia).
    rewrite !vneg_length.
    split.
    - intros [[[_ H1] [_ H2]] [H3 _]]. split; [|split; [|lra]]; intros i Hi.
      + specialize (H1 i ltac:(lia)).
        rewrite nth_vadd, !nth_vneg, nth_vmul, nth_vsub in H1
          by (rewrite ?vneg_length, ?vmul_length; lia). lra.
      + specialize (H2 i ltac:(lia)).
        rewrite nth_vadd, nth_vmul, nth_vsub in H2
          by (rewrite ?vmul_length; lia). lra.
    - intros [H1 [H2 H3]]. split; [|split; [lra|auto]].
      split; split; try lia; intros i Hi.
      + specialize (H1 i ltac:(lia)).
        rewrite nth_vadd, !nth_vneg, nth_vmul, nth_vsub
          by (rewrite ?vneg_length, ?vmul_length; lia). lra.
      + specialize (H2 i ltac:(lia)).
        rewrite nth_vadd, nth_vmul, nth_vsub
          by (rewrite ?vmul_length; lia). lra. }
  split.
  - intros [L1 [L2 [L3 H]]]. split; auto. split; [destruct s; auto; discriminate|].
    assert (Sp : b = firstn n b ++ skipn n b) by (symmetry; apply firstn_skipn).
    exists (firstn n b), (skipn n b).
    assert (K1 : length (firstn n b) = n) by (rewrite firstn_length; lia).
    assert (K2 : length (skipn n b) = n) by (rewrite skipn_length; lia).
    repeat (split; [solve [auto]|]).
    apply Key; auto. rewrite <- Sp. auto.
  - intros [L1 [Es [b1 [b2 [Eb [L2 [L3 H]]]]]]]. subst s b.
    split; auto. split; auto. split; [rewrite app_length; lia|].
    apply Key; auto.
Qed.

Lemma one_hot_zero_nth : forall n k i, (i < n)%nat -> i <> k -> nth i (one_hot n k) 0 = 0.
Proof.
  intros. rewrite nth_one_hot by auto.
  destruct (Nat.eqb i k) eqn:E; auto. apply Nat.eqb_eq in E. congruence.
Qed.
Lemma one_hot_one_nth : forall n k, (k < n)%nat -> nth k (one_hot n k) 0 = 1.
Proof. intros. rewrite nth_one_hot by auto. rewrite Nat.eqb_refl. auto. Qed.

Lemma bins_app : forall a b, bins (a ++ b) <-> bins a /\ bins b.
Proof. intros; unfold bins; apply Forall_app. Qed.
Lemma bins_zeros : forall n, bins (zeros n).
Proof. intros; unfold bins, zeros. apply Forall_forall. intros v Hv. apply repeat_spec in Hv. subst; apply is_bin_0. Qed.
Lemma nth_bin : forall b i, bins b -> is_bin (nth i b 0).
Proof.
  intros. destruct (le_lt_dec (length b) i).
  - rewrite nth_overflow by auto. apply is_bin_0.
  - unfold bins in H. rewrite Forall_forall in H. apply H. apply nth_In; auto.
Qed.

Lemma bins_sum_ge1 : forall b, bins b -> vsum b <> 0 -> 1 <= vsum b.
Proof.
  induction b as [|a b IH]; simpl; intros H Hs; [lra|].
  inversion H as [|? ? Ha Hb]; subst.
  pose proof (vsum_bins_ge0 b Hb). destruct Ha; subst; [|lra].
  rewrite Rplus_0_l in *. apply IH; auto.
Qed.

Lemma bb_exact : forall lo up c x,
  box_boundary lo up = Some c -> vle lo up ->
  ((exists s b, bins b /\ mic_sat c x s b) <-> on_boundary lo up x).
Proof.
  intros lo up c x H V.
  assert (L : length up = length lo) by (apply vle_length in V; auto).
  assert (Bd : forall s b, bounds_ok c x s b).
  { intros. unfold box_boundary in H. destruct (negb _); [discriminate|].
    injection H as H. subst c. repeat split. }
  split.
  - intros [s [b [B [Hr _]]]]. rewrite (bb_rows_iff _ _ _ _ _ _ H) in Hr.
    destruct Hr as [Lx [_ [b1 [b2 [Eb [L1 [L2 [H1 [H2 H3]]]]]]]]]. subst b.
    apply bins_app in B. destruct B as [B1 B2].
    pose proof (vsum_bins_ge0 b1 B1). pose proof (vsum_bins_ge0 b2 B2).
    assert (Wd : forall i, (i < length lo)%nat -> nth i lo 0 <= nth i up 0)
      by (intros; apply vle_nth_lt; auto).
    split.
    + split; apply vle_nth; split; try lia; intros i Hi.
      * specialize (H1 i ltac:(lia)). specialize (Wd i ltac:(lia)).
        destruct (nth_bin b1 i B1) as [E|E]; rewrite E in H1; lra.
      * specialize (H2 i ltac:(lia)). specialize (Wd i ltac:(lia)).
        destruct (nth_bin b2 i B2) as [E|E]; rewrite E in H2; lra.
    + assert (S1 : vsum b1 = 1 \/ vsum b2 = 1).
      { destruct (Req_dec (vsum b1) 0) as [E|E]; [right; lra|left].
        pose proof (bins_sum_ge1 b1 B1 E). lra. }
      destruct S1 as [S1|S1].
      * destruct (bins_sum1_pos b1 B1 S1) as [k [K1 [K2 _]]].
        exists k. split; [lia|]. right.
        specialize (H1 k ltac:(lia)). specialize (H2 k ltac:(lia)).
        rewrite K2 in H1. specialize (Wd k ltac:(lia)).
        destruct (nth_bin b2 k B2) as [E|E]; rewrite E in H2; lra.
      * destruct (bins_sum1_pos b2 B2 S1) as [k [K1 [K2 _]]].
        exists k. split; [lia|]. left.
        specialize (H1 k ltac:(lia)). specialize (H2 k ltac:(lia)).
        rewrite K2 in H2. specialize (Wd k ltac:(lia)).
        destruct (nth_bin b1 k B1) as [E|E]; rewrite E in H1; lra.
  - intros [[Hlo Hup] [k [Hk Hc]]].
    assert (Lx : length x = length lo) by (apply vle_length in Hlo; auto).
    assert (B1 : forall i, (i < length lo)%nat -> nth i lo 0 <= nth i x 0)
      by (intros; apply vle_nth_lt; auto).
    assert (B2 : forall i, (i < length lo)%nat -> nth i x 0 <= nth i up 0)
      by (intros; apply vle_nth_lt; auto; lia).
    exists [].
    destruct Hc as [Hc|Hc].
    + exists (zeros (length lo) ++ one_hot (length lo) k).
      split; [apply bins_app; split; [apply bins_zeros|apply bins_one_hot]|].
      split; [|apply Bd]. rewrite (bb_rows_iff _ _ _ _ _ _ H).
      split; auto. split; auto. exists (zeros (length lo)), (one_hot (length lo) k).
      rewrite zeros_length, one_hot_length, vsum_zeros, vsum_one_hot by lia.
      repeat (split; [solve [auto]|]).
      split; [|split; [|lra]]; intros i Hi.
      * rewrite nth_zeros. specialize (B1 i Hi). lra.
      * destruct (Nat.eq_dec i k) as [E|E].
        -- subst i. rewrite one_hot_one_nth by auto. rewrite Hc. lra.
        -- rewrite one_hot_zero_nth by auto. specialize (B2 i Hi). lra.
    + exists (one_hot (length lo) k ++ zeros (length lo)).
      split; [apply bins_app; split; [apply bins_one_hot|apply bins_zeros]|].
      split; [|apply Bd]. rewrite (bb_rows_iff _ _ _ _ _ _ H).
      split; auto. split; auto. exists (one_hot (length lo) k), (zeros (length lo)).
      rewrite zeros_length, one_hot_length, vsum_zeros, vsum_one_hot by lia.
      repeat (split; [solve [auto]|]).
      split; [|split; [|lra]]; intros i Hi.
      * destruct (Nat.eq_dec i k) as [E|E].
        -- subst i. rewrite one_hot_one_nth by auto. rewrite Hc. lra.
        -- rewrite one_hot_zero_nth by auto. specialize (B1 i Hi). lra.
      * rewrite nth_zeros. specialize (B2 i Hi). lra.
Qed.
