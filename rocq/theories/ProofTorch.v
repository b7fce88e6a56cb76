(** The torch copy of a program against the Gurobi model (C22). *)

Require Import Reals List Bool Lra Lia.
Require Import Verif.Vec Verif.VecFacts Verif.ModelMip Verif.SpecMip Verif.ProofUtils
  Verif.ProofMaxBox Verif.ProofMip Verif.ProofSat.
Import ListNotations.
Open Scope R_scope.

(** Row [i] of a triplet list applied to the values [v]. *)
Fixpoint clhs (c : coo) (i : nat) (v : vec) : R :=
  match c with
  | [] => 0
  | (r, j, a) :: c' => (if Nat.eqb r i then a * nth j v 0 else 0) + clhs c' i v
  end.

Lemma clhs_app : forall c1 c2 i v, clhs (c1 ++ c2) i v = clhs c1 i v + clhs c2 i v.
Proof.
  induction c1 as [|[[r j] a] c1 IH]; simpl; intros; [lra|]. rewrite IH. lra.
Qed.

Definition rows_in (lo hi : nat) (c : coo) : Prop :=
  Forall (fun t => (lo <= fst (fst t) < hi)%nat) c.
Definition cols_in (n : nat) (c : coo) : Prop :=
  Forall (fun t => (snd (fst t) < n)%nat) c.

Lemma clhs_out : forall c lo hi i v, rows_in lo hi c -> (i < lo \/ hi <= i)%nat ->
  clhs c i v = 0.
Proof.
  induction c as [|[[r j] a] c IH]; simpl; intros lo hi i v H K; auto.
  inversion H; subst. simpl in *.
  replace (Nat.eqb r i) with false by (symmetry; apply Nat.eqb_neq; lia).
  rewrite (IH lo hi); auto. lra.
Qed.

Lemma clhs_prefix : forall c i v w, cols_in (length v) c ->
  clhs c i (v ++ w) = clhs c i v.
Proof.
  induction c as [|[[r j] a] c IH]; simpl; intros i v w H; auto.
  inversion H; subst. simpl in *. rewrite IH by auto. rewrite app_nth1; auto.
Qed.

Lemma rows_in_app : forall lo hi a b, rows_in lo hi (a ++ b) <-> rows_in lo hi a /\ rows_in lo hi b.
Proof. intros. apply Forall_app. Qed.
Lemma cols_in_app : forall n a b, cols_in n (a ++ b) <-> cols_in n a /\ cols_in n b.
Proof. intros. apply Forall_app. Qed.
Lemma rows_in_le : forall lo hi lo' hi' c, rows_in lo hi c -> (lo' <= lo)%nat -> (hi <= hi')%nat ->
  rows_in lo' hi' c.
Proof. unfold rows_in. intros. eapply Forall_impl; [|exact H]. simpl. intros; lia. Qed.
Lemma cols_in_le : forall n n' c, cols_in n c -> (n <= n')%nat -> cols_in n' c.
Proof. unfold cols_in. intros. eapply Forall_impl; [|exact H]. simpl. intros; lia. Qed.

(** to_dense row times a vector is [clhs]. *)
Lemma dot_map_seq : forall (f g : nat -> R) k n,
  dot (map f (seq k n)) (map g (seq k n)) = vsum (map (fun j => f j * g j) (seq k n)).
Proof. intros f g k n; revert k. induction n; simpl; intros; auto. rewrite IHn. auto. Qed.

Lemma vec_as_map : forall (v : vec), v = map (fun j => nth j v 0) (seq 0 (length v)).
Proof.
  intros v.
  assert (L : length (map (fun j => nth j v 0) (seq 0 (length v))) = length v)
    by (rewrite map_length, seq_length; auto).
  apply vec_ext; auto. intros i Hi.
  rewrite (nth_indep (map (fun j => nth j v 0) (seq 0 (length v))) 0
             ((fun j => nth j v 0) 0%nat)) by lia.
  rewrite (map_nth (fun j => nth j v 0)). rewrite seq_nth by auto. auto.
Qed.

Lemma vsum_map_plus : forall {A} (f g : A -> R) l,
  vsum (map (fun x => f x + g x) l) = vsum (map f l) + vsum (map g l).
Proof. induction l; simpl; [lra|]. rewrite IHl. lra. Qed.
Lemma vsum_map_zero : forall {A} (f : A -> R) l, (forall x, In x l -> f x = 0) ->
  vsum (map f l) = 0.
Proof. induction l; simpl; intros; auto. rewrite H, IHl; auto. lra. Qed.

Lemma vsum_pick : forall (f : nat -> R) j n k, (k <= j < k + n)%nat ->
  vsum (map (fun i => if Nat.eqb j i then f i else 0) (seq k n)) = f j.
Proof.
  intros f j n. induction n; simpl; intros k H; [lia|].
  destruct (Nat.eqb j k) eqn:E.
  - apply Nat.eqb_eq in E. subst k. rewrite vsum_map_zero; [lra|].
    intros x Hx. apply in_seq in Hx.
    replace (Nat.eqb j x) with false by (symmetry; apply Nat.eqb_neq; lia). auto.
  - apply Nat.eqb_neq in E. rewrite IHn by lia. lra.
Qed.

Lemma coo_entry_cons : forall t c i j, coo_entry (t :: c) i j =
  (if (Nat.eqb (fst (fst t)) i && Nat.eqb (snd (fst t)) j)%bool then snd t else 0)
  + coo_entry c i j.
Proof.
  intros. unfold coo_entry. simpl.
  destruct (Nat.eqb (fst (fst t)) i && Nat.eqb (snd (fst t)) j)%bool; simpl; lra.
Qed.

Lemma dense_dot : forall c i v, cols_in (length v) c ->
  dot (coo_row c (length v) i) v = clhs c i v.
Proof.
  intros c i v H. unfold coo_row.
  rewrite (vec_as_map v) at 2. rewrite dot_map_seq.
  induction c as [|[[r j] a] c IH].
  - simpl. apply vsum_map_zero. intros. unfold coo_entry. simpl. lra.
  - inversion H; subst. simpl in H2. cbn [clhs]. rewrite <- IH by auto.
    rewrite map_ext with (g := fun k =>
       (if Nat.eqb j k then (if Nat.eqb r i then a * nth k v 0 else 0) else 0)
       + coo_entry c i k * nth k v 0).
    + rewrite vsum_map_plus. f_equal.
      rewrite (vsum_pick (fun k => if Nat.eqb r i then a * nth k v 0 else 0)); [|lia]. auto.
    + intros k. rewrite coo_entry_cons. simpl.
      destruct (Nat.eqb r i), (Nat.eqb j k); simpl; lra.
Qed.

(** ** Recorded rows *)

Definition t_in (m : mip) (sg : assignment) (i : nat) : R :=
  clhs (Ain_r m) i (map sg (r_ m)) + clhs (Ain_zeta m) i (map sg (zeta_ m)).
Definition t_eq (m : mip) (sg : assignment) (i : nat) : R :=
  clhs (Aeq_r m) i (map sg (r_ m)) + clhs (Aeq_zeta m) i (map sg (zeta_ m)).

Record tinv (m : mip) : Prop := {
  ti_part : forall i, (i < nvars m)%nat <-> In i (r_ m) \/ In i (zeta_ m);
  ti_disj : forall i, In i (r_ m) -> In i (zeta_ m) -> False;
  ti_r1 : rows_in 0 (length (rhs_in_ m)) (Ain_r m);
  ti_r2 : rows_in 0 (length (rhs_in_ m)) (Ain_zeta m);
  ti_r3 : rows_in 0 (length (rhs_eq_ m)) (Aeq_r m);
  ti_r4 : rows_in 0 (length (rhs_eq_ m)) (Aeq_zeta m);
  ti_c1 : cols_in (length (r_ m)) (Ain_r m);
  ti_c2 : cols_in (length (zeta_ m)) (Ain_zeta m);
  ti_c3 : cols_in (length (r_ m)) (Aeq_r m);
  ti_c4 : cols_in (length (zeta_ m)) (Aeq_zeta m)
}.

Lemma dense_nth : forall c nr v i, cols_in (length v) c -> (i < nr)%nat ->
  nth i (mv (coo_dense c nr (length v)) v) 0 = clhs c i v.
Proof.
  intros c nr v i H L. unfold mv, coo_dense. rewrite map_map.
  rewrite nth_indep with (d' := (fun i => dot (coo_row c (length v) i) v) 0%nat)
    by (rewrite map_length, seq_length; auto).
  rewrite (map_nth (fun i => dot (coo_row c (length v) i) v)), seq_nth by auto.
  apply dense_dot; auto.
Qed.

Lemma coo_dense_length : forall c nr nc, length (coo_dense c nr nc) = nr.
Proof. intros. unfold coo_dense. rewrite map_length, seq_length. auto. Qed.

Lemma tfeas_rows : forall m sg, tinv m ->
  (tfeas m sg <->
   (forall i, (i < length (rhs_in_ m))%nat -> t_in m sg i <= nth i (rhs_in_ m) 0) /\
   (forall i, (i < length (rhs_eq_ m))%nat -> t_eq m sg i = nth i (rhs_eq_ m) 0)).
Proof.
  intros m sg [_ _ _ _ _ _ C1 C2 C3 C4].
  unfold tfeas, get_inequality_constraints, get_equality_constraints.
  set (r := map sg (r_ m)). set (z := map sg (zeta_ m)).
  assert (Lr : length r = length (r_ m)) by apply map_length.
  assert (Lz : length z = length (zeta_ m)) by apply map_length.
  rewrite <- Lr in *. rewrite <- Lz in *.
  rewrite vle_nth.
  assert (L1 : length (vadd (mv (coo_dense (Ain_r m) (length (rhs_in_ m)) (length r)) r)
                            (mv (coo_dense (Ain_zeta m) (length (rhs_in_ m)) (length z)) z))
               = length (rhs_in_ m)).
  { rewrite vadd_length; rewrite !mv_length, !coo_dense_length; auto. }
  assert (L2 : length (vadd (mv (coo_dense (Aeq_r m) (length (rhs_eq_ m)) (length r)) r)
                            (mv (coo_dense (Aeq_zeta m) (length (rhs_eq_ m)) (length z)) z))
               = length (rhs_eq_ m)).
  { rewrite vadd_length; rewrite !mv_length, !coo_dense_length; auto. }
  assert (V1 : forall i, (i < length (rhs_in_ m))%nat ->
     nth i (vadd (mv (coo_dense (Ain_r m) (length (rhs_in_ m)) (length r)) r)
                 (mv (coo_dense (Ain_zeta m) (length (rhs_in_ m)) (length z)) z)) 0
     = t_in m sg i).
  { intros i Hi. rewrite nth_vadd; [|rewrite !mv_length, !coo_dense_length; auto].
    rewrite !dense_nth by auto. reflexivity. }
  assert (V2 : forall i, (i < length (rhs_eq_ m))%nat ->
     nth i (vadd (mv (coo_dense (Aeq_r m) (length (rhs_eq_ m)) (length r)) r)
                 (mv (coo_dense (Aeq_zeta m) (length (rhs_eq_ m)) (length z)) z)) 0
     = t_eq m sg i).
  { intros i Hi. rewrite nth_vadd; [|rewrite !mv_length, !coo_dense_length; auto].
    rewrite !dense_nth by auto. reflexivity. }
  split.
  - intros [[_ A] B]. split.
    + intros i Hi. rewrite <- V1 by auto. apply A. lia.
    + intros i Hi. rewrite <- V2 by auto. rewrite B. auto.
  - intros [A B]. split.
    + split; auto. intros i Hi. rewrite L1 in Hi. rewrite V1 by auto. auto.
    + apply vec_ext; auto. intros i Hi. rewrite L2 in Hi. rewrite V2 by auto. auto.
Qed.

(** ** One linear constraint *)

Lemma index_of_nth : forall v l j, index_of v l = Some j ->
  (j < length l)%nat /\ nth_error l j = Some v.
Proof.
  induction l as [|x l IH]; simpl; intros j H; [discriminate|].
  destruct (Nat.eqb x v) eqn:E.
  - injection H as H; subst. apply Nat.eqb_eq in E. subst. split; [lia|auto].
  - destruct (index_of v l) eqn:F; [|discriminate]. injection H as H; subst.
    destruct (IH n eq_refl). split; [lia|auto].
Qed.
Lemma index_of_none : forall v l, index_of v l = None <-> ~ In v l.
Proof.
  induction l; simpl; [tauto|]. destruct (Nat.eqb a v) eqn:E.
  - apply Nat.eqb_eq in E. subst. split; [discriminate|tauto].
  - apply Nat.eqb_neq in E. destruct (index_of v l).
    + split; [discriminate|]. intros. exfalso. destruct IHl as [_ IH].
      assert (~ In v l) by tauto. apply IH in H0. discriminate.
    + tauto.
Qed.
Lemma index_of_in : forall v l j, index_of v l = Some j -> In v l.
Proof. intros. apply index_of_nth in H. destruct H. eapply nth_error_In; eauto. Qed.

Lemma row_trips_in : forall row l k t, rows_in row (S row) (row_trips row l k t) /\
  cols_in (length l) (row_trips row l k t).
Proof.
  induction t as [|[a v] t IH]; simpl; [split; constructor|].
  destruct (index_of v l) eqn:E; [|auto]. apply index_of_nth in E.
  destruct IH. split; constructor; simpl; auto; lia.
Qed.

Lemma row_trips_sum : forall row l1 l2 k sg t,
  (forall i, In i l1 -> In i l2 -> False) ->
  Forall (fun p => In (snd p) l1 \/ In (snd p) l2) t ->
  clhs (row_trips row l1 k t) row (map sg l1) + clhs (row_trips row l2 k t) row (map sg l2)
  = k * eval_terms t sg.
Proof.
  intros row l1 l2 k sg t D. unfold eval_terms.
  induction t as [|[a v] t IH]; simpl; intros F; [lra|].
  inversion F; subst. simpl in H1. specialize (IH H2).
  assert (N : forall l j, index_of v l = Some j -> nth j (map sg l) 0 = sg v).
  { intros l j E. apply index_of_nth in E. destruct E as [E1 E2].
    apply nth_error_nth with (d := v) in E2.
    rewrite nth_indep with (d' := sg v) by (rewrite map_length; auto).
    rewrite map_nth, E2. auto. }
  destruct (index_of v l1) eqn:E1, (index_of v l2) eqn:E2.
  - exfalso. apply index_of_in in E1. apply index_of_in in E2. eauto.
  - simpl. rewrite Nat.eqb_refl, (N _ _ E1). lra.
  - simpl. rewrite Nat.eqb_refl, (N _ _ E2). lra.
  - apply index_of_none in E1. apply index_of_none in E2. tauto.
Qed.

Lemma rows_snoc : forall (P : R -> R -> Prop) (f : nat -> R) (b : vec) (x : R),
  (forall i, (i < length (b ++ [x]))%nat -> P (f i) (nth i (b ++ [x]) 0)) <->
  (forall i, (i < length b)%nat -> P (f i) (nth i b 0)) /\ P (f (length b)) x.
Proof.
  intros P f b x. rewrite app_length. simpl. split.
  - intros H. split.
    + intros i Hi. specialize (H i ltac:(lia)). rewrite app_nth1 in H by auto. auto.
    + specialize (H (length b) ltac:(lia)). rewrite app_nth2, Nat.sub_diag in H by lia. auto.
  - intros [H1 H2] i Hi. destruct (Nat.eq_dec i (length b)).
    + subst. rewrite app_nth2, Nat.sub_diag by lia. auto.
    + rewrite app_nth1 by lia. apply H1. lia.
Qed.

Lemma tinv_push_row : forall t s rhs m, tinv m -> tinv (push_row t s rhs m).
Proof.
  intros t s rhs m [I1 I2 I3 I4 I5 I6 I7 I8 I9 I10].
  assert (F : forall b row l k, length b = row ->
     rows_in 0 (length (b ++ [rhs])) (row_trips row l k t)).
  { intros b row l k E. rewrite app_length. simpl.
    eapply rows_in_le; [apply row_trips_in|lia|lia]. }
  destruct s; unfold push_row; constructor; cbn; auto;
    try (apply rows_in_app; split);
    try (apply cols_in_app; split); try apply row_trips_in; auto;
    rewrite ?app_length; simpl;
    try (eapply rows_in_le; [eassumption|lia|lia]);
    try (eapply rows_in_le; [apply row_trips_in|lia|lia]).
Qed.

(** Appending the triplets of a new row. *)
Lemma new_row : forall c1 c2 l1 l2 n k t sg,
  (forall i, In i l1 -> In i l2 -> False) ->
  Forall (fun p => In (snd p) l1 \/ In (snd p) l2) t ->
  rows_in 0 n c1 -> rows_in 0 n c2 ->
  let f := fun i => clhs (c1 ++ row_trips n l1 k t) i (map sg l1)
                    + clhs (c2 ++ row_trips n l2 k t) i (map sg l2) in
  f n = k * eval_terms t sg /\
  forall i, (i < n)%nat -> f i = clhs c1 i (map sg l1) + clhs c2 i (map sg l2).
Proof.
  intros c1 c2 l1 l2 n k t sg D K R1 R2 f. split.
  - unfold f. rewrite !clhs_app.
    rewrite (clhs_out c1 0 n) by (auto; lia).
    rewrite (clhs_out c2 0 n) by (auto; lia).
    rewrite !Rplus_0_l. apply row_trips_sum; auto.
  - intros i Hi. unfold f. rewrite !clhs_app.
    rewrite (clhs_out (row_trips n l1 k t) n (S n)); [|apply row_trips_in|lia].
    rewrite (clhs_out (row_trips n l2 k t) n (S n)); [|apply row_trips_in|lia]. lra.
Qed.

Lemma tfeas_push_row : forall t s rhs m sg, tinv m ->
  Forall (fun p => known m (snd p) = true) t ->
  (tfeas (push_row t s rhs m) sg <-> tfeas m sg /\ row_ok sg (mkRow t s rhs)).
Proof.
  intros t s rhs m sg I K. assert (I' := tinv_push_row t s rhs m I).
  rewrite (tfeas_rows _ _ I'), (tfeas_rows _ _ I).
  destruct I as [I1 I2 I3 I4 I5 I6 I7 I8 I9 I10].
  assert (K' : Forall (fun p => In (snd p) (r_ m) \/ In (snd p) (zeta_ m)) t).
  { eapply Forall_impl; [|exact K]. intros p. apply known_spec. }
  destruct s; unfold push_row, row_ok, t_in, t_eq;
    cbn [rhs_in_ rhs_eq_ Ain_r Ain_zeta Aeq_r Aeq_zeta r_ zeta_ row_sense row_terms row_rhs].
  - destruct (new_row (Ain_r m) (Ain_zeta m) (r_ m) (zeta_ m) (length (rhs_in_ m)) 1 t sg)
      as [A B]; auto. cbv beta in A, B.
    rewrite (rows_snoc Rle (fun i => clhs (Ain_r m ++ row_trips (length (rhs_in_ m)) (r_ m) 1 t) i (map sg (r_ m)) +
      clhs (Ain_zeta m ++ row_trips (length (rhs_in_ m)) (zeta_ m) 1 t) i (map sg (zeta_ m)))).
    rewrite A. split.
    + intros [[H1 H2] H3]. split; [split|lra]; auto. intros i Hi. rewrite <- B; auto.
    + intros [[H1 H3] H2]. split; [split|]; auto; [|lra]. intros i Hi. rewrite B; auto.
  - destruct (new_row (Aeq_r m) (Aeq_zeta m) (r_ m) (zeta_ m) (length (rhs_eq_ m)) 1 t sg)
      as [A B]; auto. cbv beta in A, B.
    rewrite (rows_snoc eq (fun i => clhs (Aeq_r m ++ row_trips (length (rhs_eq_ m)) (r_ m) 1 t) i (map sg (r_ m)) +
      clhs (Aeq_zeta m ++ row_trips (length (rhs_eq_ m)) (zeta_ m) 1 t) i (map sg (zeta_ m)))).
    rewrite A. split.
    + intros [H1 [H2 H3]]. split; [split|lra]; auto. intros i Hi. rewrite <- B; auto.
    + intros [[H1 H3] H2]. split; [|split]; auto; [|lra]. intros i Hi. rewrite B; auto.
  - destruct (new_row (Ain_r m) (Ain_zeta m) (r_ m) (zeta_ m) (length (rhs_in_ m)) (-1) t sg)
      as [A B]; auto. cbv beta in A, B.
    rewrite (rows_snoc Rle (fun i => clhs (Ain_r m ++ row_trips (length (rhs_in_ m)) (r_ m) (-1) t) i (map sg (r_ m)) +
      clhs (Ain_zeta m ++ row_trips (length (rhs_in_ m)) (zeta_ m) (-1) t) i (map sg (zeta_ m)))).
    rewrite A. split.
    + intros [[H1 H2] H3]. split; [split|lra]; auto. intros i Hi. rewrite <- B; auto.
    + intros [[H1 H3] H2]. split; [split|]; auto; [|lra]. intros i Hi. rewrite B; auto.
Qed.

Lemma push_row_same : forall t s r m, r_ (push_row t s r m) = r_ m /\
  zeta_ (push_row t s r m) = zeta_ m.
Proof. intros. destruct s; split; reflexivity. Qed.
Lemma known_push_row : forall t s r m v, known (push_row t s r m) v = known m v.
Proof.
  intros. unfold known. destruct (push_row_same t s r m) as [E1 E2]. rewrite E1, E2. auto.
Qed.

Lemma push_rows_torch : forall A vs s b m, tinv m ->
  Forall (fun v => known m v = true) vs ->
  tinv (push_rows A vs s b m) /\
  r_ (push_rows A vs s b m) = r_ m /\ zeta_ (push_rows A vs s b m) = zeta_ m /\
  gvars (push_rows A vs s b m) = gvars m /\
  forall sg, (tfeas (push_rows A vs s b m) sg <->
     tfeas m sg /\ Forall (fun p => row_ok sg (mkRow (combine (fst p) vs) s (snd p))) (combine A b)) /\
    (Forall (row_ok sg) (grows (push_rows A vs s b m)) <->
     Forall (row_ok sg) (grows m) /\
     Forall (fun p => row_ok sg (mkRow (combine (fst p) vs) s (snd p))) (combine A b)).
Proof.
  induction A as [|row A IH]; destruct b as [|x b]; simpl; intros m I K;
    try (split; [auto|]; split; [auto|]; split; [auto|]; split; [auto|];
         intros sg; split; split; intuition auto; fail).
  destruct (IH vs s b (push_row (combine row vs) s x m)) as (J1 & J2 & J3 & J4 & J5).
  - apply tinv_push_row; auto.
  - eapply Forall_impl; [|exact K]. intros v Hv. rewrite known_push_row. auto.
  - destruct (push_row_same (combine row vs) s x m) as [P1 P2].
    destruct (push_row_fields (combine row vs) s x m) as (P3 & P4 & _).
    split; auto. split; [congruence|]. split; [congruence|].
    split; [rewrite J4; auto|].
    intros sg. destruct (J5 sg) as [J6 J7]. split.
    + rewrite J6, tfeas_push_row; auto.
      * rewrite Forall_cons_iff. simpl. tauto.
      * apply Forall_forall. intros [a v] Hp. apply in_combine_r in Hp.
        rewrite Forall_forall in K. auto.
    + rewrite J7, P4, Forall_app, Forall_cons_iff. simpl.
      rewrite Forall_cons_iff. intuition.
Qed.

(** ** New variables *)

Lemma rows_app : forall (P : R -> R -> Prop) (f : nat -> R) (a b : vec),
  (forall i, (i < length (a ++ b))%nat -> P (f i) (nth i (a ++ b) 0)) <->
  (forall i, (i < length a)%nat -> P (f i) (nth i a 0)) /\
  (forall i, (i < length b)%nat -> P (f (length a + i)%nat) (nth i b 0)).
Proof.
  intros P f a b. rewrite app_length. split.
  - intros H. split; intros i Hi.
    + specialize (H i ltac:(lia)). rewrite app_nth1 in H by auto. auto.
    + specialize (H (length a + i)%nat ltac:(lia)). rewrite app_nth2 in H by lia.
      replace (length a + i - length a)%nat with i in H by lia. auto.
  - intros [H1 H2] i Hi. destruct (lt_dec i (length a)).
    + rewrite app_nth1 by auto. auto.
    + rewrite app_nth2 by lia. specialize (H2 (i - length a)%nat ltac:(lia)).
      replace (length a + (i - length a))%nat with i in H2 by lia. auto.
Qed.

(** What is recorded for a continuous variable with the given bounds. *)
Definition lb_rec (b : ext * ext) (x : R) : Prop :=
  match fst b with Fin l => if ext_ltb (fst b) (snd b) then l <= x else True | _ => True end.
Definition ub_rec (b : ext * ext) (x : R) : Prop :=
  match snd b with Fin u => if ext_ltb (fst b) (snd b) then x <= u else True | _ => True end.
Definition eq_rec (b : ext * ext) (x : R) : Prop :=
  match fst b with Fin l => if ext_eqb (fst b) (snd b) then x = l else True | _ => True end.

Lemma nth_error_cons : forall {A} (P : nat -> A -> Prop) a l,
  (forall k b, nth_error (a :: l) k = Some b -> P k b) <->
  P 0%nat a /\ (forall k b, nth_error l k = Some b -> P (S k) b).
Proof.
  intros A P a l. split.
  - intros H. split; [apply H; auto|]. intros k b E. apply (H (S k)); auto.
  - intros [H1 H2] [|k] b E; simpl in E; auto. injection E as E; subst; auto.
Qed.

Lemma rows_cons : forall (P : R -> R -> Prop) (f : nat -> R) x (b : vec),
  (forall i, (i < length (x :: b))%nat -> P (f i) (nth i (x :: b) 0)) <->
  P (f 0%nat) x /\ (forall i, (i < length b)%nat -> P (f (S i)) (nth i b 0)).
Proof.
  intros P f x b. simpl length. split.
  - intros H. split; [apply (H 0%nat); lia|]. intros i Hi. apply (H (S i)). lia.
  - intros [H1 H2] [|i] Hi; simpl; auto. apply H2. lia.
Qed.

Lemma forall_nat_ext : forall (P Q : nat -> Prop), (forall i, P i <-> Q i) ->
  ((forall i, P i) <-> (forall i, Q i)).
Proof. intros P Q H. split; intros K i; apply H; auto. Qed.

Ltac bnd_skip IH base col v E :=
  let A := fresh in let B := fresh in let C := fresh in
  destruct (IH base (S col) _ _ v E) as (A & B & C); split; auto;
  split; [eapply cols_in_le; [exact B|lia]|];
  rewrite C, nth_error_cons; cbn beta iota; simpl fst; simpl snd.

Lemma shift_rows : forall (P : R -> R -> Prop) base col a c v r x,
  rows_in (S base) (S base + length r) c ->
  ((forall i, (i < length (x :: r))%nat ->
     P (clhs ((base, col, a) :: c) (base + i) v) (nth i (x :: r) 0)) <->
   P (a * nth col v 0) x /\
   (forall i, (i < length r)%nat -> P (clhs c (S base + i) v) (nth i r 0))).
Proof.
  intros P base col a c v r x H.
  rewrite (rows_cons P (fun i => clhs ((base, col, a) :: c) (base + i) v)).
  cbn [clhs]. rewrite Nat.add_0_r, Nat.eqb_refl.
  rewrite (clhs_out c (S base) (S base + length r)) by (auto; lia).
  rewrite Rplus_0_r.
  assert (E : forall i, (if Nat.eqb base (base + S i) then a * nth col v 0 else 0)
                        + clhs c (base + S i) v = clhs c (S base + i) v).
  { intros i. replace (Nat.eqb base (base + S i)) with false
      by (symmetry; apply Nat.eqb_neq; lia).
    replace (base + S i)%nat with (S base + i)%nat by lia. lra. }
  split; intros [H1 H2]; split; auto; intros i Hi.
  - rewrite <- E. auto.
  - rewrite E. auto.
Qed.

Lemma cols_in_cons : forall n r j a c, cols_in n ((r, j, a) :: c) <-> (j < n)%nat /\ cols_in n c.
Proof. intros. unfold cols_in. rewrite Forall_cons_iff. simpl. tauto. Qed.
Lemma rows_in_cons : forall lo hi r j a c,
  rows_in lo hi ((r, j, a) :: c) <-> (lo <= r < hi)%nat /\ rows_in lo hi c.
Proof. intros. unfold rows_in. rewrite Forall_cons_iff. simpl. tauto. Qed.

Lemma nth_shift : forall (P : ext * ext -> R -> Prop) (l : list (ext * ext)) col v,
  (forall k b, nth_error l k = Some b -> P b (nth (S col + k) v 0)) <->
  (forall k b, nth_error l k = Some b -> P b (nth (col + S k) v 0)).
Proof.
  intros. split; intros H k b E; specialize (H k b E);
    replace (col + S k)%nat with (S col + k)%nat in * by lia; auto.
Qed.

Lemma lb_rows_spec : forall bnds base col c r v, lb_rows base col bnds = (c, r) ->
  rows_in base (base + length r) c /\ cols_in (col + length bnds) c /\
  ((forall i, (i < length r)%nat -> clhs c (base + i) v <= nth i r 0) <->
   (forall k b, nth_error bnds k = Some b -> lb_rec b (nth (col + k) v 0))).
Proof.
  induction bnds as [|[lb ub] bnds IH]; intros base col c r v E.
  - simpl in E. injection E as E1 E2; subst. split; [constructor|]. split; [constructor|].
    split; intros; [destruct k; discriminate|simpl in *; lia].
  - rewrite (nth_error_cons (fun k b => lb_rec b (nth (col + k) v 0))).
    rewrite Nat.add_0_r.
    rewrite <- (nth_shift lb_rec bnds col v).
    simpl in E. unfold lb_rec at 1. simpl fst. simpl snd.
    destruct lb as [|l|].
    + destruct (IH base (S col) _ _ v E) as (A & B & C). split; auto.
      split; [eapply cols_in_le; [exact B|simpl; lia]|]. rewrite C. tauto.
    + destruct (ext_ltb (Fin l) ub).
      * destruct (lb_rows (S base) (S col) bnds) as [c' r'] eqn:E'.
        injection E as E1 E2; subst.
        destruct (IH (S base) (S col) _ _ v E') as (A & B & C).
        split. { apply rows_in_cons. simpl length. split; [lia|].
                 eapply rows_in_le; [exact A|lia|lia]. }
        split. { apply cols_in_cons. simpl length. split; [lia|].
                 eapply cols_in_le; [exact B|lia]. }
        rewrite (shift_rows Rle), C by auto.
        split; intros [H1 H2]; split; auto; lra.
      * destruct (IH base (S col) _ _ v E) as (A & B & C). split; auto.
        split; [eapply cols_in_le; [exact B|simpl; lia]|]. rewrite C. tauto.
    + destruct (IH base (S col) _ _ v E) as (A & B & C). split; auto.
      split; [eapply cols_in_le; [exact B|simpl; lia]|]. rewrite C. tauto.
Qed.

Lemma ub_rows_spec : forall bnds base col c r v, ub_rows base col bnds = (c, r) ->
  rows_in base (base + length r) c /\ cols_in (col + length bnds) c /\
  ((forall i, (i < length r)%nat -> clhs c (base + i) v <= nth i r 0) <->
   (forall k b, nth_error bnds k = Some b -> ub_rec b (nth (col + k) v 0))).
Proof.
  induction bnds as [|[lb ub] bnds IH]; intros base col c r v E.
  - simpl in E. injection E as E1 E2; subst. split; [constructor|]. split; [constructor|].
    split; intros; [destruct k; discriminate|simpl in *; lia].
  - rewrite (nth_error_cons (fun k b => ub_rec b (nth (col + k) v 0))).
    rewrite Nat.add_0_r.
    rewrite <- (nth_shift ub_rec bnds col v).
    simpl in E. unfold ub_rec at 1. simpl fst. simpl snd.
    destruct ub as [|l|].
    + destruct (IH base (S col) _ _ v E) as (A & B & C). split; auto.
      split; [eapply cols_in_le; [exact B|simpl; lia]|]. rewrite C. tauto.
    + destruct (ext_ltb lb (Fin l)).
      * destruct (ub_rows (S base) (S col) bnds) as [c' r'] eqn:E'.
        injection E as E1 E2; subst.
        destruct (IH (S base) (S col) _ _ v E') as (A & B & C).
        split. { apply rows_in_cons. simpl length. split; [lia|].
                 eapply rows_in_le; [exact A|lia|lia]. }
        split. { apply cols_in_cons. simpl length. split; [lia|].
                 eapply cols_in_le; [exact B|lia]. }
        rewrite (shift_rows Rle), C by auto.
        split; intros [H1 H2]; split; auto; lra.
      * destruct (IH base (S col) _ _ v E) as (A & B & C). split; auto.
        split; [eapply cols_in_le; [exact B|simpl; lia]|]. rewrite C. tauto.
    + destruct (IH base (S col) _ _ v E) as (A & B & C). split; auto.
      split; [eapply cols_in_le; [exact B|simpl; lia]|]. rewrite C. tauto.
Qed.

Lemma eq_rows_spec : forall bnds base col c r v, eq_rows base col bnds = (c, r) ->
  rows_in base (base + length r) c /\ cols_in (col + length bnds) c /\
  ((forall i, (i < length r)%nat -> clhs c (base + i) v = nth i r 0) <->
   (forall k b, nth_error bnds k = Some b -> eq_rec b (nth (col + k) v 0))).
Proof.
  induction bnds as [|[lb ub] bnds IH]; intros base col c r v E.
  - simpl in E. injection E as E1 E2; subst. split; [constructor|]. split; [constructor|].
    split; intros; [destruct k; discriminate|simpl in *; lia].
  - rewrite (nth_error_cons (fun k b => eq_rec b (nth (col + k) v 0))).
    rewrite Nat.add_0_r.
    rewrite <- (nth_shift eq_rec bnds col v).
    simpl in E. unfold eq_rec at 1. simpl fst. simpl snd.
    destruct lb as [|l|].
    + destruct (IH base (S col) _ _ v E) as (A & B & C). split; auto.
      split; [eapply cols_in_le; [exact B|simpl; lia]|]. rewrite C. tauto.
    + destruct (ext_eqb (Fin l) ub).
      * destruct (eq_rows (S base) (S col) bnds) as [c' r'] eqn:E'.
        injection E as E1 E2; subst.
        destruct (IH (S base) (S col) _ _ v E') as (A & B & C).
        split. { apply rows_in_cons. simpl length. split; [lia|].
                 eapply rows_in_le; [exact A|lia|lia]. }
        split. { apply cols_in_cons. simpl length. split; [lia|].
                 eapply cols_in_le; [exact B|lia]. }
        rewrite (shift_rows eq), C by auto.
        split; intros [H1 H2]; split; auto; lra.
      * destruct (IH base (S col) _ _ v E) as (A & B & C). split; auto.
        split; [eapply cols_in_le; [exact B|simpl; lia]|]. rewrite C. tauto.
    + destruct (IH base (S col) _ _ v E) as (A & B & C). split; auto.
      split; [eapply cols_in_le; [exact B|simpl; lia]|]. rewrite C. tauto.
Qed.

Definition vrec (vt : vtype) (b : ext * ext) (x : R) : Prop :=
  match vt with VCont => lb_rec b x /\ ub_rec b x /\ eq_rec b x | _ => True end.

Lemma ids_nth : forall sg n l k, (k < l)%nat -> nth k (map sg (seq n l)) 0 = sg (n + k)%nat.
Proof.
  intros sg n l k H. rewrite nth_indep with (d' := sg 0%nat)
    by (rewrite map_length, seq_length; auto).
  rewrite map_nth, seq_nth; auto.
Qed.

Lemma addVars_torch : forall bnds vt m m' ids, addVars bnds vt m = (m', ids) -> tinv m ->
  tinv m' /\
  (r_ m' = r_ m ++ match vt with VCont => ids | _ => [] end) /\
  (zeta_ m' = zeta_ m ++ match vt with VCont => [] | _ => ids end) /\
  forall sg, (tfeas m' sg <-> tfeas m sg /\
    forall k b, nth_error bnds k = Some b -> vrec vt b (sg (nvars m + k)%nat)).
Proof.
  intros bnds vt m m' ids H I.
  assert (F := addVars_fields _ _ _ _ _ H). destruct F as (F1 & F2 & F3 & F4).
  assert (I0 := I). destruct I as [I1 I2 I3 I4 I5 I6 I7 I8 I9 I10].
  assert (Fresh : forall i, In i ids -> (nvars m <= i < nvars m + length bnds)%nat).
  { intros i Hi. subst ids. apply in_seq in Hi. lia. }
  assert (Fresh' : forall i, (nvars m <= i < nvars m + length bnds)%nat -> In i ids).
  { intros i Hi. subst ids. apply in_seq. lia. }
  assert (NB : vt <> VCont -> tinv m' /\ r_ m' = r_ m /\ zeta_ m' = zeta_ m ++ ids /\
     forall sg, (tfeas m' sg <-> tfeas m sg)).
  { intros NC.
    assert (T : tinv m' /\ r_ m' = r_ m /\ zeta_ m' = zeta_ m ++ ids /\
      Ain_r m' = Ain_r m /\ Ain_zeta m' = Ain_zeta m /\ rhs_in_ m' = rhs_in_ m /\
      Aeq_r m' = Aeq_r m /\ Aeq_zeta m' = Aeq_zeta m /\ rhs_eq_ m' = rhs_eq_ m).
    { assert (T : r_ m' = r_ m /\ zeta_ m' = zeta_ m ++ ids /\
      Ain_r m' = Ain_r m /\ Ain_zeta m' = Ain_zeta m /\ rhs_in_ m' = rhs_in_ m /\
      Aeq_r m' = Aeq_r m /\ Aeq_zeta m' = Aeq_zeta m /\ rhs_eq_ m' = rhs_eq_ m).
      { unfold addVars in H. destruct vt; [congruence| |]; injection H as H1 H2; subst m' ids;
        repeat split. }
      split; auto. destruct T as (T1 & T2 & T3 & T4 & T5 & T6 & T7 & T8).
      constructor; rewrite ?T1, ?T2, ?T3, ?T4, ?T5, ?T6, ?T7, ?T8; auto.
      - intros i. rewrite F4, in_app_iff. specialize (I1 i). split.
        + intros Hi. destruct (lt_dec i (nvars m)); [tauto|]. right. right. apply Fresh'. lia.
        + intros [Hi|[Hi|Hi]]; [| |apply Fresh in Hi; lia];
            assert (i < nvars m)%nat by tauto; lia.
      - intros i Hi Hj. rewrite in_app_iff in Hj. destruct Hj as [Hj|Hj]; [eauto|].
        apply Fresh in Hj. assert (i < nvars m)%nat by (apply I1; auto). lia.
      - eapply cols_in_le; [exact I8|rewrite app_length; lia].
      - eapply cols_in_le; [exact I10|rewrite app_length; lia]. }
    destruct T as (T0 & T1 & T2 & T3 & T4 & T5 & T6 & T7 & T8).
    split; auto. split; auto. split; auto. intros sg.
    rewrite (tfeas_rows _ _ T0), (tfeas_rows _ _ I0). unfold t_in, t_eq.
    rewrite T1, T2, T3, T4, T5, T6, T7, T8, map_app.
    split; intros [H1 H2]; split; intros i Hi.
    - specialize (H1 i Hi). rewrite clhs_prefix in H1; auto. rewrite map_length; auto.
    - specialize (H2 i Hi). rewrite clhs_prefix in H2; auto. rewrite map_length; auto.
    - rewrite clhs_prefix; auto. rewrite map_length; auto.
    - rewrite clhs_prefix; auto. rewrite map_length; auto. }
  destruct vt.
  2,3: destruct (NB ltac:(discriminate)) as (N1 & N2 & N3 & N4); split; [auto|];
       rewrite app_nil_r; split; [auto|]; split; [auto|]; intros sg; rewrite N4;
       simpl; tauto.
  clear NB. rewrite app_nil_r.
  unfold addVars in H.
  destruct (lb_rows (length (rhs_in_ m)) (length (r_ m)) bnds) as [c1 b1] eqn:E1.
  destruct (ub_rows (length (rhs_in_ m) + length b1) (length (r_ m)) bnds) as [c2 b2] eqn:E2.
  destruct (eq_rows (length (rhs_eq_ m)) (length (r_ m)) bnds) as [c3 b3] eqn:E3.
  injection H as H1 H2.
  destruct (lb_rows_spec _ _ _ _ _ [] E1) as (P1 & P2 & _).
  destruct (ub_rows_spec _ _ _ _ _ [] E2) as (P3 & P4 & _).
  destruct (eq_rows_spec _ _ _ _ _ [] E3) as (P5 & P6 & _).
  assert (Li : length ids = length bnds) by (rewrite F3, seq_length; auto).
  assert (T : tinv m').
  { subst m'. constructor; cbn [r_ zeta_ Ain_r Ain_zeta Aeq_r Aeq_zeta rhs_in_ rhs_eq_];
      rewrite ?H2; auto.
    - intros i. match goal with |- (i < ?N)%nat <-> _ =>
        replace N with (nvars m + length bnds)%nat by (rewrite <- F4; reflexivity) end.
      rewrite in_app_iff. specialize (I1 i). split.
      + intros Hi. destruct (lt_dec i (nvars m)); [tauto|]. left. right. apply Fresh'. lia.
      + intros [[Hi|Hi]|Hi]; [|apply Fresh in Hi; lia|];
          assert (i < nvars m)%nat by tauto; lia.
    - intros i Hi Hj. rewrite in_app_iff in Hi. destruct Hi as [Hi|Hi]; [eauto|].
      apply Fresh in Hi. assert (i < nvars m)%nat by (apply I1; auto). lia.
    - rewrite !rows_in_app, !app_length. repeat split.
      + eapply rows_in_le; [exact I3|lia|lia].
      + eapply rows_in_le; [exact P1|lia|lia].
      + eapply rows_in_le; [exact P3|lia|lia].
    - rewrite !app_length. eapply rows_in_le; [exact I4|lia|lia].
    - rewrite rows_in_app, !app_length. split.
      + eapply rows_in_le; [exact I5|lia|lia].
      + eapply rows_in_le; [exact P5|lia|lia].
    - rewrite !app_length. eapply rows_in_le; [exact I6|lia|lia].
    - rewrite !cols_in_app, !app_length, Li. repeat split; auto.
      eapply cols_in_le; [exact I7|lia].
    - rewrite !cols_in_app, !app_length, Li. split; auto.
      eapply cols_in_le; [exact I9|lia]. }
  split; auto. split; [subst m'; cbn; rewrite H2; auto|]. split; [subst m'; auto|].
  intros sg. rewrite (tfeas_rows _ _ T), (tfeas_rows _ _ I0).
  subst m'. unfold t_in, t_eq.
  cbn [r_ zeta_ Ain_r Ain_zeta Aeq_r Aeq_zeta rhs_in_ rhs_eq_].
  rewrite H2, map_app.
  set (v := map sg (r_ m)). set (w := map sg ids). set (z := map sg (zeta_ m)).
  destruct (lb_rows_spec _ _ _ _ _ (v ++ w) E1) as (_ & _ & Q1).
  destruct (ub_rows_spec _ _ _ _ _ (v ++ w) E2) as (_ & _ & Q2).
  destruct (eq_rows_spec _ _ _ _ _ (v ++ w) E3) as (_ & _ & Q3).
  set (n := length (rhs_in_ m)) in *.
  set (f := fun i => clhs (Ain_r m ++ c1 ++ c2) i (v ++ w) + clhs (Ain_zeta m) i z).
  set (g := fun i => clhs (Aeq_r m ++ c3) i (v ++ w) + clhs (Aeq_zeta m) i z).
  change (((forall i, (i < length (rhs_in_ m ++ b1 ++ b2))%nat -> f i <= nth i (rhs_in_ m ++ b1 ++ b2) 0) /\
    (forall i, (i < length (rhs_eq_ m ++ b3))%nat -> g i = nth i (rhs_eq_ m ++ b3) 0)) <->
    ((forall i, (i < n)%nat -> clhs (Ain_r m) i v + clhs (Ain_zeta m) i z <= nth i (rhs_in_ m) 0) /\
    (forall i, (i < length (rhs_eq_ m))%nat -> clhs (Aeq_r m) i v + clhs (Aeq_zeta m) i z = nth i (rhs_eq_ m) 0)) /\
    (forall k b, nth_error bnds k = Some b -> vrec VCont b (sg (nvars m + k)%nat))).
  rewrite (rows_app Rle f), (rows_app Rle (fun i => f (length (rhs_in_ m) + i)%nat)), (rows_app eq g).
  assert (Lv : length v = length (r_ m)) by apply map_length.
  assert (G1 : forall i, (i < n)%nat -> f i = clhs (Ain_r m) i v + clhs (Ain_zeta m) i z).
  { intros i Hi. unfold f. rewrite !clhs_app.
    rewrite (clhs_out c1 n (n + length b1)) by (auto; lia).
    rewrite (clhs_out c2 (n + length b1) (n + length b1 + length b2)) by (auto; lia).
    rewrite clhs_prefix by (rewrite Lv; auto). lra. }
  assert (G2 : forall i, (i < length b1)%nat -> f (n + i)%nat = clhs c1 (n + i) (v ++ w)).
  { intros i Hi. unfold f. rewrite !clhs_app.
    rewrite (clhs_out (Ain_r m) 0 n) by (auto; lia).
    rewrite (clhs_out (Ain_zeta m) 0 n) by (auto; lia).
    rewrite (clhs_out c2 (n + length b1) (n + length b1 + length b2)) by (auto; lia). lra. }
  assert (G3 : forall i, (i < length b2)%nat ->
     f (n + (length b1 + i))%nat = clhs c2 (n + length b1 + i) (v ++ w)).
  { intros i Hi. unfold f. rewrite !clhs_app.
    rewrite (clhs_out (Ain_r m) 0 n) by (auto; lia).
    rewrite (clhs_out (Ain_zeta m) 0 n) by (auto; lia).
    rewrite (clhs_out c1 n (n + length b1)) by (auto; lia).
    rewrite Nat.add_assoc. lra. }
  assert (G4 : forall i, (i < length (rhs_eq_ m))%nat -> g i = clhs (Aeq_r m) i v + clhs (Aeq_zeta m) i z).
  { intros i Hi. unfold g. rewrite !clhs_app.
    rewrite (clhs_out c3 (length (rhs_eq_ m)) (length (rhs_eq_ m) + length b3)) by (auto; lia).
    rewrite clhs_prefix by (rewrite Lv; auto). lra. }
  assert (G5 : forall i, (i < length b3)%nat -> g (length (rhs_eq_ m) + i)%nat = clhs c3 (length (rhs_eq_ m) + i) (v ++ w)).
  { intros i Hi. unfold g. rewrite !clhs_app.
    rewrite (clhs_out (Aeq_r m) 0 (length (rhs_eq_ m))) by (auto; lia).
    rewrite (clhs_out (Aeq_zeta m) 0 (length (rhs_eq_ m))) by (auto; lia). lra. }
  assert (V : forall k b, nth_error bnds k = Some b ->
            nth (length (r_ m) + k) (v ++ w) 0 = sg (nvars m + k)%nat).
  { intros k b Hk. rewrite app_nth2 by lia. rewrite Lv.
    replace (length (r_ m) + k - length (r_ m))%nat with k by lia.
    unfold w. rewrite F3. apply ids_nth. apply nth_error_Some. rewrite Hk. discriminate. }
  fold n. split.
  - intros [[A1 [A2 A3]] [A4 A5]]. split; [split|].
    + intros i Hi. rewrite <- G1 by auto. auto.
    + intros i Hi. rewrite <- G4 by auto. auto.
    + intros k b Hk. simpl. rewrite <- (V k b Hk). split; [|split].
      * apply Q1; auto. intros i Hi. rewrite <- G2 by auto. apply A2; auto.
      * apply Q2; auto. intros i Hi. rewrite <- G3 by auto. apply A3; auto.
      * apply Q3; auto. intros i Hi. rewrite <- G5 by auto. apply A5; auto.
  - intros [[A1 A4] A]. split; [split; [|split]|split].
    + intros i Hi. rewrite G1 by auto. auto.
    + intros i Hi. rewrite G2 by auto. apply Q1; auto.
      intros k b Hk. rewrite (V k b Hk). apply A; auto.
    + intros i Hi. rewrite G3 by auto. apply Q2; auto.
      intros k b Hk. rewrite (V k b Hk). apply (A k b Hk).
    + intros i Hi. rewrite G4 by auto. auto.
    + intros i Hi. rewrite G5 by auto. apply Q3; auto.
      intros k b Hk. rewrite (V k b Hk). apply (A k b Hk).
Qed.

(** ** All histories *)

Lemma vars_ok_nth : forall vt bnds sg n,
  vars_ok vt bnds (map sg (seq n (length bnds))) <->
  (forall k b, nth_error bnds k = Some b -> var_ok (new_gvar vt b) (sg (n + k)%nat)).
Proof.
  unfold vars_ok. induction bnds as [|a bnds IH]; simpl; intros sg n.
  - split; intros; [destruct k; discriminate|constructor].
  - rewrite (nth_error_cons (fun k b => var_ok (new_gvar vt b) (sg (n + k)%nat))).
    rewrite Nat.add_0_r. split.
    + intros H. inversion H; subst. split; auto. intros k b E.
      replace (n + S k)%nat with (S n + k)%nat by lia. apply IH; auto.
    + intros [H1 H2]. constructor; auto. apply IH. intros k b E.
      replace (S n + k)%nat with (n + S k)%nat by lia. auto.
Qed.

Lemma var_rec : forall vt b x, var_ok (new_gvar vt b) x -> vrec vt b x.
Proof.
  intros vt [lb ub] x. destruct vt; simpl; auto. intros [_ [H1 H2]]. simpl in *.
  unfold lb_rec, ub_rec, eq_rec. simpl. destruct lb as [|a|], ub as [|b|]; simpl in *;
    try tauto.
  destruct (Rltb a b); destruct (Reqb a b) eqn:E; try tauto;
    apply Reqb_true in E; repeat apply conj; auto; lra.
Qed.

Lemma rec_var : forall b x, bnd_fine b -> vrec VCont b x -> var_ok (new_gvar VCont b) x.
Proof.
  intros [lb ub] x F [H1 [H2 H3]]. unfold var_ok. simpl.
  split; [discriminate|]. unfold lb_rec, ub_rec, eq_rec in *.
  destruct lb, ub; simpl in *; auto; try tauto.
  destruct (Rltb r r0) eqn:E.
  - auto.
  - apply Rltb_false in E. assert (r = r0) by lra. subst.
    replace (Reqb r0 r0) with true in H3 by (symmetry; apply Reqb_true; auto). lra.
Qed.

Lemma set_bounds_nth : forall vars k lo up gv j v,
  nth_error (set_bounds_from k vars lo up gv) j = Some v ->
  exists v0, nth_error gv j = Some v0 /\ (forall x, var_ok v x -> var_ok v0 x) /\
             (~ In j vars -> v = v0).
Proof.
  induction vars as [|w vars IH]; simpl; intros k lo up gv j v H.
  - exists v. auto.
  - apply IH in H. destruct H as (v1 & E & P & Q). rewrite nth_error_upd in E.
    destruct (Nat.eqb j w) eqn:N.
    + destruct (nth_error gv j) as [v0|] eqn:E0; [|discriminate]. simpl in E.
      injection E as E. exists v0. split; auto. split.
      * intros x Hx. apply P in Hx. subst v1. apply tighten_ok in Hx. tauto.
      * intros Hn. apply Nat.eqb_eq in N. subst. tauto.
    + exists v1. split; auto. split; auto.
Qed.

Lemma tinv_same : forall m m', nvars m' = nvars m -> r_ m' = r_ m -> zeta_ m' = zeta_ m ->
  Ain_r m' = Ain_r m -> Ain_zeta m' = Ain_zeta m -> rhs_in_ m' = rhs_in_ m ->
  Aeq_r m' = Aeq_r m -> Aeq_zeta m' = Aeq_zeta m -> rhs_eq_ m' = rhs_eq_ m ->
  (tinv m -> tinv m') /\ (forall sg, tfeas m' sg <-> tfeas m sg).
Proof.
  intros m m' E1 E2 E3 E4 E5 E6 E7 E8 E9. split.
  - intros [I1 I2 I3 I4 I5 I6 I7 I8 I9 I10].
    constructor; rewrite ?E1, ?E2, ?E3, ?E4, ?E5, ?E6, ?E7, ?E8, ?E9; auto.
  - intros sg. unfold tfeas, get_inequality_constraints, get_equality_constraints.
    rewrite ?E1, ?E2, ?E3, ?E4, ?E5, ?E6, ?E7, ?E8, ?E9. tauto.
Qed.

Lemma tinv_init : tinv init_mip.
Proof.
  constructor; unfold nvars; simpl; try (constructor; fail); try tauto.
  intros. split; [lia|tauto].
Qed.

Lemma history_torch : forall strict m, history strict m ->
  tinv m /\ (forall sg, gfeas m sg -> tfeas m sg) /\
  (strict = true -> forall sg, tfeas m sg -> zeta_ok m sg -> gfeas m sg).
Proof.
  intros strict m H. induction H.
  - split; [apply tinv_init|]. split.
    + intros sg _. apply (tfeas_rows _ _ tinv_init). simpl. split; intros; lia.
    + intros _ sg _ _. split; [|constructor]. intros [|i] v E; simpl in E; discriminate.
  - destruct IHhistory as (I & G1 & G2).
    destruct (addVars bnds vt m) as [m' ids] eqn:E. simpl.
    destruct (addVars_torch _ _ _ _ _ E I) as (J1 & J2 & J3 & J4).
    assert (F := addVars_fields _ _ _ _ _ E). destruct F as (F1 & F2 & F3 & F4).
    split; auto. split.
    + intros sg G. apply (gfeas_addVars _ _ _ _ _ sg E) in G. destruct G as [G V].
      rewrite F3, vars_ok_nth in V. apply J4. split; auto.
      intros k b Hk. apply var_rec. auto.
    + intros S sg T Z. apply J4 in T. destruct T as [T V].
      apply (gfeas_addVars _ _ _ _ _ sg E). split.
      * apply G2; auto. intros i v Hi Hv. apply Z; [rewrite J3; apply in_app_iff; auto|].
        rewrite F1. rewrite nth_error_app1; auto. apply nth_error_Some. congruence.
      * rewrite F3, vars_ok_nth. intros k b Hk. destruct (vt) eqn:Vt.
        { apply rec_var; auto. specialize (H0 S eq_refl). rewrite Forall_forall in H0.
          apply H0. eapply nth_error_In; eauto. }
        all: apply Z;
          [rewrite J3; apply in_app_iff; right; rewrite F3; apply in_seq;
           assert (k < length bnds)%nat by (apply nth_error_Some; congruence); lia
          |rewrite F1, nth_error_app2 by (unfold nvars; lia);
           unfold nvars; replace (length (gvars m) + k - length (gvars m))%nat with k by lia;
           apply map_nth_error; auto].
  - destruct IHhistory as (I & G1 & G2).
    apply addLConstr_inv in H0. destruct H0 as (E & _ & K & _). subst m'.
    assert (K' : Forall (fun p => known m (snd p) = true) (combine (concat cs) (concat vs))).
    { apply Forall_forall. intros [a v] Hp. apply in_combine_r in Hp.
      rewrite forallb_forall in K. simpl. auto. }
    split; [apply tinv_push_row; auto|].
    destruct (push_row_same (combine (concat cs) (concat vs)) s r m) as [P1 P2].
    destruct (push_row_fields (combine (concat cs) (concat vs)) s r m) as (P3 & P4 & _).
    split.
    + intros sg G. apply tfeas_push_row; auto. destruct G as [V G]. rewrite P4 in G.
      rewrite P3 in V. apply Forall_app in G. destruct G as [Ga Gb]. inversion Gb; subst.
      split; auto. apply G1. split; auto.
    + intros S sg T Z. apply tfeas_push_row in T; auto. destruct T as [T Rw].
      assert (G : gfeas m sg).
      { apply G2; auto. intros i v Hi Hv. apply Z; [rewrite P2; auto|rewrite P3; auto]. }
      destruct G as [V G]. split; [rewrite P3; auto|]. rewrite P4. apply Forall_app. auto.
  - destruct IHhistory as (I & G1 & G2). unfold addMConstr.
    destruct (push_rows_torch (hcats As) (concat xs) s b m I H0) as (J1 & J2 & J3 & J4 & J5).
    split; auto. split.
    + intros sg [V G]. apply J5. apply J5 in G. destruct G as [Ga Gb]. split; auto.
      apply G1. split; auto. rewrite J4 in V. auto.
    + intros S sg T Z. apply J5 in T. destruct T as [T Rw].
      assert (G : gfeas m sg).
      { apply G2; auto. intros i v Hi Hv. apply Z; [rewrite J3; auto|rewrite J4; auto]. }
      destruct G as [V G]. split; [rewrite J4; auto|]. apply J5. auto.
  - destruct IHhistory as (I & G1 & G2).
    destruct (tinv_same m (set_var_bound vs lo up m)) as [T1 T2]; auto.
    { apply nvars_set_var_bound. }
    split; auto. split.
    + intros sg [V G]. apply T2. apply G1. split; auto.
      intros i v Hv. assert (L : (i < nvars (set_var_bound vs lo up m))%nat).
      { rewrite nvars_set_var_bound. apply nth_error_Some. congruence. }
      apply nth_error_Some in L.
      destruct (nth_error (gvars (set_var_bound vs lo up m)) i) as [v'|] eqn:E'; [|congruence].
      assert (E'' := E'). apply set_bounds_nth in E''. destruct E'' as (v0 & A & B & _).
      rewrite Hv in A. injection A as A; subst v0. apply B. apply (V i); auto.
    + intros S sg T Z. apply T2 in T. specialize (H0 S).
      assert (G : gfeas m sg).
      { apply G2; auto. intros i v Hi Hv.
        assert (L : (i < nvars (set_var_bound vs lo up m))%nat).
        { rewrite nvars_set_var_bound. apply nth_error_Some. congruence. }
        apply nth_error_Some in L.
        destruct (nth_error (gvars (set_var_bound vs lo up m)) i) as [v'|] eqn:E'; [|congruence].
        assert (E'' := E'). apply set_bounds_nth in E''. destruct E'' as (v0 & A & B & _).
        rewrite Hv in A. injection A as A; subst v0. apply B. apply (Z i); auto. }
      destruct G as [V G]. split; auto. intros i v Hv.
      destruct (in_dec Nat.eq_dec i vs) as [Hi|Hi].
      * apply Z; auto. change (In i (zeta_ m)). rewrite Forall_forall in H0. auto.
      * assert (E' := Hv). apply set_bounds_nth in E'. destruct E' as (v0 & A & _ & B).
        rewrite (B Hi). apply (V i); auto.
  - destruct IHhistory as (I & G1 & G2). unfold setObjective in H0.
    destruct (negb (Nat.eqb (length cs) (length vs))); [discriminate|].
    destruct (nodupb (filter (known m) (concat vs))); [|discriminate].
    injection H0 as H0.
    destruct (tinv_same m m') as [T1 T2]; try (subst m'; reflexivity).
    split; auto. split.
    + intros sg G. apply T2, G1. subst m'. exact G.
    + intros S sg T Z. apply T2 in T. subst m'. apply (G2 S sg T). exact Z.
Qed.

Lemma upd_var_id : forall i f l, (forall g, f g = g) -> upd_var i f l = l.
Proof.
  intros i f l H. unfold upd_var. destruct (nth_error l i) eqn:E; auto.
  rewrite H. revert i E. induction l; destruct i; simpl; intros E; try discriminate.
  - injection E as E; subst; auto.
  - f_equal. apply IHl. auto.
Qed.
Lemma set_var_bound_none : forall vs m, set_var_bound vs None None m = m.
Proof.
  intros vs m. unfold set_var_bound.
  assert (E : forall k gv, set_bounds_from k vs None None gv = gv).
  { induction vs; simpl; intros; auto. rewrite upd_var_id; auto. }
  rewrite E. destruct m; auto.
Qed.

Lemma known_set_var_bound : forall vs lo up m v, known (set_var_bound vs lo up m) v = known m v.
Proof. intros. reflexivity. Qed.
Lemma known_push_rows : forall A vs s b m v, known (push_rows A vs s b m) v = known m v.
Proof.
  induction A; destruct b; simpl; intros; auto. rewrite IHA. apply known_push_row.
Qed.

Definition allk (m : mip) (l : list nat) : Prop := Forall (fun v => known m v = true) l.

Lemma allk_pairs : forall m A vs, allk m vs -> allk m (concat (map snd (some_pair A vs))).
Proof.
  intros m A vs H. destruct A; simpl; [|constructor]. rewrite app_nil_r. auto.
Qed.

Lemma allk_addVars : forall b vt m m' ids l, addVars b vt m = (m', ids) -> allk m l ->
  allk m' l.
Proof.
  intros b vt m m' ids l E H. eapply Forall_impl; [|exact H]. intros v.
  apply (addVars_known _ _ _ _ _ _ E).
Qed.

(** One block of rows added by add_mixed_integer_linear_constraints. *)
Lemma history_block : forall strict m blocks s b, history strict m ->
  allk m (concat (map snd blocks)) -> history strict (add_block blocks s b m).
Proof. intros. unfold add_block. apply h_mconstr; auto. Qed.
Lemma allk_block : forall m blocks s b l, allk m l -> allk (add_block blocks s b m) l.
Proof.
  intros. unfold add_block, addMConstr, allk in *. eapply Forall_impl; [|exact H].
  intros v Hv. rewrite known_push_rows. auto.
Qed.

Lemma some_mconcat : forall (a b c : list (mat * list nat)),
  concat (map snd (a ++ b ++ c)) = concat (map snd a) ++ concat (map snd b) ++ concat (map snd c).
Proof. intros. rewrite !map_app, !concat_app. auto. Qed.

Lemma history_mic : forall strict c iv ov bin vt m m' sl bi,
  history strict m -> allk m iv -> allk m (match ov with Some l => l | None => [] end) ->
  allk m (match bin with GivenBinary l => l | NewBinary => [] end) ->
  (strict = true -> input_lo c = None /\ input_up c = None /\
                    slack_lo c = None /\ slack_up c = None /\ vt <> VCont) ->
  add_mic c iv ov bin vt m = (m', sl, bi) ->
  history strict m'.
Proof.
  intros strict c iv ov bin vt m m' sl bi H Ki Ko Kb S E. unfold add_mic in E.
  assert (H1 : history strict (set_var_bound iv (input_lo c) (input_up c) m)).
  { destruct strict.
    - destruct (S eq_refl) as (S1 & S2 & _). rewrite S1, S2, set_var_bound_none. auto.
    - apply h_bound; auto. discriminate. }
  set (m1 := set_var_bound iv (input_lo c) (input_up c) m) in *.
  assert (K1 : allk m1 iv /\ allk m1 (match ov with Some l => l | None => [] end) /\
               allk m1 (match bin with GivenBinary l => l | NewBinary => [] end)) by auto.
  clearbody m1.
  assert (S2 : exists m2 slack, match slack_size c with
      | 0%nat => (m1, [])
      | S _ => let '(m, s) := addVars (repeat (NInf, PInf) (slack_size c)) VCont m1 in
           (set_var_bound s (slack_lo c) (slack_up c) m, s) end = (m2, slack) /\
      history strict m2 /\ allk m2 slack /\ allk m2 iv /\
      allk m2 (match ov with Some l => l | None => [] end) /\
      allk m2 (match bin with GivenBinary l => l | NewBinary => [] end)).
  { destruct (slack_size c) eqn:Es.
    - exists m1, []. split; auto. split; auto. split; [constructor|]. tauto.
    - destruct (addVars (repeat (NInf, PInf) (Datatypes.S n)) VCont m1) as [ma s] eqn:Ea.
      exists (set_var_bound s (slack_lo c) (slack_up c) ma), s. split; auto.
      assert (Ha : history strict ma).
      { replace ma with (fst (addVars (repeat (NInf, PInf) (Datatypes.S n)) VCont m1)) by (rewrite Ea; auto).
        apply h_vars; auto. intros _ _. apply Forall_forall. intros b Hb.
        apply repeat_spec in Hb. subst b. simpl. auto. }
      split.
      { destruct strict.
        - destruct (S eq_refl) as (_ & _ & S3 & S4 & _). rewrite S3, S4, set_var_bound_none. auto.
        - apply h_bound; auto. discriminate. }
      split.
      { apply Forall_forall. intros v Hv. rewrite known_set_var_bound.
        eapply addVars_known_new; eauto. }
      destruct K1 as (Ka & Kb' & Kc).
      split; [|split]; eapply (allk_addVars _ _ _ _ _ _ Ea); auto. }
  destruct S2 as (m2 & slack & E2 & H2 & Ks & K2a & K2b & K2c).
  assert (E' : (let '(m, slack0) := (m2, slack) in
    let '(m0, binary) := match binary_size c with
      | 0%nat => (m, [])
      | S _ => match bin with
        | NewBinary => let '(m0, b) := addVars (repeat (Fin 0, Fin 1) (binary_size c)) vt m in
            (set_var_bound b (binary_lo c) (binary_up c) m0, b)
        | GivenBinary l => (m, l) end end in
    let m3 := match rhs_in c with
           | Some ((_ :: _) as rhs) =>
               add_block (some_pair (Ain_input c) iv ++ some_pair (Ain_slack c) slack0
                          ++ some_pair (Ain_binary c) binary) SLe rhs m0
           | _ => m0 end in
    let m4 := match rhs_eq c with
           | Some ((_ :: _) as rhs) =>
               add_block (some_pair (Aeq_input c) iv ++ some_pair (Aeq_slack c) slack0
                          ++ some_pair (Aeq_binary c) binary) SEq rhs m3
           | _ => m3 end in
    let m5 := match ov with
           | None => m4
           | Some out => add_block ((eyek (length out) (-1), out)
                          :: some_pair (Aout_input c) iv ++ some_pair (Aout_slack c) slack0
                          ++ some_pair (Aout_binary c) binary) SEq
                 (match Cout c with Some k => vneg k | None => zeros (length out) end) m4
           end in (m5, slack0, binary)) = (m', sl, bi)).
  { rewrite <- E. clear E. destruct (slack_size c).
    - injection E2 as X1 X2. rewrite <- X1, <- X2. destruct (binary_size c); reflexivity.
    - destruct (addVars (repeat (NInf, PInf) (Datatypes.S n)) VCont m1) as [ma s].
      injection E2 as X1 X2. rewrite <- X1, <- X2. destruct (binary_size c); reflexivity. }
  clear E E2. cbv beta iota in E'.
  assert (S3 : exists m3 binary, match binary_size c with
      | 0%nat => (m2, [])
      | S _ => match bin with
        | NewBinary => let '(m0, b) := addVars (repeat (Fin 0, Fin 1) (binary_size c)) vt m2 in
            (set_var_bound b (binary_lo c) (binary_up c) m0, b)
        | GivenBinary l => (m2, l) end end = (m3, binary) /\
      history strict m3 /\ allk m3 slack /\ allk m3 iv /\
      allk m3 (match ov with Some l => l | None => [] end) /\ allk m3 binary).
  { destruct (binary_size c) eqn:Es.
    - exists m2, []. repeat (split; auto). constructor.
    - destruct bin as [|l].
      + destruct (addVars (repeat (Fin 0, Fin 1) (Datatypes.S n)) vt m2) as [ma s] eqn:Ea.
        exists (set_var_bound s (binary_lo c) (binary_up c) ma), s. split; auto.
        assert (Ha : history strict ma).
        { replace ma with (fst (addVars (repeat (Fin 0, Fin 1) (Datatypes.S n)) vt m2)) by (rewrite Ea; auto).
          apply h_vars; auto. intros _ _. apply Forall_forall. intros b Hb.
          apply repeat_spec in Hb. subst b. simpl. lra. }
        destruct (history_torch _ _ H2) as (I2 & _).
        destruct (addVars_torch _ _ _ _ _ Ea I2) as (_ & _ & J3 & _).
        split.
        { apply h_bound; auto. intros St. destruct (S St) as (_ & _ & _ & _ & Nv).
          apply Forall_forall. intros v Hv. rewrite J3. apply in_app_iff. right.
          destruct vt; congruence. }
        split; [eapply (allk_addVars _ _ _ _ _ _ Ea); auto|].
        split; [eapply (allk_addVars _ _ _ _ _ _ Ea); auto|].
        split; [eapply (allk_addVars _ _ _ _ _ _ Ea); auto|].
        apply Forall_forall. intros v Hv. rewrite known_set_var_bound.
        eapply addVars_known_new; eauto.
      + exists m2, l. repeat (split; auto). }
  destruct S3 as (m3 & binary & E3 & H3 & K3s & K3i & K3o & K3b).
  rewrite E3 in E'. cbv beta iota zeta in E'. clear E3.
  assert (Bl : forall mm A B C s rhs, history strict mm -> allk mm iv -> allk mm slack ->
     allk mm binary ->
     history strict (add_block (some_pair A iv ++ some_pair B slack ++ some_pair C binary) s rhs mm)).
  { intros mm A B C s rhs Hm A1 A2 A3. apply history_block; auto.
    rewrite some_mconcat. apply Forall_app. split; [apply allk_pairs; auto|].
    apply Forall_app. split; apply allk_pairs; auto. }
  set (m4 := match rhs_in c with Some ((_ :: _) as rhs) => _ | _ => m3 end) in E'.
  assert (H4 : history strict m4 /\ allk m4 iv /\ allk m4 slack /\ allk m4 binary /\
     allk m4 (match ov with Some l => l | None => [] end)).
  { subst m4. destruct (rhs_in c) as [[|x r]|]; auto 10.
    split; [apply Bl; auto|]. repeat split; apply allk_block; auto. }
  clearbody m4. destruct H4 as (H4 & K4i & K4s & K4b & K4o).
  set (m5 := match rhs_eq c with Some ((_ :: _) as rhs) => _ | _ => m4 end) in E'.
  assert (H5 : history strict m5 /\ allk m5 iv /\ allk m5 slack /\ allk m5 binary /\
     allk m5 (match ov with Some l => l | None => [] end)).
  { subst m5. destruct (rhs_eq c) as [[|x r]|]; auto 10.
    split; [apply Bl; auto|]. repeat split; apply allk_block; auto. }
  clearbody m5. destruct H5 as (H5 & K5i & K5s & K5b & K5o).
  injection E' as E1 E2 E3. subst m'. destruct ov as [out|]; auto.
  apply history_block; auto. cbn [map snd concat]. apply Forall_app. split; auto.
  rewrite some_mconcat. apply Forall_app. split; [apply allk_pairs; auto|].
  apply Forall_app. split; apply allk_pairs; auto.
Qed.

(** ** Witnesses *)

Lemma torch_exact : forall m sg, history true m ->
  (gfeas m sg <-> tfeas m sg /\ zeta_ok m sg).
Proof.
  intros m sg H. destruct (history_torch _ _ H) as (_ & A & B). split.
  - intros G. split; auto. intros i v _ Hv. apply G; auto.
  - intros [T Z]. auto.
Qed.
Lemma torch_sound : forall m sg, history false m -> gfeas m sg -> tfeas m sg.
Proof. intros m sg H. destruct (history_torch _ _ H) as (_ & A & _). auto. Qed.

(** One free variable whose bound is tightened afterwards. *)
Definition late_bound : mip :=
  set_var_bound [0%nat] (Some [Fin 0]) None (fst (addVars [(NInf, PInf)] VCont init_mip)).
Lemma torch_bound_refuted : exists m sg, history false m /\
  tfeas m sg /\ zeta_ok m sg /\ ~ gfeas m sg.
Proof.
  assert (H0 : history true (fst (addVars [(NInf, PInf)] VCont init_mip))).
  { apply h_vars; [constructor|]. intros _ _. constructor; simpl; auto. }
  assert (H0' : history false (fst (addVars [(NInf, PInf)] VCont init_mip))).
  { apply h_vars; [constructor|]. discriminate. }
  exists late_bound, (fun _ => -1).
  split; [apply h_bound; auto; discriminate|].
  split; [|split].
  - unfold tfeas, late_bound. cbn. split; constructor.
  - intros i v Hi. simpl in Hi. tauto.
  - intros [G _]. specialize (G 0%nat (mkVar false (Fin 0) PInf) eq_refl).
    destruct G as (_ & G & _). simpl in G. lra.
Qed.
(** One variable created with lb > ub: the Gurobi model is infeasible, the
    torch copy is not. *)
Lemma torch_empty_refuted : exists m sg, history false m /\
  m = fst (addVars [(Fin 1, Fin 0)] VCont init_mip) /\
  tfeas m sg /\ (forall sg', ~ gfeas m sg').
Proof.
  exists (fst (addVars [(Fin 1, Fin 0)] VCont init_mip)), (fun _ => 0).
  assert (E1 : Rltb 1 0 = false) by (apply Rltb_false; lra).
  assert (E2 : Reqb 1 0 = false) by (apply Reqb_false; lra).
  split; [apply h_vars; [constructor|discriminate]|]. split; auto. split.
  - unfold tfeas, addVars. cbn -[Rltb Reqb]. rewrite E1, E2. cbn. split; constructor.
  - intros sg' [G _]. unfold addVars in G. cbn -[Rltb Reqb] in G. rewrite E1, E2 in G.
    specialize (G 0%nat (mkVar false (Fin 1) (Fin 0)) eq_refl).
    destruct G as (_ & G1 & G2). simpl in G1, G2. lra.
Qed.

(** A program with a bounded continuous variable, a binary and one row. *)
Definition small_mip : mip :=
  push_row [(1, 0%nat); (-2, 1%nat)] SLe 3
    (fst (addVars [(Fin 0, Fin 1)] VBin (fst (addVars [(Fin (-2), Fin 3)] VCont init_mip)))).
Lemma small_history : history true small_mip /\ gfeas small_mip (fun _ => 1).
Proof.
  assert (F : bnd_fine (Fin (-2), Fin 3)) by (simpl; lra).
  assert (E1 : Rltb (-2) 3 = true) by (apply Rltb_true; lra).
  assert (E2 : Reqb (-2) 3 = false) by (apply Reqb_false; lra).
  set (m := fst (addVars [(Fin 0, Fin 1)] VBin (fst (addVars [(Fin (-2), Fin 3)] VCont init_mip)))).
  assert (H : history true m).
  { apply h_vars; [|discriminate]. apply h_vars; [constructor|]. intros _ _. auto. }
  split.
  - apply (h_lconstr true [[1; -2]] [[0; 1]%nat] SLe 3 m); auto.
    unfold m, addVars, addLConstr. cbn -[Rltb Reqb]. rewrite E1, E2. cbn. reflexivity.
  - assert (G : gfeas m (fun _ => 1)).
    { split.
      - unfold m, addVars. cbn -[Rltb Reqb]. rewrite E1, E2. cbn.
        intros [|[|i]] v Hv; simpl in Hv; try (destruct i; discriminate);
          injection Hv as Hv; subst v; unfold var_ok; simpl.
        + split; [discriminate|]. split; lra.
        + split; [intros _; right; auto|]. split; lra.
      - unfold m, addVars. cbn -[Rltb Reqb]. rewrite E1, E2. constructor. }
    unfold small_mip. fold m. apply gfeas_push_row. split; auto.
    unfold row_ok, eval_terms. cbn. lra.
Qed.
