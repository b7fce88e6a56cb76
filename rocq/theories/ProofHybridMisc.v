(** Cost-to-go samples and the partition of the state space. *)

Require Import Reals List Bool Lia Lra.
Require Import Verif.Vec Verif.VecFacts Verif.ModelHybrid Verif.SpecHybrid
  Verif.SpecCore Verif.ProofGrad Verif.ProofHybrid Verif.ProofHybrid2.
Import ListNotations.
Open Scope R_scope.

(** ** Cost to go *)

Lemma step_forward_unfold : forall h x m i, find_mode h x [] = Some i ->
  nth_error (h_modes h) i = Some m -> step_forward h x [] None = Some (mode_step m x []).
Proof. intros. unfold step_forward. rewrite H, H0. auto. Qed.

Lemma simulate_spec : forall h cost g k x acc r, simulate_cost h cost g k x acc = Some r ->
  exists new, r = rev (map (fun y => (y, cost y)) new) ++ acc /\ run h (x :: new) /\
    (length new <= k)%nat /\
    (forall i, (i < length new)%nat -> g (nth i (x :: new) []) = false) /\
    ((length new < k)%nat -> g (nth (length new) (x :: new) []) = true).
Proof.
  intros h cost g. induction k as [|k IH]; intros x acc r H; simpl in H.
  - injection H as <-. exists []. simpl. split; auto. split; [intros i Hi; simpl in Hi; lia|].
    split; auto. split; intros; lia.
  - destruct (g x) eqn:G.
    + injection H as <-. exists []. simpl. split; auto. split; [intros i Hi; simpl in Hi; lia|].
      split; [lia|]. split; [intros; lia|auto].
    + destruct (find_mode h x []) as [i0|] eqn:F; [|discriminate].
      destruct (nth_error (h_modes h) i0) as [m|] eqn:N; [|discriminate].
      destruct (IH _ _ _ H) as (new & -> & R1 & R2 & R3 & R4).
      exists (mode_step m x [] :: new). split.
      { cbn [map rev]. rewrite <- app_assoc. auto. }
      split.
      { intros i Hi. destruct i as [|i].
        - cbn [nth]. eapply step_forward_unfold; eauto.
        - change (nth (S i) (x :: mode_step m x [] :: new) []) with (nth i (mode_step m x [] :: new) []).
          change (nth (S (S i)) (x :: mode_step m x [] :: new) [])
            with (nth (S i) (mode_step m x [] :: new) []).
          apply R1. simpl in *. lia. }
      split; [simpl; lia|]. split.
      * intros i Hi. destruct i as [|i]; [auto|]. simpl in Hi.
        change (nth (S i) (x :: mode_step m x [] :: new) []) with (nth i (mode_step m x [] :: new) []).
        apply R3. lia.
      * intros Hl. simpl in Hl.
        change (nth (length (mode_step m x [] :: new)) (x :: mode_step m x [] :: new) [])
          with (nth (length new) (mode_step m x [] :: new) []).
        apply R4. lia.
Qed.

Lemma simulate_none : forall h cost g k x acc, simulate_cost h cost g k x acc = None ->
  exists xs, run h (x :: xs) /\ (length xs < k)%nat /\
    step_forward h (nth (length xs) (x :: xs) []) [] None = None.
Proof.
  intros h cost g. induction k as [|k IH]; intros x acc H; simpl in H; [discriminate|].
  destruct (g x) eqn:G; [discriminate|].
  destruct (find_mode h x []) as [i0|] eqn:F.
  - destruct (nth_error (h_modes h) i0) as [m|] eqn:N.
    + destruct (IH _ _ H) as (xs & R1 & R2 & R3). exists (mode_step m x [] :: xs).
      split.
      { intros i Hi. destruct i as [|i].
        - cbn [nth]. eapply step_forward_unfold; eauto.
        - apply (R1 i). simpl in *. lia. }
      split; [simpl; lia|]. exact R3.
    + exists []. split; [intros i Hi; simpl in Hi; lia|]. split; [simpl; lia|].
      cbn [nth length]. unfold step_forward. rewrite F, N. auto.
  - exists []. split; [intros i Hi; simpl in Hi; lia|]. split; [simpl; lia|].
    cbn [nth length]. unfold step_forward. rewrite F. auto.
Qed.

Lemma fold_vsum : forall l a, fold_left Rplus l a = a + vsum l.
Proof. induction l; intros; simpl; [ring|]. rewrite IHl. ring. Qed.

Lemma running_length : forall l s, length (running s l) = length l.
Proof. induction l; intros; simpl; auto. Qed.

Lemma running_suffix : forall l s total i, total = s + vsum l -> (i < length l)%nat ->
  nth i (map2 (fun c cs => total - cs + c) l (running s l)) 0 = vsum (skipn i l).
Proof.
  induction l as [|c l IH]; intros s total i H Hi; simpl in Hi; [lia|].
  cbn [running map2]. destruct i as [|i]; cbn [nth skipn].
  - simpl in H. simpl. lra.
  - apply IH; [simpl in H; lra|lia].
Qed.

Theorem cost_to_go_spec : forall h cost g T x0 total xs costs,
  cost_to_go h cost g T x0 = Some (total, xs, costs) ->
  nth 0 xs [] = x0 /\ run h xs /\ (1 <= length xs <= S T)%nat /\
  length costs = length xs /\
  (forall i, (i < length xs)%nat -> nth i costs 0 = vsum (map cost (skipn i xs))) /\
  total = vsum (map cost xs) /\
  (forall i, (S i < length xs)%nat -> g (nth i xs []) = false) /\
  ((length xs <= T)%nat -> g (nth (length xs - 1) xs []) = true).
Proof.
  intros h cost g T x0 total xs costs H. unfold cost_to_go in H.
  destruct (simulate_cost h cost g T x0 [(x0, cost x0)]) as [acc|] eqn:E; [|discriminate].
  destruct (simulate_spec _ _ _ _ _ _ _ E) as (new & -> & R1 & R2 & R3 & R4).
  assert (Ev : rev (rev (map (fun y => (y, cost y)) new) ++ [(x0, cost x0)])
               = map (fun y => (y, cost y)) (x0 :: new)).
  { rewrite rev_app_distr, rev_involutive. auto. }
  rewrite Ev in H. rewrite !map_map in H.
  assert (E1 : map (fun y => snd (y, cost y)) (x0 :: new) = map cost (x0 :: new))
    by (apply map_ext; auto).
  assert (E2 : map (fun y => fst (y, cost y)) (x0 :: new) = x0 :: new).
  { rewrite <- (map_id (x0 :: new)) at 2. apply map_ext; auto. }
  rewrite E1, E2 in H. cbv zeta in H.
  remember (map cost (x0 :: new)) as st0 eqn:Es.
  assert (Et : fold_left Rplus (tl st0) (cost x0) = vsum st0).
  { rewrite fold_vsum, Es. simpl. auto. }
  rewrite Et in H. 
  apply Some_inj in H. apply pair_equal_spec in H. destruct H as [H <-].
  apply pair_equal_spec in H. destruct H as [<- <-].
  assert (Ls : length st0 = length (x0 :: new)) by (rewrite Es; apply map_length).
  split; auto. split; auto. split; [simpl; lia|]. split.
  { rewrite map2_length, running_length, Ls. lia. }
  split.
  { intros i Hi. rewrite running_suffix; [|lra|rewrite Ls; auto].
    rewrite Es. rewrite skipn_map. auto. }
  split; [rewrite Es; auto|]. split.
  - intros i Hi. apply R3. simpl in Hi. lia.
  - intros Hl. simpl in Hl. replace (length (x0 :: new) - 1)%nat with (length new) by (cbn [length]; lia).
    apply R4. lia.
Qed.

Theorem cost_to_go_none : forall h cost g T x0, cost_to_go h cost g T x0 = None ->
  exists xs, nth 0 xs [] = x0 /\ run h xs /\ (1 <= length xs <= T)%nat /\
    step_forward h (nth (length xs - 1) xs []) [] None = None.
Proof.
  intros h cost g T x0 H. unfold cost_to_go in H.
  destruct (simulate_cost h cost g T x0 [(x0, cost x0)]) as [acc|] eqn:E; [discriminate|].
  destruct (simulate_none _ _ _ _ _ _ E) as (xs & R1 & R2 & R3).
  unfold vec in *. exists (x0 :: xs). split; auto. split; auto. split; [simpl; lia|].
  replace (length (x0 :: xs) - 1)%nat with (length xs) by (cbn [length]; lia). auto.
Qed.

(** Every sample pair comes from the run of one of the starting states. *)
Theorem samples_spec : forall h cost g T pr x0s pairs,
  cost_to_go_samples h cost g T pr x0s = Some pairs ->
  (forall y c, In (y, c) pairs <->
     exists x0 total xs costs i, In x0 x0s /\
       cost_to_go h cost g T x0 = Some (total, xs, costs) /\
       (i < length xs)%nat /\ y = nth i xs [] /\ c = nth i costs 0 /\ pr y = false).
Proof.
  intros h cost g T pr. induction x0s as [|x0 x0s IH]; intros pairs H y c; simpl in H.
  - injection H as <-. split; [intros []|]. intros (x0 & t & xs & cs & i & [] & _).
  - destruct (cost_to_go h cost g T x0) as [[[t xs] cs]|] eqn:E; [|discriminate].
    destruct (cost_to_go_samples h cost g T pr x0s) as [ps|] eqn:E2; [|discriminate].
    injection H as <-. rewrite in_app_iff, (IH ps eq_refl). rewrite filter_In. simpl.
    destruct (cost_to_go_spec _ _ _ _ _ _ _ _ E) as (_ & _ & _ & Lc & _).
    split.
    + intros [[A B]|(x1 & t1 & xs1 & cs1 & i & A & B)].
      * apply In_nth with (d := ([], 0)) in A. destruct A as (i & Hi & A).
        rewrite combine_nth in A by auto. rewrite combine_length, Lc, Nat.min_id in Hi.
        injection A as A1 A2. exists x0, t, xs, cs, i.
        rewrite negb_true_iff in B.
        split; [left; auto|]. split; auto.
      * exists x1, t1, xs1, cs1, i. split; [right; auto|auto].
    + intros (x1 & t1 & xs1 & cs1 & i & [->|A] & B & C & -> & -> & D).
      * left. rewrite E in B. injection B as <- <- <-. split; [|rewrite D; auto].
        rewrite <- combine_nth by auto. apply nth_In. rewrite combine_length, Lc. lia.
      * right. exists x1, t1, xs1, cs1, i. auto 10.
Qed.

(** ** Partition *)

Lemma linspace_0 : forall lo up nb, linspace lo up nb 0 = lo.
Proof. intros. unfold linspace. simpl. ring. Qed.
Lemma linspace_n : forall lo up nb, (0 < nb)%nat -> linspace lo up nb nb = up.
Proof.
  intros lo up nb H. unfold linspace. assert (INR nb <> 0) by (apply not_0_INR; lia).
  field. auto.
Qed.
Lemma linspace_S : forall lo up nb k,
  linspace lo up nb (S k) = linspace lo up nb k + (up - lo) / INR nb.
Proof. intros. unfold linspace. rewrite S_INR. ring. Qed.
Lemma step_nonneg : forall lo up nb, lo <= up -> (0 < nb)%nat -> 0 <= (up - lo) / INR nb.
Proof.
  intros lo up nb H1 H2. apply Rmult_le_pos; [lra|].
  apply Rlt_le, Rinv_0_lt_compat. apply (lt_INR 0). auto.
Qed.
Lemma linspace_mono : forall lo up nb k j, lo <= up -> (0 < nb)%nat -> (k <= j)%nat ->
  linspace lo up nb k <= linspace lo up nb j.
Proof.
  intros lo up nb k j H1 H2 H3. induction H3; [lra|]. rewrite linspace_S.
  pose proof (step_nonneg lo up nb H1 H2). lra.
Qed.

Lemma find_cell : forall (f : nat -> R) p n, (0 < n)%nat -> f 0%nat <= p <= f n ->
  exists k, (k < n)%nat /\ f k <= p <= f (S k).
Proof.
  intros f p n. induction n as [|n IH]; intros Hn [H1 H2]; [lia|].
  destruct (Rle_dec (f n) p) as [Q|Q]; [exists n; split; [lia|lra]|].
  destruct n as [|n]; [lra|].
  destruct IH as (k & K1 & K2); [lia|lra|]. exists k. split; [lia|auto].
Qed.

Lemma cell_in : forall lo up delta nb k, lo <= up -> 0 <= delta -> (k < nb)%nat ->
  lo <= cell_lo lo up delta nb k /\
  cell_lo lo up delta nb k <= cell_mid lo up nb k <= cell_up lo up delta nb k /\
  cell_up lo up delta nb k <= up.
Proof.
  intros lo up delta nb k H1 H2 H3. assert (H0 : (0 < nb)%nat) by lia.
  assert (Ks := step_nonneg lo up nb H1 H0).
  assert (D : 0 <= delta * (up - lo) / INR nb).
  { unfold Rdiv. rewrite Rmult_assoc. apply Rmult_le_pos; auto. }
  assert (A1 := linspace_mono lo up nb 0 k H1 H0 ltac:(lia)). rewrite linspace_0 in A1.
  assert (A2 := linspace_mono lo up nb (S k) nb H1 H0 ltac:(lia)). rewrite linspace_n in A2 by auto.
  assert (A3 := linspace_mono lo up nb k (S k) H1 H0 ltac:(lia)).
  unfold cell_lo, cell_up, cell_mid, clamp_box, Rmin, Rmax.
  generalize dependent (delta * (up - lo) / INR nb).
  generalize dependent (linspace lo up nb k). generalize dependent (linspace lo up nb (S k)).
  intros a A2 b A1 A3 d D.
  repeat match goal with
         | |- context [Rle_dec ?a ?b] =>
             lazymatch a with context [Rle_dec _ _] => fail | _ => destruct (Rle_dec a b) end
         end; lra.
Qed.

Lemma cell_cover : forall lo up delta nb p, lo <= up -> 0 <= delta -> (0 < nb)%nat ->
  lo <= p <= up ->
  exists k, (k < nb)%nat /\ cell_lo lo up delta nb k <= p <= cell_up lo up delta nb k.
Proof.
  intros lo up delta nb p H1 H2 H0 H.
  destruct (find_cell (linspace lo up nb) p nb H0) as (k & K1 & K2).
  { rewrite linspace_0, linspace_n by auto. auto. }
  exists k. split; auto. assert (Ks := step_nonneg lo up nb H1 H0).
  assert (D : 0 <= delta * (up - lo) / INR nb).
  { unfold Rdiv. rewrite Rmult_assoc. apply Rmult_le_pos; auto. }
  unfold cell_lo, cell_up, clamp_box, Rmin, Rmax.
  repeat match goal with
         | |- context [Rle_dec ?a ?b] =>
             lazymatch a with context [Rle_dec _ _] => fail | _ => destruct (Rle_dec a b) end
         end; lra.
Qed.

(** Without overlap different cells of an axis meet at most in an end point. *)
Lemma cells_disjoint : forall lo up nb j k, lo <= up -> (j < k < nb)%nat ->
  cell_up lo up 0 nb j <= cell_lo lo up 0 nb k.
Proof.
  intros lo up nb j k H1 H2. assert (H0 : (0 < nb)%nat) by lia.
  assert (A3 := linspace_mono lo up nb (S j) k H1 H0 ltac:(lia)).
  assert (A1 := linspace_mono lo up nb 0 (S j) H1 H0 ltac:(lia)). rewrite linspace_0 in A1.
  assert (A2 := linspace_mono lo up nb k nb H1 H0 ltac:(lia)). rewrite linspace_n in A2 by auto.
  assert (E : 0 * (up - lo) / INR nb = 0) by (unfold Rdiv; ring).
  unfold cell_lo, cell_up, clamp_box, Rmin, Rmax. rewrite E.
  repeat match goal with
         | |- context [Rle_dec ?a ?b] =>
             lazymatch a with context [Rle_dec _ _] => fail | _ => destruct (Rle_dec a b) end
         end; lra.
Qed.

Lemma index_grid_spec : forall nbs idx,
  In idx (index_grid nbs) <-> Forall2 (fun k nb => (k < nb)%nat) idx nbs.
Proof.
  induction nbs as [|nb nbs IH]; intros idx; simpl.
  - split; [intros [<-|[]]; constructor|]. intros H. inversion H. auto.
  - rewrite in_flat_map. split.
    + intros (k & Hk & Hi). apply in_seq in Hk. apply in_map_iff in Hi.
      destruct Hi as (r & <- & Hr). constructor; [lia|]. apply IH; auto.
    + intros H. inversion H; subst. exists x. split; [apply in_seq; lia|].
      apply in_map_iff. exists l. split; auto. apply IH; auto.
Qed.
Lemma nodup_app : forall {A} (a b : list A), NoDup a -> NoDup b ->
  (forall x, In x a -> ~ In x b) -> NoDup (a ++ b).
Proof.
  intros A a b Ha Hb D. induction Ha as [|x a Hx Ha IH]; simpl; auto. constructor.
  - rewrite in_app_iff. intros [Q|Q]; [auto|]. apply (D x); auto. left; auto.
  - apply IH. intros y Hy. apply D. right; auto.
Qed.
Lemma index_grid_nodup : forall nbs, NoDup (index_grid nbs).
Proof.
  induction nbs as [|nb nbs IH]; simpl; [constructor; [intros []|constructor]|].
  assert (Q : forall l, NoDup l ->
    NoDup (flat_map (fun k => map (cons k) (index_grid nbs)) l)).
  { induction 1 as [|k l Hk Hl IHl]; simpl; [constructor|].
    apply nodup_app; auto.
    - apply FinFun.Injective_map_NoDup; auto. intros a b Hab. congruence.
    - intros x Hx Hy. apply in_map_iff in Hx. destruct Hx as (r & <- & _).
      apply in_flat_map in Hy. destruct Hy as (k' & Hk' & Hy). apply in_map_iff in Hy.
      destruct Hy as (r' & E & _). injection E as -> ->. auto. }
  apply Q. apply seq_NoDup.
Qed.
Lemma index_grid_length : forall nbs, length (index_grid nbs) = fold_right Nat.mul 1%nat nbs.
Proof.
  induction nbs as [|nb nbs IH]; auto. cbn [index_grid fold_right]. rewrite <- IH.
  assert (Q : forall l, length (flat_map (fun k => map (cons k) (index_grid nbs)) l)
              = (length l * length (index_grid nbs))%nat).
  { induction l; auto. cbn [flat_map length]. rewrite app_length, map_length, IHl. lia. }
  rewrite Q, seq_length. auto.
Qed.

Lemma in_partition : forall axes c, In c (partition axes) <->
  exists idx, Forall2 (fun k (a : axis) => (k < snd a)%nat) idx axes /\
    c = (let cells := map2 axis_cell axes idx in
         (map (fun c => fst (fst c)) cells, map (fun c => snd (fst c)) cells, map snd cells)).
Proof.
  intros axes c. unfold partition. rewrite in_map_iff. split.
  - intros (idx & <- & H). apply index_grid_spec in H. exists idx. split; auto.
    revert H. generalize idx. clear. induction axes as [|a axes IH]; intros idx H; inversion H; subst;
      constructor; auto.
  - intros (idx & H & ->). exists idx. split; auto. apply index_grid_spec.
    clear - H. induction H; simpl; constructor; auto.
Qed.

Theorem partition_inside : forall axes s cl cu, Forall axis_ok axes ->
  In (s, cl, cu) (partition axes) ->
  vle (axes_lo axes) cl /\ vle cl s /\ vle s cu /\ vle cu (axes_up axes).
Proof.
  intros axes s cl cu Ok H. apply in_partition in H. destruct H as (idx & F & E).
  cbv zeta in E. injection E as -> -> ->. unfold vle, axes_lo, axes_up.
  induction F as [|k a idx axes Hk F IH]; simpl; auto.
  assert (Oa : axis_ok a) by (inversion Ok; auto).
  destruct IH as (I1 & I2 & I3 & I4); [inversion Ok; auto|].
  destruct a as [[[lo up] delta] nb]. simpl in Oa, Hk. destruct Oa as (O1 & O2 & O3).
  destruct (cell_in lo up delta nb k O1 O2 Hk) as (C1 & [C2 C3] & C4).
  cbn [axis_cell fst snd]. split; [|split; [|split]]; constructor; auto.
Qed.

Theorem partition_cover : forall axes p, Forall axis_ok axes ->
  in_box (axes_lo axes) (axes_up axes) p ->
  exists s cl cu, In (s, cl, cu) (partition axes) /\ in_box cl cu p.
Proof.
  intros axes p Ok [B1 B2].
  assert (Q : exists idx, Forall2 (fun k (a : axis) => (k < snd a)%nat) idx axes /\
     Forall2 Rle (map (fun c => snd (fst c)) (map2 axis_cell axes idx)) p /\
     Forall2 Rle p (map snd (map2 axis_cell axes idx))).
  { unfold vle, axes_lo, axes_up in *. revert p B1 B2.
    induction axes as [|a axes IH]; intros p B1 B2; inversion B1; subst; inversion B2; subst.
    - exists []. simpl. auto.
    - destruct (IH ltac:(inversion Ok; auto) _ H3 H6) as (idx & I1 & I2 & I3).
      assert (Oa : axis_ok a) by (inversion Ok; auto).
      destruct a as [[[lo up] delta] nb]. simpl in Oa, H1, H4. destruct Oa as (O1 & O2 & O3).
      destruct (cell_cover lo up delta nb y O1 O2 O3 (conj H1 H4)) as (k & K1 & K2 & K3).
      exists (k :: idx). cbn [map2 axis_cell map fst snd]. split; [constructor; auto|].
      split; constructor; auto. }
  destruct Q as (idx & Q1 & Q2 & Q3).
  exists (map (fun c => fst (fst c)) (map2 axis_cell axes idx)),
         (map (fun c => snd (fst c)) (map2 axis_cell axes idx)), (map snd (map2 axis_cell axes idx)).
  split; [apply in_partition; exists idx; auto|split; auto].
Qed.

Theorem partition_count : forall axes,
  length (partition axes) = fold_right Nat.mul 1%nat (map snd axes).
Proof. intros. unfold partition. rewrite map_length. apply index_grid_length. Qed.
