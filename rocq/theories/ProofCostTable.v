(** Proofs about the table of costs. *)

Require Import List Bool Arith Lia.
Require Import Verif.ModelMisc Verif.ProofMisc Verif.ModelCostTable Verif.SpecCostTable.
Import ListNotations.
Local Open Scope nat_scope.

Section Table.
Variable C : Type.
Variables (n m n0 n1 n2 : nat).
Variable solve : nat -> nat -> option C.
Notation num := (number n m).
Notation grid := (on_grid n m).

Lemma coords_num : forall a, grid a -> coords n m (num a) = a /\ num a < ns n m.
Proof.
  intros [[a0 a1] a2] (H0 & H1 & H2). cbn in H0, H1, H2. destruct (grid_right n m a0 a1 a2 H1 H2) as [E L].
  unfold coords, number, p0, p1, p2. cbn [fst snd]. unfold threeD_to_flat in E, L. rewrite E. split; [reflexivity|]. exact (L H0).
Qed.
Lemma num_inj : forall a b, grid a -> grid b -> num a = num b -> a = b.
Proof. intros a b Ha Hb Q. destruct (coords_num a Ha) as [<- _], (coords_num b Hb) as [<- _]. rewrite Q. auto. Qed.
Lemma num_onto : forall i, i < ns n m -> grid (coords n m i) /\ num (coords n m i) = i.
Proof.
  intros i Hi. unfold coords. destruct (flat_to_3d n m i) as [t|] eqn:Q.
  - destruct (grid_left n m i t Q) as (E & H1 & H2). assert (H0 := grid_range n m i t Q Hi).
    split; [split; [exact H0|split; auto]|exact E].
  - exfalso. unfold flat_to_3d in Q. destruct (Nat.eqb_spec (m * n) 0); [|discriminate]. unfold ns in Hi.
    destruct m, n; cbn in *; lia.
Qed.
Definition near_pos (a b : pos) : bool :=
  negb (Nat.eqb (num a) (num b))
  && (Nat.leb (p0 a) (p0 b + n0) && Nat.leb (p0 b) (p0 a + n0))
  && (Nat.leb (p1 a) (p1 b + n1) && Nat.leb (p1 b) (p1 a + n1))
  && (Nat.leb (p2 a) (p2 b + n2) && Nat.leb (p2 b) (p2 a + n2)).
Lemma near_num : forall a b, grid a -> grid b -> near n m n0 n1 n2 (num a) (num b) = near_pos a b.
Proof.
  intros a b Ha Hb. unfold near. rewrite (proj1 (coords_num a Ha)), (proj1 (coords_num b Hb)).
  destruct a as [[a0 a1] a2], b as [[b0 b1] b2]. reflexivity.
Qed.
Lemma near_ok : forall a b, grid a -> grid b -> near n m n0 n1 n2 (num a) (num b) = true <-> reachable n0 n1 n2 a b.
Proof.
  intros a b Ha Hb. rewrite near_num by auto. unfold near_pos, reachable, within.
  rewrite !andb_true_iff, negb_true_iff, !Nat.leb_le, Nat.eqb_neq. split.
  - intros (((A & B) & D) & E). split; [intros ->; auto|tauto].
  - intros (A & B & D & E). repeat split; try tauto. intros Q. apply A. apply num_inj; auto.
Qed.
Lemma block_near : forall i j, in_block n m n0 n1 n2 i j = near n m n0 n1 n2 i j.
Proof.
  intros i j. unfold in_block, near. destruct (coords n m i) as [[i0 i1] i2], (coords n m j) as [[j0 j1] j2].
  assert (G : forall a b k, Nat.leb a (b + k) && Nat.ltb (b + k - a) (2 * k + 1) = Nat.leb a (b + k) && Nat.leb b (a + k)).
  { intros a b k. destruct (Nat.leb_spec a (b + k)); [|reflexivity]. cbn [andb].
    destruct (Nat.ltb_spec (b + k - a) (2 * k + 1)), (Nat.leb_spec b (a + k)); auto; lia. }
  rewrite !G. reflexivity.
Qed.

(** A loop that writes a value that only depends on the place. *)
Definition writes (f : nat -> nat -> option (option C)) (r : table C) (p : nat * nat) : table C :=
  match f (fst p) (snd p) with Some v => put C (fst p) (snd p) v r | None => r end.
Lemma writes_out : forall f l r i j, ~ In (i, j) l \/ f i j = None -> fold_left (writes f) l r i j = r i j.
Proof.
  intros f l. induction l as [|[a b] l IH]; intros r i j H; auto. cbn [fold_left]. rewrite IH.
  2: { destruct H as [H|H]; auto. left. intros Q. apply H. right. auto. }
  unfold writes. cbn [fst snd]. destruct (f a b) as [v|] eqn:E; auto. unfold put.
  destruct (Nat.eqb_spec i a) as [->|]; auto. destruct (Nat.eqb_spec j b) as [->|]; auto. cbn.
  destruct H as [H|H]; [destruct H; left; auto|congruence].
Qed.
Lemma writes_in : forall f l r i j v, In (i, j) l -> f i j = Some v -> fold_left (writes f) l r i j = v.
Proof.
  intros f l. induction l as [|[a b] l IH]; intros r i j v H E; [destruct H|]. cbn [fold_left].
  destruct (in_dec (fun x y : nat * nat => ltac:(decide equality; apply Nat.eq_dec)) (i, j) l) as [I|N].
  - apply IH; auto.
  - rewrite writes_out by auto. destruct H as [[= -> ->]|H]; [|tauto]. unfold writes. cbn [fst snd]. rewrite E.
    unfold put. rewrite !Nat.eqb_refl. reflexivity.
Qed.
Lemma fold_ext : forall (A B : Type) (f g : A -> B -> A) l a, (forall x y, f x y = g x y) -> fold_left f l a = fold_left g l a.
Proof. intros A B f g l. induction l as [|b l IH]; intros a H; cbn; auto. rewrite H. auto. Qed.

(** ** The complete table *)
Definition own (i j : nat) : option (option C) :=
  if near n m n0 n1 n2 i j then match solve i j with Some c => Some (Some c) | None => None end else None.
Lemma complete_at : forall i j, i < ns n m -> j < ns n m ->
  calculate_r_complete n m n0 n1 n2 solve i j = if near n m n0 n1 n2 i j then solve i j else None.
Proof.
  intros i j Hi Hj. unfold calculate_r_complete.
  rewrite (fold_ext _ _ _ (writes own)).
  2: { intros r [a b]. unfold complete_step, writes, own. cbn [fst snd].
       destruct (near n m n0 n1 n2 a b); auto. destruct (solve a b); auto. }
  assert (I : In (i, j) (list_prod (seq 0 (ns n m)) (seq 0 (ns n m)))) by (apply in_prod; apply in_seq; lia).
  destruct (own i j) as [v|] eqn:E.
  - rewrite (writes_in own _ _ i j v I E). unfold own in E. destruct (near n m n0 n1 n2 i j); [|discriminate].
    destruct (solve i j); congruence.
  - rewrite writes_out by auto. unfold own in E. destruct (near n m n0 n1 n2 i j); auto.
    destruct (solve i j); congruence.
Qed.

(** ** The duplicated one *)
Notation ix := (index n m n0 n1 n2).
Notation nr := (near n m n0 n1 n2).
Definition at3 (b : block C) (k : nat * nat * nat) : option C := b (fst (fst k)) (snd (fst k)) (snd k).
Lemma put3_at : forall k v b q, at3 (put3 C (fst (fst k)) (snd (fst k)) (snd k) v b) q
  = if (Nat.eqb (fst (fst q)) (fst (fst k)) && Nat.eqb (snd (fst q)) (snd (fst k)) && Nat.eqb (snd q) (snd k))%bool
    then v else at3 b q.
Proof. reflexivity. Qed.
Lemma corner_step_eq : forall s i j, corner_step C n m n0 n1 n2 solve s (i, j) =
  if nr i j then match solve i j with
    | Some c => (put C i j (Some c) (fst s), put3 C (fst (fst (ix i j))) (snd (fst (ix i j))) (snd (ix i j)) (Some c) (snd s))
    | None => s end else s.
Proof.
  intros s i j. unfold corner_step. destruct (nr i j); auto. destruct (solve i j); auto.
  destruct (ix i j) as [[k0 k1] k2]. reflexivity.
Qed.
Lemma corner_block : forall l r q,
  let b := snd (fold_left (corner_step C n m n0 n1 n2 solve) l (r, fun _ _ _ => None)) in
  (exists i j c, In (i, j) l /\ nr i j = true /\ ix i j = q /\ solve i j = Some c /\ at3 b q = Some c) \/
  (at3 b q = None /\ forall i j, In (i, j) l -> nr i j = true -> ix i j = q -> solve i j = None).
Proof.
  intros l r q. induction l as [|[i j] l IH] using rev_ind; [right; split; [reflexivity|intros ? ? []]|].
  rewrite fold_left_app. cbn [fold_left]. rewrite corner_step_eq.
  set (s := fold_left (corner_step C n m n0 n1 n2 solve) l (r, fun _ _ _ => None)) in *. cbv zeta in IH |- *.
  assert (Keep : (nr i j = false \/ solve i j = None \/ ix i j <> q) -> forall b', at3 b' q = at3 (snd s) q ->
    (exists i0 j0 c, In (i0, j0) (l ++ [(i, j)]) /\ nr i0 j0 = true /\ ix i0 j0 = q /\ solve i0 j0 = Some c /\ at3 b' q = Some c) \/
    (at3 b' q = None /\ forall i0 j0, In (i0, j0) (l ++ [(i, j)]) -> nr i0 j0 = true -> ix i0 j0 = q -> solve i0 j0 = None)).
  { intros K b' Eb. destruct IH as [(i' & j' & c & I & A & B & D & F)|[F G]].
    - left. exists i', j', c. rewrite Eb. split; [apply in_or_app; auto|auto].
    - right. rewrite Eb. split; auto. intros i' j' I A B. apply in_app_or in I. destruct I as [I|[[= <- <-]|[]]]; [auto|].
      destruct K as [K|[K|K]]; congruence. }
  destruct (nr i j) eqn:N; [|apply Keep; auto]. destruct (solve i j) as [c|] eqn:S; [|apply Keep; auto].
  cbn [snd]. destruct (ix i j) as [[k0 k1] k2] eqn:Q. cbn [fst snd].
  assert (E := put3_at (k0, k1, k2) (Some c) (snd s) q). cbn [fst snd] in E.
  destruct q as [[q0 q1] q2]. cbn [fst snd] in E.
  destruct (Nat.eqb_spec q0 k0) as [->|X0]; [destruct (Nat.eqb_spec q1 k1) as [->|X1]; [destruct (Nat.eqb_spec q2 k2) as [->|X2]|]|]; cbn [andb] in E.
  - left. exists i, j, c. split; [apply in_or_app; right; left; auto|]. auto.
  - apply Keep; auto. right. right. congruence.
  - apply Keep; auto. right. right. congruence.
  - apply Keep; auto. right. right. congruence.
Qed.
Lemma corner_table : forall l r b i j, nr i j = false \/ ~ In i (map fst l) ->
  fst (fold_left (corner_step C n m n0 n1 n2 solve) l (r, b)) i j = r i j.
Proof.
  intros l. induction l as [|[a c] l IH]; intros r b i j H; auto. cbn [fold_left]. rewrite corner_step_eq.
  assert (H' : nr i j = false \/ ~ In i (map fst l)) by (cbn in H; tauto).
  destruct (nr a c) eqn:N; [|auto]. destruct (solve a c); [|auto]. rewrite IH by auto. unfold put. cbn [fst].
  destruct (Nat.eqb_spec i a) as [->|]; auto. destruct (Nat.eqb_spec j c) as [->|]; auto.
  destruct H as [H|H]; [congruence|destruct H; left; auto].
Qed.
Definition fills (b : block C) (i j : nat) : option (option C) := if nr i j then Some (at3 b (ix i j)) else None.
Lemma fill_eq : forall b l r, fold_left (fill_step C n m n0 n1 n2 b) l r = fold_left (writes (fills b)) l r.
Proof.
  intros b l r. apply fold_ext. intros x [i j]. unfold fill_step, writes, fills. cbn [fst snd]. rewrite block_near.
  destruct (nr i j); auto. destruct (ix i j) as [[k0 k1] k2]. reflexivity.
Qed.
Lemma layer_in : forall a i2, grid a -> i2 < m -> In (num a) (layer n m i2) <-> p2 a = i2.
Proof.
  intros a i2 Ha L. unfold layer. rewrite in_map_iff. split.
  - intros ([x y] & E & I). apply in_prod_iff in I. rewrite !in_seq in I. cbn [fst snd] in E.
    change (num (x, y, i2) = num a) in E. apply num_inj in E; [subst; auto| |auto]. repeat split; cbn; lia.
  - intros <-. exists (p0 a, p1 a). destruct Ha as (A0 & A1 & A2). split; [reflexivity|]. apply in_prod; apply in_seq; lia.
Qed.
Lemma corner_in : forall i i2, i2 < m -> 0 < n -> In i (corners n m i2) ->
  exists a, grid a /\ i = num a /\ p2 a = i2.
Proof.
  intros i i2 L Hn H. unfold corners in H. apply in_map_iff in H. destruct H as ([x y] & <- & H).
  exists (x, y, i2). split; [|split; reflexivity]. cbn in H.
  destruct H as [[= <- <-]|[[= <- <-]|[[= <- <-]|[[= <- <-]|[]]]]]; repeat split; cbn; lia.
Qed.

(** One heading. *)
Lemma step_other : forall r a j i2, grid a -> i2 < m -> p2 a <> i2 ->
  duplicate_step C n m n0 n1 n2 solve r i2 (num a) j = r (num a) j.
Proof.
  intros r a j i2 Ha L Hd. assert (Hn : 0 < n) by (destruct Ha; lia). unfold duplicate_step.
  destruct (fold_left _ _ _) as [r1 b] eqn:E.
  assert (E1 : r1 = fst (fold_left (corner_step C n m n0 n1 n2 solve) (list_prod (corners n m i2) (seq 0 (ns n m)))
    (r, fun _ _ _ => None))) by (rewrite E; reflexivity).
  rewrite fill_eq, writes_out.
  - rewrite E1. apply corner_table. right. intros I. apply in_map_iff in I. destruct I as ([x y] & Ex & I). cbn in Ex. subst x.
    apply in_prod_iff in I. destruct (corner_in _ _ L Hn (proj1 I)) as (c & Gc & Ec & Pc).
    apply num_inj in Ec; auto. subst. auto.
  - left. intros I. apply in_prod_iff in I. apply Hd. apply (layer_in a i2 Ha L). tauto.
Qed.
Lemma step_far : forall r i j i2, nr i j = false -> duplicate_step C n m n0 n1 n2 solve r i2 i j = r i j.
Proof.
  intros r i j i2 N. unfold duplicate_step. destruct (fold_left _ _ _) as [r1 b] eqn:E.
  assert (E1 : r1 = fst (fold_left (corner_step C n m n0 n1 n2 solve) (list_prod (corners n m i2) (seq 0 (ns n m)))
    (r, fun _ _ _ => None))) by (rewrite E; reflexivity).
  rewrite fill_eq, writes_out by (right; unfold fills; rewrite N; auto). rewrite E1. apply corner_table. auto.
Qed.
Hypothesis U : uniform n m solve.
Lemma ix_num : forall a b, grid a -> grid b -> ix (num a) (num b) = (p0 b + n0 - p0 a, p1 b + n1 - p1 a, p2 b + n2 - p2 a).
Proof.
  intros a b Ha Hb. unfold index. rewrite (proj1 (coords_num a Ha)), (proj1 (coords_num b Hb)).
  destruct a as [[a0 a1] a2], b as [[b0 b1] b2]. reflexivity.
Qed.
Lemma from_corner : forall a b, n <> 0 -> a < n -> b < n ->
  exists c d, (c = 0 \/ c = n - 1) /\ c < n /\ d < n /\ a + d = c + b.
Proof.
  intros a b Hn Ha Hb. destruct (Nat.le_gt_cases a b).
  - exists 0, (b - a). lia.
  - exists (n - 1), (n - 1 + b - a). lia.
Qed.
Lemma step_own : forall r a b, grid a -> grid b -> nr (num a) (num b) = true ->
  duplicate_step C n m n0 n1 n2 solve r (p2 a) (num a) (num b) = solve (num a) (num b).
Proof.
  intros r a b Ha Hb N. assert (L : p2 a < m) by (destruct Ha; tauto). assert (Hn : 0 < n) by (destruct Ha; lia).
  unfold duplicate_step. destruct (fold_left _ _ _) as [r1 bl] eqn:E.
  assert (CB := corner_block (list_prod (corners n m (p2 a)) (seq 0 (ns n m))) r (ix (num a) (num b))).
  rewrite E in CB. cbn [snd] in CB. cbv zeta in CB.
  rewrite fill_eq. rewrite (writes_in (fills bl) _ _ (num a) (num b) (at3 bl (ix (num a) (num b)))).
  2: { apply in_prod; [apply layer_in; auto|apply in_seq; destruct (coords_num b Hb); lia]. }
  2: { unfold fills. rewrite N. reflexivity. }
  assert (R := proj1 (near_ok a b Ha Hb) N). destruct R as (Dab & (W0 & W0') & (W1 & W1') & (W2 & W2')).
  destruct CB as [(i & j & c & I & Nij & Q & S & F)|[F G]].
  - rewrite F. apply in_prod_iff in I. destruct I as [I1 I2]. apply in_seq in I2.
    destruct (corner_in _ _ L Hn I1) as (x & Gx & -> & Px).
    destruct (num_onto j) as [Gy Ey]; [lia|]. set (y := coords n m j) in *. clearbody y. subst j.
    rewrite <- S. apply U; auto.
    assert (Rx := proj1 (near_ok x y Gx Gy) Nij). destruct Rx as (_ & (V0 & V0') & (V1 & V1') & (V2 & V2')).
    rewrite !ix_num in Q by auto. injection Q as Q0 Q1 Q2. unfold same_move. lia.
  - rewrite F. symmetry.
    destruct (from_corner (p0 a) (p0 b)) as (c0 & d0 & K0 & C0 & D0 & M0); [lia|destruct Ha; tauto|destruct Hb; tauto|].
    destruct (from_corner (p1 a) (p1 b)) as (c1 & d1 & K1 & C1 & D1 & M1); [lia|destruct Ha; tauto|destruct Hb; tauto|].
    set (x := (c0, c1, p2 a) : pos). set (y := (d0, d1, p2 b) : pos).
    assert (Gx : grid x) by (repeat split; cbn; auto).
    assert (Gy : grid y) by (destruct Hb as (_ & _ & B2); repeat split; cbn; auto).
    rewrite (U a b x y Ha Hb Gx Gy) by (unfold same_move, x, y, p0, p1, p2 in *; cbn [fst snd] in *; lia).
    apply G.
    + apply in_prod; [|apply in_seq; destruct (coords_num y Gy); lia]. unfold corners. apply in_map_iff.
      exists (c0, c1). split; [reflexivity|]. cbn [In].
      destruct K0 as [->| ->], K1 as [->| ->]; auto.
    + apply near_ok; auto. split.
      * intros Exy. apply Dab. unfold x, y in Exy. injection Exy as X0 X1 X2.
        destruct a as [[a0 a1] a2], b as [[b0 b1] b2]. unfold p0, p1, p2 in *. cbn [fst snd] in *.
        assert (a0 = b0) by lia. assert (a1 = b1) by lia. congruence.
      * unfold within, x, y, p0, p1, p2 in *. cbn [fst snd] in *. lia.
    + rewrite !ix_num by auto. unfold x, y, p0, p1, p2 in *. cbn [fst snd] in *.
      replace (d0 + n0 - c0) with (fst (fst b) + n0 - fst (fst a)) by lia.
      replace (d1 + n1 - c1) with (snd (fst b) + n1 - snd (fst a)) by lia. reflexivity.
Qed.

Lemma duplicate_far : forall l r i j, nr i j = false -> fold_left (duplicate_step C n m n0 n1 n2 solve) l r i j = r i j.
Proof. intros l. induction l as [|i2 l IH]; intros r i j N; auto. cbn [fold_left]. rewrite IH, step_far; auto. Qed.
Lemma duplicate_after : forall l r a j, grid a -> (forall i2, In i2 l -> i2 < m /\ i2 <> p2 a) ->
  fold_left (duplicate_step C n m n0 n1 n2 solve) l r (num a) j = r (num a) j.
Proof.
  intros l. induction l as [|i2 l IH]; intros r a j Ha H; auto. cbn [fold_left].
  destruct (H i2 (or_introl eq_refl)) as [H1 H2].
  rewrite IH; auto; [|intros; apply H; right; auto]. apply step_other; auto.
Qed.
Lemma duplicate_at : forall a b, grid a -> grid b ->
  calculate_r_duplicate n m n0 n1 n2 solve (num a) (num b) = if nr (num a) (num b) then solve (num a) (num b) else None.
Proof.
  intros a b Ha Hb. unfold calculate_r_duplicate. destruct (nr (num a) (num b)) eqn:N; [|rewrite duplicate_far; auto].
  assert (L : p2 a < m) by (destruct Ha; tauto).
  replace (seq 0 m) with (seq 0 (p2 a) ++ p2 a :: seq (S (p2 a)) (m - S (p2 a))).
  - rewrite fold_left_app. cbn [fold_left]. rewrite duplicate_after; auto.
    + apply step_own; auto.
    + intros i2 I. apply in_seq in I. lia.
  - change (p2 a :: seq (S (p2 a)) (m - S (p2 a))) with (seq (p2 a) (S (m - S (p2 a)))).
    etransitivity; [symmetry; exact (seq_app (p2 a) (S (m - S (p2 a))) 0)|]. f_equal. lia.
Qed.
Lemma same_table : forall a b, grid a -> grid b ->
  calculate_r_duplicate n m n0 n1 n2 solve (num a) (num b) = calculate_r_complete n m n0 n1 n2 solve (num a) (num b).
Proof.
  intros a b Ha Hb. rewrite duplicate_at by auto. rewrite complete_at by (apply coords_num; auto). reflexivity.
Qed.
End Table.

Lemma complete_ok : forall (C : Type) n m n0 n1 n2 (solve : nat -> nat -> option C) a b, on_grid n m a -> on_grid n m b ->
  (reachable n0 n1 n2 a b ->
     calculate_r_complete n m n0 n1 n2 solve (number n m a) (number n m b) = solve (number n m a) (number n m b)) /\
  (~ reachable n0 n1 n2 a b -> calculate_r_complete n m n0 n1 n2 solve (number n m a) (number n m b) = None).
Proof.
  intros C n m n0 n1 n2 solve a b Ha Hb.
  rewrite complete_at by (apply coords_num; auto).
  assert (K := near_ok C n m n0 n1 n2 solve a b Ha Hb). destruct (near n m n0 n1 n2 _ _); split; intros R; auto.
  - destruct R. apply K. auto.
  - apply K in R. discriminate.
Qed.

(** Without uniform costs, not even the corners keep their own. *)
Definition ex_solve (i j : nat) : option nat := Some (10 * i + j).
Lemma corner_overwritten :
  calculate_r_duplicate 2 1 1 1 0 ex_solve (number 2 1 (0, 0, 0)) (number 2 1 (0, 1, 0)) = Some 23 /\
  ex_solve (number 2 1 (0, 0, 0)) (number 2 1 (0, 1, 0)) = Some 1.
Proof. split; reflexivity. Qed.
Lemma ex_uniform : uniform 2 2 (fun i j => Some (3 + 2 * (j mod 2) + i mod 2)) /\
  reachable 1 1 1 (0, 0, 0) (1, 0, 1) /\
  calculate_r_duplicate 2 2 1 1 1 (fun i j => Some (3 + 2 * (j mod 2) + i mod 2))
    (number 2 2 (0, 0, 0)) (number 2 2 (1, 0, 1)) = Some 5.
Proof.
  split; [|split; [split; [discriminate|unfold within, p0, p1, p2; cbn; lia]|reflexivity]].
  intros a b a' b' Ga Gb Ga' Gb' (H1 & H2 & _).
  assert (M : forall c : pos, on_grid 2 2 c -> number 2 2 c mod 2 = p2 c).
  { intros c (_ & _ & Hc). unfold number. replace (2 * 2 * p0 c + 2 * p1 c + p2 c) with (p2 c + (2 * p0 c + p1 c) * 2) by lia.
    rewrite Nat.mod_add by lia. apply Nat.mod_small. auto. }
  rewrite !M by auto. rewrite H1, H2. reflexivity.
Qed.
