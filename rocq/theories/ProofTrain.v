(** Proofs about the training loops. *)

Require Import Reals List Bool Arith Lia Lra.
Require Import Verif.Vec Verif.VecFacts Verif.ProofBounds Verif.ModelTrain Verif.SpecTrain.
Import ListNotations.
Open Scope R_scope.

(** ** Sample lists *)

Lemma skipn_app_le : forall {A} n (a b : list A), (n <= length a)%nat -> skipn n (a ++ b) = skipn n a ++ b.
Proof. intros A n a b H. rewrite skipn_app. replace (n - length a)%nat with O by lia. auto. Qed.
Lemma skipn_skipn : forall {A} m n (l : list A), skipn m (skipn n l) = skipn (n + m) l.
Proof.
  intros A m n. induction n as [|n IH]; intros l; auto. destruct l as [|x l]; cbn [skipn Nat.add].
  - rewrite !skipn_nil. auto.
  - apply IH.
Qed.
Lemma last_n_length : forall {A} k (l : list A), length (last_n k l) = Nat.min k (length l).
Proof. intros A k l. unfold last_n. rewrite skipn_length. lia. Qed.
Lemma trim_last : forall {A} k (l : list A), k <> O -> trim k l = last_n k l.
Proof.
  intros A k l H. unfold trim, slice_last, last_n. destruct (Nat.eqb_spec k 0); [lia|].
  destruct (Nat.ltb_spec k (length l)); auto. replace (length l - k)%nat with O by lia. auto.
Qed.
Lemma last_n_app : forall {A} k (a b : list A), last_n k (last_n k a ++ b) = last_n k (a ++ b).
Proof.
  intros A k a b. unfold last_n. rewrite !app_length, skipn_length.
  destruct (le_lt_dec (length a) k) as [H|H].
  - replace (length a - k)%nat with O by lia. rewrite Nat.sub_0_r. cbn [skipn]. auto.
  - rewrite <- (skipn_app_le (length a - k) a b) by lia. rewrite skipn_skipn. f_equal. lia.
Qed.
Lemma last_n_suffix : forall {A} k (l : list A), exists d, l = d ++ last_n k l.
Proof. intros A k l. exists (firstn (length l - k) l). unfold last_n. symmetry. apply firstn_skipn. Qed.
(** A size of 0 keeps everything. *)
Lemma trim_zero : forall {A} (l : list A), trim 0 l = l.
Proof. intros A l. unfold trim, slice_last. destruct (Nat.ltb 0 (length l)); auto. Qed.

Lemma buffer_push_bound : forall {A} max (new old : list A), (length old <= max)%nat ->
  (length new <= max)%nat -> (length (buffer_push max new old) <= max)%nat.
Proof.
  intros A max new old H1 H2. unfold buffer_push. rewrite app_length.
  destruct (Nat.ltb_spec max (length new + length old)); rewrite ?skipn_length; lia.
Qed.
Lemma buffer_push_suffix : forall {A} max (new old : list A),
  exists d, d ++ buffer_push max new old = old ++ new.
Proof.
  intros A max new old. unfold buffer_push. destruct (Nat.ltb max _).
  - exists (firstn (length new) old). rewrite app_assoc, firstn_skipn. auto.
  - exists []. auto.
Qed.
Lemma combine_app : forall {A B} (a a' : list A) (b b' : list B), length a = length b ->
  combine (a ++ a') (b ++ b') = combine a b ++ combine a' b'.
Proof. induction a as [|x a IH]; intros a' [|y b] b' H; try discriminate; auto. cbn. rewrite IH; auto. Qed.
Lemma combine_skipn : forall {A B} n (a : list A) (b : list B),
  combine (skipn n a) (skipn n b) = skipn n (combine a b).
Proof.
  induction n as [|n IH]; intros a b; auto. destruct a as [|x a], b as [|y b]; cbn [skipn combine]; auto.
  - destruct (skipn n a); auto.
Qed.
Lemma buffer_push_aligned : forall {A B} max (d D : list A) (l L : list B),
  length d = length l -> length D = length L ->
  length (buffer_push max d D) = length (buffer_push max l L) /\
  combine (buffer_push max d D) (buffer_push max l L) = buffer_push max (combine d l) (combine D L).
Proof.
  intros A B max d D l L H1 H2. unfold buffer_push.
  rewrite !combine_length, <- H1, <- H2, !Nat.min_id.
  destruct (Nat.ltb max (length d + length D)).
  - split; [rewrite !app_length, !skipn_length; lia|].
    rewrite combine_app by (rewrite !skipn_length; lia). rewrite combine_skipn. auto.
  - split; [rewrite !app_length; lia|]. apply combine_app; auto.
Qed.

(** ** Clustering *)

Lemma select_subseq : forall {A} mask (l : list A), length mask = length l -> subseq (select mask l) l.
Proof.
  induction mask as [|b mask IH]; intros [|x l] H; try discriminate; [constructor|].
  cbn [select]. destruct b; [apply sub_keep|apply sub_skip]; auto.
Qed.
Lemma jumps_length : forall radius l prev, length (jumps radius prev l) = length l.
Proof. induction l as [|x l IH]; intros prev; cbn; auto. Qed.
Lemma select_length : forall {A B} mask (a : list A) (b : list B), length mask = length a ->
  length mask = length b -> length (select mask a) = length (select mask b).
Proof.
  induction mask as [|c mask IH]; intros [|x a] [|y b] Ha Hb; try discriminate; auto.
  cbn [select]. destruct c; cbn [length]; auto.
Qed.


(** The runs that the mask marks; [cur] is the current one. *)
Fixpoint runs (cur : list vec) (mask : list bool) (rest : list vec) : list (list vec) :=
  match mask, rest with
  | b :: mask, x :: rest => if b then cur :: runs [x] mask rest else runs (cur ++ [x]) mask rest
  | _, _ => [cur]
  end.
Lemma runs_cut : forall mask rest cur, length mask = length rest -> cur <> [] ->
  cut_into (runs cur mask rest) (cur ++ rest).
Proof.
  induction mask as [|b mask IH]; intros [|x rest] cur L C; try discriminate.
  - split; [cbn; rewrite !app_nil_r; auto|]. constructor; auto.
  - cbn [runs]. injection L as L. destruct b.
    + destruct (IH rest [x] L ltac:(discriminate)) as [H1 H2]. split; [cbn [concat]; rewrite H1; auto|].
      constructor; auto.
    + replace (cur ++ x :: rest) with ((cur ++ [x]) ++ rest) by (rewrite <- app_assoc; auto).
      apply IH; auto. destruct cur; discriminate.
Qed.
Lemma runs_heads : forall mask rest cur, length mask = length rest -> cur <> [] ->
  map (hd []) (runs cur mask rest) = hd [] cur :: select mask rest.
Proof.
  induction mask as [|b mask IH]; intros [|x rest] cur L C; try discriminate; auto.
  cbn [runs select]. injection L as L. destruct b.
  - cbn [map]. rewrite IH by (auto; discriminate). auto.
  - rewrite IH; auto.
    + destruct cur; [contradiction|]. auto.
    + destruct cur; discriminate.
Qed.
Lemma runs_first : forall mask rest cur, cur <> [] -> exists more rs,
  runs cur mask rest = (cur ++ more) :: rs.
Proof.
  induction mask as [|b mask IH]; intros rest cur C; cbn [runs].
  - exists [], []. rewrite app_nil_r. auto.
  - destruct rest as [|x rest]; [exists [], []; rewrite app_nil_r; auto|]. destruct b.
    + exists [], (runs [x] mask rest). rewrite app_nil_r. auto.
    + destruct (IH rest (cur ++ [x])) as (more & rs & E); [destruct cur; discriminate|].
      exists (x :: more), rs. rewrite E, <- app_assoc. auto.
Qed.
Lemma chained_snoc : forall {A} (P : A -> A -> Prop) l d x, chained P l -> (l <> [] -> P (last l d) x) ->
  chained P (l ++ [x]).
Proof.
  induction l as [|a l IH]; intros d x C H; [exact I|]. destruct l as [|b l].
  - split; [apply H; discriminate|exact I].
  - destruct C as [C1 C2]. split; auto. apply (IH d); auto. intros _. apply H. discriminate.
Qed.
Lemma last_snoc : forall {A} (l : list A) x d, last (l ++ [x]) d = x.
Proof. intros A l x d. apply last_last. Qed.
Lemma runs_close : forall radius rest cur, cur <> [] -> chained (near radius) cur ->
  let rs := runs cur (jumps radius (last cur []) rest) rest in
  Forall (chained (near radius)) rs /\
  chained (fun a b => ~ near radius (last a []) (hd [] b)) rs.
Proof.
  intros radius. induction rest as [|x rest IH]; intros cur C H; cbn [jumps runs]; cbv zeta.
  - split; [constructor; auto|exact I].
  - unfold Rltb. destruct (Rlt_dec (radius * radius) (dist2 x (last cur []))) as [K|K].
    + destruct (IH [x]) as [H1 H2]; [discriminate|exact I|]. cbn [last] in H1, H2.
      split; [constructor; auto|].
      destruct (runs_first (jumps radius x rest) rest [x]) as (more & rs & E); [discriminate|].
      rewrite E in *. cbn [app]. split; auto. unfold near. cbn [hd app]. apply Rlt_not_le. exact K.
    + destruct (IH (cur ++ [x])) as [H1 H2].
      * destruct cur; discriminate.
      * apply chained_snoc with []; auto. intros _. apply Rnot_lt_le. exact K.
      * rewrite last_snoc in H1, H2. split; auto.
Qed.

(** The differences of the cut positions. *)
Fixpoint diffs (prev : nat) (index : list nat) (n : nat) : list nat :=
  match index with [] => [n - prev]%nat | i :: r => (i - prev)%nat :: diffs i r n end.
Lemma runs_lengths : forall mask rest cur s, length mask = length rest -> (length cur <= S s)%nat ->
  map (@length vec) (runs cur mask rest)
  = diffs (S s - length cur) (map S (select mask (seq s (length rest)))) (S s + length rest).
Proof.
  induction mask as [|b mask IH]; intros [|x rest] cur s L C; try discriminate.
  - cbn [runs map select seq diffs length]. f_equal. unfold vec in *. lia.
  - injection L as L. cbn [runs length seq select]. destruct b.
    + cbn [map diffs]. rewrite (IH rest [x] (S s)) by (auto; cbn; lia). f_equal; [lia|].
      cbn [length]. f_equal; lia.
    + rewrite (IH rest (cur ++ [x]) (S s)) by (auto; rewrite app_length; cbn; lia).
      rewrite app_length. cbn [length]. f_equal; lia.
Qed.
Lemma diffs_counts : forall l i n,
  (i - 0)%nat :: diffs i l n
  = [i] ++ map2 Nat.sub l (removelast (i :: l)) ++ [n - last (i :: l) O]%nat.
Proof.
  intros l i n. rewrite Nat.sub_0_r. cbn [app]. f_equal. revert i.
  induction l as [|k l IH]; intros i; auto.
  change (removelast (i :: k :: l)) with (i :: removelast (k :: l)).
  change (last (i :: k :: l) O) with (last (k :: l) O). cbn [map2 diffs app]. f_equal. apply IH.
Qed.

Lemma cluster_ok : forall radius states, states <> [] ->
  let (reps, cnt) := cluster radius states in
  hd [] reps = hd [] states /\ subseq reps states /\
  exists rs, cut_into rs states /\ reps = map (hd []) rs /\
    Forall (chained (near radius)) rs /\
    chained (fun a b => ~ near radius (last a []) (hd [] b)) rs /\
    (length reps <> 2%nat -> cnt = map (@length vec) rs).
Proof.
  intros radius [|s0 rest] Hs; [contradiction|]. cbn [cluster]. cbv zeta.
  set (mask := jumps radius s0 rest). assert (Lm : length mask = length rest) by apply jumps_length.
  replace (length (s0 :: rest) - 1)%nat with (length rest) by (cbn; lia).
  set (index := map S (select mask (seq 0 (length rest)))).
  split; [reflexivity|]. split; [apply sub_keep, select_subseq; auto|].
  exists (runs [s0] mask rest). split; [apply (runs_cut mask rest [s0]); auto; discriminate|].
  split; [symmetry; apply (runs_heads mask rest [s0]); auto; discriminate|].
  destruct (runs_close radius rest [s0]) as [H1 H2]; [discriminate|exact I|].
  cbn [last] in H1, H2. fold mask in H1, H2. split; auto. split; auto.
  assert (Li : length index = length (select mask rest)).
  { unfold index. rewrite map_length. apply select_length; auto. rewrite seq_length. auto. }
  intros H. cbn [length] in H. rewrite <- Li in H.
  rewrite (runs_lengths mask rest [s0] 0 Lm (Nat.le_refl 1)). fold index. cbn [length].
  replace (1 - 1)%nat with O by lia. replace (1 + length rest)%nat with (S (length rest)) by lia.
  clearbody index. destruct index as [|i1 [|i2 l]].
  - cbn. auto.
  - exfalso. cbn in H. lia.
  - change (diffs 0 (i1 :: i2 :: l) (S (length rest)))
      with ((i1 - 0)%nat :: diffs i1 (i2 :: l) (S (length rest))).
    rewrite diffs_counts. change (tl (i1 :: i2 :: l)) with (i2 :: l).
    change (removelast (i1 :: i2 :: l)) with (i1 :: removelast (i2 :: l)). cbn [map2 hd]. reflexivity.
Qed.
Lemma cut_lengths : forall (rs : list (list vec)) l, cut_into rs l ->
  list_sum (map (@length vec) rs) = length l /\ Forall (fun c => (0 < c)%nat) (map (@length vec) rs).
Proof.
  intros rs l [<- F]. induction F as [|r rs H F IH]; [split; [reflexivity|constructor]|]. destruct IH as [H1 H2].
  cbn [map concat]. split.
  - rewrite app_length, <- H1. reflexivity.
  - constructor; auto. destruct r; [contradiction|]. cbn. lia.
Qed.
Lemma cluster_counts : forall radius states, states <> [] ->
  let (reps, cnt) := cluster radius states in
  length reps <> 2%nat ->
  length cnt = length reps /\ list_sum cnt = length states /\ Forall (fun c => (0 < c)%nat) cnt.
Proof.
  intros radius states Hs. assert (H := cluster_ok radius states Hs).
  destruct (cluster radius states) as [reps cnt]. destruct H as (_ & _ & rs & C & E & _ & _ & K).
  intros N. rewrite (K N), E, !map_length. split; auto. apply cut_lengths. auto.
Qed.
Lemma cluster_two : exists radius states, let (reps, cnt) := cluster radius states in
  states = [[0]; [5]; [5]] /\ radius = 1 /\ reps = [[0]; [5]] /\ cnt = [3%nat].
Proof.
  exists 1, [[0]; [5]; [5]]. unfold cluster. cbn [jumps length Nat.sub seq]. unfold Rltb, dist2. cbn [vsub map2 dot].
  destruct (Rlt_dec (1 * 1) ((5 - 0) * (5 - 0) + 0)) as [_|K]; [|exfalso; lra].
  destruct (Rlt_dec (1 * 1) ((5 - 5) * (5 - 5) + 0)) as [K|_]; [exfalso; lra|].
  cbn. auto.
Qed.
