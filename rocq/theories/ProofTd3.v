(** The replay buffer. *)

Require Import Reals List Lia Lra Bool Arith Permutation.
Require Import Verif.Vec Verif.ModelValueIter Verif.ModelTd3 Verif.SpecTd3.
Import ListNotations.
Open Scope R_scope.

Lemma set_nth_map : forall {A B : Type} (f : A -> B) i v l, set_nth i (f v) (map f l) = option_map (map f) (set_nth i v l).
Proof.
  intros A B f i v l. unfold set_nth. rewrite map_length. destruct (Nat.ltb i (length l)); [|reflexivity].
  cbn [option_map]. rewrite map_app. cbn [map]. rewrite firstn_map, skipn_map. reflexivity.
Qed.

Lemma skipn_skipn : forall {A : Type} n m (l : list A), skipn n (skipn m l) = skipn (n + m) l.
Proof.
  intros A n m. revert n. induction m as [|m IH]; intros n l; [rewrite Nat.add_0_r; reflexivity|].
  destruct l as [|x l]; [rewrite !skipn_nil; reflexivity|].
  replace (n + S m)%nat with (S (n + m)) by lia. exact (IH n l).
Qed.

(** The five arrays are those of one list of transitions. *)
Definition arrays_of (slots : list transition) (b : replay) : Prop :=
  rb_obs b = map tr_obs slots /\ rb_obs2 b = map tr_obs2 slots /\ rb_act b = map tr_act slots /\
  rb_rew b = map tr_rew slots /\ rb_done b = map tr_done slots.
Lemma store_slots : forall slots b t, arrays_of slots b -> (rb_ptr b < length slots)%nat -> rb_max b <> 0%nat ->
  exists b', store b t = Some b' /\
  arrays_of (firstn (rb_ptr b) slots ++ t :: skipn (S (rb_ptr b)) slots) b' /\
  rb_ptr b' = ((rb_ptr b + 1) mod rb_max b)%nat /\ rb_size b' = min (rb_size b + 1) (rb_max b) /\ rb_max b' = rb_max b.
Proof.
  intros slots b t (A1 & A2 & A3 & A4 & A5) H M. unfold store. rewrite A1, A2, A3, A4, A5, !set_nth_map.
  unfold set_nth. apply Nat.ltb_lt in H. rewrite H. cbn [option_map].
  destruct (Nat.eqb (rb_max b) 0) eqn:E; [apply Nat.eqb_eq in E; lia|].
  eexists. split; [reflexivity|]. repeat split; reflexivity.
Qed.

(** After the transitions ts, in a buffer of size n. *)
Definition holds (n : nat) (ts : list transition) (slots : list transition) (b : replay) : Prop :=
  arrays_of slots b /\ length slots = n /\ rb_max b = n /\ rb_ptr b = (length ts mod n)%nat /\
  rb_size b = min (length ts) n /\
  ((length ts < n)%nat -> firstn (length ts) slots = ts) /\
  ((n <= length ts)%nat -> skipn (rb_ptr b) slots ++ firstn (rb_ptr b) slots = latest n ts).
Lemma holds_store : forall n ts slots b t, (0 < n)%nat -> holds n ts slots b ->
  exists slots' b', store b t = Some b' /\ holds n (ts ++ [t]) slots' b'.
Proof.
  intros n ts slots b t Hn (A & Ls & Mx & Pt & Sz & Few & Many).
  assert (Hp : (rb_ptr b < n)%nat) by (rewrite Pt; apply Nat.mod_upper_bound; lia).
  destruct (store_slots slots b t A ltac:(lia) ltac:(lia)) as (b' & Es & A' & P' & S' & M').
  set (p := rb_ptr b) in *.
  exists (firstn p slots ++ t :: skipn (S p) slots), b'. split; [auto|].
  assert (Lf : length (firstn p slots) = p) by (rewrite firstn_length; lia).
  assert (Lt : length (ts ++ [t]) = S (length ts)) by (rewrite app_length; cbn; lia).
  assert (P2 : rb_ptr b' = (length (ts ++ [t]) mod n)%nat).
  { rewrite P', Mx, Pt, Lt. rewrite Nat.add_mod_idemp_l by lia. f_equal. lia. }
  split; [auto|]. split; [rewrite app_length; cbn [length]; rewrite Lf, skipn_length; lia|].
  split; [lia|]. split; [auto|]. split; [rewrite S', Sz, Mx, Lt; lia|].
  destruct (lt_dec (length ts) n) as [Hk|Hk].
  - assert (Ep : p = length ts) by (rewrite Pt; apply Nat.mod_small; auto).
    assert (F : firstn (length (ts ++ [t])) (firstn p slots ++ t :: skipn (S p) slots) = ts ++ [t]).
    { rewrite Lt, firstn_app, Lf. rewrite (firstn_all2 (firstn p slots)) by lia.
      replace (S (length ts) - p)%nat with 1%nat by lia. cbn [firstn]. rewrite Ep, Few by auto. reflexivity. }
    split; [auto|]. intros Hm. assert (En : n = S (length ts)) by lia.
    assert (P0 : rb_ptr b' = 0%nat) by (rewrite P2, Lt, En; apply Nat.mod_same; lia).
    rewrite P0, skipn_O, firstn_O, app_nil_r. unfold latest. rewrite Lt.
    replace (S (length ts) - n)%nat with 0%nat by lia. rewrite skipn_O.
    etransitivity; [|exact F]. symmetry. apply firstn_all2. rewrite !app_length. cbn [length]. rewrite Lf, skipn_length. lia.
  - split; [lia|]. intros _. specialize (Many ltac:(lia)).
    assert (Hd : exists w, skipn p slots = w :: skipn (S p) slots).
    { destruct (skipn p slots) as [|w B] eqn:Ek.
      - assert (Q := f_equal (@length _) Ek). rewrite skipn_length in Q. cbn in Q. lia.
      - exists w. f_equal. replace (S p) with (1 + p)%nat by lia.
        rewrite <- (skipn_skipn 1 p slots), Ek. reflexivity. }
    destruct Hd as [w Hw]. rewrite Hw in Many. cbn [app] in Many.
    assert (Rot : skipn (rb_ptr b') (firstn p slots ++ t :: skipn (S p) slots) ++ firstn (rb_ptr b') (firstn p slots ++ t :: skipn (S p) slots)
                  = skipn (S p) slots ++ firstn p slots ++ [t]).
    { destruct (Nat.eq_dec (S p) n) as [En|Ne].
      - assert (P0 : rb_ptr b' = 0%nat) by (rewrite P', Mx; replace (p + 1)%nat with n by lia; apply Nat.mod_same; lia).
        rewrite P0, skipn_O, firstn_O, app_nil_r. rewrite skipn_all2 by lia. reflexivity.
      - assert (P1 : rb_ptr b' = S p) by (rewrite P', Mx, Nat.mod_small by lia; lia).
        rewrite P1, skipn_app, firstn_app, Lf. rewrite (skipn_all2 (firstn p slots)), (firstn_all2 (firstn p slots)) by lia.
        replace (S p - p)%nat with 1%nat by lia. cbn [skipn firstn app]. reflexivity. }
    rewrite Rot. rewrite app_assoc.
    assert (Tl : skipn (S p) slots ++ firstn p slots = skipn 1 (latest n ts)) by (rewrite <- Many; reflexivity).
    rewrite Tl. unfold latest. rewrite skipn_skipn, Lt.
    rewrite (skipn_app (S (length ts) - n)).
    replace (1 + (length ts - n))%nat with (S (length ts) - n)%nat by lia.
    replace (S (length ts) - n - length ts)%nat with 0%nat by lia. reflexivity.
Qed.
Lemma stores_app : forall ts b b' t, stores b ts = Some b' -> stores b (ts ++ [t]) = store b' t.
Proof.
  induction ts as [|x ts IH]; intros b b' t E; cbn [stores app] in *.
  - assert (b = b') by congruence. subst. destruct (store b' t); reflexivity.
  - destruct (store b x) as [b1|]; [|discriminate]. apply IH. auto.
Qed.
Definition blank (od ad : nat) : transition := mkTr (zeros od) (zeros ad) 0 (zeros od) false.
Lemma map_rep : forall {A B : Type} (f : A -> B) x n, map f (repeat x n) = repeat (f x) n.
Proof. induction n; cbn; congruence. Qed.
Lemma stores_hold : forall od ad n, (0 < n)%nat -> forall ts,
  exists slots b, stores (new_replay od ad n) ts = Some b /\ holds n ts slots b.
Proof.
  intros od ad n Hn ts. induction ts as [|t ts IH] using rev_ind.
  - exists (repeat (blank od ad) n), (new_replay od ad n). split; [reflexivity|].
    unfold holds, arrays_of, new_replay. cbn [rb_obs rb_obs2 rb_act rb_rew rb_done rb_max rb_ptr rb_size length].
    rewrite !map_rep, repeat_length. repeat split; try reflexivity; try lia.
    rewrite Nat.mod_small; lia.
  - destruct IH as (slots & b & E & H). destruct (holds_store n ts slots b t Hn H) as (slots' & b' & Es & H').
    exists slots', b'. split; [|auto]. rewrite (stores_app _ _ _ _ E). auto.
Qed.

Lemma sampled : forall slots b idxs, arrays_of slots b -> rb_size b <> 0%nat ->
  (forall i, In i idxs -> (i < length slots)%nat) ->
  sample_batch b idxs = Some (map (fun i => nth i slots (blank 0 0)) idxs).
Proof.
  intros slots b idxs (A1 & A2 & A3 & A4 & A5) Hs Hi. unfold sample_batch.
  destruct (Nat.eqb (rb_size b) 0) eqn:E; [apply Nat.eqb_eq in E; lia|]. f_equal. apply map_ext_in. intros i Ii.
  specialize (Hi i Ii). rewrite A1, A2, A3, A4, A5.
  rewrite (nth_indep (map tr_obs slots) [] (tr_obs (blank 0 0))) by (rewrite map_length; auto).
  rewrite (nth_indep (map tr_obs2 slots) [] (tr_obs2 (blank 0 0))) by (rewrite map_length; auto).
  rewrite (nth_indep (map tr_act slots) [] (tr_act (blank 0 0))) by (rewrite map_length; auto).
  change 0 with (tr_rew (blank 0 0)) at 1. change false with (tr_done (blank 0 0)).
  rewrite !map_nth. destruct (nth i slots (blank 0 0)). reflexivity.
Qed.
Lemma map_nth_seq : forall {A : Type} (d : A) l n, (n <= length l)%nat -> map (fun i => nth i l d) (seq 0 n) = firstn n l.
Proof.
  intros A d l. induction l as [|x l IH]; intros n Hn; [destruct n; [reflexivity|cbn in Hn; lia]|].
  destruct n; [reflexivity|]. cbn [seq map nth firstn]. f_equal. rewrite <- seq_shift, map_map. apply IH. cbn in Hn. lia.
Qed.
(** The buffer holds the n most recent transitions. *)
Lemma buffer_latest : forall od ad n ts, (0 < n)%nat -> exists b,
  stores (new_replay od ad n) ts = Some b /\ rb_size b = min (length ts) n /\
  (ts <> [] -> exists l, sample_batch b (seq 0 (rb_size b)) = Some l /\ Permutation l (latest n ts)).
Proof.
  intros od ad n ts Hn. destruct (stores_hold od ad n Hn ts) as (slots & b & E & A & Ls & Mx & Pt & Sz & Few & Many).
  exists b. split; [auto|]. split; [auto|]. intros Ne.
  assert (Lt : (0 < length ts)%nat) by (destruct ts; [congruence|cbn; lia]).
  exists (firstn (rb_size b) slots). split.
  - rewrite (sampled slots b _ A) by (try lia; intros i Hi; apply in_seq in Hi; lia). f_equal. apply map_nth_seq. lia.
  - destruct (lt_dec (length ts) n) as [Hk|Hk].
    + replace (rb_size b) with (length ts) by lia. rewrite Few by auto. unfold latest.
      replace (length ts - n)%nat with 0%nat by lia. reflexivity.
    + rewrite <- Many by lia. replace (rb_size b) with n by lia. rewrite firstn_all2 by lia.
      rewrite <- (firstn_skipn (rb_ptr b) slots) at 1. apply Permutation_app_comm.
Qed.
(** Every batch consists of such transitions. *)
Lemma batch_latest : forall od ad n ts b idxs l, (0 < n)%nat -> stores (new_replay od ad n) ts = Some b ->
  (forall i, In i idxs -> (i < rb_size b)%nat) -> sample_batch b idxs = Some l ->
  length l = length idxs /\ forall t, In t l -> In t (latest n ts).
Proof.
  intros od ad n ts b idxs l Hn E Hi El.
  destruct (stores_hold od ad n Hn ts) as (slots & b1 & E1 & A & Ls & Mx & Pt & Sz & Few & Many).
  assert (b1 = b) by congruence. subst b1.
  destruct (Nat.eq_dec (rb_size b) 0) as [Z|Z].
  { unfold sample_batch in El. rewrite Z in El. discriminate. }
  rewrite (sampled slots b idxs A Z) in El by (intros i Ii; specialize (Hi i Ii); lia).
  assert (Q : map (fun i => nth i slots (blank 0 0)) idxs = l) by congruence. subst l.
  split; [apply map_length|]. intros t Ht. apply in_map_iff in Ht. destruct Ht as (i & <- & Ii). specialize (Hi i Ii).
  destruct (lt_dec (length ts) n) as [Hk|Hk].
  - replace (latest n ts) with ts by (unfold latest; replace (length ts - n)%nat with 0%nat by lia; reflexivity).
    assert (Is : In (nth i slots (blank 0 0)) (firstn (length ts) slots)).
    { rewrite <- (firstn_skipn (length ts) slots) at 1.
      rewrite app_nth1 by (rewrite firstn_length; lia). apply nth_In. rewrite firstn_length. lia. }
    rewrite Few in Is by auto. exact Is.
  - rewrite <- Many by lia. apply in_or_app.
    assert (Is : In (nth i slots (blank 0 0)) slots) by (apply nth_In; lia).
    rewrite <- (firstn_skipn (rb_ptr b) slots) in Is at 2. apply in_app_or in Is. tauto.
Qed.
Lemma empty_sample : forall od ad n idxs, sample_batch (new_replay od ad n) idxs = None.
Proof. reflexivity. Qed.
Lemma zero_buffer : forall od ad t, store (new_replay od ad 0) t = None.
Proof. reflexivity. Qed.
