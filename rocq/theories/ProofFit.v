(** Proofs about fitting a network to a data set. *)

Require Import Reals List Bool Arith Lra Lia Permutation.
Require Import Verif.Vec Verif.VecFacts Verif.ModelFit Verif.SpecFit.
Import ListNotations.
Open Scope R_scope.

Lemma nth_error_fetch_all : forall (X : Type) (data : list (X * vec)),
  fetch data (seq 0 (length data)) = data.
Proof.
  intros X data. unfold fetch.
  assert (G : forall pre l : list (X * vec), flat_map (fun i => match nth_error (pre ++ l) i with Some d => [d] | None => [] end)
    (seq (length pre) (length l)) = l).
  { intros pre l. revert pre. induction l as [|a l IH]; intros pre; [reflexivity|].
    cbn [length seq flat_map]. rewrite nth_error_app2 by lia. rewrite Nat.sub_diag. cbn [nth_error app]. f_equal.
    specialize (IH (pre ++ [a])). rewrite app_length in IH. cbn [length] in IH. rewrite Nat.add_1_r in IH.
    rewrite <- app_assoc in IH. exact IH. }
  exact (G [] data).
Qed.
Lemma fetch_app : forall (X : Type) (data : list (X * vec)) a b, fetch data (a ++ b) = fetch data a ++ fetch data b.
Proof. intros. unfold fetch. apply flat_map_app. Qed.
Lemma fetch_perm : forall (X : Type) (data : list (X * vec)) a b, Permutation a b ->
  Permutation (fetch data a) (fetch data b).
Proof.
  intros X data a b H. induction H; cbn; auto.
  - apply Permutation_app_head. auto.
  - rewrite !app_assoc. apply Permutation_app_tail. apply Permutation_app_comm.
  - etransitivity; eauto.
Qed.
Lemma fetch_reorders : forall (X : Type) (data : list (X * vec)) index, reorders (length data) index ->
  Permutation (fetch data index) data.
Proof.
  intros X data index H. etransitivity; [apply fetch_perm; exact H|]. rewrite nth_error_fetch_all. reflexivity.
Qed.
Lemma fetch_length : forall (X : Type) (data : list (X * vec)) index, Forall (fun i => (i < length data)%nat) index ->
  length (fetch data index) = length index.
Proof.
  intros X data index H. unfold fetch. induction H as [|i l Hi _ IH]; auto. cbn [flat_map length]. rewrite app_length, IH.
  destruct (nth_error data i) eqn:Q; [reflexivity|]. apply nth_error_None in Q. lia.
Qed.
Lemma reorders_in : forall n index, reorders n index -> Forall (fun i => (i < n)%nat) index.
Proof.
  intros n index H. apply Forall_forall. intros i Hi. apply (Permutation_in _ H) in Hi. apply in_seq in Hi. lia.
Qed.
Lemma fetch_agree : forall (X : Type) (data data' : list (X * vec)) index,
  (forall i, In i index -> nth_error data i = nth_error data' i) -> fetch data index = fetch data' index.
Proof.
  intros X data data' index. unfold fetch. induction index as [|i l IH]; intros H; auto. cbn [flat_map]. rewrite (H i) by (left; auto).
  f_equal. apply IH. intros j Hj. apply H. right. auto.
Qed.

Lemma chunks_pass : forall (X : Type) k, (0 < k)%nat -> forall fuel (l : list (X * vec)), (length l <= fuel)%nat -> l <> [] ->
  concat (chunks fuel k l) = l /\
  exists pre last, chunks fuel k l = pre ++ [last] /\ Forall (fun b => length b = k) pre /\ (1 <= length last <= k)%nat.
Proof.
  intros X k Hk. induction fuel as [|f IH]; intros l Hl Hn; [destruct l; [congruence|cbn in Hl; lia]|].
  destruct l as [|a l0]; [congruence|]. set (l := a :: l0) in *. cbn [chunks].
  change (match l with [] => [] | _ => firstn k l :: chunks f k (skipn k l) end)
    with (firstn k l :: chunks f k (skipn k l)).
  assert (Ls : length (skipn k l) = (length l - k)%nat) by apply skipn_length.
  assert (Ln : (1 <= length l)%nat) by (subst l; cbn; lia). clearbody l.
  destruct (skipn k l) as [|c r] eqn:Q.
  - assert (Lk : (length l <= k)%nat) by (cbn in Ls; lia).
    assert (Z : chunks f k (@nil (X * vec)) = []) by (destruct f; reflexivity).
    rewrite Z. rewrite firstn_all2 by auto. split; [cbn [concat]; apply app_nil_r|].
    exists [], l. split; auto.
  - rewrite <- Q in *. destruct (IH (skipn k l)) as (C & pre & last & E1 & E2 & E3); [lia|rewrite Q; discriminate|].
    split; [cbn [concat]; rewrite C; apply firstn_skipn|].
    exists (firstn k l :: pre), last. split; [cbn; f_equal; auto|]. split; auto. constructor; auto.
    rewrite firstn_length. assert (length (skipn k l) <> 0)%nat by (rewrite Q; cbn; lia). lia.
Qed.

Lemma dot_square : forall a b, length a = length b ->
  dot (vsub a b) (vsub a b) = vsum (map (fun p => (fst p - snd p) ^ 2) (combine a b)).
Proof.
  induction a as [|x a IH]; intros [|y b] L; try discriminate; auto.
  injection L as L. specialize (IH b L). cbn [vsub map2 dot combine map vsum fst snd].
  unfold vsub in IH. rewrite IH. ring.
Qed.
Lemma mse_ok : forall o t, length (concat o) = length (concat t) -> mse o t = mean_square o t.
Proof.
  intros o t L. unfold mse, mean_square. rewrite dot_square by auto. unfold vsub. rewrite map2_length, L, Nat.min_id.
  reflexivity.
Qed.

Section Fit.
Variables (X P E A : Type).
Notation ex := (X * vec)%type.
Notation ler := (P * E * A)%type.
Variable output_fun : P -> E -> list X -> list vec.
Variable adam : ler -> list ex -> ler.
Variables additional verbose refuses : bool.
Definition true_loss (s : ler) (b : list ex) : R :=
  mean_square (output_fun (fst (fst s)) (snd (fst s)) (map fst b)) (map snd b).

Lemma step_sgd : forall s b, fit_step adam additional s b = sgd adam additional s b.
Proof.
  intros [[p e] a] b. unfold fit_step, sgd. destruct (adam (p, e, a) b) as [[p' e'] a']. destruct additional; auto.
Qed.
Lemma fold_step : forall bs s, fold_left (fit_step adam additional) bs s = fold_left (sgd adam additional) bs s.
Proof. induction bs as [|b r IH]; intros s; cbn; auto. rewrite step_sgd. auto. Qed.

Variable data : list ex.
Hypothesis Hshape : forall p e b, incl b data -> length (concat (output_fun p e (map fst b))) = length (concat (map snd b)).
Lemma loss_ok : forall s b, incl b data -> loss_on output_fun s b = true_loss s b.
Proof. intros s b H. unfold loss_on, true_loss. apply mse_ok. apply Hshape. auto. Qed.

Lemma epoch_ok : forall bs s r, Forall (fun b => incl b data) bs ->
  one_epoch output_fun adam additional s r bs
  = (fold_left (sgd adam additional) bs s, r + vsum (along (sgd adam additional) true_loss s bs)).
Proof.
  induction bs as [|b l IH]; intros s r H; cbn [one_epoch fold_left along vsum].
  - f_equal. ring.
  - rewrite IH by (inversion H; auto). rewrite step_sgd, loss_ok by (inversion H; auto). f_equal. ring.
Qed.
Lemma along_length : forall (S B : Type) (st : S -> B -> S) f bs s, length (along st f s bs) = length bs.
Proof. induction bs as [|b l IH]; intros s; cbn; auto. Qed.

Variables (tr te : list ex) (k : nat) (order : nat -> list nat).
Hypothesis Htr : incl tr data.
Hypothesis Hte : incl te data.
Hypothesis Hk : (0 < k)%nat.
Hypothesis Hne : tr <> [].
Hypothesis Hord : forall e, reorders (length tr) (order e).
Definition bs_of (e : nat) : list (list ex) := loader k (fetch tr (order e)).
Lemma bs_pass : forall e, one_pass k tr (bs_of e).
Proof.
  intros e. assert (Pm := fetch_reorders _ tr (order e) (Hord e)).
  destruct (chunks_pass X k Hk (length (fetch tr (order e))) (fetch tr (order e)) (le_n _)) as (C & R).
  - intros Z. rewrite Z in Pm. apply Permutation_nil in Pm. auto.
  - split; [unfold bs_of, loader; rewrite C; exact Pm|exact R].
Qed.
Lemma bs_incl : forall e, Forall (fun b => incl b data) (bs_of e).
Proof.
  intros e. destruct (bs_pass e) as (Pm & _). apply Forall_forall. intros b Hb x Hx. apply Htr.
  apply (Permutation_in _ Pm). apply in_concat. exists b. auto.
Qed.
Lemma bs_nonempty : forall e, length (bs_of e) <> O.
Proof. intros e. destruct (bs_pass e) as (_ & pre & l & Q & _). rewrite Q, app_length. cbn. lia. Qed.

Lemma epochs_ok : forall n e s pr,
  fit_epochs output_fun adam additional verbose tr te k order n e s pr
  = FitDone (fold_left (sgd adam additional) (concat (map bs_of (seq e n))) s)
      (pr ++ if verbose then report (sgd adam additional) true_loss te s (map bs_of (seq e n)) else []).
Proof.
  induction n as [|n IH]; intros e s pr; cbn [fit_epochs seq map concat fold_left report].
  - destruct verbose; rewrite app_nil_r; reflexivity.
  - fold (bs_of e). rewrite epoch_ok by apply bs_incl. rewrite fold_left_app.
    destruct verbose.
    + destruct (Nat.eqb_spec (length (bs_of e)) 0) as [Z|_]; [destruct (bs_nonempty e Z)|].
      rewrite IH. f_equal. rewrite <- app_assoc. cbn [app]. do 2 f_equal.
      rewrite loss_ok by auto. f_equal. unfold average. rewrite along_length. f_equal. ring.
    + rewrite IH. reflexivity.
Qed.
End Fit.

(** ** The call *)
Lemma four_fifths : forall n, (2 <= n)%nat -> (0 < 4 * n / 5 < n)%nat.
Proof.
  intros n H. split.
  - apply Nat.div_str_pos. lia.
  - apply Nat.div_lt_upper_bound; lia.
Qed.
Lemma fit_ok : forall (X P E A : Type) (output_fun : P -> E -> list X -> list vec)
    (adam : P * E * A -> list (X * vec) -> P * E * A) (additional verbose refuses : bool) (data : list (X * vec)) batch_size num_epochs
    split order s,
  (2 <= length data)%nat -> (0 < batch_size)%nat ->
  reorders (length data) split -> (forall e, reorders (4 * length data / 5) (order e)) ->
  (forall p e (b : list (X * vec)), incl b data -> length (concat (output_fun p e (map fst b))) = length (concat (map snd b))) ->
  exists train_set test_set epochs,
    Permutation (train_set ++ test_set) data /\
    length train_set = (4 * length data / 5)%nat /\ test_set <> [] /\
    length epochs = num_epochs /\ Forall (one_pass batch_size train_set) epochs /\
    train_approximator output_fun adam additional verbose refuses data batch_size num_epochs split order s
    = FitDone (fold_left (sgd adam additional) (concat epochs) s)
        (if verbose then report (sgd adam additional)
           (fun s b => mean_square (output_fun (fst (fst s)) (snd (fst s)) (map fst b)) (map snd b)) test_set s epochs
         else []).
Proof.
  intros X P E A output_fun adam additional verbose refuses data k n split order s Hn Hk Hs Ho Hsh.
  assert (Q := four_fifths _ Hn). set (m := (4 * length data / 5)%nat) in *.
  set (tr := fetch data (firstn m split)). set (te := fetch data (skipn m split)).
  assert (Pm : Permutation (tr ++ te) data).
  { unfold tr, te. rewrite <- fetch_app, firstn_skipn. apply fetch_reorders. auto. }
  assert (Ls : length split = length data) by (rewrite (Permutation_length Hs), seq_length; auto).
  assert (Hin := reorders_in _ _ Hs). rewrite <- (firstn_skipn m split) in Hin. apply Forall_app in Hin.
  assert (Lt : length tr = m) by (unfold tr; rewrite fetch_length by tauto; rewrite firstn_length; lia).
  assert (Le : length te = (length data - m)%nat).
  { assert (Pl := Permutation_length Pm). rewrite app_length, Lt in Pl. clearbody te tr m. lia. }
  assert (Ht : tr <> []).
  { intros Z. apply (f_equal (@length _)) in Z. change (length tr = 0)%nat in Z. lia. }
  exists tr, te, (map (bs_of X tr k order) (seq 0 n)).
  split; [exact Pm|]. split; [exact Lt|]. split; [intros Z; apply (f_equal (@length _)) in Z; change (length te = 0)%nat in Z; lia|].
  split; [rewrite map_length, seq_length; auto|]. split.
  - apply Forall_forall. intros bs Hb. apply in_map_iff in Hb. destruct Hb as (e & <- & _).
    apply bs_pass; auto. intros e'. rewrite Lt. auto.
  - unfold train_approximator. fold m. fold tr. fold te.
    destruct (Nat.eqb_spec k 0) as [Z|_]; [lia|].
    replace (refuses && (m =? 0)%nat) with false.
    2: { symmetry. apply andb_false_iff. right. apply Nat.eqb_neq. lia. }
    erewrite epochs_ok with (data := data); eauto.
    + intros x Hx. apply (Permutation_in _ Pm). apply in_or_app. auto.
    + intros x Hx. apply (Permutation_in _ Pm). apply in_or_app. auto.
    + intros e. rewrite Lt. auto.
Qed.

(** The test set has no influence. *)
Lemma fit_epochs_test : forall (X P E A : Type) (output_fun : P -> E -> list X -> list vec)
    (adam : P * E * A -> list (X * vec) -> P * E * A) additional verbose tr te te' k order n e s pr pr' s1 l1,
  fit_epochs output_fun adam additional verbose tr te k order n e s pr = FitDone s1 l1 ->
  exists l2, fit_epochs output_fun adam additional verbose tr te' k order n e s pr' = FitDone s1 l2.
Proof.
  intros X P E A output_fun adam additional verbose tr te te' k order n. induction n as [|n IH]; intros e s pr pr' s1 l1 H.
  - cbn in H. injection H as H1 H2. subst. exists pr'. reflexivity.
  - cbn [fit_epochs] in H |- *. destruct (one_epoch _ _ _ _ _ _) as [s' r]. destruct verbose.
    + destruct (Nat.eqb _ 0); [discriminate|]. eapply IH. exact H.
    + eapply IH. exact H.
Qed.
Lemma fit_test_unseen : forall (X P E A : Type) (output_fun : P -> E -> list X -> list vec)
    (adam : P * E * A -> list (X * vec) -> P * E * A) additional verbose refuses (data data' : list (X * vec)) k n split order s s1 l1,
  length data' = length data ->
  (forall i, In i (firstn (4 * length data / 5) split) -> nth_error data' i = nth_error data i) ->
  train_approximator output_fun adam additional verbose refuses data k n split order s = FitDone s1 l1 ->
  exists l2, train_approximator output_fun adam additional verbose refuses data' k n split order s = FitDone s1 l2.
Proof.
  intros X P E A output_fun adam additional verbose refuses data data' k n split order s s1 l1 L H T.
  unfold train_approximator in T |- *. rewrite L. rewrite (fetch_agree _ data' data) by auto.
  destruct (Nat.eqb k 0); [discriminate|]. destruct (refuses && _); [discriminate|].
  eapply fit_epochs_test. exact T.
Qed.

(** Variables that are not given are left alone. *)
Lemma sgd_keeps : forall (P E A B : Type) (adam : P * E * A -> B -> P * E * A) bs s,
  snd (fst (fold_left (sgd adam false) bs s)) = snd (fst s).
Proof.
  intros P E A B adam bs. induction bs as [|b r IH]; intros s; cbn [fold_left]; auto. rewrite IH.
  destruct s as [[p e] a]. unfold sgd. destruct (adam (p, e, a) b) as [[p' e'] a']. reflexivity.
Qed.

(** One example. *)
Lemma fit_single : forall (X P E A : Type) (output_fun : P -> E -> list X -> list vec)
    (adam : P * E * A -> list (X * vec) -> P * E * A) additional refuses d k n order s,
  (0 < k)%nat -> (0 < n)%nat -> (forall e, reorders 0 (order e)) ->
  (exists err, train_approximator output_fun adam additional true refuses [d] k n [O] order s = FitRaised err) /\
  train_approximator output_fun adam additional false false [d] k n [O] order s = FitDone s [].
Proof.
  intros X P E A output_fun adam additional refuses d k n order s Hk Hn Ho.
  assert (Z : forall e, order e = []).
  { intros e. specialize (Ho e). unfold reorders in Ho. cbn in Ho. apply Permutation_nil.
    apply Permutation_sym. exact Ho. }
  unfold train_approximator. destruct (Nat.eqb_spec k 0) as [Q|_]; [lia|].
  change (4 * length [d] / 5)%nat with 0%nat. cbn [Nat.eqb andb firstn].
  split.
  - destruct refuses; [eexists; reflexivity|]. cbn [andb]. destruct n as [|n]; [lia|]. cbn [fit_epochs].
    rewrite Z. cbn. eexists. reflexivity.
  - clear Hn. generalize (fetch [d] (skipn 0 [0%nat])). intros te. generalize O. induction n as [|n IH]; intros e; [reflexivity|]. cbn [fit_epochs].
    rewrite Z. cbn [fetch flat_map loader length chunks one_epoch]. apply IH.
Qed.

(** ** Examples *)
Definition ex_data : list (nat * vec) := [(0%nat, [0]); (1%nat, [0]); (2%nat, [1]); (3%nat, [2])].
Definition ex_out (p e : R) (xs : list nat) : list vec := map (fun _ => [p]) xs.
Definition ex_adam (s : R * R * unit) (b : list (nat * vec)) : R * R * unit := s.
Lemma ex_shape : forall p e b, incl b ex_data -> length (concat (ex_out p e (map fst b))) = length (concat (map snd b)).
Proof.
  intros p e b. induction b as [|x b IH]; intros H; [reflexivity|]. unfold ex_out in *. cbn [map concat]. rewrite !app_length.
  rewrite IH by (intros y Hy; apply H; right; auto). f_equal.
  assert (I : In x ex_data) by (apply H; left; auto). cbn in I.
  destruct I as [<-|[<-|[<-|[<-|[]]]]]; reflexivity.
Qed.
Lemma ex_fit : reorders (length ex_data) [0; 1; 2; 3]%nat /\ reorders (4 * length ex_data / 5) [0; 1; 2]%nat /\
  (forall p e b, incl b ex_data -> length (concat (ex_out p e (map fst b))) = length (concat (map snd b))).
Proof. split; [|split]; [apply Permutation_refl|apply Permutation_refl|exact ex_shape]. Qed.
Lemma ex_printed : train_approximator ex_out ex_adam false true false ex_data 2 1 [0; 1; 2; 3]%nat (fun _ => [0; 1; 2]%nat)
  (0, 0, tt) = FitDone (0, 0, tt) [(1 / 2, 4)].
Proof.
  unfold train_approximator. change (4 * length ex_data / 5)%nat with 3%nat. cbn [Nat.eqb andb].
  cbn [fit_epochs fetch firstn skipn flat_map nth_error ex_data app loader length chunks one_epoch fit_step ex_adam fst snd Nat.eqb].
  unfold loss_on, mse. cbn [fst snd map ex_out concat app vsub map2 dot length INR].
  cbn [app]. unfold fit_step, ex_adam. cbn [fst snd].
  match goal with |- FitDone _ [(?a, ?b)] = _ => replace a with (1 / 2) by field; replace b with 4 by field end. reflexivity.
Qed.
(** The number printed is not the loss over the training examples. *)
Lemma training_loss_differs : exists data split order s s1 r t,
  reorders (length data) split /\ (forall e, reorders (4 * length data / 5) (order e)) /\
  (forall p e b, incl b data -> length (concat (ex_out p e (map fst b))) = length (concat (map snd b))) /\
  train_approximator ex_out ex_adam false true false data 2 1 split order s = FitDone s1 [(r, t)] /\ s1 = s /\
  r <> mean_square (ex_out (fst (fst s)) (snd (fst s)) (map fst (firstn 3 data))) (map snd (firstn 3 data)) /\
  split = seq 0 (length data) /\ (4 * length data / 5)%nat = 3%nat.
Proof.
  exists ex_data, [0; 1; 2; 3]%nat, (fun _ => [0; 1; 2]%nat), (0, 0, tt), (0, 0, tt), (1/2), 4.
  split; [apply Permutation_refl|]. split; [intros; apply Permutation_refl|]. split; [exact ex_shape|].
  split; [exact ex_printed|]. split; [reflexivity|]. split; [|split; reflexivity].
  unfold mean_square. cbn [fst snd map ex_out concat app combine vsum length INR ex_data firstn].
  intros Q. assert (K : 1/2 = 1/3) by (rewrite Q; field). lra.
Qed.
