(** The training loop: what it computes, and what interrupts and crashes leave behind. *)

Require Import Reals List Bool Arith ZArith Lia.
Require Import Verif.Vec Verif.ModelDynTrain Verif.SpecDynTrain.
Import ListNotations.

Section S.
Context {w : world}.
Variable cfg : train_opt w.
Implicit Types (s t : tstate w) (p q r : w_P w) (b : w_B w).

Lemma run_app : forall (ops1 ops2 : list (op w)) k s,
  run cfg k (ops1 ++ ops2) s =
  match run cfg k ops1 s with
  | (Completed, t) => run cfg (k - length ops1) ops2 t
  | e => e
  end.
Proof.
  induction ops1 as [|o ops1 IH]; intros ops2 k s; cbn [app run length].
  - rewrite Nat.sub_0_r. reflexivity.
  - destruct k as [|k]; [reflexivity|]. destruct (exec cfg o s); [|reflexivity]. rewrite IH. reflexivity.
Qed.
Lemma run_enough : forall (ops : list (op w)) k s t, run cfg k ops s = (Completed, t) ->
  forall j, (length ops <= j)%nat -> run cfg j ops s = (Completed, t).
Proof.
  induction ops as [|o ops IH]; intros k s t E j Hj; cbn in *; [exact E|].
  destruct k as [|k]; [discriminate|]. destruct j as [|j]; [lia|].
  destruct (exec cfg o s); [|discriminate]. eapply IH; eauto. lia.
Qed.
Lemma run_long : forall (ops : list (op w)) s j k, (length ops <= j)%nat -> (length ops <= k)%nat ->
  run cfg j ops s = run cfg k ops s.
Proof.
  induction ops as [|o ops IH]; intros s j k Hj Hk; [reflexivity|]. cbn in *.
  destruct j as [|j]; [lia|]. destruct k as [|k]; [lia|]. destruct (exec cfg o s); [|reflexivity]. apply IH; lia.
Qed.
Lemma run_complete_length : forall (ops : list (op w)) k s t, run cfg k ops s = (Completed, t) -> (length ops <= k)%nat.
Proof.
  induction ops as [|o ops IH]; intros k s t E; cbn in *; [lia|]. destruct k as [|k]; [discriminate|].
  destruct (exec cfg o s); [|discriminate]. apply IH in E. lia.
Qed.
Lemma run_not_stopped : forall (ops : list (op w)) k s, (length ops <= k)%nat -> fst (run cfg k ops s) <> Stopped.
Proof.
  induction ops as [|o ops IH]; intros k s Hk; cbn in *; [discriminate|]. destruct k as [|k]; [lia|].
  destruct (exec cfg o s); [|discriminate]. apply IH. lia.
Qed.

Lemma due_spec : forall n, lyap_due cfg n = true <-> due cfg n.
Proof.
  intros n. unfold lyap_due, due. rewrite andb_true_iff, Z.ltb_lt, Z.eqb_eq. split; intros [A B]; split; auto.
  - apply Z.mod_divide; [lia|auto].
  - apply Z.mod_divide in B; [auto|lia].
Qed.
Lemma not_due : forall n, lyap_due cfg n = false <-> ~ due cfg n.
Proof. intros n. rewrite <- due_spec. destruct (lyap_due cfg n); split; intros; try discriminate; try tauto; congruence. Qed.

(** Whether operations touch the files. *)
Definition quiet (o : op w) : Prop := match o with OpOpen _ | OpDump _ _ => False | _ => True end.
Lemma run_quiet : forall (ops : list (op w)) k s, Forall quiet ops -> s_file (snd (run cfg k ops s)) = s_file s.
Proof.
  induction ops as [|o ops IH]; intros k s F; [reflexivity|]. inversion F as [|? ? Q F']; subst. cbn [run].
  destruct k as [|k]; [reflexivity|]. destruct (exec cfg o s) as [s'|] eqn:E; [|reflexivity]. rewrite IH by auto.
  destruct o; cbn in E; try contradiction; repeat match type of E with context [match ?x with _ => _ end] => destruct x end;
    try discriminate; injection E as <-; reflexivity.
Qed.
Lemma batch_quiet : forall n b, Forall quiet (batch_ops cfg n b).
Proof. intros n b. unfold batch_ops. destruct (lyap_due cfg n); cbn; repeat constructor. Qed.
Lemma batches_quiet : forall bs n, Forall quiet (batches_ops cfg n bs).
Proof. induction bs as [|b bs IH]; intros n; cbn [batches_ops]; [constructor|]. apply Forall_app. split; [apply batch_quiet|apply IH]. Qed.

(** One batch *)
Lemma batch_run : forall n b k s e t bs, s_iter s = n -> run cfg k (batch_ops cfg n b) s = (e, t) ->
  reached cfg n (b :: bs) (s_par s) (s_par t) /\
  (e = Completed ->
     s_iter t = S n /\ s_opt t = s_opt s /\ s_coder_dev t = s_coder_dev s /\
     (s_lyap_dev s = r_device cfg -> s_lyap_dev t = r_device cfg) /\
     exists g, w_gdyn w b (s_par s) = Some g /\
       ((~ due cfg n /\ s_par t = w_step w [g] (s_par s) /\ s_log t = s_log s ++ [EDynamics n]) \/
        (due cfg n /\ exists g', w_glyap w b (w_step w [g] (s_par s)) = Some g' /\
           s_par t = w_step w [g'] (w_step w [g] (s_par s)) /\ s_log t = s_log s ++ [EDynamics n; ELyapunov n]))).
Proof.
  intros n b k s e t bs Hn. unfold batch_ops. destruct (lyap_due cfg n) eqn:D.
  - apply due_spec in D. cbn [app].
    do 2 (destruct k as [|k]; [cbn; intros E; injection E as <- <-; split; [constructor|discriminate]|]).
    cbn [run exec]. cbn [set_grad s_par s_grad]. destruct (w_gdyn w b (s_par s)) as [g|] eqn:Eg;
      [|intros E; injection E as <- <-; split; [constructor|discriminate]].
    destruct k as [|k]; [cbn; intros E; injection E as <- <-; split; [constructor|discriminate]|].
    do 4 (destruct k as [|k]; [cbn; intros E; injection E as <- <-; split; [cbn; eapply re_one; eauto|discriminate]|]).
    cbn [run exec]. cbn [set_grad set_par lyap_to s_par s_grad s_iter s_log s_lyap_dev s_coder_dev s_opt s_file app].
    destruct (w_glyap w b (w_step w [g] (s_par s))) as [g'|] eqn:Eg';
      [|intros E; injection E as <- <-; split; [cbn; eapply re_one; eauto|discriminate]].
    do 2 (destruct k as [|k]; [cbn; intros E; injection E as <- <-; split; [cbn; eapply re_one; eauto|discriminate]|]).
    do 2 (destruct k as [|k]; [cbn; intros E; injection E as <- <-; split;
            [cbn; eapply re_lyap; eauto; constructor|discriminate]|]).
    cbn; intros E; injection E as <- <-; (split; [eapply re_lyap; eauto; constructor|]).
    intros _. cbn. rewrite Hn. repeat split; auto. exists g. split; [auto|]. right. split; [auto|]. exists g'.
    split; [auto|]. split; [auto|]. rewrite <- app_assoc. reflexivity.
  - apply not_due in D. cbn [app].
    do 2 (destruct k as [|k]; [cbn; intros E; injection E as <- <-; split; [constructor|discriminate]|]).
    cbn [run exec]. cbn [set_grad s_par s_grad]. destruct (w_gdyn w b (s_par s)) as [g|] eqn:Eg;
      [|intros E; injection E as <- <-; split; [constructor|discriminate]].
    destruct k as [|k]; [cbn; intros E; injection E as <- <-; split; [constructor|discriminate]|].
    do 2 (destruct k as [|k]; [cbn; intros E; injection E as <- <-; split; [cbn; eapply re_one; eauto|discriminate]|]).
    cbn; intros E; injection E as <- <-. split; [eapply re_one; eauto|]. intros _. cbn. rewrite Hn.
    repeat split; auto. exists g. split; [auto|]. left. auto.
Qed.

Lemma iterations_app : forall n bs p q, iterations cfg n bs p q -> forall bs' r,
  iterations cfg (n + length bs) bs' q r -> iterations cfg n (bs ++ bs') p r.
Proof.
  induction 1 as [n p|n b bs p g r E D I IH|n b bs p g g' r E D E' I IH]; intros bs' r' I'; cbn [app length] in *.
  - rewrite Nat.add_0_r in I'. exact I'.
  - eapply it_plain; eauto. apply IH. rewrite Nat.add_succ_r in I'. exact I'.
  - eapply it_lyap; eauto. apply IH. rewrite Nat.add_succ_r in I'. exact I'.
Qed.
Lemma reached_app : forall n bs p q, iterations cfg n bs p q -> forall bs' r,
  reached cfg (n + length bs) bs' q r -> reached cfg n (bs ++ bs') p r.
Proof.
  induction 1 as [n p|n b bs p g r E D I IH|n b bs p g g' r E D E' I IH]; intros bs' r' I'; cbn [app length] in *.
  - rewrite Nat.add_0_r in I'. exact I'.
  - eapply re_plain; eauto. apply IH. rewrite Nat.add_succ_r in I'. exact I'.
  - eapply re_lyap; eauto. apply IH. rewrite Nat.add_succ_r in I'. exact I'.
Qed.
Lemma reached_more : forall n bs p q, reached cfg n bs p q -> forall bs', reached cfg n (bs ++ bs') p q.
Proof. induction 1; intros bs'; cbn [app]; [constructor|eapply re_one; eauto|eapply re_plain; eauto|eapply re_lyap; eauto]. Qed.
Lemma iterations_reached : forall n bs p q, iterations cfg n bs p q -> reached cfg n bs p q.
Proof. intros n bs p q I. rewrite <- (app_nil_r bs). eapply reached_app; eauto. constructor. Qed.
Lemma logged_app : forall n m l, logged cfg n m l -> forall h l', logged cfg m h l' -> logged cfg n h (l ++ l').
Proof.
  induction 1; intros h l' H'; cbn [app]; [exact H'|apply lo_plain; auto|apply lo_lyap; auto|apply lo_valid; auto].
Qed.

Lemma batches_run : forall bs n k s e t, s_iter s = n -> run cfg k (batches_ops cfg n bs) s = (e, t) ->
  reached cfg n bs (s_par s) (s_par t) /\
  (e = Completed ->
     iterations cfg n bs (s_par s) (s_par t) /\ s_iter t = (n + length bs)%nat /\ s_opt t = s_opt s /\
     s_coder_dev t = s_coder_dev s /\ (s_lyap_dev s = r_device cfg -> s_lyap_dev t = r_device cfg) /\
     exists l, s_log t = s_log s ++ l /\ logged cfg n (n + length bs) l).
Proof.
  induction bs as [|b bs IH]; intros n k s e t Hn E.
  - cbn in E. injection E as <- <-. split; [constructor|]. intros _. cbn [length]. rewrite Nat.add_0_r.
    repeat split; auto; try constructor. exists []. rewrite app_nil_r. split; [auto|constructor].
  - cbn [batches_ops] in E. rewrite run_app in E. destruct (run cfg k (batch_ops cfg n b) s) as [x u] eqn:Eb.
    destruct (batch_run n b k s x u bs Hn Eb) as [R C].
    destruct x; try (injection E as <- <-; split; [exact R|discriminate]).
    destruct (C eq_refl) as (In & Op & Co & Ld & g & Eg & Cs).
    destruct (IH (S n) _ u e t In E) as [R' C'].
    assert (App : forall q, reached cfg (S n) bs (s_par u) q -> reached cfg n (b :: bs) (s_par s) q).
    { intros q Hq. destruct Cs as [(D & P & _)|(D & g' & Eg' & P & _)]; rewrite P in Hq;
        [eapply re_plain; eauto|eapply re_lyap; eauto]. }
    split; [apply App; exact R'|]. intros X. destruct (C' X) as (I & I2 & O2 & Co2 & L2 & l & Hl & Ll).
    cbn [length]. rewrite Nat.add_succ_r. repeat split; try congruence; auto.
    + destruct Cs as [(D & P & _)|(D & g' & Eg' & P & _)]; rewrite P in I; [eapply it_plain; eauto|eapply it_lyap; eauto].
    + destruct Cs as [(D & P & Lg)|(D & g' & Eg' & P & Lg)]; rewrite Lg in Hl; rewrite <- app_assoc in Hl.
      * exists (EDynamics n :: l). split; [exact Hl|]. apply lo_plain; auto.
      * exists (EDynamics n :: ELyapunov n :: l). split; [exact Hl|]. apply lo_lyap; auto.
Qed.

Lemma save_run : forall k s e t d, on_device cfg d s -> run cfg k (save_ops cfg) s = (e, t) ->
  s_par t = s_par s /\ s_iter t = s_iter s /\ s_opt t = s_opt s /\ s_log t = s_log s /\ on_device cfg d t /\ e <> Raised /\
  (s_file t = s_file s \/ unfinished cfg (s_file t) \/ holds cfg d (s_par s) (s_file t)) /\
  (e = Completed -> holds cfg d (s_par s) (s_file t)).
Proof.
  intros k s e t d [D1 D2]. unfold save_ops, holds, unfinished, load. destruct (r_latent cfg) eqn:Lt.
  - specialize (D2 eq_refl).
    do 5 (destruct k as [|k]; [cbn; intros E; injection E as <- <-; repeat split; auto; try discriminate; cbn; eauto 6|]).
    cbn. intros E; injection E as <- <-. rewrite D1, D2. repeat split; auto; try discriminate; cbn; auto.
  - do 2 (destruct k as [|k]; [cbn; intros E; injection E as <- <-; repeat split; auto; try discriminate; cbn; eauto 6|]).
    cbn. intros E; injection E as <- <-. rewrite D1. repeat split; auto; try discriminate; cbn; auto.
    all: try (intros Z; rewrite Lt in Z; discriminate).
Qed.
End S.
