(** Proofs about descent on samples, the restored model, the verdicts, the sample
    pools and the variables of R. *)

Require Import Reals List Bool Arith Lia Lra.
Require Import Verif.Vec Verif.VecFacts Verif.ProofBounds Verif.ModelTrain Verif.SpecTrain Verif.ProofTrain.
Import ListNotations.
Open Scope R_scope.

Section Descent.
Context {NetT CtlT RV : Type}.
Variable cfg : setting.
Notation mdl := (model NetT CtlT RV).
Variable opt : nat -> mdl -> NetT * CtlT * RV.

(** What an optimiser cannot change. *)
Definition agree (m0 m : mdl) : Prop :=
  (is_feedback cfg = false -> ctl m = ctl m0) /\
  (fixed_R cfg = true -> memory m = memory m0 /\ rcell m = rcell m0).
Lemma agree_refl : forall m, agree m m.
Proof. intros m. split; auto. Qed.
Lemma agree_trans : forall a b c, agree a b -> agree b c -> agree a c.
Proof.
  intros a b c [H1 H2] [H3 H4]. split; intros E.
  - rewrite H3, H1; auto.
  - destruct (H2 E), (H4 E). split; congruence.
Qed.
Lemma agree_step : forall oc new m, agree m (opt_step cfg oc new m).
Proof.
  intros oc [[n c] r] m. unfold opt_step, agree. cbn [ctl memory rcell]. split; intros E; rewrite E; auto.
Qed.
Lemma agree_sym : forall a b, agree a b -> agree b a.
Proof.
  intros a b [H1 H2]. split; intros E.
  - symmetry. auto.
  - destruct (H2 E). split; congruence.
Qed.

Lemma restored : forall m0 m, agree m0 m -> same_params (set_params cfg (get_params m0) m) m0.
Proof.
  intros m0 m [H1 H2]. unfold same_params, set_params, get_params, r_value.
  destruct (fixed_R cfg) eqn:EF, (is_feedback cfg) eqn:EB; cbn [net ctl rcell memory next_cell s_net s_ctl s_R];
    repeat split; auto.
  - destruct (H2 eq_refl). congruence.
  - destruct (H2 eq_refl). congruence.
  - unfold write. rewrite Nat.eqb_refl. auto.
  - unfold write. rewrite Nat.eqb_refl. auto.
Qed.

Variable sample_loss : NetT -> CtlT -> RV -> R * R.
Hypothesis nonneg : forall n c r, 0 <= fst (sample_loss n c r) /\ 0 <= snd (sample_loss n c r).
Notation tot := (total sample_loss).
Lemma same_total : forall m m', same_params m m' -> tot m = tot m'.
Proof. intros m m' (H1 & H2 & H3). unfold total, losses. rewrite H1, H2, H3. auto. Qed.
Lemma total_nonneg : forall m, 0 <= tot m.
Proof. intros m. unfold total, losses. destruct (nonneg (net m) (ctl m) (r_value m)). lra. Qed.

Lemma epochs_ok : forall oc n t best mb m, agree mb m -> best = tot mb ->
  let m' := epochs cfg sample_loss opt oc n t best (get_params mb) m in
  tot m' <= tot mb /\ (forall x, In x (trajectory cfg opt oc n t m) -> tot m' <= tot x) /\
  exists x, In x (mb :: trajectory cfg opt oc n t m) /\ same_params m' x.
Proof.
  intros oc. induction n as [|n IH]; intros t best mb m A Eb; cbv zeta; cbn [epochs trajectory].
  - assert (P := restored mb m A). split; [rewrite (same_total _ _ P); lra|].
    split; [intros x []|]. exists mb. split; [left; auto|auto].
  - cbv zeta. set (m1 := opt_step cfg oc (opt t m) m) in *.
    assert (A1 : agree mb m1) by (eapply agree_trans; [exact A|apply agree_step]).
    destruct (losses sample_loss m1) as [lp ld] eqn:EL.
    assert (Et : tot m1 = lp + ld) by (unfold total; rewrite EL; auto).
    destruct ((if Req_EM_T lp 0 then true else false) && (if Req_EM_T ld 0 then true else false)) eqn:EZ.
    + assert (Z : tot m1 = 0).
      { destruct (Req_EM_T lp 0), (Req_EM_T ld 0); try discriminate. lra. }
      rewrite Z. split; [apply total_nonneg|]. split; [intros x _; apply total_nonneg|].
      exists m1. split; [right; left; auto|]. unfold same_params. auto.
    + unfold Rltb. destruct (Rlt_dec (lp + ld) best) as [K|K].
      * destruct (IH (S t) (lp + ld) m1 m1 (agree_refl m1) (eq_sym Et)) as (H1 & H2 & x & H3 & H4).
        split; [lra|]. split.
        { intros y [ <- | Hy]; auto. }
        exists x. split; auto. destruct H3 as [ <- | H3]; [right; left; auto|right; right; auto].
      * destruct (IH (S t) best mb m1 A1 Eb) as (H1 & H2 & x & H3 & H4).
        split; [lra|]. split.
        { intros y [ <- | Hy]; auto. rewrite Et. lra. }
        exists x. split; auto. destruct H3 as [ <- | H3]; [left; auto|right; right; auto].
Qed.
Lemma batch_descent_ok : forall oc n t m,
  let m' := batch_descent cfg sample_loss opt oc n t m in
  tot m' <= tot m /\ (forall x, In x (trajectory cfg opt oc n t m) -> tot m' <= tot x) /\
  exists x, In x (m :: trajectory cfg opt oc n t m) /\ same_params m' x.
Proof. intros oc n t m. apply epochs_ok; auto. apply agree_refl. Qed.

Variable test_loss : NetT -> CtlT -> RV -> R.
Notation test := (test_of test_loss).

(** The best epoch so far. *)
Lemma sample_epochs_ok : fixed_R cfg = true -> forall oc n t best m m',
  sample_epochs cfg opt test_loss oc n t best m = Some m' ->
  (forall b bn bc, best = Some (b, bn, bc) -> exists mb, agree mb m /\ net mb = bn /\ ctl mb = bc /\ test mb = b) ->
  (forall b bn bc, best = Some (b, bn, bc) -> test m' <= b) /\
  (forall x, In x (trajectory cfg opt oc n t m) -> test m' <= test x) /\
  ((exists x, In x (trajectory cfg opt oc n t m) /\ same_params m' x) \/
   (exists b bn bc mb, best = Some (b, bn, bc) /\ agree mb m /\ net mb = bn /\ ctl mb = bc /\ test mb = b /\
      same_params m' mb)).
Proof.
  intros Hf oc. induction n as [|n IH]; intros t best m m' E HB; cbn [sample_epochs trajectory] in *.
  - destruct best as [[[b bn] bc]|]; [|discriminate]. injection E as <-.
    destruct (HB b bn bc eq_refl) as (mb & [A1 A2] & H1 & H2 & H3).
    assert (P : same_params (mkModel bn (if is_feedback cfg then bc else ctl m) (rcell m) (memory m) (next_cell m)) mb).
    { unfold same_params, r_value. cbn [net ctl rcell memory]. destruct (A2 Hf) as [A3 A4].
      split; auto. split; [|congruence]. destruct (is_feedback cfg) eqn:EB; auto. }
    split.
    + intros b' bn' bc' Eb. injection Eb as <- <- <-. destruct P as (P1 & P2 & P3).
      unfold test_of in *. rewrite P1, P2, P3. lra.
    + split; [intros x []|]. right. exists b, bn, bc, mb. split; auto. split; [split; auto|].
      split; auto.
  - cbv zeta in E. set (m1 := opt_step cfg oc (opt t m) m) in *.
    assert (As : agree m m1) by apply agree_step.
    set (better := match best with None => true | Some (b, _, _) => Rltb (test m1) b end) in *.
    destruct better eqn:EBt.
    + destruct (IH (S t) (Some (test m1, net m1, ctl m1)) m1 m' E) as (H1 & H2 & H3).
      { intros b bn bc Eb. injection Eb as <- <- <-. exists m1. split; [apply agree_refl|auto]. }
      assert (K1 := H1 _ _ _ eq_refl). split; [|split].
      * intros b bn bc Eb. unfold better in EBt. rewrite Eb in EBt. apply Rltb_true in EBt. lra.
      * intros x [ <- | Hx]; auto.
      * left. destruct H3 as [(x & Hx & P)|(b & bn & bc & mb & Eb & A & E1 & E2 & E3 & P)].
        { exists x. split; auto. right. auto. }
        exists m1. split; [left; auto|]. injection Eb as Eb1 Eb2 Eb3.
        destruct P as (P1 & P2 & P3). destruct A as [A1 A2]. destruct (A2 Hf) as [A3 A4].
        unfold same_params. split; [congruence|]. split; [congruence|].
        rewrite P3. unfold r_value. congruence.
    + unfold better in EBt. destruct best as [[[b bn] bc]|]; [|discriminate].
      destruct (IH (S t) (Some (b, bn, bc)) m1 m' E) as (H1 & H2 & H3).
      { intros b' bn' bc' Eb. destruct (HB b' bn' bc' Eb) as (mb & A & K). exists mb. split; auto.
        eapply agree_trans; [exact A|exact As]. }
      assert (K1 := H1 _ _ _ eq_refl). unfold Rltb in EBt. destruct (Rlt_dec (test m1) b) as [K|K]; [discriminate|].
      split; auto. split.
      * intros x [ <- | Hx]; auto. lra.
      * destruct H3 as [(x & Hx & P)|(b' & bn' & bc' & mb & Eb & A & E1 & E2 & E3 & P)].
        { left. exists x. split; auto. right. auto. }
        right. exists b', bn', bc', mb. split; auto. split; auto.
        eapply agree_trans; [exact A|apply agree_sym; exact As].
Qed.
Lemma on_samples_ok : fixed_R cfg = true -> forall n m m',
  train_on_samples cfg opt test_loss n m = Some m' ->
  (forall x, In x (trajectory cfg opt (rcell m) n O m) -> test m' <= test x) /\
  exists x, In x (trajectory cfg opt (rcell m) n O m) /\ same_params m' x.
Proof.
  intros Hf n m m' E.
  assert (HB : forall (b : R) (bn : NetT) (bc : CtlT), @None (R * NetT * CtlT) = Some (b, bn, bc) ->
    exists mb, agree mb m /\ net mb = bn /\ ctl mb = bc /\ test mb = b) by discriminate.
  destruct (sample_epochs_ok Hf (rcell m) n O None m m' E HB) as (_ & H2 & H3). split; auto.
  destruct H3 as [H3|(b & bn & bc & mb & Eb & _)]; [auto|discriminate].
Qed.
Lemma on_samples_total : forall n m, n <> O -> exists m', train_on_samples cfg opt test_loss n m = Some m'.
Proof.
  intros n m Hn. unfold train_on_samples.
  assert (G : forall n oc t b m, exists m', sample_epochs cfg opt test_loss oc n t (Some b) m = Some m').
  { clear. induction n as [|n IH]; intros oc t [[b bn] bc] m; cbn [sample_epochs]; [eauto|].
    destruct (Rltb _ b); apply IH. }
  destruct n as [|n]; [contradiction|]. cbn [sample_epochs]. apply G.
Qed.
End Descent.

Section Loop.
Context {NetT CtlT RV : Type}.
Variable cfg : setting.
Variable sample_loss : list vec -> list vec -> NetT -> CtlT -> RV -> R * R.
Variable opt : nat -> nat -> model NetT CtlT RV -> NetT * CtlT * RV.
Variable solver : nat -> NetT -> CtlT -> RV -> report.
Variable radius : option R.
Variable perturb : nat -> list vec -> list vec.
Variables (pos_size der_size num_epochs : nat) (pos_tol der_tol : R).
Notation collect := (solve_and_collect solver radius perturb pos_size der_size).
Notation at_ := (adv_at cfg sample_loss opt solver radius perturb pos_size der_size num_epochs).
Notation adv := (adversarial cfg sample_loss opt solver radius perturb pos_size der_size num_epochs pos_tol der_tol).
Notation rep := (report_of solver).

Lemma adversarial_runs : forall oc s0 n k b s',
  adv oc n k (at_ oc s0 k) = (b, s') ->
  (b = true /\ exists j, (k <= j < k + n)%nat /\ s' = snd (collect j (at_ oc s0 j)) /\
     pos_obj (rep j (a_model s')) < pos_tol /\ der_obj (rep j (a_model s')) < der_tol) \/
  (b = false /\ s' = at_ oc s0 (k + n)).
Proof.
  intros oc s0. induction n as [|n IH]; intros k b s' E.
  - cbn [adversarial] in E. injection E as <- <-. right. rewrite Nat.add_0_r. auto.
  - cbn [adversarial] in E. destruct (collect k (at_ oc s0 k)) as [r s] eqn:EC.
    assert (Er : r = rep k (a_model s) /\ a_model s = a_model (at_ oc s0 k)).
    { unfold solve_and_collect in EC. injection EC as <- <-. auto. }
    destruct (Rltb (pos_obj r) pos_tol && Rltb (der_obj r) der_tol) eqn:EV.
    + injection E as <- <-. left. split; auto. exists k. rewrite EC. cbn [snd]. split; [lia|]. split; auto.
      apply andb_true_iff in EV. destruct EV as [V1 V2]. apply Rltb_true in V1. apply Rltb_true in V2.
      destruct Er as [ <- _ ]. auto.
    + replace (descend cfg sample_loss opt num_epochs oc k s) with (at_ oc s0 (S k)) in E
        by (cbn [adv_at]; rewrite EC; auto).
      destruct (IH (S k) b s' E) as [(Hb & j & Hj & K)|(Hb & Es)].
      * left. split; auto. exists j. split; [lia|auto].
      * right. split; auto. rewrite Es. f_equal. lia.
Qed.

Lemma adversarial_verdict : forall n m pos der s',
  train_adversarial cfg sample_loss opt solver radius perturb pos_size der_size num_epochs pos_tol der_tol
    n m pos der = (true, s') ->
  exists k, (k < n)%nat /\ pos_obj (rep k (a_model s')) < pos_tol /\ der_obj (rep k (a_model s')) < der_tol.
Proof.
  intros n m pos der s' E. unfold train_adversarial in E.
  destruct (adversarial_runs (rcell m) (mkAdv m pos der) n O true s' E) as [(_ & j & Hj & _ & H)|(Hb & _)];
    [|discriminate].
  exists j. split; [lia|auto].
Qed.

(** ** The sample pools *)
Notation cpos := (contributed_pos cfg sample_loss opt solver radius perturb pos_size der_size num_epochs).
Notation cder := (contributed_der cfg sample_loss opt solver radius perturb pos_size der_size num_epochs).

Lemma pools_at : pos_size <> O -> der_size <> O -> forall oc s0 k,
  a_pos (snd (collect k (at_ oc s0 k)))
  = last_n pos_size (a_pos s0 ++ concat (map (cpos oc s0) (seq 0 (S k)))) /\
  a_der (snd (collect k (at_ oc s0 k)))
  = last_n der_size (a_der s0 ++ concat (map (cder oc s0) (seq 0 (S k)))).
Proof.
  intros Hp Hd oc s0. induction k as [|k [IH1 IH2]].
  - cbn [adv_at]. unfold solve_and_collect. cbn [snd a_pos a_der]. rewrite !trim_last by auto.
    cbn [seq map concat]. rewrite !app_nil_r. auto.
  - rewrite (seq_S (S k)), !map_app, !concat_app. cbn [map concat Nat.add]. rewrite !app_nil_r, !app_assoc.
    rewrite <- (last_n_app pos_size (a_pos s0 ++ _)), <- IH1.
    rewrite <- (last_n_app der_size (a_der s0 ++ _)), <- IH2.
    unfold solve_and_collect at 1 3. cbn [snd a_pos a_der]. rewrite !trim_last by auto. auto.
Qed.
Lemma pool_final : pos_size <> O -> der_size <> O -> forall n m pos der b s', n <> O ->
  train_adversarial cfg sample_loss opt solver radius perturb pos_size der_size num_epochs pos_tol der_tol
    n m pos der = (b, s') ->
  exists k, (1 <= k <= n)%nat /\ (b = false -> k = n) /\
  a_pos s' = last_n pos_size (pos ++ concat (map (cpos (rcell m) (mkAdv m pos der)) (seq 0 k))) /\
  a_der s' = last_n der_size (der ++ concat (map (cder (rcell m) (mkAdv m pos der)) (seq 0 k))).
Proof.
  intros Hp Hd n m pos der b s' Hn E. unfold train_adversarial in E.
  destruct (adversarial_runs (rcell m) (mkAdv m pos der) n O b s' E) as [(Hb & j & Hj & Es & _)|(Hb & Es)].
  - exists (S j). split; [lia|]. split; [intros; congruence|].
    rewrite Es. exact (pools_at Hp Hd (rcell m) (mkAdv m pos der) j).
  - destruct n as [|n]; [contradiction|]. exists (S n). split; [lia|]. split; auto.
    rewrite Es. cbn [Nat.add adv_at]. unfold descend. cbn [a_pos a_der].
    exact (pools_at Hp Hd (rcell m) (mkAdv m pos der) n).
Qed.

(** ** The variables of R *)

(** Once R_options holds another tensor than the optimiser, R does not change. *)
Definition detached (oc : nat) (m : model NetT CtlT RV) : Prop :=
  rcell m <> oc /\ (rcell m < next_cell m)%nat /\ (oc < next_cell m)%nat.
Lemma step_detached : forall oc new m, detached oc m ->
  detached oc (opt_step cfg oc new m) /\ r_value (opt_step cfg oc new m) = r_value m.
Proof.
  intros oc [[n c] r] m (H1 & H2 & H3). unfold opt_step, detached, r_value. cbn [rcell next_cell memory].
  split; auto. destruct (fixed_R cfg); auto. unfold write. destruct (Nat.eqb_spec (rcell m) oc); [contradiction|auto].
Qed.
Lemma set_detached : forall oc s m, detached oc m -> s_R s = r_value m ->
  detached oc (set_params cfg s m) /\ r_value (set_params cfg s m) = r_value m.
Proof.
  intros oc s m (H1 & H2 & H3) Es. unfold set_params, detached, r_value in *.
  destruct (fixed_R cfg), (is_feedback cfg); cbn [rcell next_cell memory ctl net];
    (split; [repeat split; auto; try lia|]); auto; unfold write; rewrite Nat.eqb_refl; auto.
Qed.
Lemma set_detaches : forall oc s m, fixed_R cfg = false -> (oc < next_cell m)%nat ->
  detached oc (set_params cfg s m).
Proof.
  intros oc s m Hf H. unfold set_params, detached. rewrite Hf.
  destruct (is_feedback cfg); cbn [rcell next_cell memory ctl net]; repeat split; lia.
Qed.
Lemma epochs_frozen : forall ls o oc n t best s m, detached oc m -> s_R s = r_value m ->
  let m' := epochs cfg ls o oc n t best s m in detached oc m' /\ r_value m' = r_value m.
Proof.
  intros ls o oc. induction n as [|n IH]; intros t best s m D Es; cbv zeta; cbn [epochs].
  - apply set_detached; auto.
  - cbv zeta. destruct (step_detached oc (o t m) m D) as [D1 E1].
    destruct (losses ls (opt_step cfg oc (o t m) m)) as [lp ld].
    destruct (_ && _); [auto|]. destruct (Rltb (lp + ld) best).
    + destruct (IH (S t) (lp + ld) (get_params (opt_step cfg oc (o t m) m)) _ D1 eq_refl) as [H1 H2].
      split; auto. congruence.
    + destruct (IH (S t) best s _ D1) as [H1 H2]; [congruence|]. split; auto. congruence.
Qed.
Lemma descent_frozen : forall oc k s, detached oc (a_model s) ->
  let s' := descend cfg sample_loss opt num_epochs oc k s in
  detached oc (a_model s') /\ r_value (a_model s') = r_value (a_model s).
Proof. intros oc k s D. unfold descend, batch_descent. cbn [a_model]. apply epochs_frozen; auto. Qed.

(** A descent that does not end early replaces the tensor. *)
Lemma epochs_detach : forall ls o oc n t best s m, fixed_R cfg = false -> (oc < next_cell m)%nat ->
  (forall x, In x (trajectory cfg o oc n t m) -> losses ls x <> (0, 0)) ->
  detached oc (epochs cfg ls o oc n t best s m).
Proof.
  intros ls o oc. induction n as [|n IH]; intros t best s m Hf Ho Z; cbn [epochs].
  - apply set_detaches; auto.
  - cbv zeta. cbn [trajectory] in Z. set (m1 := opt_step cfg oc (o t m) m) in *.
    assert (N1 : next_cell m1 = next_cell m) by (unfold m1, opt_step; destruct (o t m) as [[? ?] ?]; auto).
    assert (Z1 := Z m1 (or_introl eq_refl)). destruct (losses ls m1) as [lp ld].
    destruct (Req_EM_T lp 0) as [E1|E1], (Req_EM_T ld 0) as [E2|E2]; cbn [andb].
    + exfalso. apply Z1. congruence.
    + destruct (Rltb (lp + ld) best); apply IH; auto; try lia; intros x Hx; apply Z; right; auto.
    + destruct (Rltb (lp + ld) best); apply IH; auto; try lia; intros x Hx; apply Z; right; auto.
    + destruct (Rltb (lp + ld) best); apply IH; auto; try lia; intros x Hx; apply Z; right; auto.
Qed.

(** From the iteration in which a descent first runs through all its epochs on, the
    value of R is the same. *)
Lemma R_frozen : fixed_R cfg = false -> forall m pos der j,
  (rcell m < next_cell m)%nat ->
  let s0 := mkAdv m pos der in
  let s := snd (collect j (at_ (rcell m) s0 j)) in
  (rcell m < next_cell (a_model s))%nat ->
  (forall x, In x (trajectory cfg (opt j) (rcell m) num_epochs O (a_model s)) ->
     losses (sample_loss (a_pos s) (a_der s)) x <> (0, 0)) ->
  forall k, (j < k)%nat ->
  rcell (a_model (at_ (rcell m) s0 k)) <> rcell m /\
  r_value (a_model (at_ (rcell m) s0 k)) = r_value (a_model (at_ (rcell m) s0 (S j))).
Proof.
  intros Hf m pos der j Hm s0 s Hs Z k Hk.
  assert (G : forall d, detached (rcell m) (a_model (at_ (rcell m) s0 (S j + d))) /\
    r_value (a_model (at_ (rcell m) s0 (S j + d))) = r_value (a_model (at_ (rcell m) s0 (S j)))).
  { induction d as [|d [IH1 IH2]].
    - rewrite Nat.add_0_r. split; auto. cbn [adv_at]. fold s. unfold descend, batch_descent. cbn [a_model].
      apply epochs_detach; auto.
    - replace (S j + S d)%nat with (S (S j + d)) by lia.
      destruct (descent_frozen (rcell m) (S j + d)
        (snd (collect (S j + d) (at_ (rcell m) s0 (S j + d)))) IH1) as [D1 D2].
      split; [exact D1|]. rewrite <- IH2. exact D2. }
  replace k with (S j + (k - S j))%nat by lia. destruct (G (k - S j)%nat) as [[D _] E]. auto.
Qed.
(** The allocation pointer only grows. *)
Lemma set_next : forall s (m : model NetT CtlT RV), (next_cell m <= next_cell (set_params cfg s m))%nat.
Proof. intros s m. unfold set_params. destruct (fixed_R cfg), (is_feedback cfg); cbn; lia. Qed.
Lemma epochs_next : forall ls o oc n t best s (m : model NetT CtlT RV), (next_cell m <= next_cell (epochs cfg ls o oc n t best s m))%nat.
Proof.
  intros ls o oc. induction n as [|n IH]; intros t best s m; cbn [epochs]; [apply set_next|]. cbv zeta.
  set (m1 := opt_step cfg oc (o t m) m).
  assert (N1 : next_cell m1 = next_cell m) by (unfold m1, opt_step; destruct (o t m) as [[? ?] ?]; auto).
  destruct (losses ls m1) as [lp ld]. destruct (_ && _); [lia|].
  destruct (Rltb (lp + ld) best); (eapply Nat.le_trans; [|apply IH]); lia.
Qed.
Lemma at_next : forall oc s0 k, (next_cell (a_model s0) <= next_cell (a_model (at_ oc s0 k)))%nat.
Proof.
  intros oc s0. induction k as [|k IH]; [apply Nat.le_refl|]. cbn [adv_at]. unfold descend, batch_descent. cbn [a_model].
  eapply Nat.le_trans; [|apply epochs_next]. exact IH.
Qed.

(** ** train *)
Variable step : nat -> model NetT CtlT RV -> NetT * CtlT * RV.
Lemma train_loop_verdict : forall oc n k last m po do m',
  train_loop cfg solver pos_tol der_tol step oc n k last m = Some (true, po, do, m') ->
  exists j, po = pos_obj (rep j m') /\ do = der_obj (rep j m') /\ po <= pos_tol /\ do <= der_tol.
Proof.
  intros oc. induction n as [|n IH]; intros k last m po do m' E; cbn [train_loop] in E.
  - destruct last; [|discriminate]. injection E as E _ _ _. discriminate.
  - cbv zeta in E. destruct (_ && _) eqn:EV.
    + injection E as <- <- <-. exists k. split; auto. split; auto.
      apply andb_true_iff in EV. destruct EV as [V1 V2]. apply Rleb_true in V1. apply Rleb_true in V2. auto.
    + apply IH in E. auto.
Qed.
End Loop.

(** The callback is harmless when its threshold is not below the tolerance. *)
Lemma optimize_harmless : forall threshold incumbents optimum tol,
  (forall t, threshold = Some t -> tol <= t) ->
  optimize threshold incumbents optimum <= tol -> optimize threshold incumbents optimum = optimum.
Proof.
  intros [t|] inc opt tol H E; auto. cbn [optimize] in *. specialize (H t eq_refl).
  destruct (find (fun v => Rltb t v) inc) as [v|] eqn:EF; auto.
  apply find_some in EF. destruct EF as [_ K]. apply Rltb_true in K. lra.
Qed.

Lemma map_skipn : forall (A B : Type) (f : A -> B) d l, map f (skipn d l) = skipn d (map f l).
Proof. intros A B f. induction d as [|d IH]; intros l; auto. destruct l; cbn; auto. Qed.
Lemma pools_aligned : forall (f : vec -> vec) add_pos add_der pos_new der_new p,
  p_next p = map f (p_der p) ->
  let q := extend_pools add_pos add_der pos_new der_new (option_map (map f) der_new) p in
  p_next q = map f (p_der q) /\
  forall size, p_next (used_pools size q) = map f (p_der (used_pools size q)) /\
    (size <> O -> p_pos (used_pools size q) = last_n size (p_pos q) /\
       p_der (used_pools size q) = last_n size (p_der q)).
Proof.
  intros f ap ad pn dn p H q.
  assert (Hq : p_next q = map f (p_der q)).
  { unfold q, extend_pools. destruct dn as [d|]; cbn [option_map]; [|auto].
    destruct ad; cbn [p_next p_der]; auto. rewrite map_app, H. auto. }
  split; auto. intros size. unfold used_pools. cbn [p_next p_der p_pos]. split.
  - rewrite Hq. unfold trim. destruct (Nat.ltb size (length (p_der q))); auto.
    unfold slice_last. rewrite map_length. destruct (Nat.eqb size 0); auto. symmetry. apply map_skipn.
  - intros Hs. rewrite !trim_last by auto. auto.
Qed.
