(** The validation losses; witnesses for the training loop. *)

Require Import Reals List Bool Arith ZArith Lra Lia.
Require Import Verif.Vec Verif.VecFacts Verif.SpecCore Verif.ModelGrad Verif.ModelNet Verif.SpecNet Verif.ModelLyapunov
  Verif.SpecLyapunov Verif.ModelSystems Verif.SpecSystems Verif.ModelExamples Verif.ModelDynLearn Verif.SpecDynLearn
  Verif.ModelDynTrain Verif.SpecDynTrain Verif.ProofLyapunov Verif.ProofSystems Verif.ProofExamples
  Verif.ProofDynLearn Verif.ProofDynLearn2 Verif.ProofDynLearnEx Verif.ProofLatent Verif.ProofDynTrain Verif.ProofDynTrain2.
Import ListNotations.
Open Scope R_scope.

Lemma q4 : forall a b c d a' b' c' d' : R, a = a' -> b = b' -> c = c' -> d = d' -> (a, b, c, d) = (a', b', c', d').
Proof. intros; subst; reflexivity. Qed.
Lemma some_eq : forall {A} (a b : A), a = b -> Some a = Some b.
Proof. intros; subst; reflexivity. Qed.
Lemma pair_eq : forall {A B} (a b : A) (c d : B), a = b -> c = d -> (a, c) = (b, d).
Proof. intros; subst; reflexivity. Qed.

Section V.
Variable L : learner.
Variable xeq : vec.
Hypothesis HL : learner_ok L xeq.
Let n := l_dim L.
Let o := l_opt L.
Hypothesis Pn : (0 < n)%nat.

Notation good_batch := (good_batch L).
Notation inside := (inside L).
Definition tdyn (b : list vec * list vec) : R :=
  vsum (map2 (fun x x' => vsum (map2 (fun a b => (a - b) ^ 2) (l_step L x) x')) (fst b) (snd b)) / INR n.
Definition tviol (f : vec -> R) (b : list vec * list vec) : R := vsum (map (fun x => Rmax 0 (f x)) (fst b)).
Definition tot (b : list vec * list vec) : R * R * R * R :=
  (tdyn b, o_s_pos o * tviol (pos_viol L xeq) b, o_s_lo o * tviol (lo_viol L xeq) b, o_s_up o * tviol (up_viol L xeq) b).

Lemma size_pos : forall b, good_batch b -> 0 < INR (length (fst b)).
Proof. intros b (Ne & _). apply lt_0_INR. destruct (fst b); [contradiction|cbn; lia]. Qed.
Lemma dim_pos : 0 < INR n.
Proof. apply lt_0_INR. exact Pn. Qed.
Lemma all_kept : forall (P : vec -> Prop) xs, Forall P xs -> kept P xs xs.
Proof. induction 1; constructor; auto. Qed.
Lemma dyn_value : forall b, good_batch b -> dynamics_loss L (fst b) (snd b) = Some (tdyn b / INR (length (fst b))).
Proof.
  intros b Hb. assert (P := size_pos b Hb). assert (Q := dim_pos). destruct Hb as (Ne & El & F & G).
  destruct (dynamics_spec L xeq HL (fst b) (snd b) Ne Pn F G El) as (v & -> & -> & _). f_equal. unfold tdyn. fold n. field. lra.
Qed.
Lemma batch_value : forall b, good_batch b -> inside b ->
  batch_losses L b = Some (scale4 (/ INR (length (fst b))) (tot b)).
Proof.
  intros b Hb Ib. assert (P := size_pos b Hb). unfold batch_losses. rewrite dyn_value by auto.
  destruct Hb as (Ne & El & F & G).
  rewrite (samples_spec L xeq HL (fst b) (fst b) F (all_kept _ _ Ib)). unfold scale4, tot, tviol, average_viol, average.
  destruct (fst b) as [|x xs]; [contradiction|]. rewrite !map_length. fold o. apply some_eq. apply q4; unfold Rdiv; ring.
Qed.
Lemma batch_some : forall b, good_batch b -> exists a1 a2 a3,
  batch_losses L b = Some (tdyn b / INR (length (fst b)), a1, a2, a3).
Proof.
  intros b Hb. unfold batch_losses. rewrite dyn_value by auto. destruct Hb as (Ne & El & F & G).
  assert (K : exists ys, kept (in_box (o_x_lo o) (o_x_up o)) (fst b) ys).
  { clear. induction (fst b) as [|x xs [ys IH]]; [exists []; constructor|].
    destruct (Classical_Prop.classic (in_box (o_x_lo o) (o_x_up o) x)); [exists (x :: ys)|exists ys]; constructor; auto. }
  destruct K as [ys K]. rewrite (samples_spec L xeq HL (fst b) ys F K). destruct ys; eauto.
Qed.

Lemma vsum_app : forall a b, vsum (a ++ b) = vsum a + vsum b.
Proof. induction a as [|x a IH]; intros b; cbn [app]; [cbn; lra|]. rewrite !vsum_cons, IH. ring. Qed.
Lemma map2_app : forall {A B C} (f : A -> B -> C) a b c d, length a = length c ->
  map2 f (a ++ b) (c ++ d) = map2 f a c ++ map2 f b d.
Proof. intros A B C f. induction a as [|x a IH]; intros b [|y c] d E; try discriminate; [reflexivity|]. injection E as E. cbn. rewrite IH by auto. reflexivity. Qed.
Lemma tdyn_join : forall b bs, good_batch b -> tdyn (joined (b :: bs)) = tdyn b + tdyn (joined bs).
Proof.
  intros [xs ys] bs (Ne & El & _). assert (Q := dim_pos). unfold tdyn, joined. cbn [map concat fst snd] in *.
  rewrite map2_app, vsum_app by auto. unfold Rdiv; ring.
Qed.
Lemma tviol_join : forall f b bs, tviol f (joined (b :: bs)) = tviol f b + tviol f (joined bs).
Proof. intros f [xs ys] bs. unfold tviol, joined. cbn. rewrite map_app, vsum_app. reflexivity. Qed.
Lemma good_join : forall bs, bs <> [] -> Forall good_batch bs -> good_batch (joined bs).
Proof.
  intros bs Ne F. unfold joined, good_batch. cbn [fst snd].
  assert (H : length (concat (map fst bs)) = length (concat (map snd bs)) /\
    Forall (fun x : vec => length x = n) (concat (map fst bs)) /\ Forall (fun x : vec => length x = n) (concat (map snd bs))).
  { clear Ne. induction F as [|b bs (_ & El & Fx & Fy) F (I1 & I2 & I3)]; cbn; [repeat split; constructor|].
    rewrite !app_length. repeat split; try (apply Forall_app; auto). congruence. }
  split; [|exact H]. destruct bs as [|b bs]; [contradiction|]. inversion F as [|? ? (Nb & _) ?]; subst. cbn.
  destruct (fst b); [contradiction|discriminate].
Qed.
Lemma inside_join : forall bs, Forall inside bs -> inside (joined bs).
Proof. unfold inside, joined. cbn. induction 1 as [|b bs H F IH]; cbn; [constructor|]. apply Forall_app. auto. Qed.

Lemma len_join : forall b bs, length (fst (joined (b :: bs))) = (length (fst b) + length (fst (joined bs)))%nat.
Proof. intros b bs. unfold joined. cbn [map concat fst]. apply app_length. Qed.
Lemma sums_dyn : forall bs, Forall good_batch bs -> exists a1 a2 a3,
  validation_sums L bs = Some (tdyn (joined bs), a1, a2, a3, length (fst (joined bs))).
Proof.
  induction 1 as [|b bs Hb F (a1 & a2 & a3 & IH)].
  - exists 0, 0, 0. cbn. unfold tdyn. cbn. assert (Q := dim_pos). apply some_eq, pair_eq; [|reflexivity]. apply q4; try reflexivity. field. lra.
  - destruct (batch_some b Hb) as (c1 & c2 & c3 & E). cbn [validation_sums]. rewrite E, IH. cbn [scale4 add4].
    assert (P := size_pos b Hb). do 3 eexists. rewrite tdyn_join by auto. rewrite len_join. apply some_eq, pair_eq; [|reflexivity]. apply q4; try reflexivity. field. lra.
Qed.
Lemma validation_dynamics : forall bs, bs <> [] -> Forall good_batch bs -> exists d a1 a2 a3,
  validation_losses L bs = Some (d, a1, a2, a3) /\ dynamics_loss L (concat (map fst bs)) (concat (map snd bs)) = Some d.
Proof.
  intros bs Ne F. destruct (sums_dyn bs F) as (a1 & a2 & a3 & E). assert (G := good_join bs Ne F).
  assert (P := size_pos _ G). unfold validation_losses. rewrite E. assert (D := dyn_value _ G). cbn [fst snd joined] in D.
  destruct (length (fst (joined bs))) as [|m] eqn:Em; [cbn in P; lra|]. cbn [scale4]. do 4 eexists. split; [reflexivity|].
  unfold joined in D, Em. cbn [fst snd] in D, Em. rewrite D, Em. apply some_eq. unfold joined, Rdiv. ring.
Qed.
Lemma sums_all : forall bs, Forall good_batch bs -> Forall inside bs ->
  validation_sums L bs = Some (tot (joined bs), length (fst (joined bs))).
Proof.
  induction 1 as [|b bs Hb F IH]; intros I.
  - cbn. unfold tot, tdyn, tviol. cbn. assert (Q := dim_pos). apply some_eq, pair_eq; [|reflexivity]. apply q4; try ring. field. lra.
  - inversion I as [|? ? Ib I']; subst. cbn [validation_sums]. rewrite batch_value, IH by auto.
    assert (P := size_pos b Hb). rewrite len_join. apply some_eq, pair_eq; [|reflexivity].
    unfold tot. rewrite tdyn_join, !tviol_join by auto. cbn [scale4 add4]. apply q4; field; lra.
Qed.
Lemma validation_whole : forall bs, bs <> [] -> Forall good_batch bs -> Forall inside bs ->
  validation_losses L bs = batch_losses L (concat (map fst bs), concat (map snd bs)).
Proof.
  intros bs Ne F I. unfold validation_losses. rewrite sums_all by auto. assert (G := good_join bs Ne F).
  fold (joined bs). rewrite (batch_value _ G (inside_join bs I)). assert (P := size_pos _ G).
  destruct (length (fst (joined bs))); [cbn in P; lra|reflexivity].
Qed.
End V.

(** ** Refutations *)
Definition two_batches : list (list vec * list vec) := [([[1/4]], [[1/4]]); ([[3/4]], [[3/4]])].
Lemma two_good : Forall (good_batch (learner_kink true)) two_batches.
Proof. unfold two_batches, good_batch. repeat constructor; discriminate. Qed.
Lemma kink_samples_14 : sample_losses (learner_kink true) [[1/4]] = Some (0, 1/4, 0) /\
  sample_losses (learner_kink true) [[3/4]] = Some (0, 0, 0) /\
  sample_losses (learner_kink true) [[1/4]; [3/4]] = Some (0, 1/4, 0).
Proof.
  assert (I : in_box [-1/2] [1/2] [1/4]) by (split; repeat constructor; lra).
  assert (J : ~ in_box [-1/2] [1/2] [3/4]) by (intros [_ H]; inversion H; subst; lra).
  assert (V : forall f c v, Rmax 0 (f [1/4]) * c = v -> c * average_viol f [[1/4]] = v).
  { intros f c v <-. unfold average_viol, average. cbn. field. }
  assert (K : forall xs, kept (in_box [-1/2] [1/2]) xs [[1/4]] -> Forall (fun x : vec => length x = 1%nat) xs ->
    sample_losses (learner_kink true) xs = Some (0, 1/4, 0)).
  { intros xs Hk Hs. rewrite (samples_spec (learner_kink true) [0] (kink_ok true) xs [[1/4]] Hs Hk).
    cbn [learner_kink l_opt options_ex o_s_pos o_s_lo o_s_up].
    do 2 f_equal; [f_equal|]; apply V; unfold pos_viol, lo_viol, up_viol; rewrite ?kink_step, ?ex_V by reflexivity;
      cbn [learner_kink l_opt options_ex o_eps_pos o_eps_lo o_eps_up]; try (destruct (Rle_dec 0 (1/4)); [|lra]);
      rewrite ?(Rabs_right (1/4)) by lra; unfold l_err; cbn; unfold Rmax, Rabs; repeat destruct Rcase_abs; repeat destruct Rle_dec; try lra. }
  split; [apply K; [apply kept_take; [exact I|constructor]|repeat constructor]|].
  split; [|apply K; [apply kept_take; [exact I|]; apply kept_drop; [exact J|constructor]|repeat constructor]].
  rewrite (samples_spec (learner_kink true) [0] (kink_ok true) [[3/4]] []); [reflexivity|repeat constructor|].
  apply kept_drop; [exact J|constructor].
Qed.

Lemma validation_refuted : ~ (forall L xeq bs, learner_ok L xeq -> (0 < l_dim L)%nat -> bs <> [] ->
  Forall (good_batch L) bs -> validation_losses L bs = batch_losses L (concat (map fst bs), concat (map snd bs))).
Proof.
  intros H. specialize (H (learner_kink true) [0] two_batches (kink_ok true) Nat.lt_0_1 ltac:(discriminate) two_good).
  destruct kink_samples_14 as (A & B & C).
  assert (G := two_good). inversion G as [|? ? G1 G']; subst. inversion G' as [|? ? G2 _]; subst.
  assert (D1 := dyn_value (learner_kink true) [0] (kink_ok true) Nat.lt_0_1 _ G1).
  assert (D2 := dyn_value (learner_kink true) [0] (kink_ok true) Nat.lt_0_1 _ G2).
  assert (D3 := dyn_value (learner_kink true) [0] (kink_ok true) Nat.lt_0_1 _
    (good_join (learner_kink true) two_batches ltac:(discriminate) two_good)).
  assert (W : exists d, batch_losses (learner_kink true) (joined two_batches) = Some (d, 0, 1/4, 0)).
  { eexists. unfold batch_losses. rewrite D3.
    change (sample_losses (learner_kink true) (fst (joined two_batches))) with (sample_losses (learner_kink true) [[1/4]; [3/4]]).
    rewrite C. reflexivity. }
  destruct W as [d W]. change (concat (map fst two_batches), concat (map snd two_batches)) with (joined two_batches) in H.
  rewrite W in H. unfold validation_losses, two_batches in H. cbn [validation_sums] in H. unfold batch_losses in H.
  rewrite D1, D2 in H. cbn [fst snd] in H. rewrite A, B in H. cbn [length Nat.add scale4 add4] in H.
  apply (f_equal (fun z => match z with Some (_, _, b, _) => b | None => 0 end)) in H. cbn in H. lra.
Qed.

(** A world: the parameters count the steps; one batch in each epoch. *)
Definition world_ex : world :=
  mkWorld nat bool unit nat bool true (fun _ _ => Some false) (fun _ _ => Some true)
    (fun g p => (p + length g)%nat) (fun p => p) (fun p => p) (fun p => p) 7%nat (fun _ _ => true) (fun _ => [tt]).
Definition cfg_ex (path : bool) : train_opt world_ex := mkTrain (w := world_ex) true 3 true false 2 path 2.
Definition state_ex : tstate world_ex :=
  mkT (w := world_ex) 5%nat [] true true 0 true (Some [(true, 5%nat); (true, 5%nat); (true, 5%nat); (true, 7%nat)]) [].

Lemma world_ok : (forall b p, w_gdyn world_ex b p <> None) /\ (forall b p, w_glyap world_ex b p <> None) /\
  (forall path, r_validate (cfg_ex path) = true -> forall e p, w_validates world_ex e p = true).
Proof. repeat split; try discriminate. Qed.
Lemma train_case : fst (train (cfg_ex true) 1000 state_ex) =
  Some (mkT (w := world_ex) 10%nat [true] true true 3 true
    (Some [(true, 10%nat); (true, 10%nat); (true, 10%nat); (true, 7%nat)])
    [EDynamics 0; ELyapunov 0; EValidation 1; EDynamics 1; EValidation 2; EDynamics 2; ELyapunov 2; EValidation 3]).
Proof. reflexivity. Qed.
Lemma interrupt_case : exists s, fst (train (cfg_ex true) 9 state_ex) = Some s /\ s_par s = 7%nat /\ s_iter s = 0%nat.
Proof. eexists. repeat split; reflexivity. Qed.

Lemma crash_refuted : ~ (forall (w : world) (cfg : train_opt w) m s,
  (exists q d, holds cfg d q (s_file s)) -> exists q d, holds cfg d q (s_file (killed cfg m s))).
Proof.
  intros H. destruct (H world_ex (cfg_ex true) 15%nat state_ex) as (q & d & E).
  - exists 5%nat, true. reflexivity.
  - vm_compute in E. discriminate.
Qed.
Lemma left_on_device : ~ (forall (w : world) (cfg : train_opt w) k s,
  (forall b p, w_gdyn w b p <> None) -> (forall b p, w_glyap w b p <> None) ->
  (r_validate cfg = true -> forall e p, w_validates w e p = true) ->
  on_device cfg (w_cpu w) (snd (train cfg k s))).
Proof.
  intros H. destruct world_ok as (A & B & C).
  destruct (no_path (cfg_ex false) state_ex A B (C false) ltac:(cbn; lia) ltac:(reflexivity) eq_refl _ (le_n _)) as (t & E & [D _] & _).
  specialize (H world_ex (cfg_ex false) (length (loop_ops (cfg_ex false) state_ex)) state_ex A B (C false)). rewrite E in H.
  destruct H as [H _]. cbn [snd] in H. rewrite D in H. discriminate.
Qed.
