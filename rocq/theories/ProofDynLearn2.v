(** The losses at samples and the rollouts of the learner of dynamics. *)

Require Import Reals List Bool Arith Lra Lia.
Require Import Verif.Vec Verif.VecFacts Verif.ModelMip Verif.SpecMip Verif.SpecCore Verif.ModelGrad
  Verif.ModelNet Verif.SpecNet Verif.SpecStep Verif.ModelLyapunov Verif.SpecLyapunov Verif.ModelMilp
  Verif.ModelExamples Verif.ModelSystems Verif.SpecSystems Verif.ModelDynLearn Verif.SpecDynLearn
  Verif.ProofNet Verif.ProofNetTotal Verif.ProofNetBounds Verif.ProofLyapunov Verif.ProofLoss
  Verif.ProofLyapCert Verif.ProofSystems Verif.ProofSystems2 Verif.ProofExamples Verif.ProofDynamics Verif.ProofDynLearn.
Import ListNotations.
Open Scope R_scope.

(** ** Squared errors *)
Lemma squares_eq : forall a b, squares a b = map2 (fun x y => (x - y) ^ 2) a b.
Proof.
  unfold squares, vsub. induction a as [|x a IH]; intros [|y b]; cbn; auto.
  f_equal; [ring|]. apply IH.
Qed.
Lemma squares_length : forall a b, length a = length b -> length (squares a b) = length a.
Proof. intros. unfold squares. rewrite map_length. apply vsub_length. auto. Qed.
Lemma squares_nonneg : forall a b, Forall (fun z => 0 <= z) (squares a b).
Proof. intros. apply Forall_map, Forall_forall. intros x _. nra. Qed.
Lemma sum_nonneg : forall v, Forall (fun z => 0 <= z) v -> 0 <= vsum v /\ (vsum v = 0 <-> Forall (fun z => z = 0) v).
Proof.
  induction 1 as [|x v Hx Hv [I1 I2]]; cbn; [split; [lra|]; split; auto|].
  change (fold_right Rplus 0 v) with (vsum v). split; [lra|]. split.
  - intros E. constructor; [lra|]. apply I2. lra.
  - intros F. inversion F; subst. apply I2 in H2. lra.
Qed.
Lemma squares_zero : forall a b, length a = length b -> (vsum (squares a b) = 0 <-> a = b).
Proof.
  intros a b H. rewrite (proj2 (sum_nonneg _ (squares_nonneg a b))). unfold squares. rewrite Forall_map.
  revert b H. induction a as [|x a IH]; intros [|y b] H; try discriminate; [split; [auto|constructor]|].
  injection H as H. cbn. split.
  - intros F. inversion F; subst. f_equal; [nra|]. apply IH; auto.
  - intros E. injection E as -> ->. constructor; [ring|]. apply IH; auto.
Qed.
Lemma squares_app : forall a b c d, length a = length b -> squares (a ++ c) (b ++ d) = squares a b ++ squares c d.
Proof.
  unfold squares. induction a as [|x a IH]; intros [|y b] c d H; try discriminate; auto.
  injection H as H. cbn. f_equal. apply IH; auto.
Qed.
Lemma mean_ms : forall a b, a <> [] -> length a = length b -> mean (squares a b) = Some (mean_square a b).
Proof.
  intros a b H E. unfold mean, mean_square. rewrite (squares_length a b E), squares_eq.
  destruct a as [|x a]; [contradiction|]. destruct b; [discriminate|]. reflexivity.
Qed.
Lemma ms_zero : forall a b, a <> [] -> length a = length b -> 0 <= mean_square a b /\ (mean_square a b = 0 <-> a = b).
Proof.
  intros a b H E. unfold mean_square. rewrite <- squares_eq.
  assert (P : 0 < INR (length a)). { apply lt_0_INR. destruct a; [contradiction|cbn; lia]. }
  destruct (sum_nonneg _ (squares_nonneg a b)) as [Q _]. rewrite <- (squares_zero a b E).
  split; [apply Rmult_le_pos; [auto|]; left; apply Rinv_0_lt_compat; auto|].
  split; intros Z.
  - apply Rmult_eq_reg_r with (/ INR (length a)); [|apply Rinv_neq_0_compat; lra]. unfold Rdiv in Z. lra.
  - rewrite Z. unfold Rdiv. ring.
Qed.
Lemma concat_length_n : forall n (xs : list vec), Forall (fun x : vec => length x = n) xs ->
  length (concat xs) = (length xs * n)%nat.
Proof. induction 1; cbn; auto. rewrite app_length. unfold vec in *. lia. Qed.
Lemma concat_inj_n : forall n (xs ys : list vec), Forall (fun x : vec => length x = n) xs ->
  Forall (fun x : vec => length x = n) ys -> length xs = length ys -> concat xs = concat ys -> xs = ys.
Proof.
  intros n xs ys F. revert ys. induction F as [|x xs Hx Hxs IH]; intros [|y ys] G E C; try discriminate; auto.
  inversion G; subst. cbn in C. apply app_inj_len in C; [|congruence]. destruct C as [-> C]. f_equal. auto.
Qed.

Section L.
Variable L : learner.
Variable xeq : vec.
Hypothesis HL : learner_ok L xeq.
Let o := l_opt L.
Let n := l_dim L.
Notation sized := (Forall (fun x : vec => length x = n)).

Lemma step_length : forall x, length x = n -> length (l_step L x) = n.
Proof.
  intros x Hx. destruct HL as (Bt & K & A). destruct (auto_built_facts _ _ Bt) as (Up & Lo & _ & Lq).
  assert (Lx : length xeq = l_dim L) by (apply (Lq xeq true); auto).
  assert (F : forall z, length z = l_dim L -> length (forward (au_net (l_sys L)) z) = l_dim L).
  { intros z Hz. destruct Bt as (W & _).
    rewrite (forward_eval (l_dim L)), (net_eval_length (l_dim L)); auto. }
  assert (G : length (vsub (forward (au_net (l_sys L)) x) (forward (au_net (l_sys L)) xeq)) = l_dim L).
  { rewrite vsub_length; rewrite ?F; auto. }
  unfold l_step, auto_step. destruct K as [-> | ->]; rewrite vadd_length; rewrite ?G; auto.
Qed.
Lemma state_length : forall k x, length x = n -> length (l_state L k x) = n.
Proof. induction k; intros x Hx; cbn; auto using step_length. Qed.

(** ** Losses at samples *)
Lemma stable_kept : forall lo up xs ys, kept (in_box lo up) xs ys -> stable_samples lo up xs = ys.
Proof.
  unfold stable_samples. induction 1 as [|x xs ys [A B] K IH|x xs ys N K IH]; cbn; auto.
  - rewrite (proj2 (vleb_spec x up)) by auto. cbn. rewrite (proj2 (vleb_spec lo x)) by auto. rewrite IH. auto.
  - destruct (vleb x up) eqn:E1; [|auto]. cbn. destruct (vleb lo x) eqn:E2; [|auto].
    apply vleb_spec in E1, E2. destruct N. split; auto.
Qed.
Lemma kept_sized : forall P xs ys, kept P xs ys -> sized xs -> sized ys.
Proof. induction 1; intros F; inversion F; subst; auto. Qed.
Lemma hinge_sum : forall f (g : vec -> R) s, s <> [] -> (forall x, In x s -> hinge 0 (f x) = Rmax 0 (g x)) ->
  reduce RMean None (map (fun x => hinge 0 (f x)) s) = Some (average_viol g s).
Proof.
  intros f g s Ne H. unfold reduce, weighted_mean, loss_reduction, average_viol, average.
  assert (E : map (fun x => hinge 0 (f x)) s = map (fun x => Rmax 0 (g x)) s) by (apply map_ext_in; auto).
  rewrite E. destruct s; [contradiction|]. reflexivity.
Qed.
Lemma losses_spec : forall lo up xs ys, sized xs -> kept (in_box lo up) xs ys ->
  losses_at_samples L lo up xs = Some match ys with
    | [] => (0, 0, 0)
    | _ => (o_s_pos o * average_viol (pos_viol L xeq) ys, o_s_lo o * average_viol (lo_viol L xeq) ys,
            o_s_up o * average_viol (up_viol L xeq) ys)
    end.
Proof.
  intros lo up xs ys F K. unfold losses_at_samples. fold o. rewrite (stable_kept _ _ _ _ K).
  assert (Fs := kept_sized _ _ _ K F). destruct ys as [|x0 s0]; [reflexivity|].
  set (s := x0 :: s0) in *. rewrite (xeq_is L xeq HL).
  assert (Fn : sized (map (auto_step (l_sys L)) s)).
  { apply Forall_map. eapply Forall_impl; [|exact Fs]. intros. apply step_length. auto. }
  assert (Ne : s <> []) by discriminate.
  assert (A : lyap_args n (l_net L) (au_lo (l_sys L)) (au_up (l_sys L)) (o_R o) xeq) by apply HL.
  rewrite (positivity_loss_eq (l_net L) n _ _ (o_R o) xeq A) by auto.
  rewrite !(derivative_loss_eq (l_net L) n _ _ (o_R o) xeq A) by (rewrite ?map_length; auto).
  rewrite (hinge_sum _ (pos_viol L xeq)) by (auto; intros x _; unfold hinge, pos_viol, l_V, l_err; f_equal; unfold o, n; ring).
  assert (C : forall (f : vec * vec -> R), map f (combine s (map (auto_step (l_sys L)) s)) = map (fun x => f (x, l_step L x)) s).
  { clear. intros f. generalize s. induction s1; cbn; auto. f_equal. auto. }
  rewrite !C. cbn [fst snd].
  rewrite (hinge_sum (fun x => - violation ExpLower (l_net L) (R_of n (o_R o)) (o_lam o) (o_eps_lo o) xeq x (l_step L x)) (lo_viol L xeq));
    [|auto|intros x _; unfold n, o; rewrite (viol_lo L xeq x); unfold hinge; f_equal; ring].
  rewrite (hinge_sum (fun x => - violation ExpUpper (l_net L) (R_of n (o_R o)) (o_lam o) (o_eps_up o) xeq x (l_step L x)) (up_viol L xeq));
    [|auto|intros x _; unfold n, o; rewrite (viol_up L xeq x); unfold hinge; f_equal; ring].
  reflexivity.
Qed.
Lemma samples_spec : forall xs ys, sized xs -> kept (in_box (o_x_lo o) (o_x_up o)) xs ys ->
  sample_losses L xs = Some match ys with
    | [] => (0, 0, 0)
    | _ => (o_s_pos o * average_viol (pos_viol L xeq) ys, o_s_lo o * average_viol (lo_viol L xeq) ys,
            o_s_up o * average_viol (up_viol L xeq) ys)
    end.
Proof. intros xs ys. apply losses_spec. Qed.
Lemma average_viol_zero : forall f s, s <> [] -> 0 <= average_viol f s /\
  (average_viol f s = 0 <-> Forall (fun x => f x <= 0) s).
Proof.
  intros f s Ne. unfold average_viol, average.
  assert (P : 0 < INR (length (map (fun x => Rmax 0 (f x)) s))).
  { apply lt_0_INR. rewrite map_length. destruct s; [contradiction|cbn; lia]. }
  assert (Q : Forall (fun z => 0 <= z) (map (fun x => Rmax 0 (f x)) s)).
  { apply Forall_map, Forall_forall. intros. apply Rmax_l. }
  destruct (sum_nonneg _ Q) as [Q1 Q2].
  split; [apply Rmult_le_pos; [auto|]; left; apply Rinv_0_lt_compat; auto|].
  rewrite Forall_map in Q2.
  assert (Q3 : Forall (fun x => Rmax 0 (f x) = 0) s <-> Forall (fun x => f x <= 0) s).
  { split; apply Forall_impl; intros x; unfold Rmax; destruct (Rle_dec 0 (f x)); lra. }
  rewrite <- Q3, <- Q2. split; intros Z.
  - apply Rmult_eq_reg_r with (/ INR (length (map (fun x => Rmax 0 (f x)) s))); [|apply Rinv_neq_0_compat; lra].
    unfold Rdiv in Z. lra.
  - rewrite Z. unfold Rdiv. ring.
Qed.
Lemma kept_exists : forall P (D : forall x, P x \/ ~ P x) xs, exists ys, kept P xs ys /\
  (forall x, In x ys <-> In x xs /\ P x).
Proof.
  intros P D. induction xs as [|x xs (ys & K & I)].
  - exists []. split; [constructor|]. intros x. cbn. tauto.
  - destruct (D x) as [H|H].
    + exists (x :: ys). split; [constructor; auto|]. intros y. cbn. rewrite I. intuition; subst; auto.
    + exists ys. split; [constructor; auto|]. intros y. cbn. rewrite I. intuition; subst; tauto.
Qed.
Lemma in_box_dec : forall lo up x, in_box lo up x \/ ~ in_box lo up x.
Proof.
  intros. destruct (vleb lo x) eqn:E1; destruct (vleb x up) eqn:E2;
    rewrite ?vleb_spec in *; try (left; split; assumption); right; intros [A B];
    apply vleb_spec in A, B; congruence.
Qed.
Lemma samples_zero : 0 < o_s_pos o -> 0 < o_s_lo o -> 0 < o_s_up o -> forall xs, sized xs ->
  exists a b c, sample_losses L xs = Some (a, b, c) /\ 0 <= a /\ 0 <= b /\ 0 <= c /\
    (a = 0 <-> forall x, In x xs -> in_box (o_x_lo o) (o_x_up o) x -> pos_viol L xeq x <= 0) /\
    (b = 0 <-> forall x, In x xs -> in_box (o_x_lo o) (o_x_up o) x -> lo_viol L xeq x <= 0) /\
    (c = 0 <-> forall x, In x xs -> in_box (o_x_lo o) (o_x_up o) x -> up_viol L xeq x <= 0).
Proof.
  intros W1 W2 W3 xs F. destruct (kept_exists _ (in_box_dec (o_x_lo o) (o_x_up o)) xs) as (ys & K & I).
  rewrite (samples_spec xs ys F K).
  assert (T : forall f, Forall (fun x => f x <= 0) ys <->
              forall x, In x xs -> in_box (o_x_lo o) (o_x_up o) x -> f x <= 0).
  { intros f. rewrite Forall_forall. split; intros H x; [intros; apply H, I; auto|]. rewrite I. intros []; auto. }
  destruct ys as [|y ys].
  - exists 0, 0, 0. rewrite <- !T. repeat split; auto; lra.
  - assert (G : forall w f, 0 < w -> 0 <= w * average_viol f (y :: ys) /\
      (w * average_viol f (y :: ys) = 0 <-> forall x, In x xs -> in_box (o_x_lo o) (o_x_up o) x -> f x <= 0)).
    { intros w f Hw. destruct (average_viol_zero f (y :: ys)) as [G1 G2]; [discriminate|].
      split; [apply Rmult_le_pos; lra|]. rewrite <- T, <- G2. split; intros Z; [|rewrite Z; ring].
      apply Rmult_integral in Z. destruct Z; [lra|auto]. }
    do 3 eexists. split; [reflexivity|].
    destruct (G _ (pos_viol L xeq) W1), (G _ (lo_viol L xeq) W2), (G _ (up_viol L xeq) W3). auto 10.
Qed.

(** ** The dynamics loss *)
Lemma dynamics_spec : forall xs nexts, xs <> [] -> (0 < n)%nat -> sized xs -> sized nexts -> length xs = length nexts ->
  exists v, dynamics_loss L xs nexts = Some v /\
    v = vsum (map2 (fun x x' => vsum (map2 (fun a b => (a - b) ^ 2) (l_step L x) x')) xs nexts)
        / (INR (length xs) * INR n) /\
    0 <= v /\ (v = 0 <-> nexts = map (l_step L) xs).
Proof.
  intros xs nexts Ne Pn F G E. set (ps := map (l_step L) xs).
  assert (Fp : sized ps). { apply Forall_map. eapply Forall_impl; [|exact F]. intros; apply step_length; auto. }
  assert (Ep : length ps = length nexts) by (unfold ps; rewrite map_length; auto).
  assert (Lc : length (concat ps) = length (concat nexts)).
  { rewrite !(concat_length_n n) by auto. congruence. }
  assert (Nc : concat ps <> []).
  { intros Z. apply (f_equal (@length R)) in Z. rewrite (concat_length_n n) in Z by auto.
    unfold ps in Z. rewrite map_length in Z. destruct xs; [contradiction|]. cbn in Z. lia. }
  exists (mean_square (concat ps) (concat nexts)). split; [apply mean_ms; auto|].
  destruct (ms_zero _ _ Nc Lc) as [P Z]. split; [|split; [auto|]].
  - unfold mean_square. rewrite (concat_length_n n) by auto. unfold ps at 2. rewrite map_length, mult_INR. f_equal.
    rewrite <- squares_eq. unfold ps. clear - F G E HL. revert nexts G E. induction F as [|x xs Hx Hxs IH]; intros [|y ys] G E; try discriminate; auto.
    inversion G; subst. injection E as E. cbn [map concat map2]. rewrite squares_app.
    + rewrite vsum_app, IH by auto. rewrite squares_eq. reflexivity.
    + rewrite step_length; auto.
  - rewrite Z. split; intros Q; [|rewrite Q; reflexivity]. symmetry. eapply concat_inj_n; eauto.
Qed.

(** ** Rollouts *)
Lemma roll_length : forall N x, length (roll L N x) = S N.
Proof. induction N; intros; cbn; auto. Qed.
Lemma roll_nth : forall N x k d, (k <= N)%nat -> nth k (roll L N x) d = l_state L k x.
Proof.
  induction N; intros x k d H; destruct k; cbn; auto; try lia. apply IHN. lia.
Qed.
Lemma roll_sized : forall N x, length x = n -> sized (roll L N x).
Proof. induction N; intros x H; constructor; auto. apply IHN, step_length, H. Qed.
Lemma rollout_spec : forall x N, length x = n -> exists xs vs, rollout L x N = Some (xs, vs) /\
  length xs = S N /\ length vs = S N /\
  forall k, (k <= N)%nat -> nth k xs [] = l_state L k x /\ nth k vs 0 = l_V L xeq (l_state L k x).
Proof.
  intros x N H. unfold rollout. fold n. unfold vec in *. rewrite H, Nat.eqb_refl. cbn [negb]. rewrite (xeq_is L xeq HL). fold o.
  assert (A : lyap_args n (l_net L) (au_lo (l_sys L)) (au_up (l_sys L)) (o_R o) xeq) by apply HL.
  rewrite (traverse_V (l_net L) n _ _ (o_R o) xeq A) by (apply roll_sized; auto).
  do 2 eexists. split; [reflexivity|]. rewrite map_length. split; [apply roll_length|]. split; [apply roll_length|].
  intros k Hk. split; [apply roll_nth; auto|].
  rewrite nth_indep with (d' := V (l_net L) (R_of n (o_R o)) (o_lam o) xeq []) by (rewrite map_length, roll_length; lia).
  rewrite map_nth, roll_nth by auto. reflexivity.
Qed.
Lemma rollout_rejects : forall x N, length x <> n -> rollout L x N = None.
Proof.
  intros x N H. unfold rollout. fold n. unfold vec in *. destruct (Nat.eqb_spec (length x) n); [contradiction|reflexivity].
Qed.

Lemma all_some_map2 : forall (f : vec -> vec -> option R) g es xs, length es = length xs ->
  (forall k, (k < length es)%nat -> f (nth k es []) (nth k xs []) = Some (g (nth k es []) (nth k xs []))) ->
  all_some (map2 f es xs) = Some (map2 g es xs).
Proof.
  induction es as [|e es IH]; intros [|x xs] E H; try discriminate; auto. injection E as E. cbn.
  assert (H0 := H O). cbn in H0. rewrite H0 by lia. rewrite IH; auto.
  intros k Hk. apply (H (S k)). cbn. lia.
Qed.
Lemma nth_map2_v : forall (g : vec -> vec -> R) es xs k, length es = length xs -> (k < length es)%nat ->
  nth k (map2 g es xs) 0 = g (nth k es []) (nth k xs []).
Proof.
  induction es as [|e es IH]; intros [|x xs] k E H; try discriminate; cbn in *; [lia|].
  destruct k; auto. apply IH; lia.
Qed.
Lemma map2_length_v : forall (g : vec -> vec -> R) es xs, length es = length xs -> length (map2 g es xs) = length es.
Proof. induction es as [|e es IH]; intros [|x xs] E; try discriminate; cbn; auto. Qed.
Lemma rollout_loss_spec : forall x0 rest, (0 < n)%nat -> sized (x0 :: rest) ->
  exists ls, rollout_loss L (x0 :: rest) = Some ls /\ length ls = S (length rest) /\ nth 0 ls 0 = 0 /\
    forall k, (k <= length rest)%nat ->
      nth k ls 0 = mean_square (nth k (x0 :: rest) []) (l_state L k x0) /\ 0 <= nth k ls 0 /\
      (nth k ls 0 = 0 <-> nth k (x0 :: rest) [] = l_state L k x0).
Proof.
  intros x0 rest Pn F. set (es := x0 :: rest) in *. unfold rollout_loss. fold es.
  assert (H0 : length x0 = n) by (inversion F; auto).
  destruct (rollout_spec x0 (length rest) H0) as (xs & vs & E & L1 & L2 & H).
  replace (length es - 1)%nat with (length rest) by (cbn; lia). cbn [es] in *. unfold es at 1. rewrite E.
  assert (Les : length es = S (length rest)) by reflexivity.
  assert (Le : length es = length xs) by (unfold es; cbn; congruence).
  assert (Se : forall k, (k <= length rest)%nat -> length (nth k es []) = n).
  { intros k Hk. apply (proj1 (Forall_nth _ es) F). unfold vec in *. lia. }
  assert (Sx : forall k, (k <= length rest)%nat -> length (nth k xs []) = n).
  { intros k Hk. destruct (H k Hk) as [-> _]. apply state_length; auto. }
  assert (Nn : forall v : vec, length v = n -> v <> []).
  { intros v Hv Z. subst v. cbn in Hv. lia. }
  rewrite (all_some_map2 _ mean_square); auto.
  2: { intros k Hk. assert (k <= length rest)%nat by (unfold vec in *; cbn in Hk; lia). fold es. apply mean_ms; [apply Nn, Se; auto|].
       rewrite Se, Sx; auto. }
  exists (map2 mean_square es xs). split; [reflexivity|]. rewrite map2_length_v by auto. split; [reflexivity|].
  assert (G : forall k, (k <= length rest)%nat ->
      nth k (map2 mean_square es xs) 0 = mean_square (nth k es []) (l_state L k x0) /\ 0 <= nth k (map2 mean_square es xs) 0 /\
      (nth k (map2 mean_square es xs) 0 = 0 <-> nth k es [] = l_state L k x0)).
  { intros k Hk. rewrite nth_map2_v by (auto; unfold vec in *; lia). destruct (H k Hk) as [Ek _]. rewrite Ek.
    split; [reflexivity|]. apply ms_zero; [apply Nn, Se; auto|]. rewrite Se by auto. symmetry. apply state_length; auto. }
  split; [|exact G]. apply G; [lia|reflexivity].
Qed.

(** Decay along a rollout. *)
Lemma rollout_decay : 0 <= 1 - o_eps_lo o ->
  (forall x, l_stays L x -> lo_viol L xeq x <= 0) ->
  forall x N, (forall k, (k <= N)%nat -> l_box L (l_state L k x)) ->
  forall k, (k <= N)%nat -> l_V L xeq (l_state L k x) <= (1 - o_eps_lo o) ^ k * l_V L xeq x.
Proof.
  intros Pe H x N B k. revert x N B. induction k as [|k IH]; intros x N B Hk; cbn [l_state pow]; [lra|].
  assert (S1 : l_stays L x) by (split; [apply (B O)|apply (B 1%nat)]; lia).
  specialize (H x S1). unfold lo_viol in H. fold o in H.
  eapply Rle_trans; [apply (IH (l_step L x) (pred N))|].
  - intros j Hj. apply (B (S j)). lia.
  - lia.
  - rewrite (Rmult_comm (1 - o_eps_lo o)), Rmult_assoc. apply Rmult_le_compat_l; [apply pow_le; auto|]. lra.
Qed.

(** ** The validation over several rollouts *)
Fixpoint sum_losses (ls : list vec) (k : nat) : R :=
  match ls with [] => 0 | l :: ls' => nth k l 0 + sum_losses ls' k end.
Lemma nth_vadd_v : forall a b k, length a = length b -> nth k (vadd a b) 0 = nth k a 0 + nth k b 0.
Proof.
  unfold vadd. induction a as [|x a IH]; intros [|y b] k E; try discriminate; destruct k; cbn; auto; lra.
Qed.
Lemma add_losses_spec : forall m ls loss rs acc, length acc = m ->
  Forall2 (fun r l => loss r = Some l /\ length l = m) rs ls ->
  exists v, add_losses loss acc rs = Some v /\ length v = m /\ forall k, nth k v 0 = nth k acc 0 + sum_losses ls k.
Proof.
  intros m ls loss rs acc La F. revert acc La. induction F as [|r l rs ls [E Ll] F IH]; intros acc La; cbn.
  - exists acc. split; auto. split; auto. intros. lra.
  - rewrite E. unfold vec in *. rewrite Ll, La, Nat.eqb_refl.
    destruct (IH (vadd acc l)) as (v & Ev & Lv & Hv); [rewrite vadd_length; auto; congruence|].
    exists v. split; auto. split; auto. intros k. rewrite Hv, nth_vadd_v by congruence. lra.
Qed.
Definition predicted_losses (r : list vec) : vec :=
  match r with [] => [] | x0 :: _ => map2 (fun k e => mean_square e (l_state L k x0)) (seq 0 (length r)) r end.
Lemma validation_spec : forall r rs, (0 < n)%nat -> r <> [] -> Forall (fun s => length s = length r /\ sized s) (r :: rs) ->
  exists v, rollout_validation L (r :: rs) = Some v /\ length v = length r /\
    forall k, (k < length r)%nat ->
      nth k v 0 = vsum (map (fun s => mean_square (nth k s []) (l_state L k (hd [] s))) (r :: rs)).
Proof.
  intros r rs Pn Ne F. unfold rollout_validation.
  assert (G : exists ls, Forall2 (fun s l => rollout_loss L s = Some l /\ length l = length r) (r :: rs) ls /\
    forall k, (k < length r)%nat -> sum_losses ls k = vsum (map (fun s => mean_square (nth k s []) (l_state L k (hd [] s))) (r :: rs))).
  { induction F as [|s ss [Es Fs] F' IH].
    - exists []. split; [constructor|]. reflexivity.
    - destruct IH as (ls & I1 & I2). destruct s as [|x0 rest].
      { destruct r; [contradiction|discriminate]. }
      destruct (rollout_loss_spec x0 rest Pn Fs) as (l & El & Ll & _ & Hl).
      exists (l :: ls). split; [constructor; [split; [auto|]; rewrite Ll; exact Es|auto]|].
      intros k Hk. cbn [sum_losses map hd]. rewrite I2 by auto.
      destruct (Hl k) as [-> _]; [cbn in Es; lia|]. reflexivity. }
  destruct G as (ls & F2 & Hk).
  destruct (add_losses_spec (length r) ls (rollout_loss L) (r :: rs) (zeros (length r)) (repeat_length _ _) F2) as (v & E & Lv & Hv).
  exists v. split; [exact E|]. split; [auto|]. intros k H. rewrite Hv, <- Hk by auto.
  unfold zeros. rewrite nth_repeat. ring.
Qed.
End L.
