(** Reconstruction, prediction and rollouts in latent space. *)

Require Import Reals List Bool Arith ZArith Lra Lia.
Require Import Verif.Vec Verif.VecFacts Verif.SpecCore Verif.ModelGrad Verif.ModelNet Verif.ModelLyapunov
  Verif.SpecLyapunov Verif.ModelSystems Verif.SpecSystems Verif.ModelExamples Verif.ModelDynLearn Verif.SpecDynLearn
  Verif.ModelLatent Verif.SpecLatent Verif.ProofLyapunov Verif.ProofLyapCert Verif.ProofSystems Verif.ProofExamples
  Verif.ProofDynamics Verif.ProofDynLearn Verif.ProofDynLearn2 Verif.ProofLatent.
Import ListNotations.
Open Scope R_scope.

Definition flats (xs : list image) : vec := concat (map (@concat R) xs).

Lemma reconstruction_bce : forall T xs ds, t_bce T = true -> flats xs <> [] -> length (flats ds) = length (flats xs) ->
  Forall (fun p => 0 <= p <= 1) (flats ds) -> Forall fair_target (flats xs) ->
  exists u v, reconstruction_loss T xs ds = Some u /\ reconstruction_loss T xs xs = Some v /\ v <= u /\
    (u = v -> flats ds = flats xs).
Proof.
  intros T xs ds E Ne El F G. unfold reconstruction_loss. rewrite E. apply bce_loss_min; auto.
Qed.
Lemma reconstruction_l2 : forall T x xs d ds, t_bce T = false -> concat x <> [] -> length (concat x) = length (concat d) ->
  reconstruction_loss T (x :: xs) (d :: ds) = Some (mean_square (concat x) (concat d)).
Proof. intros T x xs d ds E Ne El. unfold reconstruction_loss. rewrite E. apply mean_ms; auto. Qed.

(** ** Targets *)
Lemma target_two : forall f0 f1 f2 : image, length f0 = length f2 -> length f1 = length f2 -> (0 < length f2)%nat ->
  target (f0 ++ f1) f2 = f1 ++ f2.
Proof.
  intros f0 f1 f2 E0 E1 P. unfold target. rewrite app_length. unfold image, vec in *.
  destruct (Nat.ltb_spec (length f2) (length f0 + length f1)); [|lia].
  rewrite <- E0. rewrite skipn_app, skipn_all, Nat.sub_diag. reflexivity.
Qed.
Lemma target_length : forall x y, (length y <= length x)%nat -> length (target x y) = length x.
Proof.
  intros x y H. unfold target. destruct (Nat.ltb_spec (length y) (length x)); [|lia].
  rewrite app_length, skipn_length. lia.
Qed.
Lemma target_same : forall x y, (length x <= length y)%nat -> target x y = y.
Proof. intros x y H. unfold target. destruct (Nat.ltb_spec (length y) (length x)); [lia|reflexivity]. Qed.

Section L.
Variable L : learner.
Variable xeq : vec.
Hypothesis HL : learner_ok L xeq.
Let n := l_dim L.
Variables (enc : image -> vec * vec) (dec : vec -> image).
Variable T : lat_opt.

(** ** Losses at samples *)
Lemma latent_length : forall c eps x, coder_fits n c enc dec -> length x = (2 * c)%nat -> length eps = n ->
  length (latent enc T eps x) = n.
Proof.
  intros c eps x [F _] Hx He. destruct (F x Hx) as [A B]. unfold latent. destruct (enc x) as [mu lv]. cbn in *.
  destruct (t_var T); [|auto]. unfold reparam. rewrite vadd_length; rewrite map2_length_R; rewrite ?map_length; congruence.
Qed.
Lemma latent_samples_spec : forall noise xs ys,
  Forall (fun z : vec => length z = n) (map2 (latent enc T) noise xs) ->
  kept (in_box (t_z_lo T) (t_z_up T)) (map2 (latent enc T) noise xs) ys ->
  latent_sample_losses enc L T noise xs = Some match ys with
    | [] => (0, 0, 0)
    | _ => (o_s_pos (l_opt L) * average_viol (pos_viol L xeq) ys, o_s_lo (l_opt L) * average_viol (lo_viol L xeq) ys,
            o_s_up (l_opt L) * average_viol (up_viol L xeq) ys)
    end.
Proof. intros noise xs ys F K. apply (losses_spec L xeq HL); auto. Qed.

(** ** The dynamics loss *)
Definition plus_all (l : list R) : R := fold_right Rplus 0 l.
Lemma dynamics_parts : forall noise k xs nexts v, latent_dynamics_loss enc dec L T noise k xs nexts = Some v ->
  exists a b e, reconstruction_loss T xs (map dec (map2 (latent enc T) noise xs)) = Some a /\
    reconstruction_loss T (map2 target xs nexts) (map (fun z => dec (l_step L z)) (map2 (latent enc T) noise xs)) = Some b /\
    (match t_eq T with None => e = 0 | Some im => exists q, reconstruction_loss T [im] [dec xeq] = Some q /\ e = t_eq_weight T * q end) /\
    (if t_var T then exists q, kl_loss T k (map enc xs) = Some q /\ v = a + b + q + e else v = a + b + e).
Proof.
  intros noise k xs nexts v E. unfold latent_dynamics_loss in E. rewrite (xeq_is L xeq HL) in E.
  assert (E1 : forall ns ys, map (fun q : image * image * vec => fst (fst q)) (map2 (vae_forward enc dec L T) ns ys)
               = map dec (map2 (latent enc T) ns ys)).
  { induction ns; intros [|y ys]; cbn; auto. f_equal. auto. }
  assert (E2 : forall ns ys, map (fun q : image * image * vec => snd (fst q)) (map2 (vae_forward enc dec L T) ns ys)
               = map (fun z => dec (l_step L z)) (map2 (latent enc T) ns ys)).
  { induction ns; intros [|y ys]; cbn; auto. f_equal. auto. }
  rewrite E1, E2 in E.
  destruct (reconstruction_loss T xs _) as [a|] eqn:Ea; [|destruct (t_var T), (t_eq T); discriminate].
  destruct (reconstruction_loss T (map2 target xs nexts) _) as [b|] eqn:Eb; [|destruct (t_var T), (t_eq T); discriminate].
  cbn [oplus] in E. exists a, b.
  destruct (t_var T).
  - destruct (kl_loss T k (map enc xs)) as [q|] eqn:Ek; cbn [oplus] in E; [|destruct (t_eq T); discriminate].
    destruct (t_eq T) as [im|].
    + destruct (reconstruction_loss T [im] [dec xeq]) as [w|] eqn:Ew; [|discriminate]. cbn in E. injection E as <-.
      exists (t_eq_weight T * w). repeat split; eauto.
    + injection E as <-. exists 0. repeat split; auto. exists q. split; auto. lra.
  - destruct (t_eq T) as [im|].
    + destruct (reconstruction_loss T [im] [dec xeq]) as [w|] eqn:Ew; [|discriminate]. cbn in E. injection E as <-.
      exists (t_eq_weight T * w). repeat split; eauto.
    + injection E as <-. exists 0. repeat split; auto. lra.
Qed.

(** ** Rollouts *)
Variable c : nat.
Hypothesis Fit : coder_fits n c enc dec.

Lemma squeezed_V : forall z, n <> 1%nat -> length z = n -> squeezed_value L xeq z = Some (l_V L xeq z).
Proof.
  intros z N1 Hz. unfold squeezed_value. unfold vec in *. rewrite Hz. destruct (Nat.eqb_spec n 1); [contradiction|].
  destruct HL as (_ & _ & A). rewrite (value_V _ _ _ _ _ _ _ _ A) by auto. reflexivity.
Qed.
Lemma traverse_squeezed : forall zs, n <> 1%nat -> Forall (fun z : vec => length z = n) zs ->
  traverse (squeezed_value L xeq) zs = Some (map (l_V L xeq) zs).
Proof.
  intros zs N1 F. induction F as [|z zs Hz Fz IH]; auto. cbn [traverse]. rewrite squeezed_V, IH by auto. reflexivity.
Qed.
Lemma halves : forall x : image, length x = (2 * c)%nat -> (length x / 2)%nat = c /\ Nat.even (length x) = true.
Proof.
  intros x H. rewrite H. split; [rewrite Nat.mul_comm; apply Nat.div_mul; lia|].
  rewrite Nat.even_mul. reflexivity.
Qed.
Lemma frame_length : forall z, length z = n -> length (skipn c (dec z)) = c.
Proof. intros z Hz. rewrite skipn_length. destruct Fit as [_ D]. rewrite D by auto. lia. Qed.
Lemma tl_roll : forall N z, tl (roll L N z) = match N with O => [] | S k => roll L k (l_step L z) end.
Proof. intros [|N] z; reflexivity. Qed.
Lemma nth_tl : forall {A} (l : list A) k d, nth k (tl l) d = nth (S k) l d.
Proof. intros A [|a l] k d; [destruct k; reflexivity|reflexivity]. Qed.

Lemma latent_rollout_spec : forall x N noise, n <> 1%nat -> length x = (2 * c)%nat ->
  exists fs vs zs, latent_rollout enc dec L T x N false noise = Some (fs, vs, zs) /\
    length fs = S (S N) /\ length vs = S N /\ length zs = S N /\
    nth 0 fs [] = firstn c x /\ nth 1 fs [] = skipn c x /\
    (forall k, (k <= N)%nat -> nth k zs [] = l_state L k (fst (enc x)) /\
       nth k vs 0 = l_V L xeq (l_state L k (fst (enc x)))) /\
    (forall k, (k < N)%nat -> nth (S (S k)) fs [] = skipn c (dec (l_state L (S k) (fst (enc x))))).
Proof.
  intros x N noise N1 Hx. unfold latent_rollout. destruct (halves x Hx) as [-> ->]. cbn [negb].
  rewrite (xeq_is L xeq HL). set (z0 := fst (enc x)).
  assert (Hz : length z0 = n) by (apply Fit; auto).
  assert (Fz := roll_sized L xeq HL N z0 Hz).
  assert (Fb : forallb (fun f => Nat.eqb (length f) c) (map (fun z => skipn c (dec z)) (tl (roll L N z0))) = true).
  { apply forallb_forall. intros f Hf. apply in_map_iff in Hf. destruct Hf as (z & <- & Hi). apply Nat.eqb_eq, frame_length.
    rewrite Forall_forall in Fz. apply Fz. destruct (roll L N z0); [destruct Hi|right; exact Hi]. }
  rewrite Fb. rewrite (traverse_squeezed _ N1 Fz). do 3 eexists. split; [reflexivity|].
  assert (Lt : length (tl (roll L N z0)) = N).
  { assert (Q := roll_length L N z0). destruct (roll L N z0); [discriminate|]. cbn in *. lia. }
  cbn [length]. rewrite !map_length, (roll_length L), Lt. repeat split; auto.
  - apply roll_nth. auto.
  - rewrite nth_indep with (d' := l_V L xeq []) by (rewrite map_length, roll_length; lia).
    rewrite map_nth, roll_nth by auto. reflexivity.
  - intros k Hk. cbn [nth].
    rewrite nth_indep with (d' := skipn c (dec [])) by (rewrite map_length, Lt; lia).
    rewrite (map_nth (fun z => skipn c (dec z))), nth_tl, roll_nth by lia. reflexivity.
Qed.
Lemma latent_rollout_one : forall x N decode noise, n = 1%nat -> length x = (2 * c)%nat ->
  latent_rollout enc dec L T x N decode noise = None.
Proof.
  intros x N decode noise N1 Hx. unfold latent_rollout. destruct (halves x Hx) as [-> ->]. cbn [negb].
  rewrite (xeq_is L xeq HL). assert (Hz : length (fst (enc x)) = n) by (apply Fit; auto).
  assert (Sq : squeezed_value L xeq (fst (enc x)) = None).
  { unfold squeezed_value. unfold vec in *. rewrite Hz, N1. reflexivity. }
  destruct decode.
  - cbn [traverse]. rewrite Sq. destruct (forallb _ _); reflexivity.
  - destruct N; cbn [roll traverse]; rewrite Sq; destruct (forallb _ _); reflexivity.
Qed.

(** Through images. *)
Lemma frame_at_shift : forall k noise f0 f1,
  frame_at enc dec L T noise c (S k) f0 f1 =
  frame_at enc dec L T (fun j => noise (S j)) c k f1 (skipn c (dec (l_step L (latent enc T (noise O) (f0 ++ f1))))).
Proof.
  induction k as [|k IH]; intros noise f0 f1; [reflexivity|].
  cbn [frame_at] in *. rewrite <- IH. reflexivity.
Qed.
Lemma frame_roll_spec : forall N noise f0 f1, length (frame_roll enc dec L T c N noise f0 f1) = N /\
  forall k, (k < N)%nat ->
    nth k (map fst (frame_roll enc dec L T c N noise f0 f1)) [] = snd (frame_at enc dec L T noise c (S k) f0 f1) /\
    nth k (map snd (frame_roll enc dec L T c N noise f0 f1)) [] =
      (let '(a, b) := frame_at enc dec L T noise c k f0 f1 in l_step L (latent enc T (noise k) (a ++ b))).
Proof.
  induction N as [|N IH]; intros noise f0 f1; [split; [reflexivity|intros; lia]|].
  cbn [frame_roll]. unfold vae_forward. fold (l_step L (latent enc T (noise O) (f0 ++ f1))).
  destruct (IH (fun k => noise (S k)) f1 (skipn c (dec (l_step L (latent enc T (noise O) (f0 ++ f1)))))) as [I1 I2].
  split; [cbn [length]; f_equal; exact I1|]. intros [|k] Hk.
  - split; reflexivity.
  - destruct (I2 k) as [A B]; [lia|]. cbn [map nth]. rewrite A, B, <- !frame_at_shift. split; reflexivity.
Qed.
Lemma frame_at_lengths : forall noise f0 f1, (forall k, length (noise k) = n) -> length f0 = c -> length f1 = c ->
  forall k, length (fst (frame_at enc dec L T noise c k f0 f1)) = c /\ length (snd (frame_at enc dec L T noise c k f0 f1)) = c.
Proof.
  intros noise f0 f1 Hn H0 H1. induction k as [|k [I1 I2]]; [auto|]. cbn [frame_at].
  destruct (frame_at enc dec L T noise c k f0 f1) as [a b]. cbn [fst snd] in *. split; [auto|].
  apply frame_length. apply (step_length L xeq HL). eapply latent_length; eauto. rewrite app_length. lia.
Qed.
Lemma image_rollout_spec : forall x N noise, n <> 1%nat -> length x = (2 * c)%nat -> (forall k, length (noise k) = n) ->
  exists fs vs zs, latent_rollout enc dec L T x N true noise = Some (fs, vs, zs) /\
    length fs = S (S N) /\ length vs = S N /\ length zs = S N /\
    (forall k, (k <= N)%nat -> (nth k fs [], nth (S k) fs []) = frame_at enc dec L T noise c k (firstn c x) (skipn c x)) /\
    nth 0 zs [] = fst (enc x) /\
    (forall k, (k < N)%nat -> nth (S k) zs [] = l_step L (latent enc T (noise k) (nth k fs [] ++ nth (S k) fs []))) /\
    (forall k, (k <= N)%nat -> nth k vs 0 = l_V L xeq (nth k zs [])).
Proof.
  intros x N noise N1 Hx Hn. unfold latent_rollout. destruct (halves x Hx) as [-> ->]. cbn [negb].
  rewrite (xeq_is L xeq HL). set (f0 := firstn c x). set (f1 := skipn c x).
  assert (H0 : length f0 = c) by (unfold f0; rewrite firstn_length; lia).
  assert (H1 : length f1 = c) by (unfold f1; rewrite skipn_length; lia).
  assert (FL := frame_at_lengths noise f0 f1 Hn H0 H1).
  destruct (frame_roll_spec N noise f0 f1) as [Lr Sr]. set (q := frame_roll enc dec L T c N noise f0 f1) in *.
  assert (Fb : forallb (fun f => Nat.eqb (length f) c) (map fst q) = true).
  { apply forallb_forall. intros f Hf. apply Nat.eqb_eq.
    destruct (In_nth _ _ [] Hf) as (k & Hk & <-). rewrite map_length, Lr in Hk. destruct (Sr k Hk) as [E _]. unfold image in *. rewrite E. apply FL. }
  assert (Fz : Forall (fun z : vec => length z = n) (fst (enc x) :: map snd q)).
  { constructor; [apply Fit; auto|]. apply Forall_forall. intros z Hz.
    destruct (In_nth _ _ [] Hz) as (k & Hk & <-). rewrite map_length, Lr in Hk. destruct (Sr k Hk) as [_ E]. unfold image, vec in *. rewrite E. clear E.
    destruct (FL k) as [A B]. destruct (frame_at enc dec L T noise c k f0 f1) as [a b]. cbn [fst snd] in *.
    apply (step_length L xeq HL). eapply latent_length; eauto. rewrite app_length. lia. }
  rewrite Fb, (traverse_squeezed _ N1 Fz). do 3 eexists. split; [reflexivity|].
  assert (Pairs : forall k, (k <= N)%nat -> (nth k (f0 :: f1 :: map fst q) [], nth (S k) (f0 :: f1 :: map fst q) [])
    = frame_at enc dec L T noise c k f0 f1).
  { assert (G : forall k, (k < S N)%nat -> nth (S k) (f0 :: f1 :: map fst q) [] = snd (frame_at enc dec L T noise c k f0 f1)).
    { intros [|k] Hk; [reflexivity|]. cbn [nth]. apply Sr. lia. }
    intros [|k] Hk; [reflexivity|]. rewrite (G k), (G (S k)) by lia. cbn [frame_at].
    destruct (frame_at enc dec L T noise c k f0 f1). reflexivity. }
  cbn [length]. rewrite !map_length. cbn [length]. rewrite !map_length, Lr.
  do 3 (split; [reflexivity|]). split; [exact Pairs|]. split; [reflexivity|]. split.
  - intros k Hk. cbn [nth]. change (nth k (map snd q) [] = l_step L (latent enc T (noise k)
      (nth k (f0 :: f1 :: map fst q) [] ++ nth (S k) (f0 :: f1 :: map fst q) []))).
    destruct (Sr k Hk) as [_ ->]. rewrite <- (Pairs k) by lia. reflexivity.
  - intros k Hk. change (l_V L xeq (fst (enc x)) :: map (l_V L xeq) (map snd q)) with (map (l_V L xeq) (fst (enc x) :: map snd q)).
    rewrite nth_indep with (d' := l_V L xeq []) by (rewrite map_length; cbn [length]; rewrite map_length; lia).
    apply map_nth.
Qed.
End L.

(** ** Latent states *)
Lemma exp_half : forall v, exp (/ 2 * v) = sqrt (exp v).
Proof.
  intros v. symmetry. apply sqrt_lem_1; try (left; apply exp_pos). rewrite <- exp_plus. f_equal. lra.
Qed.
Lemma reparam_spec : forall eps mu lv, length eps = length mu -> length lv = length mu ->
  length (reparam eps mu lv) = length mu /\
  forall k, (k < length mu)%nat -> nth k (reparam eps mu lv) 0 = nth k mu 0 + nth k eps 0 * sqrt (exp (nth k lv 0)).
Proof.
  unfold reparam, vadd. intros eps mu lv. revert mu lv.
  induction eps as [|e eps IH]; intros [|m mu] [|v lv] A B; try discriminate; [split; [auto|cbn; intros; lia]|].
  injection A as A. injection B as B. destruct (IH mu lv A B) as [I1 I2]. cbn [map map2 length]. split; [cbn; auto|].
  intros [|k] Hk; cbn [nth]; [rewrite exp_half; ring|]. apply I2. cbn in Hk. lia.
Qed.
Lemma latent_spec : forall enc T eps x mu lv, enc x = (mu, lv) -> length eps = length mu -> length lv = length mu ->
  (t_var T = false -> latent enc T eps x = mu) /\
  (t_var T = true -> length (latent enc T eps x) = length mu /\
     forall k, (k < length mu)%nat -> nth k (latent enc T eps x) 0 = nth k mu 0 + nth k eps 0 * sqrt (exp (nth k lv 0))).
Proof.
  intros enc T eps x mu lv E A B. unfold latent. rewrite E. split; intros ->; [reflexivity|]. apply reparam_spec; auto.
Qed.
