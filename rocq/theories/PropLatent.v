(** Properties C74, C75: learning dynamics in the latent space of an encoder of images. *)

Require Import Reals List ZArith Lia.
Require Import Verif.Vec Verif.SpecCore Verif.ModelGrad Verif.ModelNet Verif.SpecNet Verif.ModelLyapunov Verif.SpecLyapunov
  Verif.ModelExamples Verif.ModelSystems Verif.SpecSystems Verif.ModelDynLearn Verif.SpecDynLearn
  Verif.ModelLatent Verif.SpecLatent Verif.ProofDynLearnEx Verif.ProofLatent Verif.ProofLatent2 Verif.ProofLatent3.
Import ListNotations.
Open Scope R_scope.

(** ** C74: losses in latent space *)

(** The weight of the divergence: between its two bounds, increasing, the mean of the
    bounds at the center step. *)
Theorem C74_weight : forall lo up center steps, lo < up -> (0 < steps)%Z ->
  (forall k, lo < anneal lo up center steps k < up) /\
  (forall j k, (j < k)%nat -> anneal lo up center steps j < anneal lo up center steps k) /\
  (forall k, Z.of_nat k = center -> anneal lo up center steps k = (lo + up) / 2).
Proof. exact anneal_spec. Qed.
Print Assumptions C74_weight.

(** The divergence: the weight times the average over the batch; never negative and
    zero exactly when every code is the standard normal distribution. *)
Theorem C74_divergence : forall T k codes, codes <> [] ->
  Forall (fun c => length (fst c) = length (snd c)) codes ->
  exists l, kl_loss T k codes =
      Some (anneal (t_kl_lo T) (t_kl_up T) (t_kl_center T) (t_kl_steps T) k * l) /\
    l = average (map (fun c => vsum (map2 kl_coordinate (fst c) (snd c))) codes) /\ 0 <= l /\
    (l = 0 <-> Forall (fun c => Forall (fun m => m = 0) (fst c) /\ Forall (fun v => v = 0) (snd c)) codes).
Proof. exact kl_spec. Qed.
Print Assumptions C74_divergence.

(** The latent state of an image: the mean, or a sample of the normal distribution with
    this mean and the variance exp lv. *)
Theorem C74_latent_state : forall enc T eps x mu lv, enc x = (mu, lv) -> length eps = length mu -> length lv = length mu ->
  (t_var T = false -> latent enc T eps x = mu) /\
  (t_var T = true -> length (latent enc T eps x) = length mu /\
     forall k, (k < length mu)%nat -> nth k (latent enc T eps x) 0 = nth k mu 0 + nth k eps 0 * sqrt (exp (nth k lv 0))).
Proof. exact latent_spec. Qed.
Print Assumptions C74_latent_state.

(** Reconstruction by cross entropy: no prediction is better than the image itself, and
    no other prediction is as good. *)
Theorem C74_cross_entropy : forall T (xs ds : list image), t_bce T = true -> concat (map (@concat R) xs) <> [] ->
  length (concat (map (@concat R) ds)) = length (concat (map (@concat R) xs)) ->
  Forall (fun p => 0 <= p <= 1) (concat (map (@concat R) ds)) ->
  Forall fair_target (concat (map (@concat R) xs)) ->
  exists u v, reconstruction_loss T xs ds = Some u /\ reconstruction_loss T xs xs = Some v /\ v <= u /\
    (u = v -> concat (map (@concat R) ds) = concat (map (@concat R) xs)).
Proof. exact reconstruction_bce. Qed.
Print Assumptions C74_cross_entropy.

(** Without it: the mean squared error of the first image of the batch. *)
Theorem C74_first_image : forall T x xs d ds, t_bce T = false -> concat x <> [] -> length (concat x) = length (concat d) ->
  reconstruction_loss T (x :: xs) (d :: ds) = Some (mean_square (concat x) (concat d)).
Proof. exact reconstruction_l2. Qed.
Print Assumptions C74_first_image.

(** Refuted: "the loss is zero only if all images of the batch are reconstructed". *)
Theorem C74_batch_refuted : ~ (forall T (xs ds : list image), t_bce T = false -> length xs = length ds ->
  reconstruction_loss T xs ds = Some 0 -> xs = ds).
Proof. exact batch_refuted. Qed.
Print Assumptions C74_batch_refuted.

(** The frames to predict: from two frames and the next one, the last two. *)
Theorem C74_target : forall f0 f1 f2 : image, length f0 = length f2 -> length f1 = length f2 -> (0 < length f2)%nat ->
  target (f0 ++ f1) f2 = f1 ++ f2 /\ forall x y : image, (length x <= length y)%nat -> target x y = y.
Proof. exact (fun f0 f1 f2 A B C => conj (target_two f0 f1 f2 A B C) target_same). Qed.
Print Assumptions C74_target.

(** The dynamics loss: reconstruction of the images, of the images after one step, the
    divergence, and the weighted reconstruction of the equilibrium. *)
Theorem C74_dynamics : forall enc dec L xeq T noise k xs nexts v, learner_ok L xeq ->
  latent_dynamics_loss enc dec L T noise k xs nexts = Some v ->
  exists a b e, reconstruction_loss T xs (map dec (map2 (latent enc T) noise xs)) = Some a /\
    reconstruction_loss T (map2 target xs nexts) (map (fun z => dec (l_step L z)) (map2 (latent enc T) noise xs)) = Some b /\
    (match t_eq T with None => e = 0 | Some im => exists q, reconstruction_loss T [im] [dec xeq] = Some q /\ e = t_eq_weight T * q end) /\
    (if t_var T then exists q, kl_loss T k (map enc xs) = Some q /\ v = a + b + q + e else v = a + b + e).
Proof. exact (fun enc dec L xeq T noise k xs nexts v HL => dynamics_parts L xeq HL enc dec T noise k xs nexts v). Qed.
Print Assumptions C74_dynamics.

(** The Lyapunov losses at samples: those of C72 at the latent states inside the box. *)
Theorem C74_samples : forall enc L xeq T noise xs ys, learner_ok L xeq ->
  Forall (fun z : vec => length z = l_dim L) (map2 (latent enc T) noise xs) ->
  kept (in_box (t_z_lo T) (t_z_up T)) (map2 (latent enc T) noise xs) ys ->
  latent_sample_losses enc L T noise xs = Some match ys with
    | [] => (0, 0, 0)
    | _ => (o_s_pos (l_opt L) * average_viol (pos_viol L xeq) ys,
            o_s_lo (l_opt L) * average_viol (lo_viol L xeq) ys,
            o_s_up (l_opt L) * average_viol (up_viol L xeq) ys)
    end.
Proof. exact (fun enc L xeq T noise xs ys HL => latent_samples_spec L xeq HL enc T noise xs ys). Qed.
Print Assumptions C74_samples.

Example C74_case : learner_ok learner_two [0; 0] /\ coder_fits 2 1 enc_two dec_two /\
  latent enc_two (lat_ex false true) [] [[1/2]; [1/4]] = [1/2; 1/4] /\ fair_target 1 /\ fair_target 0.
Proof.
  exact (conj two_ok (conj two_fits (conj eq_refl (conj (or_intror (or_introl eq_refl)) (or_introl eq_refl))))).
Qed.

(** ** C75: rollouts in latent space *)

(** Rollouts through the latent state: two given frames, then the decoded states. *)
Theorem C75_latent : forall L xeq enc dec T c x N noise, learner_ok L xeq -> coder_fits (l_dim L) c enc dec ->
  l_dim L <> 1%nat -> length x = (2 * c)%nat ->
  exists fs vs zs, latent_rollout enc dec L T x N false noise = Some (fs, vs, zs) /\
    length fs = S (S N) /\ length vs = S N /\ length zs = S N /\
    nth 0 fs [] = firstn c x /\ nth 1 fs [] = skipn c x /\
    (forall k, (k <= N)%nat -> nth k zs [] = l_state L k (fst (enc x)) /\
       nth k vs 0 = l_V L xeq (l_state L k (fst (enc x)))) /\
    (forall k, (k < N)%nat -> nth (S (S k)) fs [] = skipn c (dec (l_state L (S k) (fst (enc x))))).
Proof. exact (fun L xeq enc dec T c x N noise HL Fit => latent_rollout_spec L xeq HL enc dec T c Fit x N noise). Qed.
Print Assumptions C75_latent.

(** Rollouts through the images: every step starts from the last two frames. *)
Theorem C75_images : forall L xeq enc dec T c x N noise, learner_ok L xeq -> coder_fits (l_dim L) c enc dec ->
  l_dim L <> 1%nat -> length x = (2 * c)%nat -> (forall k, length (noise k) = l_dim L) ->
  exists fs vs zs, latent_rollout enc dec L T x N true noise = Some (fs, vs, zs) /\
    length fs = S (S N) /\ length vs = S N /\ length zs = S N /\
    (forall k, (k <= N)%nat -> (nth k fs [], nth (S k) fs []) = frame_at enc dec L T noise c k (firstn c x) (skipn c x)) /\
    nth 0 zs [] = fst (enc x) /\
    (forall k, (k < N)%nat -> nth (S k) zs [] = l_step L (latent enc T (noise k) (nth k fs [] ++ nth (S k) fs []))) /\
    (forall k, (k <= N)%nat -> nth k vs 0 = l_V L xeq (nth k zs [])).
Proof. exact (fun L xeq enc dec T c x N noise HL Fit => image_rollout_spec L xeq HL enc dec T c Fit x N noise). Qed.
Print Assumptions C75_images.

(** The two modes agree as long as encoding undoes decoding along the rollout. *)
Theorem C75_agree : forall L xeq enc dec T c x N noise fs vs zs, learner_ok L xeq -> coder_fits (l_dim L) c enc dec ->
  l_dim L <> 1%nat -> t_var T = false -> length x = (2 * c)%nat -> (forall k, length (noise k) = l_dim L) ->
  latent_rollout enc dec L T x N false noise = Some (fs, vs, zs) ->
  (forall k, (k < N)%nat -> fst (enc (nth k fs [] ++ nth (S k) fs [])) = nth k zs []) ->
  latent_rollout enc dec L T x N true noise = Some (fs, vs, zs).
Proof.
  exact (fun L xeq enc dec T c x N noise fs vs zs HL Fit N1 Nv => modes_agree L xeq HL enc dec T c Fit N1 Nv x N noise fs vs zs).
Qed.
Print Assumptions C75_agree.

Example C75_agree_case : exists fs vs zs,
  latent_rollout enc_two dec_two learner_two (lat_ex false false) [[1/2]; [1/4]] 1 false (fun _ => [0; 0]) = Some (fs, vs, zs) /\
  length fs = 3%nat /\ forall k, (k < 1)%nat -> fst (enc_two (nth k fs [] ++ nth (S k) fs [])) = nth k zs [].
Proof. exact agree_case. Qed.

(** A latent space of one dimension: no rollout succeeds. *)
Theorem C75_one_dimension : forall L xeq enc dec T c x N decode noise, learner_ok L xeq -> coder_fits (l_dim L) c enc dec ->
  l_dim L = 1%nat -> length x = (2 * c)%nat -> latent_rollout enc dec L T x N decode noise = None.
Proof. exact (fun L xeq enc dec T c x N decode noise HL Fit => latent_rollout_one L xeq HL enc dec T c Fit x N decode noise). Qed.
Print Assumptions C75_one_dimension.

(** Refuted: "a rollout from a pair of frames that fits encoder and decoder succeeds". *)
Theorem C75_one_dimension_refuted : ~ (forall L xeq enc dec T c x N noise, learner_ok L xeq ->
  coder_fits (l_dim L) c enc dec -> length x = (2 * c)%nat -> latent_rollout enc dec L T x N false noise <> None).
Proof. exact one_dimension_refuted. Qed.
Print Assumptions C75_one_dimension_refuted.

(** The loss of a rollout, one entry for each frame.  Squared errors: zero exactly for
    the right frames, and for the first two.  Cross entropy: the expected pixels take the
    place of the predictions. *)
Theorem C75_loss : forall L xeq enc dec T c p, learner_ok L xeq -> coder_fits (l_dim L) c enc dec ->
  l_dim L <> 1%nat -> (0 < p)%nat -> (forall z, length z = l_dim L -> length (concat (skipn c (dec z))) = p) ->
  forall e0 e1 rest decode noise, (forall k, length (noise k) = l_dim L) ->
  Forall (fun e : image => length e = c /\ length (concat e) = p) (e0 :: e1 :: rest) ->
  (t_bce T = true -> Forall (fun e : image => Forall (fun a => 0 <= a <= 1) (concat e)) (e0 :: e1 :: rest)) ->
  exists fs vs zs ls, latent_rollout enc dec L T (e0 ++ e1) (length rest) decode noise = Some (fs, vs, zs) /\
    latent_rollout_loss enc dec L T (e0 :: e1 :: rest) decode noise = Some ls /\
    length ls = S (S (length rest)) /\
    forall k, (k < S (S (length rest)))%nat ->
      if t_bce T
      then nth k ls 0 = average (map2 (fun e p => - (p * clamped_log e + (1 - p) * clamped_log (1 - e)))
                            (concat (nth k (e0 :: e1 :: rest) [])) (concat (nth k fs [])))
      else nth k ls 0 = mean_square (concat (nth k (e0 :: e1 :: rest) [])) (concat (nth k fs [])) /\ 0 <= nth k ls 0 /\
           (nth k ls 0 = 0 <-> concat (nth k (e0 :: e1 :: rest) []) = concat (nth k fs [])) /\
           ((k < 2)%nat -> nth k ls 0 = 0).
Proof. exact (fun L xeq enc dec T c p HL Fit N1 Pp Dp => whole_loss L xeq HL enc dec T c p Fit N1 Pp Dp). Qed.
Print Assumptions C75_loss.

(** Refuted: "under cross entropy a rollout equal to the expected one has the least loss". *)
Theorem C75_cross_entropy_refuted : ~ (forall enc dec dec' L xeq T expected decode noise ls ls' vs zs,
  learner_ok L xeq -> t_bce T = true -> Forall (fun e => Forall fair_target (concat e)) expected ->
  latent_rollout enc dec L T (nth 0 expected [] ++ nth 1 expected []) (length expected - 2) decode noise
    = Some (expected, vs, zs) ->
  latent_rollout_loss enc dec L T expected decode noise = Some ls ->
  latent_rollout_loss enc dec' L T expected decode noise = Some ls' ->
  forall k, nth k ls 0 <= nth k ls' 0).
Proof. exact swapped_refuted. Qed.
Print Assumptions C75_cross_entropy_refuted.

Example C75_case : learner_ok learner_two [0; 0] /\ coder_fits (l_dim learner_two) 1 enc_two dec_two /\
  l_dim learner_two <> 1%nat /\ (forall z, length z = l_dim learner_two -> length (concat (skipn 1 (dec_two z))) = 1%nat) /\
  learner_ok (learner_half true) [0] /\ coder_fits (l_dim (learner_half true)) 1 (fun x => ([pixel 0 x], [0])) (fun z => [z; z]) /\
  l_dim (learner_half true) = 1%nat.
Proof.
  exact (conj two_ok (conj two_fits (conj (Nat.neq_succ_diag_l 1) (conj (fun z _ => eq_refl)
    (conj (half_ok true) (conj half_fits eq_refl)))))).
Qed.
