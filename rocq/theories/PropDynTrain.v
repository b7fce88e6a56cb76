(** Property C76: the training loop of the dynamics learner, its interrupts and its files. *)

Require Import Reals List ZArith.
Require Import Verif.Vec Verif.ModelLyapunov Verif.ModelDynLearn Verif.SpecDynLearn Verif.ModelDynTrain Verif.SpecDynTrain
  Verif.ProofDynLearnEx Verif.ProofDynTrain Verif.ProofDynTrain2 Verif.ProofDynTrain3.
Import ListNotations.

(** Training without an interrupt: one step for each batch of each epoch along the
    gradient of its own losses, one more along the Lyapunov losses at the iterations
    that are multiples of the frequency, counting the iterations of earlier calls. *)
Theorem C76_steps : forall w (cfg : train_opt w) k s s' t,
  (length (loop_ops cfg s) <= k)%nat -> train cfg k s = (Some s', t) ->
  iterations cfg (first_iteration s) (all_batches (r_epochs cfg) 0) (s_par s) (s_par s') /\
  s_iter s' = (first_iteration s + length (all_batches (w := w) (r_epochs cfg) 0))%nat /\
  exists l, s_log s' = s_log s ++ l /\ logged cfg (first_iteration s) (s_iter s') l.
Proof. exact (fun w cfg => train_complete cfg). Qed.
Print Assumptions C76_steps.

(** A KeyboardInterrupt at any time (or none): training ends with everything on the CPU,
    with the parameters after some of these steps, and these are the saved ones. *)
Theorem C76_interrupt : forall w (cfg : train_opt w) k s s' t, train cfg k s = (Some s', t) ->
  on_device cfg (w_cpu w) s' /\
  reached cfg (first_iteration s) (all_batches (r_epochs cfg) 0) (s_par s) (s_par s') /\
  (r_path cfg = true -> holds cfg (w_cpu w) (s_par s') (s_file s')).
Proof. exact (fun w cfg => train_any cfg). Qed.
Print Assumptions C76_interrupt.

(** Training goes through, however it is interrupted, if no loss raises and a path is
    given whenever the networks are to be saved. *)
Theorem C76_total : forall w (cfg : train_opt w),
  (forall b p, w_gdyn w b p <> None) -> (forall b p, w_glyap w b p <> None) ->
  (r_validate cfg = true -> forall e p, w_validates w e p = true) ->
  ((forall e, (e < r_epochs cfg)%nat -> ~ saves cfg e) \/ r_path cfg = true) ->
  forall k s, exists s', train cfg k s = (Some s', s').
Proof. exact (fun w cfg => train_total cfg). Qed.
Print Assumptions C76_total.

(** The networks are saved after the epochs that are multiples of save_rate and at no
    other time during the loop. *)
Theorem C76_saves : forall w (cfg : train_opt w) e n k s t, s_iter s = n -> on_device cfg (r_device cfg) s ->
  run cfg k (epoch_ops cfg e n) s = (Completed, t) ->
  (saves cfg e -> r_path cfg = true /\ holds cfg (r_device cfg) (s_par t) (s_file t)) /\
  (~ saves cfg e -> s_file t = s_file s).
Proof.
  exact (fun w cfg e n k s t Hn Ho E =>
    let C := proj2 (proj2 (epoch_run cfg e n k s Completed t Hn Ho E)) eq_refl in
    proj2 (proj2 (proj2 (proj2 (proj2 (proj2 C)))))).
Qed.
Print Assumptions C76_saves.

(** A crash at any time leaves the old file, an unfinished one, or one with parameters
    reached in the loop. *)
Theorem C76_crash_partial : forall w (cfg : train_opt w) m s,
  s_file (killed cfg m s) = s_file s \/ unfinished cfg (s_file (killed cfg m s)) \/
  exists q d, reached cfg (first_iteration s) (all_batches (r_epochs cfg) 0) (s_par s) q /\
    holds cfg d q (s_file (killed cfg m s)).
Proof. exact (fun w cfg => crash_any cfg). Qed.
Print Assumptions C76_crash_partial.

(** Refuted: "after a crash the networks saved last can be loaded". *)
Theorem C76_crash_refuted : ~ (forall (w : world) (cfg : train_opt w) m s,
  (exists q d, holds cfg d q (s_file s)) -> exists q d, holds cfg d q (s_file (killed cfg m s))).
Proof. exact crash_refuted. Qed.
Print Assumptions C76_crash_refuted.

(** save_rate without save_path: the loop raises after the first epoch, and the networks
    stay on the device of the training. *)
Theorem C76_no_path : forall w (cfg : train_opt w) s,
  (forall b p, w_gdyn w b p <> None) -> (forall b p, w_glyap w b p <> None) ->
  (r_validate cfg = true -> forall e p, w_validates w e p = true) ->
  (0 < r_epochs cfg)%nat -> (0 < r_save_rate cfg)%Z -> r_path cfg = false ->
  forall k, (length (loop_ops cfg s) <= k)%nat ->
  exists t, train cfg k s = (None, t) /\ on_device cfg (r_device cfg) t /\
    iterations cfg (first_iteration s) (w_loader w 0) (s_par s) (s_par t).
Proof. exact (fun w cfg => no_path cfg). Qed.
Print Assumptions C76_no_path.

(** Refuted: "training always leaves the networks on the CPU". *)
Theorem C76_left_on_device_refuted : ~ (forall (w : world) (cfg : train_opt w) k s,
  (forall b p, w_gdyn w b p <> None) -> (forall b p, w_glyap w b p <> None) ->
  (r_validate cfg = true -> forall e p, w_validates w e p = true) ->
  on_device cfg (w_cpu w) (snd (train cfg k s))).
Proof. exact left_on_device. Qed.
Print Assumptions C76_left_on_device_refuted.

(** The validation losses: the dynamics loss is that of the whole validation set. *)
Theorem C76_validation_dynamics : forall L xeq bs, learner_ok L xeq -> (0 < l_dim L)%nat -> bs <> [] ->
  Forall (good_batch L) bs -> exists d a1 a2 a3,
  validation_losses L bs = Some (d, a1, a2, a3) /\
  dynamics_loss L (concat (map fst bs)) (concat (map snd bs)) = Some d.
Proof. exact (fun L xeq bs HL Pn => validation_dynamics L xeq HL Pn bs). Qed.
Print Assumptions C76_validation_dynamics.

(** So are the others if all samples lie in the stable box. *)
Theorem C76_validation_partial : forall L xeq bs, learner_ok L xeq -> (0 < l_dim L)%nat -> bs <> [] ->
  Forall (good_batch L) bs -> Forall (inside L) bs -> validation_losses L bs = batch_losses L (joined bs).
Proof. exact (fun L xeq bs HL Pn => validation_whole L xeq HL Pn bs). Qed.
Print Assumptions C76_validation_partial.

(** Refuted: "whatever the samples". *)
Theorem C76_validation_refuted : ~ (forall L xeq bs, learner_ok L xeq -> (0 < l_dim L)%nat -> bs <> [] ->
  Forall (good_batch L) bs -> validation_losses L bs = batch_losses L (joined bs)).
Proof. exact validation_refuted. Qed.
Print Assumptions C76_validation_refuted.

Example C76_case : (forall b p, w_gdyn world_ex b p <> None) /\ (forall b p, w_glyap world_ex b p <> None) /\
  (forall path, r_validate (cfg_ex path) = true -> forall e p, w_validates world_ex e p = true).
Proof. exact world_ok. Qed.
Example C76_run_case : fst (train (cfg_ex true) 1000 state_ex) =
  Some (mkT (w := world_ex) 10%nat [true] true true 3 true
    (Some [(true, 10%nat); (true, 10%nat); (true, 10%nat); (true, 7%nat)])
    [EDynamics 0; ELyapunov 0; EValidation 1; EDynamics 1; EValidation 2; EDynamics 2; ELyapunov 2; EValidation 3]).
Proof. exact train_case. Qed.
Example C76_interrupt_case : exists s, fst (train (cfg_ex true) 9 state_ex) = Some s /\ s_par s = 7%nat /\ s_iter s = 0%nat.
Proof. exact interrupt_case. Qed.
Example C76_validation_case : learner_ok (learner_kink true) [0%R] /\ Forall (good_batch (learner_kink true)) two_batches.
Proof. exact (conj (kink_ok true) two_good). Qed.
