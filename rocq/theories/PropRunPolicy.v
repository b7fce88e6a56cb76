(** C89 - running a trained policy. *)

Require Import Reals List Arith.
Require Import Verif.Vec Verif.ModelPlants Verif.ModelQuadEnv Verif.ModelRunPolicy Verif.SpecRunPolicy Verif.ProofRunPolicy.
Import ListNotations.
Open Scope R_scope.

(** What is recorded: as many episodes as asked for, each the policy followed from a reset of the environment in the
    state the previous one left, up to the step at which the environment says it is over or the length is reached;
    each line printed has the number, the sum of rewards and the length of its episode.  A last, empty one is added. *)
Theorem C89_recorded : forall E reset step policy limit num fuel e s, (0 < num)%nat ->
  run_policy E reset step policy limit num fuel e = Some s ->
  exists eps e', history E reset step policy limit e eps e' /\ length eps = num /\
    rp_episodes _ s = map (map obs_of) eps ++ [[]] /\ rp_actions _ s = map (map act_of) eps ++ [[]] /\
    length (rp_printed _ s) = num /\
    forall i, (i < num)%nat -> nth i (rp_printed _ s) (0%nat, 0, 0%nat) = (i, vsum (map rew_of (nth i eps [])), length (nth i eps [])).
Proof. exact recorded. Qed.
Print Assumptions C89_recorded.

(** With a positive length it comes to an end, whatever the environment does. *)
Theorem C89_ends : forall E reset step policy limit num m e, limit = Some m -> (0 < m)%nat ->
  exists s, run_policy E reset step policy limit num (S (num * m)) e = Some s.
Proof. exact ends. Qed.
Print Assumptions C89_ends.
(** In the environment of the planar quadrotor its episodes have exactly that length. *)
Theorem C89_quadrotor_lengths : forall next_pose rand policy m e eps e', (0 < m)%nat ->
  history env (env_reset rand) (env_step next_pose) policy (Some m) e eps e' -> Forall (fun f => length f = m) eps.
Proof. exact quadrotor_lengths. Qed.
Print Assumptions C89_quadrotor_lengths.
Example C89_case : exists s, run_policy env (env_reset (fun _ => repeat (/ 2) 6)) (env_step (fun x _ _ => x)) (fun _ => [1; 1]) (Some 2%nat) 3 7
  (mkEnv (zeros 6) 0 0) = Some s.
Proof. exact quadrotor_case. Qed.

(** With the default, no length, it does not come to an end in that environment. *)
Theorem C89_default_ends_refuted : forall next_pose rand policy num fuel e, (0 < num)%nat ->
  run_policy env (env_reset rand) (env_step next_pose) policy None num fuel e = None.
Proof. exact quadrotor_endless. Qed.
Print Assumptions C89_default_ends_refuted.
(** The same holds for a length of zero and any environment that never says it is over. *)
Theorem C89_zero_length_refuted : forall E reset step policy limit num, limit = None \/ limit = Some 0%nat -> (0 < num)%nat ->
  (forall e a, snd (step e a) = false) -> forall fuel e, run_policy E reset step policy limit num fuel e = None.
Proof. exact endless. Qed.
Print Assumptions C89_zero_length_refuted.
