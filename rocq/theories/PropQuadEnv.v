(** C86 - the environment of the planar quadrotor. *)

Require Import Reals List Arith.
Require Import Verif.Vec Verif.ModelPlants Verif.ModelTd3 Verif.ModelQuadEnv Verif.SpecQuadEnv Verif.ProofQuadEnv.
Import ListNotations.
Open Scope R_scope.

(** One step: the observation is the state a hundredth of a second later, the reward is minus a penalty that is
    never negative and vanishes only for hovering at the origin, and the episode never ends by itself. *)
Theorem C86_step : forall next_pose e u0 u1 x z th xd zd thd,
  next_pose (ev_x e) [u0; u1] (/ 100) = [x; z; th; xd; zd; thd] ->
  env_step next_pose e [u0; u1] =
    (mkEnv [x; z; th; xd; zd; thd] (ev_t e + / 100) (ev_draws e), [x; z; th; xd; zd; thd], - penalty u0 u1 x z th xd zd thd, false).
Proof. exact step_reward. Qed.
Print Assumptions C86_step.
Theorem C86_penalty : forall u0 u1 x z th xd zd thd, 0 <= penalty u0 u1 x z th xd zd thd /\
  (penalty u0 u1 x z th xd zd thd = 0 <-> u0 = hover /\ u1 = hover /\ [x; z; th; xd; zd; thd] = zeros 6).
Proof. exact penalty_zero. Qed.
Print Assumptions C86_penalty.

(** No episode has a return above zero, and zero is reached only by hovering at the origin throughout. *)
Theorem C86_return : forall next_pose : vec -> vec -> R -> vec,
  (forall x a dt, length x = 6%nat -> length a = 2%nat -> length (next_pose x a dt) = 6%nat) ->
  forall actions e, length (ev_x e) = 6%nat -> Forall (fun a => length a = 2%nat) actions ->
  snd (episode next_pose e actions) <= 0 /\
  (snd (episode next_pose e actions) = 0 <->
   Forall (fun a => a = [hover; hover]) actions /\
   Forall (fun x => x = zeros 6) (visited (fun x a => next_pose x a (/ 100)) (ev_x e) actions)).
Proof. exact episode_best. Qed.
Print Assumptions C86_return.
Example C86_return_case : exists next_pose : vec -> vec -> R -> vec,
  (forall x a dt, length x = 6%nat -> length a = 2%nat -> length (next_pose x a dt) = 6%nat) /\
  (forall x u dt, quad2d_np quad2d_default x u = Some (zeros 6) -> next_pose x u dt = x).
Proof. exact env_case. Qed.

(** Hovering from the origin has return zero if the integrator leaves states at rest alone; its thrusts are allowed. *)
Theorem C86_hover : forall next_pose : vec -> vec -> R -> vec,
  (forall x u dt, quad2d_np quad2d_default x u = Some (zeros 6) -> next_pose x u dt = x) ->
  forall k e, ev_x e = zeros 6 -> snd (episode next_pose e (repeat [hover; hover] k)) = 0.
Proof. exact hover_best. Qed.
Print Assumptions C86_hover.
Theorem C86_hover_allowed : Forall2 Rle env_u_lo [hover; hover] /\ Forall2 Rle [hover; hover] env_u_up /\ env_act_equ = [hover; hover].
Proof. exact hover_allowed. Qed.
Print Assumptions C86_hover_allowed.

(** A reset starts within the observation space, at time zero, and every state of that space can be drawn. *)
Theorem C86_reset : forall rand e, length (rand (ev_draws e)) = 6%nat -> Forall (fun w => 0 <= w <= 1) (rand (ev_draws e)) ->
  Forall2 Rle env_x_lo (snd (env_reset rand e)) /\ Forall2 Rle (snd (env_reset rand e)) env_x_up /\
  ev_x (fst (env_reset rand e)) = snd (env_reset rand e) /\ ev_t (fst (env_reset rand e)) = 0.
Proof. exact reset_in_box. Qed.
Print Assumptions C86_reset.
Theorem C86_reset_covers : forall x, Forall2 Rle env_x_lo x -> Forall2 Rle x env_x_up ->
  exists r, length r = 6%nat /\ Forall (fun w => 0 <= w <= 1) r /\ vadd (map2 Rmult r (vsub env_x_up env_x_lo)) env_x_lo = x.
Proof. exact reset_reaches. Qed.
Print Assumptions C86_reset_covers.

(** Training on it: no stored transition is terminal, each is a step of the plant with its reward, and the
    environment is reset after every [max_ep_len] steps and at no other time. *)
Theorem C86_training : forall next_pose rand L policy gradient_step low high noise sample start_steps update_after update_every max_ep_len
    total e buf (l : L) s, (0 < max_ep_len)%nat ->
  train_loop env (env_reset rand) (env_step next_pose) L policy gradient_step low high noise sample start_steps update_after update_every max_ep_len
    total e buf l = Some s ->
  Forall (fun tr => tr_done tr = false /\ tr_obs2 tr = next_pose (tr_obs tr) (tr_act tr) (/ 100) /\
    forall u0 u1 x z th xd zd thd, tr_act tr = [u0; u1] -> tr_obs2 tr = [x; z; th; xd; zd; thd] -> tr_rew tr = - penalty u0 u1 x z th xd zd thd)
    (lp_trace _ _ s) /\
  lp_resets _ _ s = filter (fun t => Nat.eqb (S t mod max_ep_len) 0) (seq 0 total).
Proof. exact trained. Qed.
Print Assumptions C86_training.
Example C86_training_case : exists s,
  train_loop env (env_reset (fun _ => repeat (/ 2) 6)) (env_step (fun x _ _ => x)) unit (fun _ _ => [1; 1]) (fun _ _ _ _ => Some tt)
    [0; 0] [8; 8] (fun _ => [0; 0]) (fun _ => [hover; hover]) 5 5 5 2 3 (mkEnv (zeros 6) 0 0) (new_replay 6 2 10) tt = Some s /\
  length (lp_trace _ _ s) = 3%nat /\ lp_resets _ _ s = [1%nat].
Proof. exact training_case. Qed.

(** Observations do not stay in the declared observation space: with allowed thrusts, one exact step from a state
    a reset can give leaves it, and the episode goes on. *)
Theorem C86_observation_space_refuted : exists next_pose rand y e a x,
  Forall (fun w => 0 <= w <= 1) (rand 0%nat) /\ length (rand 0%nat) = 6%nat /\
  motion a y env_dt /\ next_pose (y 0) a env_dt = y env_dt /\
  env_reset rand (mkEnv (zeros 6) 0 0) = (e, y 0) /\
  Forall2 Rle env_u_lo a /\ Forall2 Rle a env_u_up /\
  snd (fst (fst (env_step next_pose e a))) = x /\ ~ Forall2 Rle env_x_lo x /\ snd (env_step next_pose e a) = false.
Proof. exact leaves_box. Qed.
Print Assumptions C86_observation_space_refuted.
