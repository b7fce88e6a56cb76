(** C82: the actions, targets and updates of the reinforcement learner. *)

Require Import Reals List Arith.
Require Import Verif.Vec Verif.ModelLatent Verif.ModelTd3 Verif.SpecTd3 Verif.ProofTd3b Verif.ProofTd3Ex.
Import ListNotations.
Open Scope R_scope.

(** The actions taken are within the limits, and are the policy's own where these are. *)
Theorem C82_action_limits : forall pi low high noise o, box_ok low high ->
  length (pi o) = length low -> length noise = length low -> in_box low high (get_action pi low high noise o).
Proof. exact get_action_in. Qed.
Print Assumptions C82_action_limits.
Theorem C82_action_exact : forall pi low high o, length low = length high -> in_box low high (pi o) ->
  get_action pi low high (zeros (length low)) o = pi o.
Proof. exact get_action_exact. Qed.
Print Assumptions C82_action_exact.
(** The policy gives the equilibrium action at the equilibrium, whatever its parameters. *)
Theorem C82_actor_equilibrium : forall pi low high obs_equ act_equ, length low = length high ->
  length act_equ = length low -> length (pi obs_equ) = length low ->
  actor pi low high obs_equ act_equ obs_equ = act_equ.
Proof. exact actor_equilibrium. Qed.
Print Assumptions C82_actor_equilibrium.
(** It stays less than the width of the limits away from it. *)
Theorem C82_actor_spread : forall act layers low high obs_equ act_equ o i, layers <> [] ->
  (forall x, length (mlp act sigmoid layers x) = length low) -> length low = length high ->
  length act_equ = length low -> (i < length low)%nat -> nth i low 0 < nth i high 0 ->
  Rabs (nth i (actor (mlp act sigmoid layers) low high obs_equ act_equ o) 0 - nth i act_equ 0)
  < nth i high 0 - nth i low 0.
Proof. exact actor_spread. Qed.
Print Assumptions C82_actor_spread.
Example C82_actor_case : hover <> [] /\ forall x, length (mlp (fun v => v) sigmoid hover x) = length [0].
Proof. exact (conj (fun H => eq_ind hover (fun l => match l with [] => False | _ => True end) I [] H) hover_sizes). Qed.
(** Its own output, which the policy loss uses, can be outside of the limits: a thrust above 8. *)
Theorem C82_actor_limits_refuted :
  nth 0 (actor (mlp (fun v => v) sigmoid hover) [0] [8] [0] [6] [ln 4]) 0 > 8.
Proof. exact hover_over. Qed.
Print Assumptions C82_actor_limits_refuted.

(** The smoothed target action is within the limits and within the noise bound of the target policy. *)
Theorem C82_target_action : forall low high noise_clip pa eps, box_ok low high -> 0 <= noise_clip ->
  length pa = length low -> length eps = length low ->
  let a2 := clip low high (vadd pa (clamp_noise noise_clip eps)) in
  in_box low high a2 /\
  (in_box low high pa -> forall i, (i < length low)%nat -> Rabs (nth i a2 0 - nth i pa 0) <= noise_clip).
Proof. exact target_action. Qed.
Print Assumptions C82_target_action.
(** The target of a terminal transition is its reward, whatever the target networks say. *)
Theorem C82_backup_terminal : forall g c low high pi_t q1 q2 eps t, tr_done t = true ->
  backup g c low high pi_t q1 q2 eps t = tr_rew t.
Proof. exact backup_done. Qed.
Print Assumptions C82_backup_terminal.
(** Otherwise the smaller of the two target critics counts. *)
Theorem C82_backup_going : forall g c low high pi_t q1 q2 eps t, tr_done t = false ->
  let a2 := clip low high (vadd (pi_t (tr_obs2 t)) (clamp_noise c eps)) in
  backup g c low high pi_t q1 q2 eps t = tr_rew t + g * Rmin (q1 (tr_obs2 t) a2) (q2 (tr_obs2 t) a2).
Proof. exact backup_going. Qed.
Print Assumptions C82_backup_going.
(** Targets stay within the values that bounded rewards can add up to. *)
Theorem C82_backup_bounded : forall g c low high pi_t q1 q2 eps t B, 0 <= g < 1 ->
  Rabs (tr_rew t) <= B -> (forall o a, Rabs (q1 o a) <= B / (1 - g)) -> (forall o a, Rabs (q2 o a) <= B / (1 - g)) ->
  Rabs (backup g c low high pi_t q1 q2 eps t) <= B / (1 - g).
Proof. exact backup_bound. Qed.
Print Assumptions C82_backup_bounded.
(** The loss is zero exactly if both critics agree with the targets on the whole batch. *)
Theorem C82_loss_zero : forall g c low high q1 q2 pi_t q1t q2t epss batch, length epss = length batch ->
  let bs := map2 (backup g c low high pi_t q1t q2t) epss batch in
  0 <= loss_q g c low high q1 q2 pi_t q1t q2t epss batch /\
  (loss_q g c low high q1 q2 pi_t q1t q2t epss batch = 0 <->
   map (fun t => q1 (tr_obs t) (tr_act t)) batch = bs /\ map (fun t => q2 (tr_obs t) (tr_act t)) batch = bs).
Proof. exact loss_q_zero. Qed.
Print Assumptions C82_loss_zero.

(** From the start on, after any sequence of batches and timers, networks, targets and optimizers
    are those of the textbook. *)
Theorem C82_updates : forall O adam Data dq dpi polyak pi_lr q_lr policy_delay hist u,
  sizes_ok Data dq dpi -> policy_delay <> 0%nat -> usable O u ->
  exists u', run_updates O adam Data dq dpi polyak pi_lr q_lr policy_delay u hist = Some u' /\ usable O u' /\
  core_of O u' = fold_left (fun c h => textbook O adam Data dq dpi polyak pi_lr q_lr policy_delay c (fst h) (snd h)) hist (core_of O u).
Proof. exact run_updates_core. Qed.
Print Assumptions C82_updates.
Example C82_updates_case : sizes_ok unit half_dq half_dpi /\ exists u,
  run_updates unit descend unit half_dq half_dpi (1/2) (1/4) (1/2) 2
    (start_learning unit (mkNets [4] [8] [12]) tt tt) [(tt, 0%nat); (tt, 1%nat)] = Some u /\
  u_ac unit u = mkNets [3] [2] [3] /\ u_targ unit u = mkNets [7/2] [6] [9].
Proof. exact (conj half_sizes descent_case). Qed.
Theorem C82_start : forall O ac opi oq, usable O (start_learning O ac opi oq).
Proof. exact start_usable. Qed.
Print Assumptions C82_start.
(** The critics are never frozen during the step on the policy: the loop that should do it runs over a used-up
    iterator, and the gradient of the policy loss is added to the first critic's. *)
Theorem C82_freeze_refuted : forall O adam Data dq dpi polyak pi_lr q_lr policy_delay hist ac opi oq u d,
  sizes_ok Data dq dpi -> policy_delay <> 0%nat ->
  run_updates O adam Data dq dpi polyak pi_lr q_lr policy_delay (start_learning O ac opi oq) hist = Some u ->
  let u1 := q_step O adam Data dq q_lr u d in
  u_req O (set_req O false u1) 0%nat = true /\ u_req O (set_req O false u1) 1%nat = true /\
  fst (u_gq O (pi_step O adam Data dpi pi_lr (set_req O false u1) d))
  = vadd (fst (dq (u_ac O u) (u_targ O u) d)) (snd (dpi (u_ac O u1) d)).
Proof. exact never_frozen. Qed.
Print Assumptions C82_freeze_refuted.

(** Target parameters stay in every interval that contains the initial ones and those they follow. *)
Theorem C82_targets_bounded : forall rho ps t lo hi i, 0 <= rho <= 1 -> Forall (fun p => length p = length t) ps ->
  lo <= nth i t 0 <= hi -> Forall (fun p => lo <= nth i p 0 <= hi) ps ->
  lo <= nth i (fold_left (fun t p => average_in rho p t) ps t) 0 <= hi.
Proof. exact targets_bounded. Qed.
Print Assumptions C82_targets_bounded.
(** Behind parameters that do not move any more they close the distance geometrically. *)
Theorem C82_targets_converge : forall rho p n t i, length p = length t ->
  nth i (fold_left (fun t p => average_in rho p t) (repeat p n) t) 0 - nth i p 0 = rho ^ n * (nth i t 0 - nth i p 0).
Proof. exact targets_converge. Qed.
Print Assumptions C82_targets_converge.
