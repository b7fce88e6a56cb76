(** C81: what the reinforcement learner collects and when it learns. *)

Require Import Reals List Arith Permutation.
Require Import Verif.Vec Verif.ModelTd3 Verif.SpecTd3 Verif.ProofTd3 Verif.ProofTd3b Verif.ProofTd3c Verif.ProofTd3Ex.
Import ListNotations.
Open Scope R_scope.

(** Whatever was stored, the buffer holds the [size] most recent transitions, each once. *)
Theorem C81_buffer : forall od ad size ts, (0 < size)%nat -> exists b,
  stores (new_replay od ad size) ts = Some b /\ rb_size b = min (length ts) size /\
  (ts <> [] -> exists l, sample_batch b (seq 0 (rb_size b)) = Some l /\ Permutation l (latest size ts)).
Proof. exact buffer_latest. Qed.
Print Assumptions C81_buffer.
Example C81_buffer_case : exists b,
  stores (new_replay 1 1 2) [walk_tr 0 1 1 false; walk_tr 1 1 2 false; walk_tr 2 1 3 true] = Some b /\
  sample_batch b [1; 0]%nat = Some [walk_tr 1 1 2 false; walk_tr 2 1 3 true].
Proof. exact buffer_case. Qed.

(** A batch consists of whole transitions among these. *)
Theorem C81_batch : forall od ad size ts b idxs l, (0 < size)%nat -> stores (new_replay od ad size) ts = Some b ->
  (forall i, In i idxs -> (i < rb_size b)%nat) -> sample_batch b idxs = Some l ->
  length l = length idxs /\ forall t, In t l -> In t (latest size ts).
Proof. exact batch_latest. Qed.
Print Assumptions C81_batch.

(** Nothing raises, if the buffer has room and the updates from a filled buffer succeed. *)
Theorem C81_loop_ok : forall E reset step L policy gradient_step low high noise sample
    start_steps update_after update_every max_ep_len total e od ad size l,
  (0 < size)%nat -> (0 < update_every)%nat ->
  (forall l' b t j, rb_size b <> 0%nat -> gradient_step l' b t j <> None) ->
  exists s, train_loop E reset step L policy gradient_step low high noise sample
    start_steps update_after update_every max_ep_len total e (new_replay od ad size) l = Some s.
Proof. exact loop_ok. Qed.
Print Assumptions C81_loop_ok.

(** What is stored is the experience of plain episodes; the environment is reset exactly at their ends; the
    updates follow the schedule; the first actions are random and the others come from the policy. *)
Theorem C81_loop : forall E reset step L policy gradient_step low high noise sample
    start_steps update_after update_every max_ep_len total e buf l s,
  train_loop E reset step L policy gradient_step low high noise sample
    start_steps update_after update_every max_ep_len total e buf l = Some s ->
  let tr := lp_trace E L s in
  let acts := acts_of tr in
  length tr = total /\
  stores buf tr = Some (lp_buf E L s) /\
  lp_steps E L s = schedule update_after update_every total /\
  env_at E reset step max_ep_len (reset e) acts total = (lp_env E L s, lp_obs E L s, lp_len E L s) /\
  lp_resets E L s = filter (ends E reset step max_ep_len (reset e) acts) (seq 0 total) /\
  (forall t, (t < total)%nat -> nth t tr (blank 0 0) = experience E reset step max_ep_len (reset e) acts t) /\
  (forall t, (t < total)%nat -> (t <= start_steps)%nat -> acts t = sample t) /\
  (forall t, (t < total)%nat -> (start_steps < t)%nat ->
     exists l', acts t = get_action (policy l') low high (noise t) (tr_obs (nth t tr (blank 0 0)))).
Proof. exact loop_invariant. Qed.
Print Assumptions C81_loop.
Example C81_loop_case : exists s, walk 5 7 = Some s /\
  map tr_done (lp_trace nat unit s) = [false; false; true; false; false; true; false] /\
  lp_resets nat unit s = [2; 5]%nat /\ lp_steps nat unit s = [(2, 0); (2, 1); (4, 0); (4, 1); (6, 0); (6, 1)]%nat.
Proof. exact walk_case. Qed.

(** The next observation of a step that does not end an episode is the observation of the step that follows. *)
Theorem C81_chain : forall E reset step max_ep_len start acts t,
  ends E reset step max_ep_len start acts t = false ->
  tr_obs (experience E reset step max_ep_len start acts (S t)) = tr_obs2 (experience E reset step max_ep_len start acts t).
Proof. exact env_chain. Qed.
Print Assumptions C81_chain.
(** Stored as terminal, a step ends its episode. *)
Theorem C81_terminal : forall E reset step max_ep_len start acts t,
  tr_done (experience E reset step max_ep_len start acts t) = true -> ends E reset step max_ep_len start acts t = true.
Proof. exact done_ends. Qed.
Print Assumptions C81_terminal.
(** No episode is longer than max_ep_len. *)
Theorem C81_episode_length : forall E reset step max_ep_len start acts t, (0 < max_ep_len)%nat ->
  exists i, (t <= i < t + max_ep_len)%nat /\ ends E reset step max_ep_len start acts i = true.
Proof. exact episodes_short. Qed.
Print Assumptions C81_episode_length.

(** One update per step of the environment, up to less than update_every. *)
Theorem C81_ratio : forall update_after update_every, (0 < update_every)%nat -> forall total, (update_after <= total)%nat ->
  (total - update_after < length (schedule update_after update_every total) + update_every)%nat /\
  (length (schedule update_after update_every total) < total - update_after + update_every)%nat.
Proof. exact ratio. Qed.
Print Assumptions C81_ratio.
(** Of each round of update_every updates, one in policy_delay, rounded up, moves the policy. *)
Theorem C81_policy_steps : forall update_after update_every delay total, (0 < delay)%nat ->
  (length (policy_steps delay (schedule update_after update_every total)) * update_every
   = length (schedule update_after update_every total) * ((update_every + (delay - 1)) / delay))%nat.
Proof. exact policy_count. Qed.
Print Assumptions C81_policy_steps.

(** The policy is not moved once every policy_delay updates: with a delay of 2 and rounds of 3 it is moved by
    the third and by the fourth update, and by four of six. *)
Theorem C81_policy_delay_refuted :
  nth 2 (schedule 0 3 6) (9, 9)%nat = (0, 2)%nat /\ nth 3 (schedule 0 3 6) (9, 9)%nat = (3, 0)%nat /\
  length (policy_steps 2 (schedule 0 3 6)) = 4%nat /\ length (schedule 0 3 6) = 6%nat.
Proof. exact delay_case. Qed.
Print Assumptions C81_policy_delay_refuted.
(** A terminal state reached with the last allowed step is stored as not terminal. *)
Theorem C81_terminal_at_horizon_refuted : exists s, walk 3 3 = Some s /\
  map tr_done (lp_trace nat unit s) = [false; false; false] /\
  snd (walk_step 2 (tr_act (nth 2 (lp_trace nat unit s) (blank 0 0)))) = true /\
  lp_resets nat unit s = [2%nat].
Proof. exact walk_horizon. Qed.
Print Assumptions C81_terminal_at_horizon_refuted.
(** Not start_steps actions are random but one more. *)
Theorem C81_start_steps_refuted : forall E reset step L policy gradient_step low high noise sample
    start_steps update_after update_every max_ep_len total e buf l s,
  train_loop E reset step L policy gradient_step low high noise sample
    start_steps update_after update_every max_ep_len total e buf l = Some s ->
  (start_steps < total)%nat ->
  forall t, (t < start_steps + 1)%nat -> tr_act (nth t (lp_trace E L s) (blank 0 0)) = sample t.
Proof. exact one_more_random. Qed.
Print Assumptions C81_start_steps_refuted.
