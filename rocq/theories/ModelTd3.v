(** Model of /repo/neural_network_lyapunov/examples/rl/td3.py: the replay buffer,
    actor, critic targets, updates and main loop of the reinforcement learner.

    [None] is a raised exception.  float32, the log writer, torch.save and printed
    output are left out.  Random numbers, autograd and Adam are arguments. *)

Require Import Reals List Bool Arith ZArith.
Require Import Verif.Vec Verif.ModelLatent Verif.ModelValueIter.
Import ListNotations.
Open Scope R_scope.

(** ** Experience (lines 86-122) *)
Record transition := mkTr { tr_obs : vec; tr_act : vec; tr_rew : R; tr_obs2 : vec; tr_done : bool }.

(** ReplayBuffer.__init__ (90-100): five arrays, ptr, size, max_size. *)
Record replay := mkReplay {
  rb_obs : list vec; rb_obs2 : list vec; rb_act : list vec; rb_rew : vec; rb_done : list bool;
  rb_ptr : nat; rb_size : nat; rb_max : nat }.
Definition new_replay (obs_dim act_dim size : nat) : replay :=
  mkReplay (repeat (zeros obs_dim) size) (repeat (zeros obs_dim) size) (repeat (zeros act_dim) size)
    (zeros size) (repeat false size) 0 0 size.
(** ReplayBuffer.store (102-109).  Observations and actions have the declared sizes; an index out of
    range raises. *)
Definition store (b : replay) (t : transition) : option replay :=
  match set_nth (rb_ptr b) (tr_obs t) (rb_obs b), set_nth (rb_ptr b) (tr_obs2 t) (rb_obs2 b),
        set_nth (rb_ptr b) (tr_act t) (rb_act b), set_nth (rb_ptr b) (tr_rew t) (rb_rew b),
        set_nth (rb_ptr b) (tr_done t) (rb_done b) with
  | Some o, Some o2, Some a, Some r, Some d =>
      if Nat.eqb (rb_max b) 0 then None
      else Some (mkReplay o o2 a r d ((rb_ptr b + 1) mod rb_max b) (min (rb_size b + 1) (rb_max b)) (rb_max b))
  | _, _, _, _, _ => None
  end.
(** ReplayBuffer.sample_batch (111-120).  [idxs] are the numbers drawn by randint(0, size), which raises for
    an empty buffer and draws numbers below size. *)
Definition sample_batch (b : replay) (idxs : list nat) : option (list transition) :=
  if Nat.eqb (rb_size b) 0 then None
  else Some (map (fun i => mkTr (nth i (rb_obs b) []) (nth i (rb_act b) []) (nth i (rb_rew b) 0)
                             (nth i (rb_obs2 b) []) (nth i (rb_done b) false)) idxs).

(** ** Networks (lines 23-83) *)
(** mlp (23-28) and the forward pass of the nn.Sequential it builds: [act] between the layers,
    [out] after the last one. *)
Fixpoint mlp (act out : R -> R) (layers : list (mat * vec)) (x : vec) : vec :=
  match layers with
  | [] => x
  | [(W, b)] => map out (vadd (mv W x) b)
  | (W, b) :: rest => mlp act out rest (map act (vadd (mv W x) b))
  end.
(** MLPActor.forward (47-51); [pi] is the network of line 41. *)
Definition actor (pi : vec -> vec) (low high obs_equ act_equ obs : vec) : vec :=
  let scaled o := vadd (vmul (pi o) (vsub high low)) low in
  vadd (vsub (scaled obs) (scaled obs_equ)) act_equ.
(** The clipping of lines 243 and 316. *)
Definition clip (low high a : vec) : vec := map2 Rmax (map2 Rmin a high) low.
(** get_action (313-317); [noise]: noise_scale times the numbers drawn. *)
Definition get_action (pi : vec -> vec) (low high noise o : vec) : vec := clip low high (vadd (pi o) noise).

(** ** Losses (lines 226-268) *)
(** compute_loss_q: the backup of one transition; [eps] is randn times target_noise. *)
Definition clamp_noise (c : R) (eps : vec) : vec := map (fun e => Rmin (Rmax e (- c)) c) eps.
Definition backup (gamma noise_clip : R) (low high : vec) (pi_t : vec -> vec) (q1_t q2_t : vec -> vec -> R)
    (eps : vec) (t : transition) : R :=
  let a2 := clip low high (vadd (pi_t (tr_obs2 t)) (clamp_noise noise_clip eps)) in
  tr_rew t + gamma * (1 - (if tr_done t then 1 else 0)) * Rmin (q1_t (tr_obs2 t) a2) (q2_t (tr_obs2 t) a2).
Definition average (l : vec) : R := vsum l / INR (length l).
(** loss_q1 + loss_q2 (255-257); [epss]: one vector of noise per transition. *)
Definition loss_q (gamma noise_clip : R) (low high : vec) (q1 q2 : vec -> vec -> R) (pi_t : vec -> vec)
    (q1_t q2_t : vec -> vec -> R) (epss : list vec) (batch : list transition) : R :=
  let bs := map2 (backup gamma noise_clip low high pi_t q1_t q2_t) epss batch in
  let se q := average (map2 (fun t b => (q (tr_obs t) (tr_act t) - b) ^ 2) batch bs) in
  se q1 + se q2.
(** compute_loss_pi (265-268). *)
Definition loss_pi (q1 : vec -> vec -> R) (pi : vec -> vec) (batch : list transition) : R :=
  - average (map (fun t => q1 (tr_obs t) (pi (tr_obs t))) batch).

(** ** Updates (lines 270-311) *)
(** The parameters of an actor-critic, in the order pi, q1, q2 of parameters(). *)
Record nets := mkNets { n_pi : vec; n_q1 : vec; n_q2 : vec }.

Section Update.
Variable O : Type.                                     (* state of an optimizer *)
Variable adam : R -> O -> vec -> vec -> O * vec.       (* learning rate, state, parameters, gradients *)
Variable Data : Type.                                  (* a batch with its noise *)
Variable dq : nets -> nets -> Data -> vec * vec.       (* gradient of loss_q by q1 and q2 *)
Variable dpi : nets -> Data -> vec * vec.              (* gradient of loss_pi by pi and by q1 *)
Variable gamma polyak pi_lr q_lr : R.
Variable policy_delay : nat.

(** What update works on.  [u_iter]: what is left in the iterator q_params (218), 0 standing for the
    parameters of q1 and 1 for those of q2.  [u_req]: their requires_grad.  [u_gpi], [u_gq]: the
    accumulated gradients. *)
Record learn := mkLearn {
  u_ac : nets; u_targ : nets; u_opi : O; u_oq : O;
  u_iter : list nat; u_req : nat -> bool; u_gpi : vec; u_gq : vec * vec }.

(** Lines 211-224 and 270-272: the target is a copy; Adam(q_params) makes a list of its argument,
    which uses up the iterator. *)
Definition start_learning (ac : nets) (opi oq : O) : learn :=
  let q_params := [0; 1]%nat in
  let after_adam := skipn (length q_params) q_params in
  mkLearn ac ac opi oq after_adam (fun _ => true) (zeros (length (n_pi ac)))
    (zeros (length (n_q1 ac)), zeros (length (n_q2 ac))).
(** for p in q_params: p.requires_grad = b (287-288, 299-300). *)
Definition set_req (b : bool) (u : learn) : learn :=
  mkLearn (u_ac u) (u_targ u) (u_opi u) (u_oq u) []
    (fun i => if existsb (Nat.eqb i) (u_iter u) then b else u_req u i) (u_gpi u) (u_gq u).
(** p_targ.data.mul_(polyak); p_targ.data.add_((1 - polyak) * p.data) (304-307). *)
Definition average_in (p p_targ : vec) : vec := vadd (vscale polyak p_targ) (vscale (1 - polyak) p).
Definition average_nets (a t : nets) : nets :=
  mkNets (average_in (n_pi a) (n_pi t)) (average_in (n_q1 a) (n_q1 t)) (average_in (n_q2 a) (n_q2 t)).

(** zero_grad and backward of loss_q, step of q_optimizer (275-279).  The parameters that do not require a
    gradient keep the zero. *)
Definition q_step (u : learn) (data : Data) : learn :=
  let z1 := zeros (length (n_q1 (u_ac u))) in
  let z2 := zeros (length (n_q2 (u_ac u))) in
  let (d1, d2) := dq (u_ac u) (u_targ u) data in
  let g1 := if u_req u 0%nat then vadd z1 d1 else z1 in
  let g2 := if u_req u 1%nat then vadd z2 d2 else z2 in
  let (oq, q) := adam q_lr (u_oq u) (n_q1 (u_ac u) ++ n_q2 (u_ac u)) (g1 ++ g2) in
  let n := length (n_q1 (u_ac u)) in
  mkLearn (mkNets (n_pi (u_ac u)) (firstn n q) (skipn n q)) (u_targ u) (u_opi u) oq
    (u_iter u) (u_req u) (u_gpi u) (g1, g2).
(** zero_grad, backward of loss_pi and step of pi_optimizer (291-294): backward also reaches
    the parameters of q1 that require a gradient. *)
Definition pi_step (u : learn) (data : Data) : learn :=
  let zp := zeros (length (n_pi (u_ac u))) in
  let (dp, d1) := dpi (u_ac u) data in
  let gp := vadd zp dp in
  let g1 := if u_req u 0%nat then vadd (fst (u_gq u)) d1 else fst (u_gq u) in
  let (opi, p) := adam pi_lr (u_opi u) (n_pi (u_ac u)) gp in
  mkLearn (mkNets p (n_q1 (u_ac u)) (n_q2 (u_ac u))) (u_targ u) opi (u_oq u)
    (u_iter u) (u_req u) gp (g1, snd (u_gq u)).
(** update (274-311). *)
Definition update (u : learn) (data : Data) (timer : nat) : option learn :=
  let u1 := q_step u data in
  if Nat.eqb policy_delay 0 then None
  else if Nat.eqb (timer mod policy_delay) 0 then
    let u2 := set_req true (pi_step (set_req false u1) data) in
    Some (mkLearn (u_ac u2) (average_nets (u_ac u2) (u_targ u2)) (u_opi u2) (u_oq u2)
            (u_iter u2) (u_req u2) (u_gpi u2) (u_gq u2))
  else Some u1.
End Update.

(** ** The main loop (lines 334-390) *)
Section Loop.
Variable E : Type.                                            (* state of the environment *)
Variable reset : E -> E * vec.
Variable step : E -> vec -> E * vec * R * bool.
Variable L : Type.                                            (* networks and optimizers *)
Variable policy : L -> vec -> vec.                            (* ac.act *)
Variable gradient_step : L -> replay -> nat -> nat -> option L. (* sample_batch and update, with t and j *)
Variable low high : vec.
Variable noise : nat -> vec.                                  (* of get_action at step t *)
Variable sample : nat -> vec.                                 (* action_space.sample() at step t *)
Variable start_steps update_after update_every max_ep_len : nat.

(** What the loop works on; [lp_trace]: the stored transitions; [lp_steps]: the pairs (t, j) of the
    updates made; [lp_resets]: the steps after which the environment was reset. *)
Record loop_state := mkLoop {
  lp_env : E; lp_obs : vec; lp_len : nat; lp_buf : replay; lp_learn : L;
  lp_trace : list transition; lp_steps : list (nat * nat); lp_resets : list nat }.

(** for j in range(update_every) (377-380). *)
Fixpoint updates (l : L) (b : replay) (t : nat) (js : list nat) : option L :=
  match js with
  | [] => Some l
  | j :: js' => match gradient_step l b t j with Some l' => updates l' b t js' | None => None end
  end.
(** One pass of the loop body (340-380).  The test of the agent (382-390) changes nothing that is used
    here. *)
Definition body (t : nat) (s : loop_state) : option loop_state :=
  let a := if Nat.ltb start_steps t then get_action (policy (lp_learn s)) low high (noise t) (lp_obs s) else sample t in
  let '(e1, o2, r, d0) := step (lp_env s) a in
  let len := (lp_len s + 1)%nat in
  let d := if Nat.eqb len max_ep_len then false else d0 in
  let tr := mkTr (lp_obs s) a r o2 d in
  match store (lp_buf s) tr with
  | None => None
  | Some buf =>
      let over := orb d (Nat.eqb len max_ep_len) in
      let '(e2, o) := if over then reset e1 else (e1, o2) in
      let len' := if over then 0%nat else len in
      let resets := if over then lp_resets s ++ [t] else lp_resets s in
      if Nat.leb update_after t then
        if Nat.eqb update_every 0 then None
        else if Nat.eqb (t mod update_every) 0 then
          match updates (lp_learn s) buf t (seq 0 update_every) with
          | Some l => Some (mkLoop e2 o len' buf l (lp_trace s ++ [tr])
                              (lp_steps s ++ map (fun j => (t, j)) (seq 0 update_every)) resets)
          | None => None
          end
        else Some (mkLoop e2 o len' buf (lp_learn s) (lp_trace s ++ [tr]) (lp_steps s) resets)
      else Some (mkLoop e2 o len' buf (lp_learn s) (lp_trace s ++ [tr]) (lp_steps s) resets)
  end.
(** for t in range(total_steps), starting with a reset (334-340). *)
Fixpoint run_steps (n : nat) (s : loop_state) : option loop_state :=
  match n with
  | 0%nat => Some s
  | S n' => match run_steps n' s with Some s' => body n' s' | None => None end
  end.
Definition train_loop (total : nat) (e : E) (buf : replay) (l : L) : option loop_state :=
  let (e0, o) := reset e in run_steps total (mkLoop e0 o 0 buf l [] [] []).
End Loop.
