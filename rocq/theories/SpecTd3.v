(** The textbook versions that the reinforcement learner is compared with. *)

Require Import Reals List Arith.
Require Import Verif.Vec Verif.ModelTd3.
Import ListNotations.
Open Scope R_scope.

(** ** Experience *)
(** Storing one transition after the other. *)
Fixpoint stores (b : replay) (ts : list transition) : option replay :=
  match ts with
  | [] => Some b
  | t :: ts' => match store b t with Some b' => stores b' ts' | None => None end
  end.
(** The n most recent ones. *)
Definition latest {A : Type} (n : nat) (ts : list A) : list A := skipn (length ts - n) ts.

(** ** Actions *)
(** Within the limits, entry by entry. *)
Definition in_box (low high a : vec) : Prop :=
  length a = length low /\ forall i, (i < length low)%nat -> nth i low 0 <= nth i a 0 <= nth i high 0.
Definition box_ok (low high : vec) : Prop :=
  length low = length high /\ forall i, (i < length low)%nat -> nth i low 0 <= nth i high 0.

(** ** Updates *)
Section Textbook.
Variable O : Type.
Variable adam : R -> O -> vec -> vec -> O * vec.
Variable Data : Type.
Variable dq : nets -> nets -> Data -> vec * vec.
Variable dpi : nets -> Data -> vec * vec.
Variable polyak pi_lr q_lr : R.
Variable policy_delay : nat.

(** Main networks, target networks, optimizer of the policy, optimizer of the critics. *)
Record core := mkCore { c_ac : nets; c_targ : nets; c_opi : O; c_oq : O }.
(** One step on the critics; at every policy_delay-th call one step on the policy, with the critics
    fixed, and then the targets move towards the networks. *)
Definition textbook (c : core) (data : Data) (timer : nat) : core :=
  let a := c_ac c in
  let (d1, d2) := dq a (c_targ c) data in
  let (oq, q) := adam q_lr (c_oq c) (n_q1 a ++ n_q2 a) (d1 ++ d2) in
  let n := length (n_q1 a) in
  let a1 := mkNets (n_pi a) (firstn n q) (skipn n q) in
  if Nat.eqb (timer mod policy_delay) 0 then
    let (opi, p) := adam pi_lr (c_opi c) (n_pi a1) (fst (dpi a1 data)) in
    let a2 := mkNets p (n_q1 a1) (n_q2 a1) in
    let move x y := vadd (vscale polyak y) (vscale (1 - polyak) x) in
    mkCore a2 (mkNets (move (n_pi a2) (n_pi (c_targ c))) (move (n_q1 a2) (n_q1 (c_targ c)))
                      (move (n_q2 a2) (n_q2 (c_targ c)))) opi oq
  else mkCore a1 (c_targ c) (c_opi c) oq.
End Textbook.

(** ** The loop *)
(** The pairs (t, j) of updates: at the multiples t of update_every from update_after on, update_every each. *)
Definition schedule (update_after update_every total : nat) : list (nat * nat) :=
  flat_map (fun t => if andb (Nat.leb update_after t) (Nat.eqb (t mod update_every) 0)
                     then map (fun j => (t, j)) (seq 0 update_every) else [])
           (seq 0 total).

(** Episodes in an environment under given actions: an episode ends when the environment says so or after
    max_ep_len steps.  [env_at t]: the environment, the observation and the steps taken in the
    episode before step t. *)
Section Episodes.
Variable E : Type.
Variable reset : E -> E * vec.
Variable step : E -> vec -> E * vec * R * bool.
Variable max_ep_len : nat.
Variable start : E * vec.
Variable acts : nat -> vec.
Fixpoint env_at (t : nat) : E * vec * nat :=
  match t with
  | 0%nat => (fst start, snd start, 0%nat)
  | S t' =>
      let '(e, o, len) := env_at t' in
      let '(e1, o2, r, d) := step e (acts t') in
      if orb d (Nat.eqb (len + 1) max_ep_len) then (fst (reset e1), snd (reset e1), 0%nat) else (e1, o2, (len + 1)%nat)
  end.
(** Does the episode end with step t? *)
Definition ends (t : nat) : bool :=
  let '(e, o, len) := env_at t in
  let '(e1, o2, r, d) := step e (acts t) in orb d (Nat.eqb (len + 1) max_ep_len).
(** What step t should leave in the buffer: a terminal state is marked, the end of the allowed time is not. *)
Definition experience (t : nat) : transition :=
  let '(e, o, len) := env_at t in
  let '(e1, o2, r, d) := step e (acts t) in
  mkTr o (acts t) r o2 (andb d (negb (Nat.eqb (len + 1) max_ep_len))).
End Episodes.
