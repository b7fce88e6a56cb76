(** Cases for the reinforcement learner. *)

Require Import Reals List Lia Lra Bool Arith.
Require Import Verif.Vec Verif.VecFacts Verif.ModelLatent Verif.ProofLatent Verif.ModelTd3 Verif.SpecTd3
  Verif.ProofTd3 Verif.ProofTd3b Verif.ProofTd3c.
Import ListNotations.
Open Scope R_scope.

(** A walk that is over when it reaches 3. *)
Definition walk_reset (e : nat) : nat * vec := (0%nat, [0]).
Definition walk_step (e : nat) (a : vec) : nat * vec * R * bool := (S e, [INR (S e)], 1, Nat.eqb (S e) 3).
Definition walk (max_ep_len total : nat) :=
  train_loop nat walk_reset walk_step unit (fun _ o => o) (fun _ _ _ _ => Some tt) [0] [2] (fun _ => [0]) (fun _ => [1])
    1 2 2 max_ep_len total 7%nat (new_replay 1 1 4) tt.
Definition walk_tr (x a y : R) (d : bool) := mkTr [x] [a] 1 [y] d.

Lemma walk_case : exists s, walk 5 7 = Some s /\
  map tr_done (lp_trace nat unit s) = [false; false; true; false; false; true; false] /\
  lp_resets nat unit s = [2; 5]%nat /\ lp_steps nat unit s = [(2, 0); (2, 1); (4, 0); (4, 1); (6, 0); (6, 1)]%nat.
Proof. eexists. split; [vm_compute; reflexivity|]. repeat split. Qed.
Lemma walk_horizon : exists s, walk 3 3 = Some s /\
  map tr_done (lp_trace nat unit s) = [false; false; false] /\
  snd (walk_step 2 (tr_act (nth 2 (lp_trace nat unit s) (blank 0 0)))) = true /\
  lp_resets nat unit s = [2%nat].
Proof. eexists. split; [vm_compute; reflexivity|]. repeat split. Qed.
Lemma buffer_case : exists b, stores (new_replay 1 1 2) [walk_tr 0 1 1 false; walk_tr 1 1 2 false; walk_tr 2 1 3 true] = Some b /\
  sample_batch b [1; 0]%nat = Some [walk_tr 1 1 2 false; walk_tr 2 1 3 true].
Proof. eexists. split; [reflexivity|reflexivity]. Qed.
Lemma delay_case : nth 2 (schedule 0 3 6) (9, 9)%nat = (0, 2)%nat /\ nth 3 (schedule 0 3 6) (9, 9)%nat = (3, 0)%nat /\
  length (policy_steps 2 (schedule 0 3 6)) = 4%nat /\ length (schedule 0 3 6) = 6%nat.
Proof. repeat split. Qed.

(** An actor for one thrust between 0 and 8 that hovers with 6. *)
Definition hover : list (mat * vec) := [([[1]], [0])].
Lemma hover_sizes : forall x, length (mlp (fun v => v) sigmoid hover x) = length [0].
Proof. intros x. cbn. reflexivity. Qed.
Lemma hover_over : nth 0 (actor (mlp (fun v => v) sigmoid hover) [0] [8] [0] [6] [ln 4]) 0 > 8.
Proof.
  rewrite actor_entry by (cbn; try reflexivity; lia). cbn [hover mlp mv map dot vadd map2 nth].
  replace (1 * ln 4 + 0 + 0) with (ln 4) by ring. replace (1 * 0 + 0 + 0) with 0 by ring.
  rewrite sigmoid_ln4, sigmoid_zero. lra.
Qed.

(** Plain gradient descent on half the sum of squares. *)
Definition descend (lr : R) (o : unit) (p g : vec) : unit * vec := (o, vsub p (vscale lr g)).
Definition half_dq (a t : nets) (d : unit) : vec * vec := (n_q1 a, n_q2 a).
Definition half_dpi (a : nets) (d : unit) : vec * vec := (n_pi a, n_q1 a).
Lemma half_sizes : sizes_ok unit half_dq half_dpi.
Proof. split; [intros; split; reflexivity|intros; reflexivity]. Qed.
Lemma descent_case : exists u,
  run_updates unit descend unit half_dq half_dpi (1/2) (1/4) (1/2) 2 (start_learning unit (mkNets [4] [8] [12]) tt tt) [(tt, 0%nat); (tt, 1%nat)] = Some u /\
  u_ac unit u = mkNets [3] [2] [3] /\ u_targ unit u = mkNets [7/2] [6] [9].
Proof.
  eexists. split; [reflexivity|]. split; cbn; [|unfold average_nets, average_in; cbn]; f_equal; f_equal; lra.
Qed.
