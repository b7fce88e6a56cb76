(** Properties C71, C72, C73: learning dynamics together with a Lyapunov function. *)

Require Import Reals List Lia.
Require Import Verif.Vec Verif.ModelMip Verif.SpecMip Verif.SpecCore Verif.ModelGrad Verif.ModelNet
  Verif.SpecNet Verif.ModelLyapunov Verif.SpecLyapunov Verif.ModelExamples Verif.ModelSystems
  Verif.SpecSystems Verif.ModelDynLearn Verif.SpecDynLearn Verif.ProofExamples Verif.ProofDynLearn
  Verif.ProofDynLearn2 Verif.ProofDynLearnEx.
Import ListNotations.
Open Scope R_scope.

(** ** C71: adversarial samples and Lyapunov losses *)

(** Every reported sample violates its condition. *)
Theorem C71_violations : forall solve L xeq pool pos lo up, solver_ok solve -> learner_ok L xeq ->
  pool_feasible pool -> adversarial_samples solve pool L = AdvSamples pos lo up ->
  Forall (fun x => l_box L x /\ 0 < pos_viol L xeq x) pos /\
  Forall (fun x => l_stays L x /\ 0 < lo_viol L xeq x) lo /\
  Forall (fun x => l_stays L x /\ 0 < up_viol L xeq x) up /\ lo <> [] /\ up <> [].
Proof. exact (fun solve L xeq pool pos lo up Hs HL Pf => samples_violate solve Hs L xeq HL pool Pf pos lo up). Qed.
Print Assumptions C71_violations.

(** When no violation of positivity is reported there is none. *)
Theorem C71_no_sample : forall solve L xeq pool lo up, solver_ok solve -> learner_ok L xeq ->
  pool_feasible pool -> pool_ends pool -> adversarial_samples solve pool L = AdvSamples [] lo up ->
  forall x, l_box L x -> pos_viol L xeq x <= 0.
Proof. exact (fun solve L xeq pool lo up Hs HL Pf Pe => no_pos_sample solve Hs L xeq HL pool Pf Pe lo up). Qed.
Print Assumptions C71_no_sample.

(** The function raises exactly when one of the two decay conditions holds. *)
Theorem C71_raises : forall solve L xeq pool, solver_ok solve -> solver_total solve -> learner_ok L xeq ->
  pool_feasible pool -> pool_ends pool ->
  (adversarial_samples solve pool L = AdvUnbound <->
   (forall x, l_stays L x -> lo_viol L xeq x <= 0) \/ (forall x, l_stays L x -> up_viol L xeq x <= 0)) /\
  adversarial_samples solve pool L <> AdvFails.
Proof. exact (fun solve L xeq pool Hs St HL Pf Pe => samples_raise solve Hs L xeq HL pool Pf St Pe). Qed.
Print Assumptions C71_raises.

(** Refuted: "a system that satisfies the positivity and the decay condition gets an
    empty answer".  x' = x / 2 with V(x) = 2 |x| satisfies both everywhere, and the
    function raises for it. *)
Theorem C71_certified_raises_refuted : ~ (forall solve L xeq pool, solver_ok solve -> solver_total solve ->
  learner_ok L xeq -> pool_feasible pool -> pool_ends pool ->
  (forall x, l_box L x -> pos_viol L xeq x <= 0) -> (forall x, l_stays L x -> lo_viol L xeq x <= 0) ->
  exists up, adversarial_samples solve pool L = AdvSamples [] [] up).
Proof. exact certified_refuted. Qed.
Print Assumptions C71_certified_raises_refuted.

Example C71_case : solver_ok ideal_solve /\ solver_total ideal_solve /\ pool_feasible ideal_pool /\
  pool_ends ideal_pool /\ learner_ok (learner_kink true) [0] /\
  exists pos lo up, adversarial_samples ideal_solve ideal_pool (learner_kink true) = AdvSamples pos lo up.
Proof.
  exact (conj ideal_ok (conj ideal_total (conj ideal_pool_feasible (conj ideal_pool_ends (conj (kink_ok true)
    (kink_samples _ _ true ideal_ok ideal_total ideal_pool_feasible ideal_pool_ends)))))).
Qed.

(** The losses with lyap_loss_optimal: the weights times the largest violations. *)
Theorem C71_losses : forall solve L xeq pool inverse ill tp tl tu a b c, solver_ok solve -> learner_ok L xeq ->
  pool_ends pool -> o_optimal (l_opt L) = true ->
  lyapunov_loss solve pool inverse ill L tp tl tu = Some (a, b, c) ->
  exists p l u vp vl vu,
    a = o_w_pos (l_opt L) * p /\ b = o_w_lo (l_opt L) * l /\ c = o_w_up (l_opt L) * u /\
    largest (l_box L) (pos_viol L xeq) vp /\ largest (l_stays L) (lo_viol L xeq) vl /\
    largest (l_stays L) (up_viol L xeq) vu /\ 0 <= vp /\ 0 <= vl /\ 0 <= vu /\
    Rabs (p - vp) <= / 10 ^ 3 /\ Rabs (l - vl) <= / 10 ^ 3 /\ Rabs (u - vu) <= / 10 ^ 3.
Proof.
  exact (fun solve L xeq pool inverse ill tp tl tu a b c Hs HL Pe Op =>
    losses_optimal solve Hs L xeq HL pool inverse ill Pe Op tp tl tu a b c).
Qed.
Print Assumptions C71_losses.

(** Without it: never above the largest violation by more than the tolerance; zero, or
    close to the largest violation, or above the given threshold. *)
Theorem C71_losses_early : forall solve L xeq pool inverse ill tp tl tu a b c, solver_ok solve -> learner_ok L xeq ->
  pool_feasible pool -> pool_ends pool -> o_optimal (l_opt L) = false ->
  lyapunov_loss solve pool inverse ill L tp tl tu = Some (a, b, c) ->
  exists p l u vp vl vu,
    a = o_w_pos (l_opt L) * p /\ b = o_w_lo (l_opt L) * l /\ c = o_w_up (l_opt L) * u /\
    largest (l_box L) (pos_viol L xeq) vp /\ largest (l_stays L) (lo_viol L xeq) vl /\
    largest (l_stays L) (up_viol L xeq) vu /\
    early_value tp vp p /\ early_value tl vl l /\ early_value tu vu u.
Proof.
  exact (fun solve L xeq pool inverse ill tp tl tu a b c Hs HL Pf Pe Op =>
    losses_early solve Hs L xeq HL pool Pf inverse ill Pe Op tp tl tu a b c).
Qed.
Print Assumptions C71_losses_early.

(** ** C72: the losses at samples *)

(** The weights times the average violations over the samples inside the stable box. *)
Theorem C72_samples : forall L xeq xs ys, learner_ok L xeq ->
  Forall (fun x : vec => length x = l_dim L) xs ->
  kept (in_box (o_x_lo (l_opt L)) (o_x_up (l_opt L))) xs ys ->
  sample_losses L xs = Some match ys with
    | [] => (0, 0, 0)
    | _ => (o_s_pos (l_opt L) * average_viol (pos_viol L xeq) ys,
            o_s_lo (l_opt L) * average_viol (lo_viol L xeq) ys,
            o_s_up (l_opt L) * average_viol (up_viol L xeq) ys)
    end.
Proof. exact (fun L xeq xs ys HL => samples_spec L xeq HL xs ys). Qed.
Print Assumptions C72_samples.

(** They are zero exactly when the conditions hold at these samples. *)
Theorem C72_samples_zero : forall L xeq xs, learner_ok L xeq ->
  0 < o_s_pos (l_opt L) -> 0 < o_s_lo (l_opt L) -> 0 < o_s_up (l_opt L) ->
  Forall (fun x : vec => length x = l_dim L) xs ->
  exists a b c, sample_losses L xs = Some (a, b, c) /\ 0 <= a /\ 0 <= b /\ 0 <= c /\
    (a = 0 <-> forall x, In x xs -> in_box (o_x_lo (l_opt L)) (o_x_up (l_opt L)) x -> pos_viol L xeq x <= 0) /\
    (b = 0 <-> forall x, In x xs -> in_box (o_x_lo (l_opt L)) (o_x_up (l_opt L)) x -> lo_viol L xeq x <= 0) /\
    (c = 0 <-> forall x, In x xs -> in_box (o_x_lo (l_opt L)) (o_x_up (l_opt L)) x -> up_viol L xeq x <= 0).
Proof. exact (fun L xeq xs HL W1 W2 W3 => samples_zero L xeq HL W1 W2 W3 xs). Qed.
Print Assumptions C72_samples_zero.

(** The dynamics loss is the mean squared error of the predicted next states. *)
Theorem C72_dynamics : forall L xeq xs nexts, learner_ok L xeq -> xs <> [] -> (0 < l_dim L)%nat ->
  Forall (fun x : vec => length x = l_dim L) xs -> Forall (fun x : vec => length x = l_dim L) nexts ->
  length xs = length nexts ->
  exists v, dynamics_loss L xs nexts = Some v /\
    v = vsum (map2 (fun x x' => vsum (map2 (fun a b => (a - b) ^ 2) (l_step L x) x')) xs nexts)
        / (INR (length xs) * INR (l_dim L)) /\
    0 <= v /\ (v = 0 <-> nexts = map (l_step L) xs).
Proof. exact (fun L xeq xs nexts HL => dynamics_spec L xeq HL xs nexts). Qed.
Print Assumptions C72_dynamics.

Example C72_case : learner_ok (learner_kink true) [0] /\
  kept (in_box [-1/2] [1/2]) [[1/4]; [3/4]; [-1/4]] [[1/4]; [-1/4]] /\
  0 < average_viol (lo_viol (learner_kink true) [0]) [[1/4]; [-1/4]].
Proof. exact samples_case. Qed.

(** ** C73: rollouts *)

(** The rollout lists the states after 0, ..., N steps with their Lyapunov values. *)
Theorem C73_rollout : forall L xeq x N, learner_ok L xeq -> length x = l_dim L ->
  exists xs vs, rollout L x N = Some (xs, vs) /\ length xs = S N /\ length vs = S N /\
  forall k, (k <= N)%nat -> nth k xs [] = l_state L k x /\ nth k vs 0 = l_V L xeq (l_state L k x).
Proof. exact (fun L xeq x N HL => rollout_spec L xeq HL x N). Qed.
Print Assumptions C73_rollout.

(** The Lyapunov values of a rollout inside the box decay when the condition holds. *)
Theorem C73_decay : forall L xeq, 0 <= 1 - o_eps_lo (l_opt L) ->
  (forall x, l_stays L x -> lo_viol L xeq x <= 0) ->
  forall x N, (forall k, (k <= N)%nat -> l_box L (l_state L k x)) ->
  forall k, (k <= N)%nat -> l_V L xeq (l_state L k x) <= (1 - o_eps_lo (l_opt L)) ^ k * l_V L xeq x.
Proof. exact rollout_decay. Qed.
Print Assumptions C73_decay.

(** The loss of a rollout: entry k is the mean squared error after k steps. *)
Theorem C73_loss : forall L xeq x0 rest, learner_ok L xeq -> (0 < l_dim L)%nat ->
  Forall (fun x : vec => length x = l_dim L) (x0 :: rest) ->
  exists ls, rollout_loss L (x0 :: rest) = Some ls /\ length ls = S (length rest) /\ nth 0 ls 0 = 0 /\
    forall k, (k <= length rest)%nat ->
      nth k ls 0 = mean_square (nth k (x0 :: rest) []) (l_state L k x0) /\ 0 <= nth k ls 0 /\
      (nth k ls 0 = 0 <-> nth k (x0 :: rest) [] = l_state L k x0).
Proof. exact (fun L xeq x0 rest HL => rollout_loss_spec L xeq HL x0 rest). Qed.
Print Assumptions C73_loss.

(** The validation adds the losses of the rollouts. *)
Theorem C73_validation_sum : forall L xeq r rs, learner_ok L xeq -> (0 < l_dim L)%nat -> r <> [] ->
  Forall (fun s => length s = length r /\ Forall (fun x : vec => length x = l_dim L) s) (r :: rs) ->
  exists v, rollout_validation L (r :: rs) = Some v /\ length v = length r /\
    forall k, (k < length r)%nat ->
      nth k v 0 = vsum (map (fun s => mean_square (nth k s []) (l_state L k (hd [] s))) (r :: rs)).
Proof. exact (fun L xeq r rs HL => validation_spec L xeq HL r rs). Qed.
Print Assumptions C73_validation_sum.

(** Refuted: "it computes the mean loss along the rollouts". *)
Theorem C73_validation_mean_refuted : ~ (forall L xeq r rs v, learner_ok L xeq ->
  rollout_validation L (r :: rs) = Some v ->
  Forall (fun s => length s = length r /\ Forall (fun x : vec => length x = l_dim L) s) (r :: rs) ->
  forall k, (k < length r)%nat ->
    nth k v 0 = average (map (fun s => mean_square (nth k s []) (l_state L k (hd [] s))) (r :: rs))).
Proof. exact validation_mean_refuted. Qed.
Print Assumptions C73_validation_mean_refuted.

Example C73_case : learner_ok (learner_half true) [0] /\ 0 <= 1 - o_eps_lo (l_opt (learner_half true)) /\
  (forall x, l_stays (learner_half true) x -> lo_viol (learner_half true) [0] x <= 0) /\
  (forall k, (k <= 3)%nat -> l_box (learner_half true) (l_state (learner_half true) k [1])).
Proof. exact rollout_case. Qed.
