(** Instances for the cost-to-go in continuous time. *)

Require Import Reals List Lia Lra Bool Arith.
Require Import Verif.Vec Verif.VecFacts Verif.ModelCostToGo Verif.SpecCostToGo Verif.ProofCostToGo.
Import ListNotations.
Open Scope R_scope.

(** One state that moves with speed [v]; the cost is 1 everywhere. *)
Definition drift (v : R) : vec -> option vec := fun _ => Some [v].
Definition unit_cost : vec -> R := fun _ => 1.
Definition drift_path (v x : R) (t : R) : vec := [x + v * t; t].
Definition drift_solver (v : R) (ts : list R) : ivp := fun _ _ y0 _ => Some (ts, map (drift_path v (nth 0 y0 0)) ts).
Lemma drift_solves : forall v x e, 0 <= e -> solves (ivp_fun 1 (drift v) unit_cost) (drift_path v x) 0 e.
Proof.
  intros v x e He. split.
  - intros t _. split; [reflexivity|]. exists [v; 1]. split; reflexivity.
  - intros j s t _ _ _.
    assert (pr : Riemann_integrable (fct_cte (nth j [v; 1] 0)) s t) by apply RiemannInt_P14.
    exists pr. change (rate (ivp_fun 1 (drift v) unit_cost) (drift_path v x) j) with (fct_cte (nth j [v; 1] 0)). rewrite RiemannInt_P15.
    unfold drift_path. destruct j as [|[|[|j]]]; cbn; ring.
Qed.
Lemma drift_exact : forall v x T ts goal, 0 <= T -> times_to 0 T ts ->
  (forall g, goal = Some g -> v = 0 /\ g = [x]) -> exact_on 1 (drift v) unit_cost (drift_solver v ts) T goal [x].
Proof.
  intros v x T ts goal HT Ti G. unfold exact_on, exact_at, drift_solver. cbn [app nth]. exists (drift_path v x), T.
  split; [unfold drift_path; f_equal; ring|]. split; [apply drift_solves; auto|]. split; [|split; [auto|reflexivity]].
  split; [lra|]. destruct goal as [g|]; [|reflexivity]. cbn [option_map]. destruct (G g eq_refl) as [-> ->]. split; [reflexivity|].
  unfold reach_goal, drift_path. cbn [firstn vsub map2 dot]. replace (x + 0 * 0 - x) with 0 by ring.
  replace (0 * 0 + 0) with 0 by ring. rewrite sqrt_0. intros C. lra.
Qed.
Lemma drift_dims : forall v x d, drift v x = Some d -> length d = 1%nat.
Proof. intros v x d E. unfold drift in E. assert ([v] = d) by congruence. subst. reflexivity. Qed.
Lemma times_example : times_to 0 2 [0; 1; 2].
Proof. cbn. lra. Qed.
Lemma drift_computed : forall v x goal, continuous_cost_to_go 1 (drift v) unit_cost (drift_solver v [0; 1; 2]) [x] 2 goal =
  Computed (mkCtg 2 [[x + v * 0]; [x + v * 1]; [x + v * 2]] [2 - 0; 2 - 1; 2 - 2] [0; 1; 2]).
Proof.
  intros v x goal. unfold continuous_cost_to_go. assert (H : Rleb 0 2 = true) by (apply Rleb_true; lra). rewrite H. reflexivity.
Qed.
Lemma example_case : exact_on 1 (drift 3) unit_cost (drift_solver 3 [0; 1; 2]) 2 None [5] /\
  (forall x d, drift 3 x = Some d -> length d = 1%nat) /\
  continuous_cost_to_go 1 (drift 3) unit_cost (drift_solver 3 [0; 1; 2]) [5] 2 None =
    Computed (mkCtg 2 [[5 + 3 * 0]; [5 + 3 * 1]; [5 + 3 * 2]] [2 - 0; 2 - 1; 2 - 2] [0; 1; 2]).
Proof.
  split; [apply drift_exact; [lra|apply times_example|discriminate]|]. split; [apply drift_dims|apply drift_computed].
Qed.
(** One state, two values. *)
Lemma two_values : exists n step cost solve x0 T c i j, exact_on n step cost solve T None x0 /\
  continuous_cost_to_go n step cost solve x0 T None = Computed c /\ (i < length (cg_x c))%nat /\ (j < length (cg_x c))%nat /\
  nth i (cg_x c) [] = nth j (cg_x c) [] /\ nth i (cg_costs c) 0 <> nth j (cg_costs c) 0.
Proof.
  exists 1%nat, (drift 0), unit_cost, (drift_solver 0 [0; 1; 2]), [5], 2. eexists. exists 0%nat, 1%nat.
  split; [apply drift_exact; [lra|apply times_example|discriminate]|]. split; [apply drift_computed|].
  cbn [cg_x cg_costs length nth]. split; [lia|]. split; [lia|]. split; [f_equal; ring|lra].
Qed.
(** A trajectory that begins at the goal is not stopped. *)
Lemma not_stopped : exists n step cost solve x0 T c, exact_on n step cost solve T (Some x0) x0 /\
  continuous_cost_to_go n step cost solve x0 T (Some x0) = Computed c /\ last (cg_t c) 0 = T /\ 0 < cg_total c.
Proof.
  exists 1%nat, (drift 0), unit_cost, (drift_solver 0 [0; 1; 2]), [5], 2. eexists.
  split; [apply drift_exact; [lra|apply times_example|intros g Hg; split; [reflexivity|congruence]]|]. split; [apply drift_computed|].
  cbn. split; [reflexivity|lra].
Qed.
Lemma samples_case : Forall (exact_on 1 (drift 3) unit_cost (drift_solver 3 [0; 1; 2]) 2 None) [[5]; [6]] /\
  exists l, continuous_samples 1 (drift 3) unit_cost (drift_solver 3 [0; 1; 2]) 2 None (fun _ => false) [[5]; [6]] = Some l /\ length l = 6%nat.
Proof.
  split; [repeat constructor; (apply drift_exact; [lra|apply times_example|discriminate])|].
  cbn [continuous_samples]. rewrite !drift_computed. eexists. split; [reflexivity|]. reflexivity.
Qed.
(** Towards the goal. *)
Lemma towards_norm : forall t, t <= 1 -> sqrt (dot (vsub [0 + 1 * t] [1]) (vsub [0 + 1 * t] [1])) = 1 - t.
Proof.
  intros t Ht. cbn [vsub map2 dot]. replace ((0 + 1 * t - 1) * (0 + 1 * t - 1) + 0) with (Rsqr (1 - t)) by (unfold Rsqr; ring). apply sqrt_Rsqr. lra.
Qed.
Lemma goal_case : exact_at (drift_solver 1 [0; 999 / 1000]) (ivp_fun 1 (drift 1) unit_cost) 2 [0; 0] (Some (reach_goal 1 [1])) /\
  (exists c, continuous_cost_to_go 1 (drift 1) unit_cost (drift_solver 1 [0; 999 / 1000]) [0] 2 (Some [1]) = Computed c) /\
  / 1000 < sqrt (dot (vsub [0] [1]) (vsub [0] [1])).
Proof.
  split; [|split].
  - unfold exact_at, drift_solver. cbn [nth]. exists (drift_path 1 0), (999 / 1000).
    split; [unfold drift_path; f_equal; ring|]. split; [apply drift_solves; lra|]. split; [|split; [cbn; lra|reflexivity]].
    split; [lra|]. unfold reach_goal, drift_path. cbn [firstn]. split.
    + intros C. specialize (C 0 ltac:(lra)). rewrite towards_norm in C by lra. lra.
    + intros _. split; [right; rewrite towards_norm by lra; lra|]. intros t Ht. rewrite towards_norm by lra. lra.
  - eexists. unfold continuous_cost_to_go. assert (H : Rleb 0 2 = true) by (apply Rleb_true; lra). rewrite H. reflexivity.
  - replace [0] with [0 + 1 * 0] by (f_equal; ring). rewrite towards_norm by lra. lra.
Qed.
