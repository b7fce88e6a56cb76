(** Examples of trees. *)

Require Import Reals List Bool Arith Lia Lra Permutation.
Require Import Verif.Vec Verif.VecFacts Verif.SpecExt Verif.ModelValueIter Verif.ModelRrt Verif.SpecRrt
  Verif.ProofBounds Verif.ProofValueIter Verif.ProofRrt.
Import ListNotations.
Open Scope R_scope.

Lemma on_axis_true : forall x, on_axis x = true -> x = [nth 0 x 0; 0; 0].
Proof. intros x. unfold on_axis. destruct (list_eq_dec _ _ _); [auto|discriminate]. Qed.
Lemma on_axis_case : forall a, on_axis [a; 0; 0] = true.
Proof. intros a. unfold on_axis. cbn [nth]. destruct (list_eq_dec _ _ _); [auto|congruence]. Qed.
Lemma axis_find_case : forall a b, axis_find [a; 0; 0] [b; 0; 0] =
  Some (2 * (b - a) * (b - a), ([[a; 0; 0]; [b; 0; 0]], [[b - a; 0]; [b - a; 0]], [1])).
Proof. intros. unfold axis_find. rewrite !on_axis_case. auto. Qed.
Lemma axis_plans : plans axis_find.
Proof.
  intros x y c p E. unfold axis_find in E. destruct (on_axis x) eqn:X; [|discriminate].
  destruct (on_axis y) eqn:Y; [|discriminate]. cbn [andb] in E.
  apply on_axis_true in X. apply on_axis_true in Y. rewrite X, Y in E. cbn [nth] in E.
  generalize dependent (nth 0 x 0). generalize dependent (nth 0 y 0). intros b -> a -> E.
  assert (Ec : c = 2 * (b - a) * (b - a)) by congruence.
  assert (Ep : p = ([[a; 0; 0]; [b; 0; 0]], [[b - a; 0]; [b - a; 0]], [1])).
  { symmetry. exact (f_equal (fun o => match o with Some q => snd q | None => p end) E). }
  subst c p. split; [assert (0 <= (b - a) * (b - a)) by apply Rle_0_sqr; lra|]. split; [split; reflexivity|]. intros j Hj. cbn [snd length] in Hj.
  replace j with 0%nat by lia. cbn [fst snd nth]. unfold step_defect, unicycle. cbn [nth]. rewrite cos_0, sin_0.
  cbn -[Rplus Rminus Rmult Rdiv Rinv IZR]. f_equal; [lra|f_equal; [lra|f_equal; lra]].
Qed.
Definition axis_tree : tree := mkTree [[0; 0; 0]; [2; 0; 0]; [1; 0; 0]] [None; Some 2%nat; Some 0%nat]
  [[2%nat]; []; [1%nat]] [0; 2 * (0 - 1) * (0 - 1) + 0 + 2 * (2 - 1) * (2 - 1); 2 * (0 - 1) * (0 - 1) + 0]
  [0; 2 * (2 - 1) * (2 - 1); 2 * (0 - 1) * (0 - 1)]
  [None; Some ([[2; 0; 0]; [1; 0; 0]], [[2 - 1; 0]; [2 - 1; 0]], [1]);
   Some ([[1; 0; 0]; [0; 0; 0]], [[0 - 1; 0]; [0 - 1; 0]], [1])].
Ltac rcase := repeat (match goal with |- context [Rltb ?a ?b] => unfold Rltb at 1; destruct (Rlt_dec a b); try (exfalso; lra) end;
    cbn -[Rplus Rminus Rmult Rltb IZR connect axis_find run_calls]).
Definition axis_mid : tree := mkTree [[0; 0; 0]; [2; 0; 0]] [None; Some 0%nat] [[1%nat]; []]
  [0; 2 * (0 - 2) * (0 - 2) + 0] [0; 2 * (0 - 2) * (0 - 2)]
  [None; Some ([[2; 0; 0]; [0; 0; 0]], [[0 - 2; 0]; [0 - 2; 0]], [1])].
Lemma axis_first : connect 5 (fun l => l) axis_find (rrt_init [0; 0; 0]) [2; 0; 0] [0%nat] = Ok (axis_mid, Some 1%nat).
Proof.
  unfold connect. cbn [find_all states rrt_init nth_error]. rewrite !axis_find_case.
  cbn -[Rplus Rminus Rmult Rltb IZR]. rcase. reflexivity.
Qed.
Lemma axis_second : connect 5 (fun l => l) axis_find axis_mid [1; 0; 0] [0; 1]%nat = Ok (axis_tree, Some 2%nat).
Proof.
  unfold connect, axis_mid. cbn [find_all states nth_error]. rewrite !axis_find_case.
  cbn -[Rplus Rminus Rmult Rltb IZR]. rcase. reflexivity.
Qed.
Lemma axis_run : run_calls 5 (fun l => l) (rrt_init [0; 0; 0]) axis_calls = Ok axis_tree.
Proof. unfold axis_calls. cbn [run_calls run_call]. rewrite axis_first, axis_second. reflexivity. Qed.
Lemma axis_undrivable : exists T, run_calls 5 (fun l => l) (rrt_init [0; 0; 0]) axis_calls = Ok T /\
  parent T 1 = Some 2%nat /\ exists p, nth_error (paths T) 1 = Some (Some p) /\ ~ drivable p.
Proof.
  exists axis_tree. split; [apply axis_run|]. split; [reflexivity|]. eexists. split; [reflexivity|].
  intros H. specialize (H 0%nat ltac:(cbn; lia)). apply (f_equal (fun l => nth 0 l 0)) in H.
  cbn [fst snd nth] in H. unfold step_defect, unicycle in H. cbn [nth] in H. rewrite cos_0, sin_0 in H.
  cbn -[Rplus Rminus Rmult Rdiv Rinv IZR] in H. lra.
Qed.
Lemma axis_nonneg : Forall nonneg_call axis_calls.
Proof.
  assert (N : nonneg_costs axis_find) by (intros x y c p E; apply (axis_plans x y c p E)).
  constructor; [exact N|]. constructor; [exact N|constructor].
Qed.

(** Moving a node under its own child. *)
Definition cycle_tree : tree := mkTree [[0]; [1]; [2]] [None; Some 0%nat; Some 1%nat] [[1%nat]; [2%nat]; []]
  [0; 1; 2] [0; 1; 1] [None; None; None].
Lemma leads_eq : forall T i c c', leads_to_goal T i c -> c = c' -> leads_to_goal T i c'.
Proof. intros; subst; auto. Qed.
Lemma cycle_ok : tree_ok cycle_tree.
Proof.
  assert (G1 : leads_to_goal cycle_tree 1 1).
  { eapply leads_eq; [apply by_parent with 0%nat; [reflexivity|constructor]|]. cbn. lra. }
  constructor; cbn; auto.
  - intros i Hi. destruct i as [|[|[|]]]; cbn in *; try (unfold nodes in Hi; cbn in Hi; lia).
    + constructor.
    + exact G1.
    + eapply leads_eq; [apply by_parent with 1%nat; [reflexivity|exact G1]|]. cbn. lra.
  - intros p c Hp. unfold nodes in Hp. cbn in Hp.
    destruct p as [|[|[|]]]; try lia; destruct c as [|[|[|[|]]]]; cbn; split; intros H;
      try discriminate; try (destruct H as [H|H]; try discriminate; try contradiction); auto; contradiction.
  - intros p. destruct p as [|[|[|[|]]]]; repeat constructor; cbn; tauto.
  - intros i Hi. unfold nodes in Hi. cbn in Hi. destruct i as [|[|[|]]]; cbn; try lra; lia.
Qed.
Lemma cycle_descend : forall fuel a b c,
  descend fuel (fun l => l) [None; Some 2%nat; Some 1%nat] [[]; [2%nat]; [1%nat]] [0; 1; 1] [[2%nat]] [a; b; c] = NoFuel /\
  descend fuel (fun l => l) [None; Some 2%nat; Some 1%nat] [[]; [2%nat]; [1%nat]] [0; 1; 1] [[1%nat]] [a; b; c] = NoFuel.
Proof.
  induction fuel as [|fuel IH]; intros a b c; [split; reflexivity|]. split.
  - exact (proj2 (IH a b (b + 1))).
  - exact (proj1 (IH a (c + 1) c)).
Qed.
Lemma cycle_forever : forall fuel, update_parent fuel (fun l => l) cycle_tree 1 2 1 None = NoFuel.
Proof.
  intros fuel. unfold update_parent, cycle_tree. cbn -[Rplus descend].
  rewrite (proj1 (cycle_descend fuel 0 (2 + 1) 2)). auto.
Qed.
Lemma cycle_not_above : not_above cycle_tree 2 1 /\ (forall fuel, (10 <= fuel)%nat ->
  exists T, update_parent fuel (fun l => l) cycle_tree 2 0 (1 / 2) None = Ok T).
Proof.
  split.
  - apply na_step with 0%nat; [lia|reflexivity|]. constructor. lia.
  - intros fuel Hf. destruct fuel as [|fuel]; [lia|]. unfold update_parent, cycle_tree. cbn -[Rplus Rdiv]. eexists. destruct fuel; reflexivity.
Qed.
