(** Concrete learners of dynamics. *)

Require Import Reals List Bool Arith Lra Lia ClassicalEpsilon.
Require Import Verif.Vec Verif.VecFacts Verif.ModelMip Verif.SpecMip Verif.SpecCore Verif.ModelGrad
  Verif.ModelNet Verif.SpecNet Verif.SpecStep Verif.ModelLyapunov Verif.SpecLyapunov Verif.ModelMilp
  Verif.ModelExamples Verif.ModelSystems Verif.SpecSystems Verif.ModelDynLearn Verif.SpecDynLearn
  Verif.ProofNet Verif.ProofNetTotal Verif.ProofNetBounds Verif.ProofLyapunov
  Verif.ProofLyapCert Verif.ProofSystems Verif.ProofExamples Verif.ProofDynamics Verif.ProofContExamples
  Verif.ProofDynLearn Verif.ProofDynLearn2.
Import ListNotations.
Open Scope R_scope.

Lemma ideal_pool_feasible : pool_feasible ideal_pool.
Proof.
  intros t m. unfold ideal_pool. destruct (excluded_middle_informative _) as [H|H]; [|constructor].
  constructor; [|constructor]. destruct (constructive_indefinite_description _ H) as [sg [G O]]. exact G.
Qed.
Lemma optimum_unique : forall m v w, optimum m v -> optimum m w -> v = w.
Proof.
  intros m v w [(s & Gs & Es) Hv] [(r & Gr & Er) Hw]. specialize (Hv r Gr). specialize (Hw s Gs).
  destruct (obj_max m); lra.
Qed.
Lemma ideal_pool_ends : pool_ends ideal_pool.
Proof.
  intros t m v O. unfold ideal_pool. destruct (excluded_middle_informative _) as [H|H].
  - destruct (constructive_indefinite_description _ H) as [sg [G O']]. cbn.
    exists sg, []. split; [reflexivity|]. left. eapply optimum_unique; eauto.
  - destruct H. destruct O as [(sg & G & E) Ho]. exists sg. split; auto. rewrite E. split; eauto.
Qed.

Lemma net_half_wf : net_wf 1 net_half.
Proof.
  unfold net_wf, net_half. cbn [hidden last_layer hidden_wf lin_wf in_features weight bias].
  split; [discriminate|]. unfold lin_wf, wfm, out_features. cbn. repeat split; repeat constructor.
Qed.
Lemma half_ok : forall b, learner_ok (learner_half b) [0].
Proof.
  intros b. split; [|split; [left; reflexivity|exact abs_args]].
  split; [exact net_half_wf|]. split; [reflexivity|].
  unfold new_auto. cbn [learner_half l_sys au_net au_lo au_up au_meth au_kind].
  match goal with |- (if ?b then _ else _) = _ => assert (E : b = true) end.
  { ok_bools. }
  rewrite E. reflexivity.
Qed.
Lemma kink_ok : forall b, learner_ok (learner_kink b) [0].
Proof.
  intros b. split; [|split; [left; reflexivity|exact abs_args]].
  apply (auto_ex_built (AGiven [0] true)). reflexivity.
Qed.
Lemma half_step : forall b a, l_step (learner_half b) [a] = [a / 2].
Proof.
  intros b a. unfold l_step. cbn. unfold relu, Rmax. f_equal.
  destruct (Rle_dec _ _), (Rle_dec _ _), (Rle_dec _ _), (Rle_dec _ _); lra.
Qed.
Lemma kink_step : forall b a, l_step (learner_kink b) [a] = [if Rle_dec 0 a then a else a / 2].
Proof.
  intros b a. unfold l_step. cbn. unfold relu, Rmax. f_equal.
  destruct (Rle_dec _ _), (Rle_dec _ _), (Rle_dec _ _), (Rle_dec _ _), (Rle_dec 0 a); lra.
Qed.
Lemma ex_V : forall L a, l_net L = net_abs -> l_dim L = 1%nat -> o_R (l_opt L) = None -> o_lam (l_opt L) = 1 ->
  l_V L [0] [a] = 2 * Rabs a.
Proof.
  intros L a E1 E2 E3 E4. unfold l_V, V. rewrite E1, E2, E3, E4, abs_error, !phi_abs, Rabs_R0. ring.
Qed.
Lemma ex_err : forall L a, l_dim L = 1%nat -> o_R (l_opt L) = None -> l_err L [0] [a] = Rabs a.
Proof. intros L a E2 E3. unfold l_err. rewrite E2, E3. apply abs_error. Qed.

Lemma half_certified : forall b x, l_box (learner_half b) x ->
  pos_viol (learner_half b) [0] x <= 0 /\ lo_viol (learner_half b) [0] x <= 0 /\ l_box (learner_half b) (l_step (learner_half b) x).
Proof.
  intros b x B. destruct (box1_inv _ _ _ B) as (a & -> & Ha). unfold pos_viol, lo_viol.
  rewrite half_step, !ex_V, ex_err by reflexivity. cbn [learner_half l_opt options_ex o_eps_pos o_eps_lo].
  assert (P := Rabs_pos a). assert (Q : Rabs (a / 2) = Rabs a / 2).
  { unfold Rdiv. rewrite Rabs_mult, (Rabs_right (/ 2)) by lra. reflexivity. }
  rewrite Q. repeat split; try lra; unfold l_box; cbn; repeat constructor; lra.
Qed.
Lemma half_raises : forall solve pool b, solver_ok solve -> solver_total solve -> pool_feasible pool -> pool_ends pool ->
  adversarial_samples solve pool (learner_half b) = AdvUnbound.
Proof.
  intros solve pool b Hs St Pf Pe. apply (samples_raise solve Hs _ [0] (half_ok b) pool Pf St Pe).
  left. intros x [B _]. apply half_certified. auto.
Qed.
Lemma kink_violated : forall b,
  (exists x, l_stays (learner_kink b) x /\ 0 < lo_viol (learner_kink b) [0] x) /\
  (exists x, l_stays (learner_kink b) x /\ 0 < up_viol (learner_kink b) [0] x).
Proof.
  intros b. split.
  - exists [1]. unfold l_stays, lo_viol. rewrite kink_step, !ex_V by reflexivity.
    destruct (Rle_dec 0 1); [|lra]. cbn [learner_kink l_opt options_ex o_eps_lo]. rewrite Rabs_R1.
    repeat split; try lra; cbn; repeat constructor; lra.
  - exists [-1]. unfold l_stays, up_viol. rewrite kink_step, !ex_V by reflexivity.
    destruct (Rle_dec 0 (-1)); [lra|]. cbn [learner_kink l_opt options_ex o_eps_up].
    rewrite (Rabs_left (-1)), (Rabs_left (-1 / 2)) by lra.
    repeat split; try lra; cbn; repeat constructor; lra.
Qed.
Lemma kink_samples : forall solve pool b, solver_ok solve -> solver_total solve -> pool_feasible pool -> pool_ends pool ->
  exists pos lo up, adversarial_samples solve pool (learner_kink b) = AdvSamples pos lo up.
Proof.
  intros solve pool b Hs St Pf Pe.
  destruct (samples_raise solve Hs _ [0] (kink_ok b) pool Pf St Pe) as [R1 R2].
  destruct (adversarial_samples solve pool (learner_kink b)) as [pos lo up| |] eqn:E; [eauto| |contradiction].
  destruct (kink_violated b) as [(x & Sx & Vx) (y & Sy & Vy)].
  destruct (proj1 R1 eq_refl) as [H|H]; [specialize (H x Sx)|specialize (H y Sy)]; lra.
Qed.

(** Two equal rollouts: the validation is twice the loss of each. *)
Lemma validation_twice : forall b, exists v l,
  rollout_validation (learner_half b) [[[1]; [1]]; [[1]; [1]]] = Some v /\
  rollout_loss (learner_half b) [[1]; [1]] = Some l /\
  nth 1 l 0 = 1/4 /\ nth 1 v 0 = 1/2.
Proof.
  intros b.
  assert (F : Forall (fun x : vec => length x = l_dim (learner_half b)) [[1]; [1]]) by (repeat constructor).
  destruct (rollout_loss_spec _ [0] (half_ok b) [1] [[1]] ltac:(cbn; lia) F) as (l & El & _ & _ & Hl).
  destruct (validation_spec _ [0] (half_ok b) [[1]; [1]] [[[1]; [1]]] ltac:(cbn; lia) ltac:(discriminate))
    as (v & Ev & _ & Hv); [repeat constructor|].
  exists v, l. split; [exact Ev|]. split; [exact El|].
  assert (M : mean_square [1] (l_state (learner_half b) 1 [1]) = 1/4).
  { cbn [l_state]. rewrite half_step. unfold mean_square. cbn. lra. }
  destruct (Hl 1%nat) as [E _]; [cbn; lia|]. split.
  - rewrite E. exact M.
  - rewrite Hv by (cbn; lia). cbn [map nth hd]. rewrite M. cbn. lra.
Qed.

Lemma certified_refuted : ~ (forall solve L xeq pool, solver_ok solve -> solver_total solve ->
  learner_ok L xeq -> pool_feasible pool -> pool_ends pool ->
  (forall x, l_box L x -> pos_viol L xeq x <= 0) -> (forall x, l_stays L x -> lo_viol L xeq x <= 0) ->
  exists up, adversarial_samples solve pool L = AdvSamples [] [] up).
Proof.
  intros H. destruct (H ideal_solve (learner_half true) [0] ideal_pool ideal_ok ideal_total (half_ok true)
    ideal_pool_feasible ideal_pool_ends) as [up E].
  - intros x B. apply half_certified. auto.
  - intros x [B _]. apply half_certified. auto.
  - rewrite (half_raises ideal_solve ideal_pool true ideal_ok ideal_total ideal_pool_feasible ideal_pool_ends) in E.
    discriminate.
Qed.
Lemma validation_mean_refuted : ~ (forall L xeq r rs v, learner_ok L xeq ->
  rollout_validation L (r :: rs) = Some v ->
  Forall (fun s => length s = length r /\ Forall (fun x : vec => length x = l_dim L) s) (r :: rs) ->
  forall k, (k < length r)%nat ->
    nth k v 0 = average (map (fun s => mean_square (nth k s []) (l_state L k (hd [] s))) (r :: rs))).
Proof.
  intros H. destruct (validation_twice true) as (v & l & Ev & _ & _ & Hv).
  assert (E := H _ [0] _ _ v (half_ok true) Ev). specialize (E ltac:(repeat constructor) 1%nat ltac:(cbn; lia)).
  rewrite Hv in E. cbn [map nth hd l_state] in E. rewrite half_step in E. unfold average, mean_square in E. cbn in E. lra.
Qed.
Lemma samples_case : learner_ok (learner_kink true) [0] /\
  kept (in_box [-1/2] [1/2]) [[1/4]; [3/4]; [-1/4]] [[1/4]; [-1/4]] /\
  0 < average_viol (lo_viol (learner_kink true) [0]) [[1/4]; [-1/4]].
Proof.
  split; [apply kink_ok|]. split.
  - apply kept_take; [split; repeat constructor; lra|]. apply kept_drop.
    { intros [_ H]. inversion H; subst. lra. }
    apply kept_take; [split; repeat constructor; lra|]. constructor.
  - unfold average_viol, average, lo_viol. cbn [map]. rewrite !kink_step, !ex_V by reflexivity.
    destruct (Rle_dec 0 (1/4)); [|lra]. destruct (Rle_dec 0 (-1/4)); [lra|].
    cbn [learner_kink l_opt options_ex o_eps_lo]. rewrite (Rabs_right (1/4)), (Rabs_left (-1/4)), (Rabs_left (-1/4/2)) by lra.
    unfold Rmax. destruct (Rle_dec _ _); [|lra]. destruct (Rle_dec _ _); cbn; lra.
Qed.
Lemma rollout_case : learner_ok (learner_half true) [0] /\ 0 <= 1 - o_eps_lo (l_opt (learner_half true)) /\
  (forall x, l_stays (learner_half true) x -> lo_viol (learner_half true) [0] x <= 0) /\
  (forall k, (k <= 3)%nat -> l_box (learner_half true) (l_state (learner_half true) k [1])).
Proof.
  split; [apply half_ok|]. split; [cbn; lra|]. split; [intros x [B _]; apply half_certified; auto|].
  assert (B1 : l_box (learner_half true) [1]) by (split; cbn; repeat constructor; lra).
  intros k _. revert B1. generalize [1]. induction k as [|k IH]; intros x B; [exact B|].
  cbn [l_state]. apply IH. apply half_certified. auto.
Qed.
