(** Cost-to-go in continuous time. *)

Require Import Reals List Lia Lra Bool Arith.
Require Import Verif.Vec Verif.VecFacts Verif.ModelCostToGo Verif.SpecCostToGo.
Import ListNotations.
Open Scope R_scope.

Lemma times_range : forall ts a b, times_to a b ts -> a <= b /\ Forall (fun t => a <= t <= b) ts.
Proof.
  induction ts as [|t ts IH]; intros a b H; [contradiction|]. destruct ts as [|t' ts].
  - cbn in H. destruct H as [-> ->]. split; [lra|]. repeat constructor; lra.
  - destruct H as (-> & L & H). destruct (IH _ _ H) as [I1 I2]. split; [lra|]. constructor; [lra|].
    eapply Forall_impl; [|exact I2]. cbv beta. intros; lra.
Qed.
Lemma times_last : forall ts a b, times_to a b ts -> exists l, ts = l ++ [b].
Proof.
  induction ts as [|t ts IH]; intros a b H; [contradiction|]. destruct ts as [|t' ts].
  - cbn in H. destruct H as [-> ->]. exists []. reflexivity.
  - destruct H as (-> & L & H). destruct (IH _ _ H) as [l E]. exists (a :: l). cbn. rewrite E. reflexivity.
Qed.
Lemma times_first : forall ts a b, times_to a b ts -> exists l, ts = a :: l.
Proof. intros [|t [|t' ts]] a b H; cbn in H; [contradiction| |]; destruct H as [-> _]; eauto. Qed.

Section Proof.
Variable n : nat.
Variable step_forward : vec -> option vec.
Variable cost : vec -> R.
Hypothesis dims : forall x d, step_forward x = Some d -> length d = n.
Notation f := (ivp_fun n step_forward cost).
Notation xs y := (fun t => firstn n (y t)).

Lemma cost_row : forall y a b, solves f y a b -> length (y a) = S n -> forall s t, a <= s -> s <= t -> t <= b ->
  accumulated cost (xs y) s t (nth n (y t) 0 - nth n (y s) 0).
Proof.
  intros y a b [S1 S2] L s t A B C. destruct (S2 n s t A B C) as [pr E].
  assert (X : forall r, Rmin s t <= r <= Rmax s t -> rate f y n r = cost (firstn n (y r))).
  { intros r Hr. rewrite Rmin_left, Rmax_right in Hr by auto. destruct (S1 r ltac:(lra)) as (_ & d & Ed & _). unfold rate. rewrite Ed.
    unfold ivp_fun in Ed. destruct (step_forward (firstn n (y r))) as [d'|] eqn:Es; [|discriminate].
    assert (Q : d' ++ [cost (firstn n (y r))] = d) by congruence. subst d. apply dims in Es. rewrite app_nth2 by lia. rewrite Es, Nat.sub_diag. reflexivity. }
  exists (Riemann_integrable_ext _ X pr). rewrite E. apply RiemannInt_P18; [auto|]. intros r Hr. apply X. rewrite Rmin_left, Rmax_right by auto. lra.
Qed.
Definition exact_on (solve : ivp) (T : R) (x_goal : option vec) (x0 : vec) : Prop :=
  exact_at solve f T (x0 ++ [0]) (option_map (reach_goal n) x_goal).
Definition follows (y : R -> vec) (x0 : vec) (e : R) : Prop := y 0 = x0 ++ [0] /\ solves f y 0 e.

(** Every entry is the cost accumulated from that moment to the end of the trajectory. *)
Lemma costs_accumulated : forall solve x0 T x_goal c, exact_on solve T x_goal x0 ->
  continuous_cost_to_go n step_forward cost solve x0 T x_goal = Computed c ->
  exists y e, follows y x0 e /\ ends (option_map (reach_goal n) x_goal) y T e /\ times_to 0 e (cg_t c) /\
    cg_x c = map (xs y) (cg_t c) /\
    Forall2 (fun t v => accumulated cost (xs y) t e v) (cg_t c) (cg_costs c) /\
    accumulated cost (xs y) 0 e (cg_total c) /\ length x0 = n.
Proof.
  intros solve x0 T x_goal c Ex E. unfold continuous_cost_to_go in E.
  destruct (Rleb 0 T) eqn:HT; [|discriminate]. apply Rleb_true in HT. cbn [negb] in E.
  destruct (Nat.eqb (length x0) n) eqn:L; [|discriminate]. apply Nat.eqb_eq in L. cbn [negb] in E.
  unfold exact_on, exact_at in Ex.
  destruct (solve f T (x0 ++ [0]) (option_map (reach_goal n) x_goal)) as [[ts ys]|]; [|discriminate].
  destruct Ex as (y & e & Y0 & Sv & En & Ti & Ys). destruct (times_last _ _ _ Ti) as [l Et].
  assert (Er : rev ys = y e :: rev (map y l)) by (rewrite Ys, Et, map_app, rev_app_distr; reflexivity).
  rewrite Er in E. assert (Q : mkCtg (nth n (y e) 0) (map (firstn n) ys) (map (fun y0 => nth n (y e) 0 - nth n y0 0) ys) ts = c) by congruence.
  subst c. cbn [cg_t cg_x cg_costs cg_total]. exists y, e.
  assert (Ly : length (y 0) = S n) by (rewrite Y0, app_length; cbn; lia).
  destruct (times_range _ _ _ Ti) as [E0 F]. assert (CR := cost_row y 0 e Sv Ly).
  split; [split; auto|]. split; [auto|]. split; [auto|]. split; [rewrite Ys, map_map; reflexivity|]. split; [|split; [|auto]].
  - rewrite Ys, map_map. clear - F CR. induction F as [|t ts Ht F IH]; [constructor|]. cbn [map]. constructor; [|exact IH]. apply CR; lra.
  - assert (Z : nth n (y 0) 0 = 0) by (rewrite Y0, app_nth2 by lia; rewrite L, Nat.sub_diag; reflexivity).
    replace (nth n (y e) 0) with (nth n (y e) 0 - nth n (y 0) 0) by (rewrite Z; ring). apply CR; lra.
Qed.
Lemma accumulated_unique : forall (x : R -> vec) s t c c', accumulated cost x s t c -> accumulated cost x s t c' -> c = c'.
Proof. intros x s t c c' [p ->] [p' ->]. apply RiemannInt_P5. Qed.
Lemma accumulated_self : forall x t c, accumulated cost x t t c -> c = 0.
Proof. intros x t c [p ->]. apply RiemannInt_P9. Qed.
Lemma accumulated_split : forall (x : R -> vec) r s t c c' c'', accumulated cost x r s c -> accumulated cost x s t c' -> accumulated cost x r t c'' ->
  c'' = c + c'.
Proof. intros x r s t c c' c'' [p ->] [p' ->] [p'' ->]. symmetry. apply RiemannInt_P26. Qed.
Lemma accumulated_nonneg : forall x s t c, (forall r, 0 <= cost (x r)) -> s <= t -> accumulated cost x s t c -> 0 <= c.
Proof.
  intros x s t c P L [p ->]. rewrite <- (Rmult_0_l (t - s)), <- (RiemannInt_P15 (RiemannInt_P14 s t 0)).
  apply RiemannInt_P19; [auto|]. intros r _. apply P.
Qed.
(** Samples at increasing times: first the total, last zero, never increasing if no cost is negative. *)
Lemma costs_decrease : forall solve x0 T x_goal c, exact_on solve T x_goal x0 -> (forall x, 0 <= cost x) ->
  continuous_cost_to_go n step_forward cost solve x0 T x_goal = Computed c ->
  hd_error (cg_x c) = Some x0 /\ hd_error (cg_costs c) = Some (cg_total c) /\ last (cg_costs c) 1 = 0 /\ 0 <= cg_total c /\
  forall i, (S i < length (cg_costs c))%nat -> 0 <= nth (S i) (cg_costs c) 0 <= nth i (cg_costs c) 0.
Proof.
  intros solve x0 T x_goal c Ex P E. destruct (costs_accumulated solve x0 T x_goal c Ex E) as (y & e & [Y0 Sv] & En & Ti & Hx & F & Tot & L).
  assert (X0 : firstn n (y 0) = x0) by (rewrite Y0; rewrite <- L; rewrite firstn_app, Nat.sub_diag, firstn_all; apply app_nil_r).
  destruct (times_range _ _ _ Ti) as [E0 Fr].
  assert (Fn : Forall2 (fun t v => accumulated cost (xs y) t e v /\ t <= e) (cg_t c) (cg_costs c)).
  { clear - F Fr. induction F as [|t v ts vs H F IH]; [constructor|]. inversion Fr; subst. constructor; [split; [auto|lra]|auto]. }
  split; [|split; [|split; [|split]]].
  - destruct (times_first _ _ _ Ti) as [l El]. rewrite Hx, El. cbn. rewrite X0. reflexivity.
  - destruct (times_first _ _ _ Ti) as [l El]. rewrite El in F. inversion F as [|? v ? vs H F' E1 E2]; subst. cbn. f_equal.
    eapply accumulated_unique; eauto.
  - destruct (times_last _ _ _ Ti) as [l El]. rewrite El in F. apply Forall2_app_inv_l in F. destruct F as (v1 & v2 & _ & F & Ev). rewrite Ev.
    inversion F as [|? v ? vs H F' E1 E2]; subst. inversion F'; subst. rewrite last_last. eapply accumulated_self; eauto.
  - eapply accumulated_nonneg; [|exact E0|exact Tot]. intros; apply P.
  - intros i Hi. set (a := 0) in Ti at 1. clearbody a. clear - F Fr Ti P Hi Sv Y0 L dims. revert a i Ti Hi.
    assert (CR : forall s t, 0 <= s -> s <= t -> t <= e -> exists w, accumulated cost (xs y) s t w).
    { intros s t A B C. exists (nth n (y t) 0 - nth n (y s) 0). apply (cost_row y 0 e Sv); auto. rewrite Y0, app_length. cbn. lia. }
    induction F as [|t v ts vs H F IH]; intros a i Ti Hi; [cbn in Hi; lia|].
    inversion F as [|t' v' ts' vs' H' F' E1 E2]; subst; [cbn in Hi; lia|]. destruct Ti as (-> & La & Ti).
    inversion Fr as [|? ? R1 R2]; subst. inversion R2 as [|? ? R3 R4]; subst.
    destruct i as [|i].
    + cbn [nth]. destruct (CR a t') as [w Hw]; try lra. assert (D := accumulated_split _ _ _ _ _ _ _ Hw H' H).
      assert (0 <= w) by (eapply accumulated_nonneg; [|exact La|exact Hw]; intros; apply P).
      assert (0 <= v') by (eapply accumulated_nonneg; [| |exact H']; [intros; apply P|lra]). lra.
    + cbn [nth]. apply (IH R2 t' i Ti). cbn in *. lia.
Qed.
(** Starting outside of the goal: the trajectory stays outside until the end, which is at the goal or at T. *)
Lemma stops_at_goal : forall solve x0 T g c, exact_on solve T (Some g) x0 ->
  continuous_cost_to_go n step_forward cost solve x0 T (Some g) = Computed c ->
  / 1000 < sqrt (dot (vsub x0 g) (vsub x0 g)) ->
  exists y e, follows y x0 e /\ times_to 0 e (cg_t c) /\
    (e = T \/ sqrt (dot (vsub (firstn n (y e)) g) (vsub (firstn n (y e)) g)) = / 1000) /\
    forall t, 0 <= t < e -> / 1000 < sqrt (dot (vsub (firstn n (y t)) g) (vsub (firstn n (y t)) g)).
Proof.
  intros solve x0 T g c Ex E Out. destruct (costs_accumulated solve x0 T (Some g) c Ex E) as (y & e & Fo & En & Ti & _ & _ & _ & L).
  exists y, e. split; [auto|]. split; [auto|]. destruct Fo as [Y0 _]. destruct En as [_ [_ En]].
  assert (X0 : firstn n (y 0) = x0) by (rewrite Y0; rewrite <- L; rewrite firstn_app, Nat.sub_diag, firstn_all; apply app_nil_r).
  destruct En as [A B]; [unfold reach_goal; rewrite X0; lra|]. unfold reach_goal in *. split.
  - destruct A as [A|A]; [auto|right; lra].
  - intros t Ht. specialize (B t Ht). lra.
Qed.
(** The samples: of every starting point with a trajectory, and nothing else. *)
Lemma samples_sound : forall solve T x_goal pruner x0s l, Forall (exact_on solve T x_goal) x0s ->
  continuous_samples n step_forward cost solve T x_goal pruner x0s = Some l ->
  Forall (fun p => pruner (fst p) = false /\ exists x0 y e t, In x0 x0s /\ follows y x0 e /\ 0 <= t <= e /\ e <= T /\
    fst p = firstn n (y t) /\ accumulated cost (xs y) t e (snd p)) l.
Proof.
  intros solve T x_goal pruner x0s l Ex. revert l. induction x0s as [|x0 x0s IH']; intros l E; [cbn in E; assert (l = []) by congruence; subst; constructor|].
  inversion Ex as [|? ? Ex1 Ex2]; subst. assert (IH := IH' Ex2). clear IH'.
  cbn [continuous_samples] in E. destruct (continuous_cost_to_go n step_forward cost solve x0 T x_goal) as [c| |] eqn:Ec; [| |discriminate].
  - destruct (continuous_samples n step_forward cost solve T x_goal pruner x0s) as [pairs|]; [|discriminate].
    specialize (IH pairs eq_refl). match goal with H : Some ?x = Some ?y |- _ => assert (QQ : x = y) by congruence end. subst l.
    apply Forall_app. split.
    + destruct (costs_accumulated solve x0 T x_goal c Ex1 Ec) as (y & e & Fo & En & Ti & Hx & F & _). apply Forall_forall. intros p Hp.
      apply filter_In in Hp. destruct Hp as [Hp Hq]. split; [destruct (pruner (fst p)); [discriminate|reflexivity]|].
      destruct (times_range _ _ _ Ti) as [E0 Fr]. rewrite Hx in Hp. exists x0, y, e.
      destruct En as [En _].
      assert (K : exists t, 0 <= t <= e /\ fst p = firstn n (y t) /\ accumulated cost (xs y) t e (snd p)).
      { clear - Hp F Fr. induction F as [|t v ts vs H F IH]; [contradiction|]. inversion Fr; subst. cbn in Hp. destruct Hp as [<-|Hp]; [exists t; auto|auto]. }
      destruct K as (t & K1 & K2 & K3). exists t. split; [left; auto|]. split; [auto|]. split; [auto|]. split; [lra|]. auto.
    + eapply Forall_impl; [|exact IH]. intros p (A & x1 & y & e & t & I & rest). split; [auto|]. exists x1, y, e, t. split; [right; auto|auto].
  - specialize (IH l E). eapply Forall_impl; [|exact IH]. intros p (A & x1 & y & e & t & I & rest). split; [auto|]. exists x1, y, e, t. split; [right; auto|auto].
Qed.
Lemma samples_complete : forall solve T x_goal pruner x0s x0, Forall (exact_on solve T x_goal) x0s -> 0 <= T -> Forall (fun x => length x = n) x0s ->
  exists l, continuous_samples n step_forward cost solve T x_goal pruner x0s = Some l /\
  (In x0 x0s -> pruner x0 = false -> (exists y, follows y x0 T) -> exists c, In (x0, c) l).
Proof.
  intros solve T x_goal pruner x0s x0 Ex HT Fl. induction Fl as [|x x0s Lx Fl IH]; [exists []; split; [reflexivity|contradiction]|].
  inversion Ex as [|? ? Ex1 Ex2]; subst. destruct (IH Ex2) as (l & E & I). clear IH.
  cbn [continuous_samples]. rewrite E.
  assert (NF : continuous_cost_to_go n step_forward cost solve x T x_goal <> Failed).
  { unfold continuous_cost_to_go. apply Rleb_true in HT. rewrite HT. apply Rleb_true in HT. apply Nat.eqb_eq in Lx. rewrite Lx. cbn [negb].
    unfold exact_on, exact_at in Ex1.
    destruct (solve f T (x ++ [0]) (option_map (reach_goal n) x_goal)) as [[ts ys]|]; [|discriminate].
    destruct Ex1 as (y & e & _ & _ & _ & Ti & Ys). destruct (times_last _ _ _ Ti) as [l' Et].
    rewrite Ys, Et, map_app, rev_app_distr. discriminate. }
  destruct (continuous_cost_to_go n step_forward cost solve x T x_goal) as [c| |] eqn:Ec; [| |congruence].
  - eexists. split; [reflexivity|]. intros [->|Hi] Pr Tr.
    + destruct (costs_accumulated solve x0 T x_goal c Ex1 Ec) as (y & e & [Y0 _] & _ & Ti & Hx & F & _ & L).
      destruct (times_first _ _ _ Ti) as [ts Et]. rewrite Et in F, Hx. inversion F as [|? v ? vs H F' E1 E2]; subst.
      exists v. apply in_or_app. left. apply filter_In. cbn [fst]. rewrite Pr. split; [|reflexivity]. rewrite Hx. cbn. left. f_equal.
      rewrite Y0. rewrite <- L. rewrite firstn_app, Nat.sub_diag, firstn_all. apply app_nil_r.
    + destruct (I Hi Pr Tr) as [v Hv]. exists v. apply in_or_app. auto.
  - exists l. split; [reflexivity|]. intros [->|Hi] Pr Tr; [|auto]. exfalso.
    unfold continuous_cost_to_go in Ec. destruct (negb (Rleb 0 T)); [discriminate|]. destruct (negb (Nat.eqb (length x0) n)); [discriminate|].
    unfold exact_on, exact_at in Ex1.
    destruct (solve f T (x0 ++ [0]) (option_map (reach_goal n) x_goal)) as [[ts ys]|]; [destruct (rev ys); discriminate|]. apply Ex1. exact Tr.
Qed.
(** step_system *)
Lemma step_system_path : forall k x p, step_system step_forward k x = Some p ->
  length p = S k /\ hd_error p = Some x /\ forall i, (i < k)%nat -> step_forward (nth i p []) = Some (nth (S i) p []).
Proof.
  induction k as [|k IH]; intros x p E; cbn [step_system] in E.
  - assert (p = [x]) by congruence. subst. repeat split. intros i Hi. lia.
  - destruct (step_forward x) as [x'|] eqn:Es; [|discriminate]. destruct (step_system step_forward k x') as [q|] eqn:Eq; [|discriminate].
    assert (p = x :: q) by congruence. subst. destruct (IH _ _ Eq) as (L & H & N). split; [cbn; lia|]. split; [reflexivity|].
    intros [|i] Hi; cbn [nth]; [|apply N; lia]. rewrite Es. destruct q as [|x1 q]; [discriminate|]. cbn in *. congruence.
Qed.
End Proof.
