(** Proofs about the trajectory optimisation of the car. *)

Require Import Reals List Lra Lia.
Require Import Verif.ModelCarTraj Verif.SpecCarTraj.
Import ListNotations.
Open Scope R_scope.

Lemma defect_zero : forall a b u v h, defect a b u v h = (0, 0, 0) <-> trapezoidal a b u v h.
Proof.
  intros [[a0 a1] a2] [[b0 b1] b2] [u0 u1] [v0 v1] h. unfold defect, trapezoidal, car_dynamics, X, Y, Th. cbn [fst snd]. split.
  - intros [= H0 H1 H2]. lra.
  - intros (H0 & H1 & H2). f_equal; [f_equal|]; lra.
Qed.
Lemma defects_ok : forall n xs us hs, length xs = n -> length us = n -> length hs = (n - 1)%nat ->
  (Forall (fun e => e = (0, 0, 0)) (defects xs us hs) <->
   forall i, (i < n - 1)%nat ->
    trapezoidal (nth i xs (0, 0, 0)) (nth (S i) xs (0, 0, 0)) (nth i us (0, 0)) (nth (S i) us (0, 0)) (nth i hs 0)).
Proof.
  induction n as [|n IH]; intros xs us hs Lx Lu Lh.
  - destruct xs; [|discriminate]. split; [intros; lia|constructor].
  - destruct xs as [|a xs]; [discriminate|]. destruct us as [|u us]; [discriminate|].
    injection Lx as Lx. injection Lu as Lu. destruct n as [|n].
    + destruct xs; [|discriminate]. split; [intros; lia|constructor].
    + destruct xs as [|b xs]; [discriminate|]. destruct us as [|v us]; [discriminate|].
      destruct hs as [|h hs]; [cbn in Lh; lia|].
      specialize (IH (b :: xs) (v :: us) hs Lx Lu). destruct IH as [I1 I2]; [cbn in Lh |- *; lia|].
      change (defects (a :: b :: xs) (u :: v :: us) (h :: hs)) with (defect a b u v h :: defects (b :: xs) (v :: us) hs).
      split.
      * intros F i Hi. assert (F1 := Forall_inv F). assert (F2 := Forall_inv_tail F).
        destruct i as [|i]; [apply defect_zero; exact F1|]. apply (I1 F2 i). lia.
      * intros H. constructor; [apply defect_zero; apply (H 0%nat); lia|]. apply I2. intros i Hi. apply (H (S i)). lia.
Qed.
Lemma Forall_nth_iff : forall (A : Type) (P : A -> Prop) d l n, length l = n ->
  (Forall P l <-> forall i, (i < n)%nat -> P (nth i l d)).
Proof.
  intros A P d l n <-. rewrite Forall_nth. split; intros H i; [intros Hi; apply H; auto|].
  intros d' Hi. rewrite (nth_indep l d' d) by auto. apply H. auto.
Qed.
Lemma end_iff : forall (A : Type) (l : list A) i d x, (i < length l)%nat ->
  ((forall y, nth_error l i = Some y -> y = x) <-> nth i l d = x).
Proof.
  intros A l i d x Hi. assert (E := nth_error_nth' l d Hi). split.
  - intros H. apply H. exact E.
  - intros <- y Q. congruence.
Qed.
Lemma program_ok : forall n u_lo u_up h_lo h_up start goal xs us hs, (0 < n)%nat ->
  (traj_program n u_lo u_up h_lo h_up start goal xs us hs <-> trajectory n u_lo u_up h_lo h_up start goal xs us hs).
Proof.
  intros n u_lo u_up h_lo h_up start goal xs us hs Hn. unfold traj_program. split.
  - intros (Lx & Lu & Lh & T & D & U0 & U1 & G & S). constructor; auto.
    + apply (proj1 (end_iff _ xs 0 (0, 0, 0) start ltac:(lia))). auto.
    + apply (proj1 (end_iff _ xs (n - 1) (0, 0, 0) goal ltac:(lia))). auto.
    + intros i Hi. split.
      * exact (proj1 (Forall_nth_iff _ (fun u => fst u_lo <= fst u <= fst u_up) (0, 0) us n Lu) U0 i Hi).
      * exact (proj1 (Forall_nth_iff _ (fun u => snd u_lo <= snd u <= snd u_up) (0, 0) us n Lu) U1 i Hi).
    + exact (proj1 (Forall_nth_iff _ (fun d => h_lo <= d <= h_up) 0 hs (n - 1) Lh) T).
    + apply (proj1 (defects_ok n xs us hs Lx Lu Lh)). auto.
  - intros [Lx Lu Lh S G U T M]. refine (conj Lx (conj Lu (conj Lh (conj _ (conj _ (conj _ (conj _ (conj _ _)))))))).
    + apply (Forall_nth_iff _ _ 0 hs (n - 1)); auto.
    + apply (defects_ok n); auto.
    + apply (Forall_nth_iff _ _ (0, 0) us n); auto. intros i Hi. apply U. auto.
    + apply (Forall_nth_iff _ _ (0, 0) us n); auto. intros i Hi. apply U. auto.
    + apply (proj2 (end_iff _ xs (n - 1) (0, 0, 0) goal ltac:(lia))). auto.
    + apply (proj2 (end_iff _ xs 0 (0, 0, 0) start ltac:(lia))). auto.
Qed.

Lemma nth_moved : forall dx dy xs i, (i < length xs)%nat ->
  nth i (map (moved dx dy) xs) (0, 0, 0) = moved dx dy (nth i xs (0, 0, 0)).
Proof.
  intros dx dy xs i Hi. rewrite (nth_indep _ (0, 0, 0) (moved dx dy (0, 0, 0))) by (rewrite map_length; auto).
  apply map_nth.
Qed.
Lemma move_ok : forall n u_lo u_up h_lo h_up start goal xs us hs dx dy, (0 < n)%nat ->
  trajectory n u_lo u_up h_lo h_up start goal xs us hs ->
  trajectory n u_lo u_up h_lo h_up (moved dx dy start) (moved dx dy goal) (map (moved dx dy) xs) us hs.
Proof.
  intros n u_lo u_up h_lo h_up start goal xs us hs dx dy Hn [Lx Lu Lh S G U T M]. constructor; auto.
  - rewrite map_length. auto.
  - rewrite nth_moved by lia. rewrite S. auto.
  - rewrite nth_moved by lia. rewrite G. auto.
  - intros i Hi. rewrite !nth_moved by lia. destruct (M i Hi) as (M0 & M1 & M2).
    unfold trapezoidal, moved, X, Y, Th in *. cbn [fst snd] in *. lra.
Qed.
Lemma moved_back : forall dx dy x, moved (- dx) (- dy) (moved dx dy x) = x.
Proof. intros dx dy [[a b] c]. unfold moved, X, Y, Th. cbn [fst snd]. f_equal. f_equal; ring. Qed.
(** The best cost does not change either. *)
Definition best (n : nat) (u_lo u_up : cinput) (h_lo h_up : R) (start goal : cstate) (c : R) : Prop :=
  (exists xs us hs, traj_program n u_lo u_up h_lo h_up start goal xs us hs /\ traj_cost us = c) /\
  forall xs us hs, traj_program n u_lo u_up h_lo h_up start goal xs us hs -> c <= traj_cost us.
Lemma best_moved : forall n u_lo u_up h_lo h_up start goal c dx dy, (0 < n)%nat ->
  best n u_lo u_up h_lo h_up start goal c ->
  best n u_lo u_up h_lo h_up (moved dx dy start) (moved dx dy goal) c.
Proof.
  intros n u_lo u_up h_lo h_up start goal c dx dy Hn [(xs & us & hs & F & Q) H]. split.
  - exists (map (moved dx dy) xs), us, hs. split; auto. apply program_ok; auto. apply move_ok; auto. apply program_ok; auto.
  - intros xs' us' hs' F'. apply (H (map (moved (- dx) (- dy)) xs') us' hs'). apply program_ok; auto.
    rewrite <- (moved_back dx dy start), <- (moved_back dx dy goal). apply move_ok; auto. apply program_ok; auto.
Qed.

(** ** Costs to go *)
Lemma cumsum_snoc : forall l acc a, cumsum acc (l ++ [a]) = cumsum acc l ++ [acc + total l + a].
Proof.
  induction l as [|b l IH]; intros acc a; cbn [app cumsum total fold_right]; [do 2 f_equal; ring|].
  rewrite IH. unfold total. cbn [app]. do 3 f_equal. ring.
Qed.
Lemma total_rev : forall l, total (rev l) = total l.
Proof.
  assert (A : forall a b, total (a ++ b) = total a + total b).
  { induction a as [|x a IH]; intros b; unfold total in *; cbn [app fold_right]; [ring|]. rewrite IH. ring. }
  induction l as [|x l IH]; auto. cbn [rev]. rewrite A, IH. unfold total. cbn [fold_right]. ring.
Qed.
Lemma rev_cumsum : forall l, rev (cumsum 0 (rev l)) = match l with [] => [] | a :: r => total (a :: r) :: rev (cumsum 0 (rev r)) end.
Proof.
  intros [|a r]; auto. cbn [rev]. rewrite cumsum_snoc, rev_app_distr, total_rev. cbn [rev app]. f_equal. unfold total. cbn [fold_right]. ring.
Qed.
Lemma cost_traj_length : forall us, length (cost_traj us) = length us.
Proof.
  intros us. unfold cost_traj, cost_trajectory. rewrite rev_length.
  assert (G : forall l acc, length (cumsum acc l) = length l) by (induction l; intros; cbn; auto).
  rewrite G, rev_length, map_length. reflexivity.
Qed.
Lemma cost_to_go : forall us k, (k < length us)%nat -> nth k (cost_traj us) 0 = effort_from k us.
Proof.
  intros us. unfold cost_traj, effort_from. induction us as [|u us IH]; intros k Hk; [cbn in Hk; lia|].
  unfold cost_trajectory in *. cbn [map]. rewrite rev_cumsum. destruct k as [|k].
  - cbn [nth skipn map total fold_right]. f_equal; [ring|].
    assert (G : forall l : list cinput, fold_right Rplus 0 (map (fun u => fst u ^ 2 + snd u ^ 2) l)
      = fold_right Rplus 0 (map (fun u => fst u * fst u + snd u * snd u) l)).
    { induction l as [|x l IHl]; cbn [map fold_right]; auto. rewrite IHl. ring. }
    apply G.
  - cbn [nth skipn]. apply IH. cbn in Hk. lia.
Qed.

(** ** The training set *)
Lemma removelast_length : forall (A : Type) (l : list A), length (removelast l) = (length l - 1)%nat.
Proof.
  intros A l. induction l as [|a [|b l] IH]; auto. change (removelast (a :: b :: l)) with (a :: removelast (b :: l)).
  cbn [length] in *. rewrite IH. lia.
Qed.
Lemma rows : forall n sols, (0 < n)%nat -> Forall (fun s => length (fst s) = n /\ length (snd s) = n) sols ->
  let '(states, controls, costs) := training_set sols in
  length controls = length states /\ length costs = (length states + length sols)%nat.
Proof.
  intros n sols Hn. unfold training_set. induction sols as [|s l IH] using rev_ind; intros F; [cbn; auto|].
  apply Forall_app in F. destruct F as [F1 F2]. specialize (IH F1). rewrite fold_left_app. cbn [fold_left].
  destruct (fold_left _ l _) as [[st co] cs]. destruct IH as [I1 I2]. apply Forall_inv in F2. destruct F2 as [L1 L2].
  rewrite !app_length, !removelast_length, cost_traj_length. cbn [length]. lia.
Qed.
Lemma rows_differ : forall n sols, (0 < n)%nat -> sols <> [] ->
  Forall (fun s => length (fst s) = n /\ length (snd s) = n) sols ->
  length (snd (training_set sols)) <> length (fst (fst (training_set sols))).
Proof.
  intros n sols Hn Hs F. assert (R := rows n sols Hn F). destruct (training_set sols) as [[st co] cs]. cbn [fst snd].
  destruct sols; [congruence|]. cbn [length] in R. lia.
Qed.

(** ** Examples *)
Lemma rest_traj : forall h, 0 < h <= 2 ->
  trajectory 2 (-1, -1) (1, 1) 0 2 (0, 0, 0) (0, 0, 0) [(0, 0, 0); (0, 0, 0)] [(0, 0); (0, 0)] [h].
Proof.
  intros h H. constructor; auto.
  - intros [|[|i]] Hi; [cbn; lra|cbn; lra|lia].
  - intros [|i] Hi; [cbn; lra|lia].
  - intros [|i] Hi; [|lia]. unfold trapezoidal, X, Y, Th. cbn [nth fst snd]. lra.
Qed.
Lemma cost_nonneg : forall us, 0 <= traj_cost us.
Proof.
  intros us. unfold traj_cost. assert (A : 0 <= total_of (cost_trajectory us)).
  { induction us as [|u us IH]; cbn [cost_trajectory map total_of fold_right]; [lra|].
    assert (P := pow2_ge_0 (fst u)). assert (Q := pow2_ge_0 (snd u)). unfold total_of, cost_trajectory in IH. lra. }
  assert (B : 0 <= total_of (delta_cost_trajectory us)).
  { clear A. induction us as [|u [|v us] IH]; [cbn; lra|cbn; lra|].
    change (delta_cost_trajectory (u :: v :: us))
      with ((200 * (fst v - fst u) ^ 2 + 800 * (snd v - snd u) ^ 2) :: delta_cost_trajectory (v :: us)).
    cbn [total_of fold_right]. assert (P := pow2_ge_0 (fst v - fst u)). assert (Q := pow2_ge_0 (snd v - snd u)).
    unfold total_of in *. lra. }
  lra.
Qed.
Lemma slow_optimum : exists n u_lo u_up h_lo h_up start goal xs us hs xs' us' hs',
  traj_program n u_lo u_up h_lo h_up start goal xs us hs /\
  (forall ys vs gs, traj_program n u_lo u_up h_lo h_up start goal ys vs gs -> traj_cost us <= traj_cost vs) /\
  traj_program n u_lo u_up h_lo h_up start goal xs' us' hs' /\ total hs' < total hs.
Proof.
  exists 2%nat, (-1, -1), (1, 1), 0, 2, (0, 0, 0), (0, 0, 0), [(0, 0, 0); (0, 0, 0)], [(0, 0); (0, 0)], [2],
    [(0, 0, 0); (0, 0, 0)], [(0, 0); (0, 0)], [1].
  split; [apply program_ok; [lia|]; apply rest_traj; lra|]. split; [|split].
  - intros ys vs gs _. replace (traj_cost [(0, 0); (0, 0)]) with 0; [apply cost_nonneg|].
    unfold traj_cost. cbn. ring.
  - apply program_ok; [lia|]. apply rest_traj. lra.
  - cbn. lra.
Qed.
Lemma label_differs : exists us, nth 0 (cost_traj us) 0 <> traj_cost us.
Proof. exists [(0, 0); (1, 0)]. unfold traj_cost. cbn. intros Q. lra. Qed.
Lemma ex_car : trajectory 2 (-1, -1) (1, 1) 0 2 (0, 0, 0) (0, 0, 0) [(0, 0, 0); (0, 0, 0)] [(0, 0); (0, 0)] [1] /\
  trajectory 2 (-1, -1) (1, 1) 0 2 (0, 0, 0) (1, 0, 0) [(0, 0, 0); (1, 0, 0)] [(1, 0); (1, 0)] [1] /\
  cost_traj [(1, 0); (1, 0)] = [2; 1].
Proof.
  split; [apply rest_traj; lra|]. split.
  - constructor; auto.
    + intros [|[|i]] Hi; [cbn; lra|cbn; lra|lia].
    + intros [|i] Hi; [cbn; lra|lia].
    + intros [|i] Hi; [|lia]. unfold trapezoidal, X, Y, Th. cbn [nth fst snd]. rewrite cos_0, sin_0. lra.
  - unfold cost_traj. cbn. repeat (apply (f_equal2 (@cons R)); [ring|]). reflexivity.
Qed.
