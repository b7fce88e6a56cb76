(** The search direction of LineSearchAdam. *)

Require Import Reals List Lia Lra Bool Arith.
Require Import Verif.Vec Verif.VecFacts Verif.ModelOptim Verif.ModelAdam Verif.SpecAdam.
Import ListNotations.
Open Scope R_scope.

(** ** Fading averages *)
Definition ones (l : list R) : list R := map (fun _ => 1) l.
Lemma faded_ones : forall b l, (1 - b) * faded b (ones l) = 1 - b ^ length l.
Proof.
  intros b l. induction l as [|x l IH]; cbn [ones map faded length pow]; [ring|]. fold (ones l).
  replace ((1 - b) * (1 + b * faded b (ones l))) with ((1 - b) + b * ((1 - b) * faded b (ones l))) by ring. rewrite IH. ring.
Qed.
Lemma faded_ones_ge1 : forall b l, 0 <= b -> l <> [] -> 1 <= faded b (ones l).
Proof.
  intros b l B N. assert (P : forall l, 0 <= faded b (ones l)).
  { induction l0 as [|x l0 IH]; cbn; [lra|]. fold (ones l0). assert (0 <= b * faded b (ones l0)) by (apply Rmult_le_pos; auto). lra. }
  destruct l as [|x l]; [congruence|]. cbn. fold (ones l). assert (0 <= b * faded b (ones l)) by (apply Rmult_le_pos; auto). lra.
Qed.
Lemma faded_ones_nonneg : forall b l, 0 <= b -> 0 <= faded b (ones l).
Proof. intros b l B. destruct l; [cbn; lra|]. assert (H := faded_ones_ge1 b (r :: l) B ltac:(discriminate)). lra. Qed.
Lemma pow_lt1 : forall b n, 0 <= b < 1 -> (0 < n)%nat -> b ^ n < 1.
Proof.
  intros b n B N. destruct n as [|n]; [lia|]. cbn.
  assert (0 <= b ^ n) by (apply pow_le; lra). assert (b ^ n <= 1).
  { clear - B. induction n as [|n IH]; cbn; [lra|]. assert (0 <= b ^ n) by (apply pow_le; lra).
    apply Rle_trans with (b * 1); [apply Rmult_le_compat_l; lra|lra]. }
  apply Rle_lt_trans with (b * 1); [apply Rmult_le_compat_l; lra|lra].
Qed.
Lemma average_faded : forall b l, 0 <= b < 1 -> l <> [] -> (1 - b) * faded b l / (1 - b ^ length l) = average b l.
Proof.
  intros b l B N. unfold average. fold (ones l). rewrite <- (faded_ones b l).
  assert (H := faded_ones_ge1 b l ltac:(lra) N). field. split; lra.
Qed.
Lemma squares_length : forall l, length (squares l) = length l.
Proof. intros; apply map_length. Qed.
Lemma faded_squares : forall b l, 0 <= b -> 0 <= faded b (squares l).
Proof.
  intros b l B. induction l as [|x l IH]; cbn; [lra|]. fold (squares l).
  assert (0 <= b * faded b (squares l)) by (apply Rmult_le_pos; auto). assert (0 <= x * x) by nra. lra.
Qed.

(** ** The state after a number of steps; the latest gradient first *)
Definition coord (j : nat) (L : list vec) : list R := map (fun g => nth j g 0) L.
Record tracks (o : adam_group) (n : nat) (L : list vec) (s : adam_state) : Prop := mkTracks {
  tr_step : as_step s = length L;
  tr_avgl : length (as_avg s) = n;
  tr_sql : length (as_sq s) = n;
  tr_maxl : length (as_max s) = n;
  tr_avg : forall j, nth j (as_avg s) 0 = (1 - ag_beta1 o) * faded (ag_beta1 o) (coord j L);
  tr_sq : forall j, nth j (as_sq s) 0 = (1 - ag_beta2 o) * faded (ag_beta2 o) (squares (coord j L));
  tr_max : ag_ams o = true -> forall j, nth j (as_max s) 0 = largest (ag_beta2 o) (squares (coord j L)) }.
Lemma tracks_zero : forall o n, tracks o n [] (mkAdam 0 (zeros n) (zeros n) (zeros n)).
Proof.
  intros o n. constructor; cbn; auto using zeros_length; intros; rewrite nth_zeros; lra.
Qed.
(** The gradient with the weight decay. *)
Definition decayed (o : adam_group) (x : vec * vec) : vec :=
  if Req_EM_T (ag_decay o) 0 then snd x else vadd (snd x) (vscale (ag_decay o) (fst x)).
Lemma decayed_length : forall o x n, length (fst x) = n -> length (snd x) = n -> length (decayed o x) = n.
Proof.
  intros o x n A B. unfold decayed. destruct (Req_EM_T _ _); [auto|]. rewrite vadd_length; [auto|]. rewrite vscale_length. exact (eq_trans B (eq_sym A)).
Qed.
Definition denoms (o : adam_group) (s : adam_state) : vec :=
  map (fun v => sqrt v / sqrt (1 - ag_beta2 o ^ as_step s) + ag_eps o) (if ag_ams o then as_max s else as_sq s).
Lemma nth_map2_pad : forall (f : R -> R -> R) (a b : vec) i, length a = length b -> f 0 0 = 0 ->
  nth i (map2 f a b) 0 = f (nth i a 0) (nth i b 0).
Proof.
  intros f a. induction a as [|x a IH]; intros [|y b] i L Z; cbn in L; try lia; [destruct i; cbn; auto|].
  destruct i; cbn; [auto|]. apply IH; [lia|auto].
Qed.
Lemma adam_param_tracks : forall o n L p g, tracks o n L (state_of p) -> length (pa_value p) = n -> length g = n ->
  exists s, adam_param o p g =
    (mkParam (pa_value p) (Some (decayed o (pa_value p, g))) (Some s), ag_lr o / (1 - ag_beta1 o ^ as_step s), direction (as_avg s) (denoms o s)) /\
  tracks o n (decayed o (pa_value p, g) :: L) s.
Proof.
  intros o n L p g T Lp Lg. destruct T as [T1 T2 T3 T4 T5 T6 T7]. unfold adam_param.
  assert (Ld := decayed_length o (pa_value p, g) n Lp Lg). unfold decayed in *. cbn [fst snd] in *.
  set (G := if Req_EM_T (ag_decay o) 0 return vec then g else vadd g (vscale (ag_decay o) (pa_value p))) in *.
  set (A := vadd (vscale (ag_beta1 o) (as_avg (state_of p))) (vscale (1 - ag_beta1 o) G)).
  set (B := vadd (vscale (ag_beta2 o) (as_sq (state_of p))) (vscale (1 - ag_beta2 o) (map2 Rmult G G))).
  exists (mkAdam (S (as_step (state_of p))) A B (if ag_ams o then map2 Rmax (as_max (state_of p)) B else as_max (state_of p))).
  split; [unfold denoms; cbn [as_step as_avg as_sq as_max]; destruct (ag_ams o); reflexivity|]. unfold A, B. clear A B.
  assert (LG : length (map2 Rmult G G) = n) by (rewrite map2_length; lia).
  assert (La : length (vadd (vscale (ag_beta1 o) (as_avg (state_of p))) (vscale (1 - ag_beta1 o) G)) = n)
    by (rewrite vadd_length; rewrite !vscale_length; lia).
  assert (Ls : length (vadd (vscale (ag_beta2 o) (as_sq (state_of p))) (vscale (1 - ag_beta2 o) (map2 Rmult G G))) = n)
    by (rewrite vadd_length; rewrite !vscale_length; lia).
  assert (Q : forall j, nth j (vadd (vscale (ag_beta2 o) (as_sq (state_of p))) (vscale (1 - ag_beta2 o) (map2 Rmult G G))) 0 =
    (1 - ag_beta2 o) * faded (ag_beta2 o) (squares (coord j (G :: L)))).
  { intros j. rewrite nth_vadd by (rewrite !vscale_length; lia). rewrite !nth_vscale, T6, nth_map2_pad by (auto; ring).
    cbn [coord map squares faded]. fold (coord j L). fold (squares (coord j L)). ring. }
  constructor; cbn [as_step as_avg as_sq as_max]; auto.
  - cbn. congruence.
  - destruct (ag_ams o); [rewrite map2_length; lia|auto].
  - intros j. rewrite nth_vadd by (rewrite !vscale_length; lia). rewrite !nth_vscale, T5.
    cbn [coord map faded]. fold (coord j L). ring.
  - intros Am j. rewrite Am. rewrite nth_map2_pad; [|lia|apply Rmax_left; lra]. rewrite Q, T7 by auto.
    cbn [coord map squares largest]. reflexivity.
Qed.
Lemma adam_run_tracks : forall steps o n L p, (forall q, pa_state q = pa_state p -> length (pa_value q) = n -> tracks o n L (state_of q)) ->
  Forall (fun x => length (fst x) = n /\ length (snd x) = n) steps -> steps <> [] ->
  exists p' s, adam_run o p steps = (p', Some (ag_lr o / (1 - ag_beta1 o ^ as_step s), direction (as_avg s) (denoms o s))) /\
    pa_state p' = Some s /\ tracks o n (rev (map (decayed o) steps) ++ L) s.
Proof.
  induction steps as [|[v g] rest IH]; intros o n L p T F N; [congruence|]. inversion F as [|? ? [F1 F2] F3]; subst. cbn [fst snd] in *.
  cbn [adam_run].
  destruct (adam_param_tracks o (length v) L (mkParam v (pa_grad p) (pa_state p)) g) as (s & E & Ts); [apply T; auto|auto|auto|].
  cbn [pa_value] in *. rewrite E. destruct rest as [|x rest].
  - exists (mkParam v (Some (decayed o (v, g))) (Some s)), s. split; [reflexivity|]. split; [reflexivity|]. exact Ts.
  - destruct (IH o (length v) (decayed o (v, g) :: L) (mkParam v (Some (decayed o (v, g))) (Some s))) as (p' & s' & E' & P' & T'); [|auto|discriminate|].
    + intros q Hq _. unfold state_of. rewrite Hq. cbn. auto.
    + exists p', s'. split; [exact E'|]. split; [auto|]. cbn [map rev]. rewrite <- app_assoc. exact T'.
Qed.
Lemma all_some_divide : forall a b, length a = length b -> Forall (fun y => y <> 0) b -> all_some (map2 divide a b) = Some (map2 Rdiv a b).
Proof.
  induction a as [|x a IH]; intros [|y b] L F; cbn in L; try lia; [reflexivity|]. inversion F; subst. cbn [map2 all_some].
  unfold divide at 1. destruct (Req_EM_T y 0); [contradiction|]. rewrite IH by (auto; lia). reflexivity.
Qed.
Definition fresh (p : parameter) : Prop := pa_state p = None.
Definition valid_group (o : adam_group) : Prop := 0 <= ag_beta1 o < 1 /\ 0 <= ag_beta2 o < 1 /\ 0 < ag_eps o.
Definition sized (n : nat) (steps : list (vec * vec)) : Prop := Forall (fun x => length (fst x) = n /\ length (snd x) = n) steps.
Lemma run_state : forall o n p steps, fresh p -> sized n steps -> steps <> [] ->
  exists p' s, adam_run o p steps = (p', Some (ag_lr o / (1 - ag_beta1 o ^ as_step s), direction (as_avg s) (denoms o s))) /\
    pa_state p' = Some s /\ tracks o n (rev (map (decayed o) steps)) s.
Proof.
  intros o n p steps Fr F N. destruct (adam_run_tracks steps o n [] p) as (p' & s & E & P & T); [|auto|auto|].
  - intros q Hq Lq. unfold state_of. rewrite Hq, Fr. rewrite Lq. apply tracks_zero.
  - rewrite app_nil_r in T. eauto.
Qed.
Lemma coord_history : forall o j steps, coord j (rev (map (decayed o) steps)) = history j (map (decayed o) steps).
Proof. intros. unfold coord, history. rewrite map_rev. reflexivity. Qed.
Lemma bias_pos : forall b n, 0 <= b < 1 -> (0 < n)%nat -> 0 < 1 - b ^ n.
Proof. intros b n B N. assert (H := pow_lt1 b n B N). lra. Qed.
Lemma denoms_pos : forall o n L s, valid_group o -> tracks o n L s -> L <> [] -> Forall (fun y => y <> 0) (denoms o s).
Proof.
  intros o n L s (B1 & B2 & E) T N. apply Forall_forall. intros y Hy. unfold denoms in Hy. apply in_map_iff in Hy. destruct Hy as (v & <- & _).
  assert (0 < sqrt (1 - ag_beta2 o ^ as_step s)).
  { apply sqrt_lt_R0. apply bias_pos; [auto|]. rewrite (tr_step _ _ _ _ T). destruct L; [congruence|cbn; lia]. }
  assert (0 <= sqrt v / sqrt (1 - ag_beta2 o ^ as_step s)).
  { apply Rmult_le_pos; [apply sqrt_pos|left; apply Rinv_0_lt_compat; auto]. }
  lra.
Qed.
Lemma direction_nth : forall o n L s j, valid_group o -> tracks o n L s -> L <> [] -> (j < n)%nat ->
  exists d, direction (as_avg s) (denoms o s) = Some d /\ length d = n /\
    nth j d 0 = - (nth j (as_avg s) 0 / (sqrt (nth j (if ag_ams o then as_max s else as_sq s) 0) / sqrt (1 - ag_beta2 o ^ length L) + ag_eps o)).
Proof.
  intros o n L s j V T N J. assert (D := denoms_pos o n L s V T N).
  assert (Ld : length (denoms o s) = n).
  { unfold denoms. rewrite map_length. destruct (ag_ams o); [apply T|apply T]. }
  unfold direction. rewrite all_some_divide; [|rewrite Ld; apply T|auto].
  exists (vscale (-1) (map2 Rdiv (as_avg s) (denoms o s))). split; [reflexivity|].
  assert (La := tr_avgl _ _ _ _ T). split; [rewrite vscale_length, map2_length; lia|].
  rewrite nth_vscale. rewrite (nth_map2 Rdiv (as_avg s) (denoms o s) j 0 0 0); [|lia|lia].
  replace (nth j (denoms o s) 0) with (sqrt (nth j (if ag_ams o then as_max s else as_sq s) 0) / sqrt (1 - ag_beta2 o ^ length L) + ag_eps o); [ring|].
  unfold denoms. rewrite <- (tr_step _ _ _ _ T).
  set (f := fun v => sqrt v / sqrt (1 - ag_beta2 o ^ as_step s) + ag_eps o).
  transitivity (nth j (map f (if ag_ams o then as_max s else as_sq s)) (f 0)).
  - rewrite map_nth. reflexivity.
  - apply nth_indep. rewrite map_length. unfold denoms in Ld. rewrite map_length in Ld. lia.
Qed.

(** The move of every coordinate is Adam's. *)
Lemma adam_moves : forall o n p steps j, valid_group o -> fresh p -> sized n steps -> steps <> [] -> ag_ams o = false -> (j < n)%nat ->
  exists p' t d, adam_run o p steps = (p', Some (t, Some d)) /\ length d = n /\
    t * nth j d 0 = adam_move (ag_lr o) (ag_beta1 o) (ag_beta2 o) (ag_eps o) (history j (map (decayed o) steps)).
Proof.
  intros o n p steps j V Fr F N Am J. destruct (run_state o n p steps Fr F N) as (p' & s & E & _ & T).
  set (L := rev (map (decayed o) steps)) in *.
  assert (NL : L <> []). { unfold L. destruct steps as [|x steps]; [congruence|]. cbn. intros C. apply app_eq_nil in C. destruct C; discriminate. }
  destruct (direction_nth o n L s j V T NL J) as (d & Ed & Ld & Nd). exists p', (ag_lr o / (1 - ag_beta1 o ^ as_step s)), d.
  rewrite Ed in E. split; [exact E|]. split; [auto|]. rewrite Nd, Am, (tr_avg _ _ _ _ T), (tr_sq _ _ _ _ T), (tr_step _ _ _ _ T).
  unfold adam_move. rewrite <- coord_history. fold L. destruct V as (B1 & B2 & He).
  assert (Nc : coord j L <> []) by (destruct L; [congruence|discriminate]).
  assert (Nq : squares (coord j L) <> []) by (destruct (coord j L); [congruence|discriminate]).
  assert (Lc : length (coord j L) = length L) by apply map_length.
  rewrite <- (average_faded (ag_beta1 o)) by auto. rewrite <- (average_faded (ag_beta2 o)) by auto. rewrite squares_length, Lc.
  assert (P1 : 0 < 1 - ag_beta1 o ^ length L) by (apply bias_pos; [auto|destruct L; [congruence|cbn; lia]]).
  assert (P2 : 0 < 1 - ag_beta2 o ^ length L) by (apply bias_pos; [auto|destruct L; [congruence|cbn; lia]]).
  rewrite sqrt_div; [| |auto].
  2:{ apply Rmult_le_pos; [lra|apply faded_squares; lra]. }
  assert (0 < sqrt (1 - ag_beta2 o ^ length L)) by (apply sqrt_lt_R0; auto).
  assert (0 <= sqrt ((1 - ag_beta2 o) * faded (ag_beta2 o) (squares (coord j L)))) by apply sqrt_pos.
  field. repeat split; try lra.
  assert (0 < sqrt (1 - ag_beta2 o ^ length L) * ag_eps o) by (apply Rmult_lt_0_compat; auto). lra.
Qed.
(** With AMSGrad the root is of the largest average of squares so far. *)
Lemma adam_moves_ams : forall o n p steps j, valid_group o -> fresh p -> sized n steps -> steps <> [] -> ag_ams o = true -> (j < n)%nat ->
  exists p' t d, adam_run o p steps = (p', Some (t, Some d)) /\ length d = n /\
    let h := history j (map (decayed o) steps) in
    t * nth j d 0 = - (ag_lr o * average (ag_beta1 o) h /
      (sqrt (largest (ag_beta2 o) (squares h)) / sqrt (1 - ag_beta2 o ^ length steps) + ag_eps o)).
Proof.
  intros o n p steps j V Fr F N Am J. destruct (run_state o n p steps Fr F N) as (p' & s & E & _ & T).
  set (L := rev (map (decayed o) steps)) in *.
  assert (NL : L <> []). { unfold L. destruct steps as [|x steps]; [congruence|]. cbn. intros C. apply app_eq_nil in C. destruct C; discriminate. }
  destruct (direction_nth o n L s j V T NL J) as (d & Ed & Ld & Nd). exists p', (ag_lr o / (1 - ag_beta1 o ^ as_step s)), d.
  rewrite Ed in E. split; [exact E|]. split; [auto|]. cbv zeta. rewrite Nd, Am, (tr_avg _ _ _ _ T), (tr_max _ _ _ _ T Am), (tr_step _ _ _ _ T).
  rewrite <- coord_history. fold L. destruct V as (B1 & B2 & He).
  assert (Nc : coord j L <> []) by (destruct L; [congruence|discriminate]).
  assert (Lc : length (coord j L) = length L) by apply map_length.
  rewrite <- (average_faded (ag_beta1 o)) by auto. rewrite Lc.
  assert (LL : length L = length steps) by (unfold L; rewrite rev_length, map_length; auto). rewrite LL in *.
  assert (P1 : 0 < 1 - ag_beta1 o ^ length steps) by (apply bias_pos; [auto|destruct steps; [congruence|cbn; lia]]).
  unfold Rdiv. set (X := / (_ + ag_eps o)). field. lra.
Qed.
