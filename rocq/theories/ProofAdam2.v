(** Bounds on Adam's move, and what is not true of it. *)

Require Import Reals List Lia Lra Bool Arith Psatz.
Require Import Verif.Vec Verif.VecFacts Verif.ModelOptim Verif.ModelAdam Verif.SpecAdam Verif.ProofAdam.
Import ListNotations.
Open Scope R_scope.

Lemma jensen : forall b l, 0 <= b -> faded b l * faded b l <= faded b (ones l) * faded b (squares l).
Proof.
  intros b l B. induction l as [|x l IH]; [cbn; lra|]. cbn [ones squares map faded]. fold (ones l). fold (squares l).
  set (W := faded b l) in *. set (S := faded b (ones l)) in *. set (Q := faded b (squares l)) in *.
  assert (S0 : 0 <= S) by (apply faded_ones_nonneg; auto). assert (Q0 : 0 <= Q) by (apply faded_squares; auto).
  assert (K : 2 * x * W <= Q + S * (x * x)).
  { destruct (Req_dec S 0) as [Z|Z].
    - assert (W = 0) by (apply Rsqr_0_uniq; unfold Rsqr; rewrite Z in IH; assert (0 <= W * W) by apply Rle_0_sqr; lra). rewrite H, Z. lra.
    - assert (P : 0 < S) by lra. apply Rmult_le_reg_l with S; [auto|]. assert (0 <= (S * x - W) * (S * x - W)) by apply Rle_0_sqr.
      replace (S * (2 * x * W)) with (S * S * (x * x) + W * W - (S * x - W) * (S * x - W)) by ring.
      replace (S * (Q + S * (x * x))) with (S * S * (x * x) + S * Q) by ring. lra. }
  assert (b * (2 * x * W) <= b * (Q + S * (x * x))) by (apply Rmult_le_compat_l; auto).
  assert (b * b * (W * W) <= b * b * (S * Q)) by (apply Rmult_le_compat_l; [apply Rmult_le_pos; auto|auto]).
  replace ((x + b * W) * (x + b * W)) with (x * x + b * (2 * x * W) + b * b * (W * W)) by ring.
  replace ((1 + b * S) * (x * x + b * Q)) with (x * x + b * (Q + S * (x * x)) + b * b * (S * Q)) by ring. lra.
Qed.
Lemma faded_mono : forall b1 b2 l, 0 <= b1 <= b2 -> faded b1 (squares l) <= faded b2 (squares l).
Proof.
  intros b1 b2 l B. induction l as [|x l IH]; [cbn; lra|]. cbn [squares map faded]. fold (squares l).
  assert (H := faded_squares b1 l ltac:(lra)).
  assert (b1 * faded b1 (squares l) <= b2 * faded b2 (squares l)) by (apply Rmult_le_compat; lra). lra.
Qed.
Lemma ones_squares : forall l, map (fun _ : R => 1) (squares l) = ones l.
Proof. intros l. unfold squares, ones. rewrite map_map. reflexivity. Qed.
Lemma ones_le : forall b l, 0 <= b < 1 -> faded b (ones l) <= / (1 - b) /\ faded b (ones l) <= INR (length l).
Proof.
  intros b l B. split.
  - assert (H := faded_ones b l). assert (0 <= b ^ length l) by (apply pow_le; lra).
    apply Rmult_le_reg_l with (1 - b); [lra|]. rewrite Rinv_r by lra. lra.
  - induction l as [|x l IH]; [cbn; lra|]. cbn [ones map faded]. fold (ones l). cbn [length]. rewrite S_INR.
    assert (H := faded_ones_nonneg b l ltac:(lra)). assert (b * faded b (ones l) <= 1 * faded b (ones l)) by (apply Rmult_le_compat_r; lra). lra.
Qed.
Lemma average_bound : forall b1 b2 h, 0 <= b1 <= b2 -> b2 < 1 -> h <> [] ->
  Rabs (average b1 h) <= sqrt (faded b2 (ones h)) * sqrt (average b2 (squares h)).
Proof.
  intros b1 b2 h B B2 N. unfold average. rewrite ones_squares. fold (ones h).
  assert (S1 := faded_ones_ge1 b1 h ltac:(lra) N). assert (S2 := faded_ones_ge1 b2 h ltac:(lra) N).
  assert (J := jensen b1 h ltac:(lra)). assert (M := faded_mono b1 b2 h B). assert (Q0 := faded_squares b2 h ltac:(lra)).
  assert (Q1 := faded_squares b1 h ltac:(lra)).
  rewrite <- sqrt_mult; [|lra|apply Rmult_le_pos; [auto|left; apply Rinv_0_lt_compat; lra]].
  replace (faded b2 (ones h) * (faded b2 (squares h) / faded b2 (ones h))) with (faded b2 (squares h)) by (field; lra).
  rewrite <- sqrt_Rsqr_abs. apply sqrt_le_1_alt. unfold Rsqr.
  replace (faded b1 h / faded b1 (ones h) * (faded b1 h / faded b1 (ones h))) with
    ((faded b1 h * faded b1 h) / (faded b1 (ones h) * faded b1 (ones h))) by (field; lra).
  apply Rmult_le_reg_r with (faded b1 (ones h) * faded b1 (ones h)); [nra|].
  unfold Rdiv. rewrite Rmult_assoc, Rinv_l by nra. rewrite Rmult_1_r.
  apply Rle_trans with (faded b1 (ones h) * faded b1 (squares h)); [auto|].
  apply Rle_trans with (faded b1 (ones h) * faded b2 (squares h)); [apply Rmult_le_compat_l; lra|].
  replace (faded b2 (squares h) * (faded b1 (ones h) * faded b1 (ones h))) with (faded b1 (ones h) * faded b2 (squares h) * faded b1 (ones h)) by ring.
  assert (0 <= faded b1 (ones h) * faded b2 (squares h)) by nra. nra.
Qed.
(** However large the gradients are, a move is at most lr / sqrt (1 - b2), and lr * sqrt of the number of steps. *)
Lemma move_bound : forall lr b1 b2 eps h, 0 <= lr -> 0 <= b1 <= b2 -> b2 < 1 -> 0 < eps -> h <> [] ->
  Rabs (adam_move lr b1 b2 eps h) <= lr / sqrt (1 - b2) /\ Rabs (adam_move lr b1 b2 eps h) <= lr * sqrt (INR (length h)).
Proof.
  intros lr b1 b2 eps h Hl B B2 He N. unfold adam_move. rewrite Rabs_Ropp.
  assert (A := average_bound b1 b2 h B B2 N). set (V := sqrt (average b2 (squares h))) in *. set (S := faded b2 (ones h)) in *.
  assert (V0 : 0 <= V) by apply sqrt_pos. assert (P : 0 < V + eps) by lra.
  destruct (ones_le b2 h) as [O1 O2]; [lra|]. fold S in O1, O2. assert (S0 : 0 <= sqrt S) by apply sqrt_pos.
  assert (G : Rabs (lr * average b1 h / (V + eps)) <= lr * sqrt S).
  { unfold Rdiv. rewrite !Rabs_mult, Rabs_inv, (Rabs_right lr), (Rabs_right (V + eps)) by lra.
    apply Rmult_le_reg_r with (V + eps); [auto|]. rewrite Rmult_assoc, Rinv_l, Rmult_1_r by lra.
    rewrite Rmult_assoc. apply Rmult_le_compat_l; [auto|]. apply Rle_trans with (sqrt S * V); [auto|]. apply Rmult_le_compat_l; lra. }
  split.
  - apply Rle_trans with (lr * sqrt S); [auto|]. unfold Rdiv. apply Rmult_le_compat_l; [auto|].
    rewrite <- sqrt_inv. apply sqrt_le_1_alt. auto.
  - apply Rle_trans with (lr * sqrt S); [auto|]. apply Rmult_le_compat_l; [auto|]. apply sqrt_le_1_alt. auto.
Qed.
(** An average is within the range of what is averaged. *)
Lemma average_range : forall b lo hi h, 0 <= b -> h <> [] -> Forall (fun x => lo <= x <= hi) h -> lo <= average b h <= hi.
Proof.
  intros b lo hi h B N F. unfold average. fold (ones h). assert (S1 := faded_ones_ge1 b h B N).
  assert (K : lo * faded b (ones h) <= faded b h <= hi * faded b (ones h)).
  { clear N S1. induction F as [|x h [F1 F2] F IH]; [cbn; lra|]. cbn [ones map faded]. fold (ones h). destruct IH as [I1 I2].
    assert (b * (lo * faded b (ones h)) <= b * faded b h) by (apply Rmult_le_compat_l; auto).
    assert (b * faded b h <= b * (hi * faded b (ones h))) by (apply Rmult_le_compat_l; auto). lra. }
  split; (apply Rmult_le_reg_r with (faded b (ones h)); [lra|]); unfold Rdiv; rewrite Rmult_assoc, Rinv_l, Rmult_1_r by lra; tauto.
Qed.
Lemma average_same : forall b x h, 0 <= b -> h <> [] -> Forall (fun y => y = x) h -> average b h = x.
Proof.
  intros b x h B N F. apply Rle_antisym; apply (average_range b x x h B N); (eapply Forall_impl; [|exact F]; intros; subst; cbv beta; lra).
Qed.
(** Equal gradients: the move is that of the first step. *)
Lemma move_same : forall lr b1 b2 eps g h, 0 <= b1 -> 0 <= b2 -> h <> [] -> Forall (fun x => x = g) h ->
  adam_move lr b1 b2 eps h = - (lr * g / (Rabs g + eps)).
Proof.
  intros lr b1 b2 eps g h B1 B2 N F. unfold adam_move. rewrite (average_same b1 g h) by auto.
  rewrite (average_same b2 (g * g) (squares h)); auto.
  - fold (Rsqr g). rewrite sqrt_Rsqr_abs. reflexivity.
  - destruct h; [congruence|discriminate].
  - unfold squares. rewrite Forall_map. eapply Forall_impl; [|exact F]. intros a H. cbv beta in *. rewrite H. reflexivity.
Qed.
Lemma move_sign : forall lr b1 b2 eps h, 0 < lr -> 0 < eps -> 0 < average b1 h -> adam_move lr b1 b2 eps h < 0.
Proof.
  intros lr b1 b2 eps h Hl He A. unfold adam_move. assert (H := sqrt_pos (average b2 (squares h))).
  assert (0 < lr * average b1 h / (sqrt (average b2 (squares h)) + eps)); [|lra].
  apply Rmult_lt_0_compat; [apply Rmult_lt_0_compat; auto|apply Rinv_0_lt_compat; lra].
Qed.

(** ** The first direction goes down *)
Lemma dot_sum_neg : forall g d, length g = length d -> (forall j, (j < length g)%nat -> nth j g 0 * nth j d 0 <= 0) ->
  dot g d <= 0 /\ ((exists j, (j < length g)%nat /\ nth j g 0 * nth j d 0 < 0) -> dot g d < 0).
Proof.
  induction g as [|x g IH]; intros [|y d] L H; cbn in L; try lia.
  - cbn. split; [lra|]. intros (j & J & _). lia.
  - destruct (IH d) as [I1 I2]; [lia|intros j J; apply (H (S j)); cbn; lia|].
    assert (H0 := H O ltac:(cbn; lia)). cbn in H0. cbn [dot]. split; [lra|].
    intros (j & J & Hj). destruct j as [|j]; [cbn in Hj; lra|]. assert (dot g d < 0); [|lra]. apply I2. exists j. cbn in *. split; [lia|auto].
Qed.
Lemma first_descends : forall o p v g, valid_group o -> fresh p -> length v = length g -> ag_decay o = 0 -> ag_ams o = false -> 0 < ag_lr o ->
  (exists j, nth j g 0 <> 0) ->
  exists p' t d, adam_run o p [(v, g)] = (p', Some (t, Some d)) /\ dot g (vscale t d) < 0.
Proof.
  intros o p v g V Fr L D Am Hl (j0 & J0).
  assert (Jl : (j0 < length g)%nat) by (destruct (Nat.lt_ge_cases j0 (length g)); [auto|]; rewrite nth_overflow in J0 by auto; congruence).
  assert (Sz : sized (length g) [(v, g)]) by (constructor; [cbn; auto|constructor]).
  destruct (adam_moves o (length g) p [(v, g)] j0 V Fr Sz ltac:(discriminate) Am Jl) as (p' & t & d & E & Ld & _).
  exists p', t, d. split; [auto|].
  assert (M : forall j, (j < length g)%nat -> nth j (vscale t d) 0 = - (ag_lr o * nth j g 0 / (Rabs (nth j g 0) + ag_eps o))).
  { intros j J. destruct (adam_moves o (length g) p [(v, g)] j V Fr Sz ltac:(discriminate) Am J) as (p2 & t2 & d2 & E2 & _ & H2).
    rewrite E in E2. assert (t = t2) by congruence. assert (d = d2) by congruence. subst t2 d2. rewrite nth_vscale, H2.
    destruct V as (B1 & B2 & He). apply move_same; [lra|lra|discriminate|].
    unfold history. cbn [map rev app]. constructor; [|constructor]. unfold decayed. destruct (Req_EM_T (ag_decay o) 0); [reflexivity|congruence]. }
  destruct V as (B1 & B2 & He).
  assert (P : forall x, x * - (ag_lr o * x / (Rabs x + ag_eps o)) = - (ag_lr o * (x * x) * / (Rabs x + ag_eps o))) by (intros; unfold Rdiv; ring).
  assert (Pi : forall x, 0 < / (Rabs x + ag_eps o)) by (intros x; apply Rinv_0_lt_compat; assert (Hx := Rabs_pos x); lra).
  destruct (dot_sum_neg g (vscale t d)) as [_ H]; [rewrite vscale_length; auto| |].
  - intros j J. rewrite M, P by auto. assert (0 <= ag_lr o * (nth j g 0 * nth j g 0)) by (apply Rmult_le_pos; [lra|nra]).
    assert (0 <= ag_lr o * (nth j g 0 * nth j g 0) * / (Rabs (nth j g 0) + ag_eps o)) by (apply Rmult_le_pos; [auto|left; apply Pi]). lra.
  - apply H. exists j0. split; [auto|]. rewrite M, P by auto.
    assert (0 < ag_lr o * (nth j0 g 0 * nth j0 g 0)) by (apply Rmult_lt_0_compat; [lra|nra]).
    assert (0 < ag_lr o * (nth j0 g 0 * nth j0 g 0) * / (Rabs (nth j0 g 0) + ag_eps o)) by (apply Rmult_lt_0_compat; [auto|apply Pi]). lra.
Qed.
Definition ex_group : adam_group := mkGroup (/ 1000) (9 / 10) (999 / 1000) (/ 100000000) 0 false (Some (/ 10000)) (/ 10000) (/ 5) 0.
Lemma ex_valid : valid_group ex_group.
Proof. unfold valid_group, ex_group. cbn. lra. Qed.
(** Later ones need not. *)
Lemma later_ascends : exists o p steps v g p' t d, valid_group o /\ fresh p /\ ag_decay o = 0 /\
  adam_run o p (steps ++ [(v, g)]) = (p', Some (t, Some d)) /\ 0 < dot g (vscale t d).
Proof.
  exists ex_group, (mkParam [0] None None), [([0], [1])], [0], [- / 10].
  destruct (adam_moves ex_group 1 (mkParam [0] None None) [([0], [1]); ([0], [- / 10])] 0 ex_valid eq_refl) as (p' & t & d & E & Ld & H);
    [repeat constructor|discriminate|reflexivity|lia|].
  exists p', t, d. split; [apply ex_valid|]. split; [reflexivity|]. split; [reflexivity|]. split; [exact E|].
  destruct d as [|x [|y d]]; try discriminate. cbn [vscale map dot].
  cbn [nth] in H. rewrite H.
  assert (S : adam_move (ag_lr ex_group) (ag_beta1 ex_group) (ag_beta2 ex_group) (ag_eps ex_group)
                (history 0 (map (decayed ex_group) [([0], [1]); ([0], [- / 10])])) < 0).
  { apply move_sign; [cbn; lra|cbn; lra|]. unfold average, history. cbn [map rev app].
    unfold decayed. cbn [ag_decay ex_group]. destruct (Req_EM_T 0 0); [|congruence]. cbn. lra. }
  lra.
Qed.

(** ** Which parameters are moved *)
Definition has_grad (p : parameter) : bool := match pa_grad p with Some _ => true | None => false end.
Lemma found_values : forall o ps, map (fun x => pa_value (fst (fst x))) (found (adam_group_step o ps)) = map pa_value (filter has_grad ps).
Proof.
  intros o ps. induction ps as [|p ps IH]; [reflexivity|]. cbn [adam_group_step map filter]. fold (adam_group_step o ps). unfold has_grad at 1.
  destruct (pa_grad p) as [g|] eqn:E; [|exact IH]. unfold adam_param at 1. cbn [found map fst pa_value]. f_equal. exact IH.
Qed.
Lemma moved : forall groups,
  map (fun x => pa_value (fst (fst x))) (snd (step_direction groups)) = flat_map (fun gr => map pa_value (filter has_grad (snd gr))) groups /\
  Forall2 (fun gr gr' => fst gr' = fst gr /\ Forall2 (fun p p' => pa_value p' = pa_value p /\ (pa_grad p = None -> p' = p)) (snd gr) (snd gr'))
    groups (fst (step_direction groups)).
Proof.
  intros groups. unfold step_direction. cbn [fst snd]. induction groups as [|[o ps] groups [I1 I2]]; [split; [reflexivity|constructor]|].
  cbn [map concat flat_map fst snd]. split.
  - rewrite map_app, found_values. f_equal. exact I1.
  - constructor; [|exact I2]. cbn [fst snd]. split; [reflexivity|]. clear. unfold adam_group_step. rewrite map_map.
    induction ps as [|p ps IH]; [constructor|]. cbn [map]. constructor; [|exact IH].
    destruct (pa_grad p) as [g|] eqn:E; [|cbn; auto]. unfold adam_param. cbn. split; [auto|discriminate].
Qed.

(** ** The step *)
Lemma search_accept : forall fuel closure accept reduction least t d k last alpha prev p loss a q,
  search fuel closure accept reduction least t d k last alpha prev p = Returned true loss a q -> accept a loss = true.
Proof.
  induction fuel as [|fuel IH]; intros closure accept reduction least t d k last alpha prev p loss a q E; cbn [search] in E.
  - destruct (Rltb least alpha); [discriminate|]. destruct last as [[? ?]|]; discriminate.
  - destruct (Rltb least alpha); [|destruct last as [[? ?]|]; discriminate].
    destruct (accept alpha (closure k (move (alpha - prev) t d p))) eqn:Ea; [|eapply IH; eauto].
    inversion E; subst. auto.
Qed.
Lemma accepted_decreases : forall fuel closure groups loss0 loss a q o, last_group groups = Some o ->
  adam_step fuel closure groups loss0 = Some (Returned true loss a q) -> loss < loss0 - ag_improvement o.
Proof.
  intros fuel closure groups loss0 loss a q o L E. unfold adam_step in E. rewrite L in E.
  destruct (all_some (map snd (snd (step_direction groups)))) as [d|]; [|discriminate].
  assert (Q : adam_search fuel closure (ag_c o) (ag_reduction o) (ag_least o) (ag_improvement o) loss0
              (map (fun x => snd (fst x)) (snd (step_direction groups))) (grads_of (snd (step_direction groups))) d
              (map (fun x => pa_value (fst (fst x))) (snd (step_direction groups))) = Returned true loss a q) by congruence.
  apply search_accept in Q. unfold adam_accept in Q. destruct (ag_c o).
  - apply andb_true_iff in Q. destruct Q as [_ Q]. apply Rltb_true in Q. auto.
  - apply Rltb_true in Q. auto.
Qed.
(** The slope in Armijo's rule is not that of the loss if there is weight decay. *)
Definition decay_group : adam_group := mkGroup 1 0 0 1 1 false (Some (/ 2)) (/ 10000) (/ 5) 0.
Lemma one_param : forall o v g, valid_group o -> length v = 1%nat -> length g = 1%nat -> ag_ams o = false ->
  exists p t d, snd (step_direction [(o, [mkParam v (Some g) None])]) = [(p, t, Some d)] /\ pa_value p = v /\
    pa_grad p = Some (decayed o (v, g)) /\ length d = 1%nat /\
    t * nth 0 d 0 = adam_move (ag_lr o) (ag_beta1 o) (ag_beta2 o) (ag_eps o) [nth 0 (decayed o (v, g)) 0].
Proof.
  intros o v g V Lv Lg Am.
  destruct (adam_moves o 1 (mkParam v (Some g) None) [(v, g)] 0 V eq_refl) as (p' & t & d & E & Ld & H);
    [repeat constructor; auto|discriminate|auto|lia|].
  cbn [adam_run pa_grad pa_state] in E.
  destruct (adam_param o (mkParam v (Some g) None) g) as [[p2 t2] d2] eqn:Ep. inversion E; subst p2 t2 d2.
  exists p', t, d. split; [|split; [|split; [|split; [auto|exact H]]]].
  - unfold step_direction, adam_group_step. cbn [map fst snd pa_grad concat found]. rewrite Ep. reflexivity.
  - unfold adam_param in Ep. inversion Ep. reflexivity.
  - unfold adam_param in Ep. inversion Ep. reflexivity.
Qed.
Lemma decay_slope : exists o p g l d, valid_group o /\ pa_grad p = Some g /\ l = snd (step_direction [(o, [p])]) /\
  map snd l = [Some d] /\
  weighted_slope (map (fun x => snd (fst x)) l) (grads_of l) [d] <> weighted_slope (map (fun x => snd (fst x)) l) [g] [d].
Proof.
  assert (V : valid_group decay_group) by (unfold valid_group, decay_group; cbn; lra).
  destruct (one_param decay_group [1] [1] V eq_refl eq_refl eq_refl) as (p' & t & d & E & _ & G & Ld & H).
  exists decay_group, (mkParam [1] (Some [1]) None), [1], (snd (step_direction [(decay_group, [mkParam [1] (Some [1]) None])])), d.
  split; [auto|]. split; [reflexivity|]. split; [reflexivity|]. rewrite E. split; [reflexivity|].
  unfold grads_of. cbn [map fst snd weighted_slope]. rewrite G.
  assert (D : decayed decay_group ([1], [1]) = [2]).
  { unfold decayed. cbn [ag_decay decay_group fst snd]. destruct (Req_EM_T 1 0); [lra|]. cbn. f_equal. lra. }
  rewrite D in *. destruct d as [|x [|y d]]; try discriminate. cbn [nth dot] in *.
  assert (M : t * x < 0). { rewrite H. apply move_sign; [cbn; lra|cbn; lra|]. unfold average. cbn. lra. }
  lra.
Qed.
(** The options of the line search are those of the last group, for every group. *)
Definition group_with (improvement : R) : adam_group := mkGroup 1 0 0 1 0 false None (/ 2) (/ 5) improvement.
Lemma only_last : exists o1 ps1 o2 ps2 closure loss0 loss a q, valid_group o1 /\ valid_group o2 /\ 0 <= ag_improvement o2 /\
  adam_step 1 closure [(o1, ps1); (o2, ps2)] loss0 = Some (Returned true loss a q) /\ ~ loss < loss0 - ag_improvement o1.
Proof.
  assert (V : forall i, valid_group (group_with i)) by (intros i; unfold valid_group, group_with; cbn; lra).
  destruct (one_param (group_with 10) [1] [1] (V 10) eq_refl eq_refl eq_refl) as (p1 & t1 & d1 & E1 & V1 & G1 & L1 & _).
  destruct (one_param (group_with 0) [1] [1] (V 0) eq_refl eq_refl eq_refl) as (p2 & t2 & d2 & E2 & V2 & G2 & L2 & _).
  exists (group_with 10), [mkParam [1] (Some [1]) None], (group_with 0), [mkParam [1] (Some [1]) None], (fun _ _ => 4), 5, 4, 1.
  eexists. split; [auto|]. split; [auto|]. split; [cbn; lra|].
  assert (E : snd (step_direction [(group_with 10, [mkParam [1] (Some [1]) None]); (group_with 0, [mkParam [1] (Some [1]) None])]) =
    [(p1, t1, Some d1); (p2, t2, Some d2)]).
  { unfold step_direction in *. cbn [map concat fst snd] in *. rewrite app_nil_r in E1, E2. rewrite E1, E2. reflexivity. }
  split; [|cbn; lra]. unfold adam_step. rewrite E. cbn [last_group rev app map fst snd all_some].
  unfold adam_search. cbn [ag_c ag_reduction ag_least ag_improvement group_with search].
  assert (R1 : Rltb (/ 2) 1 = true) by (apply Rltb_true; lra). rewrite R1.
  unfold adam_accept. assert (R2 : Rltb 4 (5 - 0) = true) by (apply Rltb_true; lra). rewrite R2. reflexivity.
Qed.
Lemma decayed_spec : forall o n steps, sized n steps -> map (decayed o) steps = map (with_decay (ag_decay o)) steps.
Proof.
  intros o n steps F. apply map_ext_in. intros [v g] H. unfold sized in F. rewrite Forall_forall in F. destruct (F _ H) as [A B]. cbn [fst snd] in *.
  unfold decayed, with_decay. cbn [fst snd]. destruct (Req_EM_T (ag_decay o) 0) as [Z|Z]; [|reflexivity]. rewrite Z. clear - A B.
  rewrite <- B in A. clear B. revert v A. induction g as [|x g IH]; intros [|y v] L; cbn in L; try lia; [reflexivity|].
  cbn. f_equal; [lra|]. apply IH. lia.
Qed.
Lemma moves_spec : forall o n p steps j, valid_group o -> fresh p -> sized n steps -> steps <> [] -> ag_ams o = false -> (j < n)%nat ->
  exists p' t d, adam_run o p steps = (p', Some (t, Some d)) /\ length d = n /\
    t * nth j d 0 = adam_move (ag_lr o) (ag_beta1 o) (ag_beta2 o) (ag_eps o) (history j (map (with_decay (ag_decay o)) steps)).
Proof. intros. rewrite <- (decayed_spec o n) by auto. apply adam_moves; auto. Qed.
Lemma ams_spec : forall o n p steps j, valid_group o -> fresh p -> sized n steps -> steps <> [] -> ag_ams o = true -> (j < n)%nat ->
  exists p' t d, adam_run o p steps = (p', Some (t, Some d)) /\ length d = n /\
    let h := history j (map (with_decay (ag_decay o)) steps) in
    t * nth j d 0 = - (ag_lr o * average (ag_beta1 o) h /
      (sqrt (largest (ag_beta2 o) (squares h)) / sqrt (1 - ag_beta2 o ^ length steps) + ag_eps o)).
Proof. intros. rewrite <- (decayed_spec o n) by auto. apply adam_moves_ams; auto. Qed.
Lemma ex_sized : sized 2 [([0; 0], [1; 2]); ([1; 0], [3; -4])].
Proof. repeat constructor. Qed.
