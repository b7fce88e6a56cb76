(** Meaning of slacks and binaries in the network encoding; the activations
    computed for a warm start. *)

Require Import Reals List Lra Lia Bool.
Require Import Verif.Vec Verif.VecFacts Verif.ModelMip Verif.SpecMip Verif.SpecCore
  Verif.ModelUtils Verif.SpecUtils Verif.ProofUtils Verif.ProofMaxBox Verif.ProofMip
  Verif.ProofSat Verif.ModelNet Verif.SpecNet Verif.ProofBounds Verif.ProofNet
  Verif.ProofNetBounds Verif.ProofNetTotal.
Import ListNotations.
Open Scope R_scope.

Lemma units_binary_nth : forall a lo up p B,
  length up = length lo -> length p = length lo -> length B = length lo ->
  (units_binary a lo up p B <-> forall i, (i < length lo)%nat ->
     unit_binary a (nth i lo 0) (nth i up 0) (nth i p 0) (nth i B 0)).
Proof.
  intros a lo. induction lo as [|l lo IH]; intros up p B L1 L2 L3;
    destruct up as [|u up], p as [|v p], B as [|b B]; try discriminate.
  - simpl. split; auto. intros; lia.
  - cbn [units_binary]. rewrite IH by (simpl in *; lia). split.
    + intros [H1 H2] [|i] Hi; simpl; auto. apply H2. simpl in Hi; lia.
    + intros H. split; [apply (H 0%nat); simpl; lia|]. intros i Hi. apply (H (S i)). simpl; lia.
Qed.

Lemma nth_firstn : forall (l : vec) n i, (i < n)%nat -> nth i (firstn n l) 0 = nth i l 0.
Proof.
  induction l; intros n i H; [rewrite firstn_nil; auto|]. destruct n; [lia|].
  destruct i; simpl; auto. apply IHl. lia.
Qed.
Lemma nth_skipn : forall (l : vec) n i, nth i (skipn n l) 0 = nth (n + i) l 0.
Proof.
  induction l; intros n i; [rewrite skipn_nil; destruct i, n; auto|]. destruct n; simpl; auto.
Qed.

Lemma net_binary_nth : forall hs lo up p B,
  length lo = num_units hs -> length up = num_units hs -> length p = num_units hs ->
  length B = num_units hs ->
  (net_binary hs lo up p B <-> forall i, (i < num_units hs)%nat ->
     unit_binary Relu (nth i lo 0) (nth i up 0) (nth i p 0) (nth i B 0)).
Proof.
  induction hs as [|[l a] hs IH]; intros lo up p B L1 L2 L3 L4.
  - simpl. split; auto. intros; lia.
  - cbn [net_binary num_units] in *. set (n := out_features l) in *.
    rewrite units_binary_nth by (rewrite !firstn_length; lia).
    rewrite IH by (rewrite skipn_length; lia).
    rewrite firstn_length, L1. replace (Nat.min n (n + num_units hs)) with n by lia.
    assert (U : forall l u v b, unit_binary a l u v b <-> unit_binary Relu l u v b)
      by (intros; unfold unit_binary; tauto).
    split.
    + intros [H1 H2] i Hi. destruct (Nat.lt_ge_cases i n) as [C|C].
      * specialize (H1 i C). rewrite !nth_firstn in H1 by auto. apply U. auto.
      * specialize (H2 (i - n)%nat). rewrite !nth_skipn in H2.
        replace (n + (i - n))%nat with i in H2 by lia. apply H2. lia.
    + intros H. split; intros i Hi.
      * rewrite !nth_firstn by auto. apply U. apply H. lia.
      * rewrite !nth_skipn. apply H. lia.
Qed.

(** The rows, without leaky slope 1. *)
Lemma net_sat_iff : forall hs n out z lo up S B, hidden_wf n hs out -> length z = n ->
  no_slope_one hs -> length lo = num_units hs -> length up = num_units hs ->
  length S = num_units hs -> length B = num_units hs -> bins B ->
  (net_sat hs z lo up S B <->
   S = concat (post_acts hs z) /\ in_box lo up (concat (pre_acts hs z)) /\
   net_binary hs lo up (concat (pre_acts hs z)) B).
Proof.
  intros hs n out z lo up S B W L O L1 L2 LS LB HB. split.
  - intros H. destruct (net_sound _ _ _ _ _ _ _ _ W L LS HB H) as [E H']. split; auto.
  - intros (-> & H1 & H2). eapply net_complete; eauto.
Qed.

(** C13 with caller-supplied bounds: the encoding describes the network on the
    part of the box where the bounds hold, and slacks and binaries have their
    meaning. *)
Lemma given_bounds_prop : forall n N pre_lo pre_up x_lo x_up,
  net_wf n N -> no_slope_one (hidden N) -> length x_lo = n -> length x_up = n ->
  length pre_lo = num_units (hidden N) -> length pre_up = num_units (hidden N) ->
  exists c, output_constraint_given_bounds N pre_lo pre_up x_lo x_up = Some c /\
    encodes c (fun x => in_box x_lo x_up x /\
                        in_box pre_lo pre_up (concat (pre_acts (hidden N) x)))
              (net_eval N) /\
    (forall x s b, bins b -> mic_sat c x s b ->
       s = concat (post_acts (hidden N) x) /\ length b = num_units (hidden N) /\
       forall i, (i < num_units (hidden N))%nat ->
         (nth i b 0 = 1 -> 0 <= nth i (concat (pre_acts (hidden N) x)) 0) /\
         (nth i b 0 = 0 -> nth i (concat (pre_acts (hidden N) x)) 0 <= 0)).
Proof.
  intros n N pre_lo pre_up x_lo x_up W O L1 L2 P1 P2.
  destruct (encoding_given_bounds n N _ _ _ _ W L1 L2 P1 P2)
    as (c & Ec & M1 & M2 & M3 & M4 & M5 & M6 & M7).
  exists c. split; auto. destruct W as (Hh & Wh & Wl).
  assert (Lx : forall x, in_box x_lo x_up x -> length x = n).
  { intros x B. apply in_box_lengths in B. lia. }
  assert (S : forall x s b, bins b -> mic_sat c x s b ->
    length b = num_units (hidden N) /\ in_box x_lo x_up x /\
    s = concat (post_acts (hidden N) x) /\
    in_box pre_lo pre_up (concat (pre_acts (hidden N) x)) /\
    net_binary (hidden N) pre_lo pre_up (concat (pre_acts (hidden N) x)) b).
  { intros x s b Hb Hs. apply M6 in Hs. destruct Hs as (K1 & K2 & K3 & K4).
    rewrite M3 in K1. rewrite M4 in K2.
    apply (net_sat_iff _ n _ _ _ _ _ _ Wh) in K4; auto; try lia. }
  split; [split|].
  - intros x [Bx Bp].
    destruct (pick_net_ok _ _ _ _ _ _ Wh (Lx _ Bx) Bp) as (Q1 & Q2 & Q3).
    exists (concat (post_acts (hidden N) x)),
      (pick_net (hidden N) pre_lo pre_up (concat (pre_acts (hidden N) x))).
    split; auto. apply M6. destruct (num_units_pre _ _ _ _ Wh (Lx _ Bx)) as [T1 T2].
    split; [congruence|]. split; [congruence|]. split; auto.
    eapply net_complete; eauto.
  - intros x s b Hb Hs. destruct (S x s b Hb Hs) as (S1 & S2 & S3 & S4 & S5).
    split; auto. subst s. apply M7. auto.
  - intros x s b Hb Hs. destruct (S x s b Hb Hs) as (S1 & S2 & S3 & S4 & S5).
    split; auto. split; auto. intros i Hi.
    destruct (num_units_pre _ _ _ _ Wh (Lx _ S2)) as [T1 T2].
    apply (net_binary_nth (hidden N)) with (i := i) in S5; auto.
    destruct S5 as (_ & U1 & U2 & _). auto.
Qed.

(** ** Warm starts *)

Lemma unit_outputs_spec : forall hs n out x, hidden_wf n hs out -> length x = n ->
  unit_outputs hs x
  = (concat (post_acts hs x),
     map (fun p => if Rltb 0 p then 1 else 0) (concat (pre_acts hs x)),
     hidden_eval hs x).
Proof.
  induction hs as [|[l a] hs IH]; intros n out x W L; [reflexivity|].
  destruct W as [Wl W]. cbn [unit_outputs post_acts pre_acts concat hidden_eval].
  rewrite <- lin_eval_bias by (rewrite L; apply Wl).
  assert (E : map (act_forward a) (lin_eval l x) = map (act_fun a) (lin_eval l x))
    by (apply map_ext; intros; apply act_forward_fun).
  rewrite E. rewrite (IH (out_features l) out); auto.
  - rewrite map_app. auto.
  - rewrite map_length. eapply lin_eval_length; eauto.
Qed.

Lemma nth_pick : forall (f : R -> bool) l i, (i < length l)%nat ->
  nth i (map (fun p => if f p then 1 else 0) l) 0 = if f (nth i l 0) then 1 else 0.
Proof.
  induction l; intros i H; simpl in *; [lia|]. destruct i; auto. apply IHl; lia.
Qed.
Lemma bins_pick : forall (f : R -> bool) l, bins (map (fun p => if f p then 1 else 0) l).
Proof.
  intros. unfold bins. apply Forall_forall. intros v Hv. apply in_map_iff in Hv.
  destruct Hv as [p [<- _]]. destruct (f p); [right|left]; auto.
Qed.

(** What a completion built from the pre-activations satisfies. *)
Lemma warm_iff : forall f n N pre_lo pre_up x_lo x_up c x,
  net_wf n N -> no_slope_one (hidden N) -> length x_lo = n -> length x_up = n ->
  length pre_lo = num_units (hidden N) -> length pre_up = num_units (hidden N) ->
  output_constraint_given_bounds N pre_lo pre_up x_lo x_up = Some c ->
  in_box x_lo x_up x -> in_box pre_lo pre_up (concat (pre_acts (hidden N) x)) ->
  (mic_sat c x (concat (post_acts (hidden N) x))
     (map (fun p => if f p : bool then 1 else 0) (concat (pre_acts (hidden N) x))) <->
   forall i, (i < num_units (hidden N))%nat ->
     unit_binary Relu (nth i pre_lo 0) (nth i pre_up 0)
       (nth i (concat (pre_acts (hidden N) x)) 0)
       (if f (nth i (concat (pre_acts (hidden N) x)) 0) then 1 else 0)).
Proof.
  intros f n N pre_lo pre_up x_lo x_up c x W O L1 L2 P1 P2 E Bx Bp.
  destruct (encoding_given_bounds n N _ _ _ _ W L1 L2 P1 P2)
    as (c' & Ec & M1 & M2 & M3 & M4 & M5 & M6 & M7).
  rewrite E in Ec. injection Ec as <-. destruct W as (Hh & Wh & Wl).
  assert (Lx : length x = n) by (apply in_box_lengths in Bx; lia).
  destruct (num_units_pre _ _ _ _ Wh Lx) as [T1 T2].
  rewrite M6. rewrite map_length.
  rewrite (net_sat_iff _ n _ _ _ _ _ _ Wh) by (auto using bins_pick; rewrite ?map_length; auto).
  rewrite net_binary_nth by (auto; rewrite map_length; auto).
  split.
  - intros (_ & _ & _ & _ & _ & H) i Hi. specialize (H i Hi).
    rewrite nth_pick in H by lia. auto.
  - intros H. split; [congruence|]. split; [congruence|]. split; auto. split; auto. split; auto.
    intros i Hi. rewrite nth_pick by lia. auto.
Qed.

Section Solver.
Variable solve : mip -> gresult.
Hypothesis Hsolve : solver_ok solve.

(** The completion computed by compute_relu_unit_outputs_and_activation
    (binary = 1 iff the input of the unit is positive) is feasible iff no unit
    with a nonnegative lower bound has input exactly zero. *)
Lemma warm_start_exact : forall n meth N x_lo x_up c B out x z be y,
  net_wf n N -> no_slope_one (hidden N) -> length x_lo = n -> length x_up = n ->
  output_constraint solve meth N x_lo x_up = Some (c, B, out) ->
  in_box x_lo x_up x ->
  compute_relu_unit_outputs_and_activation N x = (z, be, y) ->
  z = concat (post_acts (hidden N) x) /\ y = net_eval N x /\ bins be /\
  output c x z be = net_eval N x /\
  (mic_sat c x z be <->
   forall i, (i < num_units (hidden N))%nat -> 0 <= nth i (b_pre_lo B) 0 ->
     0 < nth i (concat (pre_acts (hidden N) x)) 0).
Proof.
  intros n meth N x_lo x_up c B [lo up] x z be y W O L1 L2 H Bx Hz.
  destruct (network_bounds solve Hsolve n _ _ _ _ _ _ _ _ W L1 L2 H) as [S _].
  destruct (S x Bx) as (S1 & _ & _).
  unfold output_constraint in H.
  destruct (vleb x_lo x_up); [|discriminate]. cbn [negb] in H.
  destruct (compute_layer_bound solve meth N x_lo x_up) as [B'|] eqn:E1; [|discriminate].
  destruct (compute_network_output_bounds solve meth N (b_pre_lo B') (b_pre_up B') x_lo x_up)
    as [out'|] eqn:E2; [|discriminate].
  destruct (output_constraint_given_bounds N (b_pre_lo B') (b_pre_up B') x_lo x_up)
    as [c'|] eqn:E3; [|discriminate].
  injection H as <- <- ->.
  destruct (layer_bound_spec solve Hsolve n _ _ _ _ _ W L1 L2 E1) as (z1 & z2 & I1 & I2 & _).
  assert (W' := W). destruct W' as (Hh & Wh & Wl).
  assert (Lx : length x = n) by (apply in_box_lengths in Bx; lia).
  unfold compute_relu_unit_outputs_and_activation in Hz.
  rewrite (unit_outputs_spec _ _ _ _ Wh Lx) in Hz. injection Hz as <- <- <-.
  destruct (encoding_given_bounds n N _ _ _ _ W L1 L2 I1 I2)
    as (c0 & Ec & _ & _ & _ & _ & _ & _ & M7). rewrite E3 in Ec. injection Ec as <-.
  assert (Ly : vadd (mv (weight (last_layer N)) (hidden_eval (hidden N) x)) (bias_of (last_layer N))
          = net_eval N x).
  { unfold net_eval. rewrite <- lin_eval_bias; auto.
    rewrite (hidden_eval_length _ _ _ _ Wh Lx). apply Wl. }
  split; auto. split; auto. split; [apply bins_pick|]. split; [apply M7; auto|].
  rewrite (warm_iff _ n N _ _ _ _ _ _ W O L1 L2 I1 I2 E3 Bx S1).
  destruct (num_units_pre _ _ _ _ Wh Lx) as [T1 T2].
  split; intros Q i Hi.
  - intros Hl. destruct (Q i Hi) as (_ & _ & _ & Q4 & _). specialize (Q4 Hl).
    destruct (Rltb 0 _) eqn:Er; [apply Rltb_true in Er; auto|lra].
  - specialize (Q i Hi). destruct (in_box_nth_inv _ _ _ i S1 ltac:(lia)) as [Z1 Z2].
    destruct (Rltb 0 (nth i (concat (pre_acts (hidden N) x)) 0)) eqn:Er;
      [apply Rltb_true in Er|apply Rltb_false in Er]; unfold unit_binary.
    + split; [right; auto|]. repeat apply conj; intros; lra.
    + split; [left; auto|]. repeat apply conj; intros; try lra; specialize (Q H); lra.
Qed.

(** The binaries written by set_activation_warmstart (1 iff the input of the
    unit is at least zero): feasible iff no unit with negative lower and
    nonpositive upper bound has input exactly zero. *)
Lemma warm_pattern_exact : forall n meth N x_lo x_up c B out x,
  net_wf n N -> no_slope_one (hidden N) -> length x_lo = n -> length x_up = n ->
  output_constraint solve meth N x_lo x_up = Some (c, B, out) ->
  in_box x_lo x_up x ->
  ((exists z, mic_sat c x z (warmstart_binaries N x)) <->
   forall i, (i < num_units (hidden N))%nat -> nth i (b_pre_lo B) 0 < 0 ->
     nth i (b_pre_up B) 0 <= 0 -> nth i (concat (pre_acts (hidden N) x)) 0 < 0).
Proof.
  intros n meth N x_lo x_up c B [lo up] x W O L1 L2 H Bx.
  destruct (network_bounds solve Hsolve n _ _ _ _ _ _ _ _ W L1 L2 H) as [S _].
  destruct (S x Bx) as (S1 & _ & _).
  unfold output_constraint in H.
  destruct (vleb x_lo x_up); [|discriminate]. cbn [negb] in H.
  destruct (compute_layer_bound solve meth N x_lo x_up) as [B'|] eqn:E1; [|discriminate].
  destruct (compute_network_output_bounds solve meth N (b_pre_lo B') (b_pre_up B') x_lo x_up)
    as [out'|] eqn:E2; [|discriminate].
  destruct (output_constraint_given_bounds N (b_pre_lo B') (b_pre_up B') x_lo x_up)
    as [c'|] eqn:E3; [|discriminate].
  injection H as <- <- ->.
  destruct (layer_bound_spec solve Hsolve n _ _ _ _ _ W L1 L2 E1) as (z1 & z2 & I1 & I2 & _).
  assert (W' := W). destruct W' as (Hh & Wh & Wl).
  assert (Lx : length x = n) by (apply in_box_lengths in Bx; lia).
  destruct (num_units_pre _ _ _ _ Wh Lx) as [T1 T2].
  assert (Eb : warmstart_binaries N x
    = map (fun p => if Rleb 0 p then 1 else 0) (concat (pre_acts (hidden N) x))).
  { unfold warmstart_binaries.
    clear - Wh Lx. revert n x Wh Lx. generalize (in_features (last_layer N)).
    induction (hidden N) as [|[l a] hs IH]; intros out n x Wh Lx; [reflexivity|].
    destruct Wh as [Wl W]. cbn [activation_pattern pre_acts concat].
    rewrite <- lin_eval_bias by (rewrite Lx; apply Wl).
    assert (E : map (act_forward a) (lin_eval l x) = map (act_fun a) (lin_eval l x))
      by (apply map_ext; intros; apply act_forward_fun).
    rewrite E, !map_app. f_equal; [rewrite map_map; auto|].
    apply (IH out (out_features l)); auto. rewrite map_length. eapply lin_eval_length; eauto. }
  transitivity (mic_sat c' x (concat (post_acts (hidden N) x)) (warmstart_binaries N x)).
  { destruct (encoding_given_bounds n N _ _ _ _ W L1 L2 I1 I2)
      as (c0 & Ec & _ & _ & M3 & M4 & _ & M6 & M7). rewrite E3 in Ec. injection Ec as <-.
    split; [|eauto]. intros [z Hz]. assert (Hz' := Hz). apply M6 in Hz'.
    destruct Hz' as (K1 & K2 & K3 & K4). rewrite M3 in K1.
    assert (Hb : bins (warmstart_binaries N x)) by (rewrite Eb; apply bins_pick).
    destruct (net_sound _ _ _ _ _ _ _ _ Wh Lx K1 Hb K4) as [-> _]. auto. }
  rewrite Eb.
  rewrite (warm_iff _ n N _ _ _ _ _ _ W O L1 L2 I1 I2 E3 Bx S1).
  split; intros Q i Hi.
  - intros Hl Hu. destruct (Q i Hi) as (_ & _ & _ & _ & Q5). specialize (Q5 Hl Hu).
    destruct (Rleb 0 _) eqn:Er; [lra|apply Rleb_false in Er; auto].
  - specialize (Q i Hi). destruct (in_box_nth_inv _ _ _ i S1 ltac:(lia)) as [Z1 Z2].
    destruct (Rleb 0 (nth i (concat (pre_acts (hidden N) x)) 0)) eqn:Er;
      [apply Rleb_true in Er|apply Rleb_false in Er]; unfold unit_binary.
    + split; [right; auto|]. repeat apply conj; intros; try lra; specialize (Q H H0); lra.
    + split; [left; auto|]. repeat apply conj; intros; lra.
Qed.
End Solver.

(** ** A concrete network *)

Definition lin1 (k b : R) : linear := mkLin 1 [[k]] (Some [b]).
Definition net1 : network := mkNet [(lin1 1 0, Relu)] (lin1 1 0).

Lemma net1_wf : net_wf 1 net1.
Proof.
  unfold net_wf, net1, lin1. simpl. split; [discriminate|].
  unfold lin_wf. simpl. repeat split; auto.
Qed.
Lemma net1_slope : no_slope_one (hidden net1).
Proof. repeat constructor. discriminate. Qed.

Lemma no_solver_ok : solver_ok (fun _ => GOther).
Proof. intros m. exact I. Qed.

Lemma net1_bounds : exists c B out,
  output_constraint (fun _ => GOther) IA net1 [0] [1] = Some (c, B, out) /\
  nth 0 (b_pre_lo B) 0 = 0.
Proof.
  unfold output_constraint. cbn [vleb].
  rewrite (proj2 (Rleb_true 0 1)) by lra. cbn [andb negb].
  destruct (compute_layer_bound (fun _ => GOther) IA net1 [0] [1]) as [B|] eqn:E; assert (E0 := E);
    unfold compute_layer_bound in E; cbn [hidden net1 layer_bounds_loop] in E;
    unfold layer_input_bounds in E; cbn [binary_var_type in_features lin1 weight] in E;
    change (bias_of (lin1 1 0)) with [0] in E;
    destruct (compute_range_by_IA 1 [[1]] [0] [0] [1]) as [[lo up]|] eqn:R0; try discriminate.
  assert (W := net1_wf).
  destruct (layer_bound_spec _ no_solver_ok 1 IA net1 [0] [1] B W eq_refl eq_refl E0) as (z1 & z2 & I1 & I2 & _).
  destruct (encoding_given_bounds 1 net1 (b_pre_lo B) (b_pre_up B) [0] [1] W eq_refl eq_refl I1 I2)
    as (c & Ec & _).
  rewrite Ec.
  assert (R' := output_IA_total 1 net1 _ _ W I1 I2).
  unfold compute_network_output_bounds. cbn [binary_var_type].
  destruct (output_bounds_IA net1 (b_pre_lo B) (b_pre_up B)) as [out|]; [|congruence].
  exists c, B, out. split; auto.
  apply range_inv in R0. destruct R0 as (_ & _ & _ & E1 & _).
  destruct (propagate_act_layer Relu lo up) as [plo pup].
  injection E as <-. cbn [b_pre_lo app nth]. subst lo. cbn [map2 nth].
  rewrite ia_lo_cons. unfold ia_lo. simpl. rewrite (proj2 (Rltb_true 0 1)); lra.
Qed.

Lemma warm_start_refuted : exists n N x_lo x_up c B out x z be y,
  net_wf n N /\ no_slope_one (hidden N) /\ vle x_lo x_up /\
  output_constraint (fun _ => GOther) IA N x_lo x_up = Some (c, B, out) /\
  in_box x_lo x_up x /\
  compute_relu_unit_outputs_and_activation N x = (z, be, y) /\ ~ mic_sat c x z be.
Proof.
  destruct net1_bounds as (c & B & out & E & Hl).
  destruct (compute_relu_unit_outputs_and_activation net1 [0]) as [[z be] y] eqn:Hz.
  assert (Bx : in_box [0] [1] [0]).
  { split; rewrite vle_cons, vle_nil; lra. }
  exists 1%nat, net1, [0], [1], c, B, out, [0], z, be, y.
  split; [apply net1_wf|]. split; [apply net1_slope|].
  split; [rewrite vle_cons, vle_nil; lra|]. split; auto. split; auto. split; auto.
  destruct (warm_start_exact _ no_solver_ok 1 IA net1 [0] [1] c B out [0] z be y
    net1_wf net1_slope eq_refl eq_refl E Bx Hz) as (_ & _ & _ & _ & S).
  rewrite S. intros Q. specialize (Q 0%nat). simpl in Q.
  assert (0 < 1 * 0 + 0 + 0) by (apply Q; [lia|rewrite Hl; lra]). lra.
Qed.

Lemma net1_case : solver_ok (fun _ => GOther) /\ net_wf 1 net1 /\
  exists c B out, output_constraint (fun _ => GOther) IA net1 [0] [1] = Some (c, B, out).
Proof.
  split; [apply no_solver_ok|]. split; [apply net1_wf|].
  destruct net1_bounds as (c & B & out & E & _). eauto.
Qed.
Lemma ia_case : wfm (length [1; 2]) 2 [[1; -1]; [0; 3]] /\ vle [0; 1] [2; 3].
Proof. split; [split; [reflexivity|repeat constructor]|]. rewrite !vle_cons, vle_nil. lra. Qed.
Lemma lin_case : lin_wf 2 (mkLin 2 [[1; -1]; [0; 3]] None).
Proof. split; [reflexivity|]. split; [split; [reflexivity|repeat constructor]|exact I]. Qed.
Lemma act_case : vle [-1; 1] [2; 3].
Proof. rewrite !vle_cons, vle_nil. lra. Qed.
