(** With a solver that solves every feasible bounded program, computing the
    bounds and the encoding never fails, for all four methods. *)

Require Import Reals List Lra Lia.
Require Import Verif.Vec Verif.VecFacts Verif.ModelMip Verif.SpecMip Verif.SpecCore
  Verif.ModelUtils Verif.SpecUtils Verif.ProofUtils Verif.ProofMaxBox Verif.ProofMip
  Verif.ProofSat Verif.ModelNet Verif.SpecNet Verif.ProofBounds Verif.ProofNet
  Verif.ProofNetBounds.
Import ListNotations.
Open Scope R_scope.

Definition vbound (K : R) (v : vec) : Prop := Forall (fun e => Rabs e <= K) v.

Lemma norm1_cons : forall e v, norm1 (e :: v) = Rabs e + norm1 v.
Proof. reflexivity. Qed.
Lemma norm1_pos : forall v, 0 <= norm1 v.
Proof.
  induction v as [|e v IH]; [unfold norm1; simpl; lra|]. rewrite norm1_cons.
  pose proof (Rabs_pos e). lra.
Qed.
Lemma norm_dot : forall w z K, vbound K z -> 0 <= K -> Rabs (dot w z) <= norm1 w * K.
Proof.
  induction w as [|a w IH]; intros z K H HK.
  - simpl. rewrite Rabs_R0. unfold norm1; simpl; lra.
  - destruct z as [|e z].
    + simpl. rewrite Rabs_R0. apply Rmult_le_pos; auto. apply norm1_pos.
    + inversion H; subst. specialize (IH z K H3 HK). cbn [dot]. rewrite norm1_cons.
      pose proof (Rabs_triang (a * e) (dot w z)). rewrite Rabs_mult in H0.
      assert (Rabs a * Rabs e <= Rabs a * K) by (apply Rmult_le_compat_l; auto using Rabs_pos).
      lra.
Qed.

Lemma vbound_mono : forall K K' v, K <= K' -> vbound K v -> vbound K' v.
Proof. intros. eapply Forall_impl; [|exact H0]. simpl. intros; lra. Qed.

Lemma mult01 : forall k b, 0 <= b <= 1 -> - Rabs k <= k * b <= Rabs k.
Proof.
  intros k b H. unfold Rabs. destruct (Rcase_abs k).
  - assert (k * b <= 0) by nra. assert (k <= k * b) by nra. lra.
  - assert (0 <= k * b) by nra. assert (k * b <= k) by nra. lra.
Qed.

Lemma neuron_bounded : forall w b a lo up ri re rg,
  constraint_by_neuron w b a lo up = Some (ri, re, rg) ->
  forall K, 0 <= K -> exists K', 0 <= K' /\ forall z y be, length w = length z ->
    0 <= be <= 1 -> vbound K z -> nsat ri re z y be -> Rabs y <= K'.
Proof.
  intros w b a lo up ri re rg H K HK.
  assert (HN := norm1_pos).
  set (P := norm1 w * K + Rabs b).
  assert (HP : 0 <= P).
  { unfold P. pose proof (Rmult_le_pos _ _ (HN w) HK). pose proof (Rabs_pos b). lra. }
  assert (HD : forall z, vbound K z -> Rabs (dot w z + b) <= P).
  { intros z Hz. pose proof (Rabs_triang (dot w z) b). pose proof (norm_dot w z K Hz HK).
    unfold P. lra. }
  set (c := match a with Leaky c => c | Relu => 0 end).
  exists ((1 + Rabs c) * P + (1 + Rabs c) * (Rabs lo + Rabs up)).
  pose proof (Rabs_pos c) as Hc. pose proof (Rabs_pos lo) as Hl. pose proof (Rabs_pos up) as Hu.
  assert (Q0 : 0 <= Rabs c * P) by (apply Rmult_le_pos; auto).
  assert (Q1 : 0 <= Rabs c * Rabs lo) by (apply Rmult_le_pos; auto).
  assert (Q2 : 0 <= Rabs c * Rabs up) by (apply Rmult_le_pos; auto).
  split; [lra|]. intros z y be L Hb Hz S. specialize (HD z Hz).
  set (p := dot w z + b) in *.
  assert (Hp : - P <= p <= P) by (revert HD; unfold Rabs; destruct (Rcase_abs p); lra).
  assert (Hcp : - (Rabs c * P) <= c * p <= Rabs c * P).
  { assert (Rabs (c * p) <= Rabs c * P).
    { rewrite Rabs_mult. apply Rmult_le_compat_l; auto. }
    revert H0; unfold Rabs at 1; destruct (Rcase_abs (c * p)); lra. }
  assert (T : -((1 + Rabs c) * P + (1 + Rabs c) * (Rabs lo + Rabs up)) <= y
              <= (1 + Rabs c) * P + (1 + Rabs c) * (Rabs lo + Rabs up)).
  2:{ unfold Rabs at 1. destruct (Rcase_abs y); lra. }
  unfold constraint_by_neuron in H.
  destruct (Rltb lo 0 && Rltb 0 up)%bool eqn:E.
  - destruct (match a with Relu => replace_relu lo up | Leaky c => replace_leaky_relu c lo up end)
      as [rw|] eqn:R; [|discriminate].
    injection H as <- <- <-. apply (neuron_big w b a lo up z y be rw L R) in S. fold p in S.
    pose proof (mult01 up be Hb) as Mu. pose proof (mult01 lo be Hb) as Ml.
    destruct a as [|s].
    + unfold replace_relu in R. rewrite E in R. injection R as <-.
      rewrite sat4_4 in S. unfold c in *. rewrite Rabs_R0 in *. lra.
    + unfold replace_leaky_relu in R. rewrite E in R. unfold c in *.
      assert (Mu' : - (Rabs s * Rabs up) <= s * (up * be) <= Rabs s * Rabs up).
      { pose proof (mult01 (s * up) be Hb). rewrite Rabs_mult in H.
        replace (s * (up * be)) with (s * up * be) by ring. lra. }
      assert (Ml' : - (Rabs s * Rabs lo) <= s * (lo * be) <= Rabs s * Rabs lo).
      { pose proof (mult01 (s * lo) be Hb). rewrite Rabs_mult in H.
        replace (s * (lo * be)) with (s * lo * be) by ring. lra. }
      clear HD. 
      destruct (Rleb s 1) eqn:Es; injection R as <-; rewrite sat4_4 in S; lra.
  - destruct (Rleb 0 lo); injection H as <- <- <-; apply neuron_fixed in S; auto;
      fold p in S; destruct S as (_ & -> & _).
    + lra.
    + fold c. lra.
Qed.

Lemma neurons_bounded : forall a W b lo up n, Forall (fun w => length w = n) W ->
  forall K, 0 <= K -> exists K', 0 <= K' /\ forall z ys bes, length z = n ->
    Forall (fun be => 0 <= be <= 1) bes -> vbound K z ->
    neurons a z W b lo up ys bes -> vbound K' ys.
Proof.
  intros a W. induction W as [|w W IH]; intros b lo up n F K HK.
  - exists 0. split; [lra|]. intros z ys bes _ _ _ H.
    destruct b, lo, up, ys, bes; simpl in H; try contradiction. constructor.
  - destruct b as [|bj b], lo as [|l lo], up as [|u up];
      try (exists 0; split; [lra|]; intros z ys bes _ _ _ H; simpl in H; contradiction).
    inversion F; subst.
    destruct (constraint_by_neuron w bj a l u) as [[[ri re] rg]|] eqn:E;
      [|destruct (neuron_total _ _ _ _ _ E)].
    destruct (neuron_bounded _ _ _ _ _ _ _ _ E K HK) as (K1 & P1 & Q1).
    destruct (IH b lo up _ H2 K HK) as (K2 & P2 & Q2).
    exists (Rmax K1 K2). split; [pose proof (Rmax_l K1 K2); lra|].
    intros z ys bes L B Hz N. destruct ys as [|y ys], bes as [|be bes];
      try (simpl in N; contradiction).
    cbn [neurons] in N. destruct N as [(r1 & r2 & r3 & E' & S) N].
    rewrite E in E'. injection E' as <- <- <-. inversion B; subst.
    constructor.
    + apply Rle_trans with K1; [|apply Rmax_l]. apply (Q1 z y be); auto.
    + apply vbound_mono with K2; [apply Rmax_r|]. eapply Q2; eauto.
Qed.

Lemma program_layers_bounded : forall vt hs n out off lo up zv m m' zv',
  vt <> VCont ->
  program_layers hs off lo up vt zv m = Some (m', zv') ->
  hidden_wf n hs out -> zv_ok n m zv ->
  forall K, 0 <= K -> exists K', 0 <= K' /\ forall sg, gfeas m' sg ->
    vbound K (map sg zv) -> vbound K' (map sg zv').
Proof.
  intros vt hs. induction hs as [|[l a] hs IH];
    intros n out off lo up zv m m' zv' V H W Z K HK.
  - injection H as <- <-. exists K. auto.
  - cbn [program_layers] in H.
    destruct (program_layer l a zv (slice off (out_features l) lo)
                (slice off (out_features l) up) vt m) as [[m1 yv]|] eqn:P; [|discriminate].
    destruct W as [Wl W].
    destruct (program_layer_spec n _ _ _ _ _ _ _ _ _ P Wl Z) as (G1 & Z1 & [bv S1] & X1).
    destruct (program_layers_spec _ _ _ _ _ _ _ _ _ _ _ H W Z1) as (G2 & _).
    destruct (neurons_bounded a (weight l) (bias_of l) (slice off (out_features l) lo)
      (slice off (out_features l) up) n (proj2 (proj1 (proj2 Wl))) K HK) as (K1 & P1 & Q1).
    destruct (IH _ _ _ _ _ _ _ _ _ V H W Z1 K1 P1) as (K2 & P2 & Q2).
    exists K2. split; auto. intros sg G B. apply Q2; auto.
    assert (G' : gfeas m1 sg) by (apply G2; auto).
    apply S1 in G'. destruct G' as (_ & _ & D & N).
    eapply Q1; try exact N; auto.
    + rewrite map_length. apply Z.
    + destruct vt; [congruence| |exact D].
      simpl in D. eapply Forall_impl; [|exact D]. intros e [->| ->]; lra.
Qed.

Section Total.
Variable solve : mip -> gresult.
Hypothesis Hsolve : solver_ok solve.
Hypothesis Htotal : solver_total solve.

Lemma box_bound : forall lo up, exists K, 0 <= K /\ forall x, in_box lo up x -> vbound K x.
Proof.
  induction lo as [|l lo IH]; intros up.
  - exists 0. split; [lra|]. intros x [H _]. inversion H. constructor.
  - destruct up as [|u up].
    + exists 0. split; [lra|]. intros x [H1 H2]. inversion H2; subst. inversion H1.
    + destruct (IH up) as (K & P & Q). exists (Rmax K (Rabs l + Rabs u)).
      split; [pose proof (Rmax_l K (Rabs l + Rabs u)); lra|].
      intros x [H1 H2]. destruct x as [|v x]; [inversion H1|].
      rewrite vle_cons in H1, H2. constructor.
      * apply Rle_trans with (Rabs l + Rabs u); [|apply Rmax_r].
        unfold Rabs. destruct (Rcase_abs v), (Rcase_abs l), (Rcase_abs u); lra.
      * apply vbound_mono with K; [apply Rmax_l|]. apply Q. split; tauto.
Qed.

Lemma bound_total : forall n hs out w b pre_lo pre_up x_lo x_up vt,
  vt <> VCont -> hidden_wf n hs out -> length x_lo = n -> length x_up = n ->
  length pre_lo = num_units hs -> length pre_up = num_units hs ->
  (exists x, in_box x_lo x_up x /\ in_box pre_lo pre_up (concat (pre_acts hs x))) ->
  bound_by_optimization solve hs w b pre_lo pre_up x_lo x_up vt <> None.
Proof.
  intros n hs out w b pre_lo pre_up x_lo x_up vt V W Lx Ux Lp Up [x [Bx Bp]].
  unfold bound_by_optimization.
  destruct (addVars (combine (map Fin x_lo) (map Fin x_up)) VCont init_mip) as [m0 xv] eqn:A.
  destruct (addVars_fields _ _ _ _ _ A) as (_ & _ & I & N).
  change (nvars init_mip) with 0%nat in I, N.
  rewrite combine_length, !map_length, Lx, Ux, Nat.min_id in I, N.
  assert (Z : zv_ok n m0 xv).
  { split; [subst xv; apply seq_length|]. split; [subst xv; apply below_seqs; lia|].
    split; [subst xv; apply seq_NoDup|]. apply Forall_forall.
    intros v Hv. eapply addVars_known_new; eauto. }
  assert (W0 : wf_mip m0) by (eapply wf_addVars; eauto; constructor).
  destruct (program_layers hs 0 pre_lo pre_up vt xv m0) as [[m1 zv]|] eqn:P.
  2:{ exfalso. revert P. eapply program_layers_total; eauto; lia. }
  destruct (program_layers_spec _ _ _ _ _ _ _ _ _ _ _ P W Z) as (G & Z1 & S & X).
  destruct (setObjective_ok _ _ _ w b true Z1) as (m2 & O2 & M2 & Z2 & _ & F2 & J2).
  rewrite O2.
  destruct (setObjective_ok _ _ _ w b false Z2) as (m3 & O3 & M3 & Z3 & _ & F3 & J3).
  rewrite O3.
  assert (Fe : exists s1, gfeas m1 s1).
  { assert (GI : gfeas init_mip (fun _ => 0)).
    { split; [intros i v Hi; destruct i; discriminate|constructor]. }
    destruct (addVars_extend _ _ _ _ _ (fun _ => 0) x A) as (E1 & E2 & E3); auto.
    { constructor. }
    { apply vars_ok_box; auto. congruence. }
    set (s0 := override _ _ _) in *.
    destruct (X s0) as (s1 & K1 & _); auto.
    { rewrite E3. cbn [skipn]. rewrite <- Lp at 1. rewrite <- Up.
      rewrite !firstn_all. auto. }
    exists s1; auto. }
  destruct Fe as [s1 Fe].
  assert (Bd : exists K, forall sg, gfeas m1 sg -> Rabs (dot w (map sg zv) + b) <= K).
  { destruct (box_bound x_lo x_up) as (K & HK & QK).
    destruct (program_layers_bounded _ _ _ _ _ _ _ _ _ _ _ V P W Z K HK) as (K' & HK' & Q').
    exists (norm1 w * K' + Rabs b). intros sg Gs.
    assert (vbound K' (map sg zv)).
    { apply Q'; auto. apply QK. apply G in Gs. apply (gfeas_addVars _ _ _ _ _ sg A) in Gs.
      destruct Gs as [_ Gs]. apply vars_ok_box in Gs; auto. congruence. }
    pose proof (norm_dot w _ K' H HK'). pose proof (Rabs_triang (dot w (map sg zv)) b). lra. }
  destruct Bd as [K Bd].
  destruct (Htotal m2) as [u Eu].
  { exists s1. apply F2. auto. }
  { exists K. intros sg Gs. rewrite J2. apply Bd. apply F2. auto. }
  destruct (Htotal m3) as [l El].
  { exists s1. apply F3, F2. auto. }
  { exists K. intros sg Gs. rewrite J3. apply Bd. apply F2, F3. auto. }
  rewrite Eu, El. discriminate.
Qed.

Lemma all_some_total : forall {A B C} (f : A -> B -> option C) l1 l2,
  (forall a b, In a l1 -> In b l2 -> f a b <> None) -> all_some (map2 f l1 l2) <> None.
Proof.
  intros A B C f l1. induction l1 as [|x l1 IH]; intros l2 H; [discriminate|].
  destruct l2 as [|y l2]; [discriminate|]. simpl.
  destruct (f x y) eqn:E; [|exfalso; revert E; apply H; left; auto].
  destruct (all_some (map2 f l1 l2)) eqn:F; [discriminate|].
  exfalso. revert F. apply IH. intros; apply H; right; auto.
Qed.

Lemma optimize_rows_total : forall n prev k l pre_lo pre_up x_lo x_up vt,
  vt <> VCont ->
  hidden_wf n prev k -> lin_wf k l -> length x_lo = n -> length x_up = n ->
  length pre_lo = num_units prev -> length pre_up = num_units prev ->
  (exists x, in_box x_lo x_up x /\ in_box pre_lo pre_up (concat (pre_acts prev x))) ->
  optimize_rows solve prev l pre_lo pre_up x_lo x_up vt <> None.
Proof.
  intros. unfold optimize_rows. apply all_some_total. intros. eapply bound_total; eauto.
Qed.

Lemma layer_input_total : forall n meth prev k l in_lo in_up pre_lo pre_up x_lo x_up,
  hidden_wf n prev k -> lin_wf k l -> length x_lo = n -> length x_up = n ->
  length pre_lo = num_units prev -> length pre_up = num_units prev ->
  length in_lo = k -> length in_up = k ->
  (exists x, in_box x_lo x_up x /\ in_box pre_lo pre_up (concat (pre_acts prev x))) ->
  layer_input_bounds solve meth prev l in_lo in_up pre_lo pre_up x_lo x_up <> None.
Proof.
  intros n meth prev k l in_lo in_up pre_lo pre_up x_lo x_up W Wl L1 L2 P1 P2 I1 I2 Ex.
  assert (R : compute_range_by_IA (in_features l) (weight l) (bias_of l) in_lo in_up <> None).
  { destruct Wl as (If & Wl'). apply range_total; [eapply bias_length; split; eauto|congruence|congruence]. }
  assert (O : forall vt, vt <> VCont -> optimize_rows solve prev l pre_lo pre_up x_lo x_up vt <> None)
    by (intros; eapply optimize_rows_total; eauto).
  unfold layer_input_bounds. destruct meth; cbn [binary_var_type]; auto.
  - specialize (O VBinRelax ltac:(discriminate)).
    destruct (optimize_rows solve prev l pre_lo pre_up x_lo x_up VBinRelax); congruence.
  - specialize (O VBin ltac:(discriminate)).
    destruct (optimize_rows solve prev l pre_lo pre_up x_lo x_up VBin); congruence.
  - specialize (O VBin ltac:(discriminate)).
    destruct (optimize_rows solve prev l pre_lo pre_up x_lo x_up VBin); [|congruence].
    destruct (compute_range_by_IA _ _ _ _ _) as [[? ?]|]; congruence.
Qed.

Lemma layer_loop_bounds_total : forall n meth x_lo x_up hs prev in_lo in_up acc k out,
  hidden_wf n prev k -> hidden_wf k hs out -> length x_lo = n -> length x_up = n ->
  vle x_lo x_up ->
  acc_inv n meth x_lo x_up prev in_lo in_up acc ->
  layer_bounds_loop solve meth x_lo x_up prev hs in_lo in_up acc <> None.
Proof.
  intros n meth x_lo x_up hs. induction hs as [|[l a] hs IH];
    intros prev in_lo in_up acc k out W1 W2 L1 L2 Bx Iv; [discriminate|].
  cbn [layer_bounds_loop].
  destruct W2 as [Wl W2].
  assert (Iv' := Iv). destruct Iv' as (I1 & I2 & I3 & I4).
  assert (B0 : in_box x_lo x_up x_lo) by (split; [apply vle_refl|auto]).
  destruct (I3 _ B0) as (B1 & B2 & B3).
  assert (LE := hidden_eval_length _ _ _ _ W1 L1).
  destruct (in_box_lengths _ _ _ B3) as [E1 E2].
  assert (T := layer_input_total n meth prev k l in_lo in_up (b_pre_lo acc) (b_pre_up acc)
    x_lo x_up W1 Wl L1 L2 I1 I2 ltac:(congruence) ltac:(congruence)
    (ex_intro _ x_lo (conj B0 B1))).
  destruct (layer_input_bounds solve meth prev l in_lo in_up (b_pre_lo acc) (b_pre_up acc)
                x_lo x_up) as [[lo up]|] eqn:E; [|congruence].
  destruct (propagate_act_layer a lo up) as [plo pup] eqn:Ep.
  assert (W1' : hidden_wf n (prev ++ [(l, a)]) (out_features l)).
  { apply hidden_wf_app. exists k. split; auto. simpl. auto. }
  eapply IH; eauto.
  eapply layer_step_inv; eauto.
Qed.

Lemma output_IA_total : forall n N pre_lo pre_up, net_wf n N ->
  length pre_lo = num_units (hidden N) -> length pre_up = num_units (hidden N) ->
  output_bounds_IA N pre_lo pre_up <> None.
Proof.
  intros n N pre_lo pre_up (Hh & W & Wl) P1 P2. unfold output_bounds_IA, last_units.
  destruct (rev (hidden N)) as [|[l a] t] eqn:E.
  { exfalso. apply Hh. rewrite <- (rev_involutive (hidden N)), E. auto. }
  assert (Lz : length (zeros n) = n) by apply zeros_length.
  destruct (last_slice _ _ _ _ _ _ (zeros n) W Lz E) as [_ [Eo Le]].
  set (q := (num_units (hidden N) - out_features l)%nat).
  destruct (propagate_act_layer a _ _) as [plo pup] eqn:Ep.
  assert (S1 : length (slice q (out_features l) pre_lo) = out_features l)
    by (apply slice_length; unfold q; lia).
  assert (S2 : length (slice q (out_features l) pre_up) = out_features l)
    by (apply slice_length; unfold q; lia).
  destruct (act_layer_lengths a _ _ (eq_trans S1 (eq_sym S2))) as [A1 A2].
  rewrite Ep in A1, A2. cbn [fst snd] in A1, A2.
  apply range_total; [eapply bias_length; eauto|congruence|congruence].
Qed.

Lemma vleb_spec : forall a b, vleb a b = true <-> vle a b.
Proof.
  induction a as [|x a IH]; destruct b as [|y b]; simpl.
  - split; auto. intros; constructor.
  - split; [discriminate|intros H; inversion H].
  - split; [discriminate|intros H; inversion H].
  - rewrite Bool.andb_true_iff, Rleb_true, IH, vle_cons. tauto.
Qed.

Lemma output_constraint_total : forall n meth N x_lo x_up, net_wf n N ->
  length x_lo = n -> length x_up = n ->
  (output_constraint solve meth N x_lo x_up = None <-> ~ vle x_lo x_up).
Proof.
  intros n meth N x_lo x_up W L1 L2. unfold output_constraint.
  destruct (vleb x_lo x_up) eqn:Ev; cbn [negb].
  2:{ split; auto. intros _ H. apply vleb_spec in H. congruence. }
  apply vleb_spec in Ev. split; [|tauto]. intros H. exfalso. revert H.
  assert (W' := W). destruct W' as (Hh & Wh & Wl).
  assert (T : compute_layer_bound solve meth N x_lo x_up <> None).
  { apply (layer_loop_bounds_total n) with (k := n) (out := in_features (last_layer N)); auto.
    - reflexivity.
    - split; auto. split; auto. split.
      + intros x Bx. split; [split; constructor|]. split; [split; constructor|]. auto.
      + simpl. intros; lia. }
  destruct (compute_layer_bound solve meth N x_lo x_up) as [B|] eqn:E1; [|congruence].
  destruct (layer_bound_spec solve Hsolve n _ _ _ _ _ W L1 L2 E1) as (z1 & z2 & I1 & I2 & I3 & _).
  destruct (encoding_given_bounds n N (b_pre_lo B) (b_pre_up B) x_lo x_up W L1 L2 I1 I2) as (c & Ec & _).
  rewrite Ec.
  assert (B0 : in_box x_lo x_up x_lo) by (split; [apply vle_refl|auto]).
  destruct (I3 _ B0) as (B1 & _).
  assert (O : forall vt, vt <> VCont ->
    optimize_rows solve (hidden N) (last_layer N) (b_pre_lo B) (b_pre_up B) x_lo x_up vt <> None).
  { intros. eapply optimize_rows_total; eauto. }
  assert (R := output_IA_total n N _ _ W I1 I2).
  assert (T2 : compute_network_output_bounds solve meth N (b_pre_lo B) (b_pre_up B) x_lo x_up <> None).
  { unfold compute_network_output_bounds. destruct meth; cbn [binary_var_type]; auto.
    - specialize (O VBinRelax ltac:(discriminate)).
      destruct (optimize_rows _ _ _ _ _ _ _ VBinRelax); congruence.
    - specialize (O VBin ltac:(discriminate)).
      destruct (optimize_rows _ _ _ _ _ _ _ VBin); congruence.
    - specialize (O VBin ltac:(discriminate)).
      destruct (optimize_rows _ _ _ _ _ _ _ VBin); [|congruence].
      destruct (output_bounds_IA _ _ _) as [[? ?]|]; congruence. }
  destruct (compute_network_output_bounds solve meth N (b_pre_lo B) (b_pre_up B) x_lo x_up);
    [discriminate|congruence].
Qed.
End Total.
