(** The mixed-integer encoding of a network (C13) — lemmas. *)

Require Import Reals List Bool Arith Lra Lia.
Require Import Verif.Vec Verif.VecFacts Verif.ModelMip Verif.SpecMip
  Verif.ModelUtils Verif.ModelNet Verif.SpecCore Verif.SpecUtils Verif.SpecNet
  Verif.ProofUtils Verif.ProofMaxBox Verif.ProofMip Verif.ProofConcat Verif.ProofBounds.
Import ListNotations.
Open Scope R_scope.

(** ** One neuron *)

Definition nlhs (r : nrows) (z : vec) (y be : R) : vec :=
  vadd (vadd (mv (n_x r) z) (vscale y (n_y r))) (vscale be (n_b r)).
Definition nsat (ri re : nrows) (z : vec) (y be : R) : Prop :=
  vle (nlhs ri z y be) (n_rhs ri) /\ nlhs re z y be = n_rhs re.

Definition nwf (n : nat) (r : nrows) : Prop :=
  wfm (length (n_rhs r)) n (n_x r) /\ length (n_y r) = length (n_rhs r) /\
  length (n_b r) = length (n_rhs r).

Lemma mv_outer : forall a w z, mv (outer a w) z = vscale (dot w z) a.
Proof.
  intros. transitivity (map (fun k => dot w z * k) a); [|reflexivity].
  unfold mv, outer. rewrite map_map. apply map_ext. intros k.
  rewrite dot_vscale_l. ring.
Qed.

Lemma vle_shift : forall p b X Y B r, length X = length r -> length Y = length r ->
  length B = length r ->
  (vle (vadd (vadd (vscale p X) Y) B) (vsub r (vscale b X)) <->
   vle (vadd (vadd (vscale (p + b) X) Y) B) r).
Proof.
  intros p b X. induction X as [|x X IH]; intros Y B r L1 L2 L3;
    destruct Y as [|y Y], B as [|c B], r as [|q r]; try discriminate.
  - cbn. tauto.
  - cbn [vscale map vadd map2 vsub]. rewrite !vle_cons.
    fold (vscale p X) (vscale b X) (vscale (p + b) X).
    fold (vadd (vscale p X) Y) (vadd (vscale (p + b) X) Y).
    fold (vadd (vadd (vscale p X) Y) B) (vadd (vadd (vscale (p + b) X) Y) B).
    fold (vsub r (vscale b X)).
    rewrite IH by (simpl in *; lia). intuition lra.
Qed.

Lemma rw_lengths : forall a lo up rw,
  match a with Relu => replace_relu lo up | Leaky c => replace_leaky_relu c lo up end = Some rw ->
  length (rw_x rw) = 4%nat /\ length (rw_y rw) = 4%nat /\ length (rw_b rw) = 4%nat /\
  length (rw_rhs rw) = 4%nat.
Proof.
  intros a lo up rw. destruct a; unfold replace_relu, replace_leaky_relu;
    destruct (Rltb lo 0 && Rltb 0 up)%bool; try discriminate.
  - intros H. injection H as H. subst. auto.
  - intros H. injection H as H. subst. destruct (Rleb c 1); simpl; auto.
Qed.

Lemma neuron_big : forall w b a lo up z y be rw, length w = length z ->
  match a with Relu => replace_relu lo up | Leaky c => replace_leaky_relu c lo up end = Some rw ->
  (nsat (mkN (outer (rw_x rw) w) (rw_y rw) (rw_b rw)
                  (vsub (rw_rhs rw) (vscale b (rw_x rw)))) (mkN [] [] [] []) z y be
   <-> sat4 rw (dot w z + b) y be).
Proof.
  intros w b a lo up z y be rw L H. destruct (rw_lengths _ _ _ _ H) as (L1 & L2 & L3 & L4).
  unfold nsat, nlhs, sat4. cbn [n_x n_y n_b n_rhs]. rewrite mv_outer.
  rewrite vle_shift by (rewrite ?vscale_length; congruence).
  cbn. tauto.
Qed.

Lemma neuron_fixed : forall w b lo up slope bv z y be, length w = length z ->
  (nsat (mkN [w; vneg w] [0; 0] [0; 0] [up - b; b - lo])
        (mkN [vscale (- slope) w; zeros (length w)] [1; 0] [0; 1] [slope * b; bv]) z y be
   <-> lo <= dot w z + b <= up /\ y = slope * (dot w z + b) /\ be = bv).
Proof.
  intros. unfold nsat, nlhs. cbn [n_x n_y n_b n_rhs mv map vscale vadd map2].
  rewrite dot_vneg_l, dot_zeros_l, dot_vscale_l.
  rewrite !vle_cons, vle_nil, !cons_eq_iff, nil_eq_iff.
  set (p := dot w z). replace (slope * (p + b)) with (slope * p + slope * b) by ring.
  intuition lra.
Qed.

(** Which binary values are possible. *)
Definition unit_binary (a : act) (lo up p be : R) : Prop :=
  is_bin be /\ (be = 1 -> 0 <= p) /\ (be = 0 -> p <= 0) /\
  (0 <= lo -> be = 1) /\ (lo < 0 -> up <= 0 -> be = 0).

Lemma act_nonneg : forall a p, 0 <= p -> act_fun a p = p.
Proof.
  intros [|c] p H; simpl.
  - destruct (relu_cases p) as [[? ->]|[? ?]]; lra.
  - apply leaky_nonneg; auto.
Qed.
Lemma act_nonpos : forall a p, p <= 0 ->
  act_fun a p = (match a with Leaky c => c | Relu => 0 end) * p.
Proof.
  intros [|c] p H; simpl.
  - destruct (relu_cases p) as [[? ->]|[? ->]]; lra.
  - apply leaky_nonpos; auto.
Qed.

Lemma leaky_exact' : forall a lo up rw x y be,
  a <> 1 -> replace_leaky_relu a lo up = Some rw -> is_bin be ->
  (sat4 rw x y be <->
   (lo <= x <= up /\ y = leaky a x /\ (be = 1 -> 0 <= x) /\ (be = 0 -> x <= 0))).
Proof.
  intros a lo up rw x y be Ha H B. rewrite (leaky_exact a lo up rw) by auto. split.
  - intros [? [[? [? ->]]|[? [? ->]]]]; (split; [auto|]).
    + rewrite leaky_nonneg by auto. split; auto. split; intros; lra.
    + rewrite leaky_nonpos by auto. split; auto. split; intros; lra.
  - intros [? [-> [P Q]]]. split; auto. destruct B as [->| ->].
    + right. specialize (Q eq_refl). rewrite leaky_nonpos by auto. auto.
    + left. specialize (P eq_refl). rewrite leaky_nonneg by auto. auto.
Qed.

Lemma neuron_total : forall w b a lo up, constraint_by_neuron w b a lo up <> None.
Proof.
  intros. unfold constraint_by_neuron. destruct (Rltb lo 0 && Rltb 0 up)%bool eqn:E.
  - destruct a; unfold replace_relu, replace_leaky_relu; rewrite E; discriminate.
  - destruct (Rleb 0 lo); discriminate.
Qed.

Lemma neuron_wf : forall w b a lo up ri re rg,
  constraint_by_neuron w b a lo up = Some (ri, re, rg) ->
  nwf (length w) ri /\ nwf (length w) re.
Proof.
  intros w b a lo up ri re rg H. unfold constraint_by_neuron in H.
  destruct (Rltb lo 0 && Rltb 0 up)%bool.
  - destruct (match a with Relu => replace_relu lo up
              | Leaky c => replace_leaky_relu c lo up end) as [rw|] eqn:E; [|discriminate].
    destruct (rw_lengths _ _ _ _ E) as (L1 & L2 & L3 & L4).
    injection H as H1 H2 _. subst. unfold nwf, wfm. cbn [n_x n_y n_b n_rhs].
    assert (L : length (vsub (rw_rhs rw) (vscale b (rw_x rw))) = 4%nat).
    { rewrite vsub_length; auto. rewrite vscale_length. congruence. }
    rewrite L. split; [split; [split|split; auto]|split; [split|split; auto]]; auto.
    + unfold outer. rewrite map_length. auto.
    + unfold outer. apply Forall_forall. intros r Hr. apply in_map_iff in Hr.
      destruct Hr as [k [<- _]]. apply vscale_length.
  - destruct (Rleb 0 lo); injection H as H1 H2 _; subst; unfold nwf, wfm;
      cbn [n_x n_y n_b n_rhs length];
      (split; [split; [split|split; auto]|split; [split|split; auto]]); auto;
      repeat (apply Forall_cons); auto; rewrite ?vneg_length, ?vscale_length, ?zeros_length; auto.
Qed.

Lemma neuron_sound : forall w b a lo up ri re rg z y be,
  constraint_by_neuron w b a lo up = Some (ri, re, rg) ->
  length w = length z -> is_bin be -> nsat ri re z y be ->
  y = act_fun a (dot w z + b) /\
  (a <> Leaky 1 -> lo <= dot w z + b <= up /\
     unit_binary a lo up (dot w z + b) be).
Proof.
  intros w b a lo up ri re rg z y be H L B S. unfold constraint_by_neuron in H.
  destruct (Rltb lo 0 && Rltb 0 up)%bool eqn:E.
  - destruct (match a with Relu => replace_relu lo up
              | Leaky c => replace_leaky_relu c lo up end) as [rw|] eqn:F; [|discriminate].
    injection H as H1 H2 _. subst ri re. apply (neuron_big w b a lo up) in S; auto.
    apply andb_true_iff in E. destruct E as [E1 E2]. apply Rltb_true in E1. apply Rltb_true in E2.
    destruct a as [|c].
    + apply (relu_exact lo up rw) in S; auto. destruct S as [S1 [S2 [S3 S4]]].
      simpl. split; auto. intros _. split; auto. unfold unit_binary.
      split; auto. split; auto. split; auto. split; intros; lra.
    + destruct (Req_dec c 1) as [->|Hc].
      * split; [|intros K; congruence]. simpl. rewrite leaky_1.
        apply (leaky_exact_slope1 lo up rw) in S; auto.
      * apply (leaky_exact' c lo up rw) in S; auto. destruct S as [S1 [S2 [S3 S4]]].
        simpl. split; auto. intros _. split; auto. unfold unit_binary.
        split; auto. split; auto. split; auto. split; intros; lra.
  - apply andb_false_iff in E.
    destruct (Rleb 0 lo) eqn:E1; [apply Rleb_true in E1|apply Rleb_false in E1];
      injection H as H1 H2 _; subst ri re; apply neuron_fixed in S; auto;
      destruct S as [S1 [S2 S3]]; set (p := dot w z + b) in *.
    + rewrite act_nonneg by lra. split; [lra|]. intros _. split; auto.
      unfold unit_binary. split; auto. split; [intros; lra|]. split; [intros; lra|].
      split; intros; lra.
    + assert (up <= 0).
      { destruct E as [E|E]; apply Rltb_false in E; lra. }
      rewrite act_nonpos by lra. split; auto. intros _. split; auto.
      unfold unit_binary. split; auto. split; [intros; lra|]. split; [intros; lra|].
      split; intros; lra.
Qed.

Lemma neuron_complete : forall w b a lo up ri re rg z be,
  constraint_by_neuron w b a lo up = Some (ri, re, rg) ->
  length w = length z -> lo <= dot w z + b <= up ->
  unit_binary a lo up (dot w z + b) be ->
  nsat ri re z (act_fun a (dot w z + b)) be.
Proof.
  intros w b a lo up ri re rg z be H L R U. destruct U as (B & U1 & U0 & U2 & U3).
  unfold constraint_by_neuron in H.
  destruct (Rltb lo 0 && Rltb 0 up)%bool eqn:E.
  - destruct (match a with Relu => replace_relu lo up
              | Leaky c => replace_leaky_relu c lo up end) as [rw|] eqn:F; [|discriminate].
    injection H as H1 H2 _. subst ri re. apply (neuron_big w b a lo up); auto.
    apply andb_true_iff in E. destruct E as [E1 E2]. apply Rltb_true in E1. apply Rltb_true in E2.
    destruct a as [|c].
    + apply (relu_exact lo up rw); auto.
    + destruct (Req_dec c 1) as [->|Hc].
      * apply (leaky_exact_slope1 lo up rw); auto. simpl. apply leaky_1.
      * apply (leaky_exact' c lo up rw); auto.
  - apply andb_false_iff in E.
    destruct (Rleb 0 lo) eqn:E1; [apply Rleb_true in E1|apply Rleb_false in E1];
      injection H as H1 H2 _; subst ri re; apply neuron_fixed; auto;
      set (p := dot w z + b) in *.
    + rewrite act_nonneg by lra. split; auto. split; [lra|auto].
    + assert (up <= 0).
      { destruct E as [E|E]; apply Rltb_false in E; lra. }
      rewrite act_nonpos by lra. split; auto.
Qed.

(** A binary that works for a pre-activation in the range. *)
Definition pick_binary (lo up p : R) : R :=
  if Rleb 0 lo then 1 else if Rleb up 0 then 0 else if Rltb 0 p then 1 else 0.
Lemma pick_binary_ok : forall a lo up p, lo <= p <= up ->
  unit_binary a lo up p (pick_binary lo up p).
Proof.
  intros. unfold unit_binary, pick_binary.
  destruct (Rleb 0 lo) eqn:E1; [apply Rleb_true in E1|apply Rleb_false in E1].
  - split; [right; auto|]. split; [lra|]. split; [lra|]. split; lra.
  - destruct (Rleb up 0) eqn:E2; [apply Rleb_true in E2|apply Rleb_false in E2].
    + split; [left; auto|]. split; [lra|]. split; [lra|]. split; lra.
    + destruct (Rltb 0 p) eqn:E3; [apply Rltb_true in E3|apply Rltb_false in E3].
      * split; [right; auto|]. split; [lra|]. split; [lra|]. split; lra.
      * split; [left; auto|]. split; [lra|]. split; [lra|]. split; lra.
Qed.

(** ** The neurons of a layer *)

Fixpoint neurons (a : act) (z : vec) (W : mat) (b lo up ys bes : vec) : Prop :=
  match W, b, lo, up, ys, bes with
  | [], [], [], [], [], [] => True
  | w :: W', bj :: b', l :: lo', u :: up', y :: ys', be :: bes' =>
      (exists ri re rg, constraint_by_neuron w bj a l u = Some (ri, re, rg) /\
                        nsat ri re z y be) /\
      neurons a z W' b' lo' up' ys' bes'
  | _, _, _, _, _, _ => False
  end.

Fixpoint units_binary (a : act) (lo up p bes : vec) : Prop :=
  match lo, up, p, bes with
  | [], [], [], [] => True
  | l :: lo', u :: up', v :: p', be :: bes' =>
      unit_binary a l u v be /\ units_binary a lo' up' p' bes'
  | _, _, _, _ => False
  end.

Lemma neurons_sound : forall a z W b lo up ys bes,
  neurons a z W b lo up ys bes -> bins bes -> Forall (fun w => length w = length z) W ->
  ys = map (act_fun a) (vadd (mv W z) b) /\
  (a <> Leaky 1 -> in_box lo up (vadd (mv W z) b) /\
                   units_binary a lo up (vadd (mv W z) b) bes).
Proof.
  intros a z W. induction W as [|w W IH]; intros b lo up ys bes N B F;
    destruct b, lo, up, ys, bes; simpl in N; try contradiction.
  - simpl. split; auto. intros _. split; [split; constructor|auto].
  - destruct N as [[ri [re [rg [E S]]]] N]. inversion B; subst. inversion F; subst.
    destruct (neuron_sound _ _ _ _ _ _ _ _ z _ _ E H3 H1 S) as [Y M].
    destruct (IH _ _ _ _ _ N ltac:(auto) ltac:(auto)) as [Y' M'].
    cbn [mv map vadd map2]. split.
    + rewrite Y, Y'. auto.
    + intros K. destruct (M K) as [[P1 P2] P3]. destruct (M' K) as [[Q1 Q2] Q3].
      split; [split; constructor; auto|]. split; auto.
Qed.

Lemma neurons_complete : forall a z W b lo up bes,
  length b = length W -> Forall (fun w => length w = length z) W ->
  in_box lo up (vadd (mv W z) b) -> units_binary a lo up (vadd (mv W z) b) bes ->
  neurons a z W b lo up (map (act_fun a) (vadd (mv W z) b)) bes.
Proof.
  intros a z W. induction W as [|w W IH]; intros b lo up bes Lb F [B1 B2] U;
    destruct b; try discriminate; cbn [mv map vadd map2] in *.
  - inversion B1; subst. inversion B2; subst. destruct bes; simpl in *; auto.
  - inversion B1; subst. inversion B2; subst. inversion F; subst.
    destruct bes as [|be bes]; simpl in U; [contradiction|]. destruct U as [U1 U2].
    cbn [neurons map]. split.
    + destruct (constraint_by_neuron w r a x y) as [[[ri re] rg]|] eqn:E;
        [|exfalso; revert E; apply neuron_total].
      exists ri, re, rg. split; auto. eapply neuron_complete; eauto.
    + apply IH; auto. split; auto.
Qed.

Definition pick_binaries (lo up p : vec) : vec :=
  map2 (fun lu v => pick_binary (fst lu) (snd lu) v) (combine lo up) p.
Lemma pick_binaries_ok : forall a lo up p, in_box lo up p ->
  units_binary a lo up p (pick_binaries lo up p).
Proof.
  intros a lo up p [H1 H2]. revert up H2.
  induction H1 as [|l v lo p Hl H1 IH]; intros up H2; inversion H2; subst; simpl; auto.
  split; [apply pick_binary_ok; lra|apply IH; auto].
Qed.
Lemma units_binary_facts : forall a lo up p bes, units_binary a lo up p bes ->
  bins bes /\ length bes = length p.
Proof.
  intros a lo. induction lo; intros up p bes H; destruct up, p, bes; simpl in H;
    try contradiction; [split; [constructor|auto]|].
  destruct H as [[H _] H2]. apply IHlo in H2. destruct H2. split; [constructor; auto|simpl; auto].
Qed.
Lemma neurons_lengths : forall a z W b lo up ys bes, neurons a z W b lo up ys bes ->
  length ys = length W /\ length bes = length W /\ length lo = length W /\
  length up = length W /\ length b = length W.
Proof.
  intros a z W. induction W; intros b lo up ys bes H; destruct b, lo, up, ys, bes;
    simpl in H; try contradiction; simpl; auto.
  destruct H as [_ H]. apply IHW in H. lia.
Qed.

(** ** Rows of a layer *)

Definition llhs (r : lrows) (zc zn be : vec) : vec :=
  vadd (vadd (mv (l_c r) zc) (mv (l_n r) zn)) (mv (l_b r) be).
Definition lsat (ri re : lrows) (zc zn be : vec) : Prop :=
  vle (llhs ri zc zn be) (l_rhs ri) /\ llhs re zc zn be = l_rhs re.
Definition lwf (nc n : nat) (r : lrows) : Prop :=
  wfm (length (l_rhs r)) nc (l_c r) /\ wfm (length (l_rhs r)) n (l_n r) /\
  wfm (length (l_rhs r)) n (l_b r).

Lemma llhs_length : forall nc n r zc zn be, lwf nc n r ->
  length (llhs r zc zn be) = length (l_rhs r).
Proof.
  intros nc n r zc zn be [[H1 _] [[H2 _] [H3 _]]]. unfold llhs.
  assert (length (vadd (mv (l_c r) zc) (mv (l_n r) zn)) = length (l_rhs r))
    by (rewrite vadd_length; rewrite !mv_length; congruence).
  rewrite vadd_length; auto. rewrite mv_length. congruence.
Qed.

Lemma vadd_app : forall a b c d, length a = length c ->
  vadd (a ++ b) (c ++ d) = vadd a c ++ vadd b d.
Proof.
  unfold vadd. induction a; destruct c; simpl; intros; try discriminate; auto.
  f_equal. apply IHa; auto.
Qed.

Lemma llhs_app : forall nc n p q zc zn be, lwf nc n p -> lwf nc n q ->
  llhs (lapp p q) zc zn be = llhs p zc zn be ++ llhs q zc zn be.
Proof.
  intros nc n p q zc zn be Hp Hq. unfold llhs, lapp. cbn [l_c l_n l_b].
  rewrite !mv_app. destruct Hp as [[P1 _] [[P2 _] [P3 _]]].
  rewrite (vadd_app (mv (l_c p) zc)) by (rewrite !mv_length; congruence).
  rewrite vadd_app; auto. rewrite vadd_length; rewrite !mv_length; congruence.
Qed.
Lemma lwf_app : forall nc n p q, lwf nc n p -> lwf nc n q -> lwf nc n (lapp p q).
Proof.
  intros nc n p q [P1 [P2 P3]] [Q1 [Q2 Q3]]. unfold lwf, lapp. cbn [l_c l_n l_b l_rhs].
  rewrite app_length. split; [|split]; apply wfm_app; auto.
Qed.
Lemma lsat_app : forall nc n pi pe qi qe zc zn be,
  lwf nc n pi -> lwf nc n pe -> lwf nc n qi -> lwf nc n qe ->
  (lsat (lapp pi qi) (lapp pe qe) zc zn be <->
   lsat pi pe zc zn be /\ lsat qi qe zc zn be).
Proof.
  intros nc n pi pe qi qe zc zn be H1 H2 H3 H4. unfold lsat.
  rewrite (llhs_app nc n pi) by auto. rewrite (llhs_app nc n pe) by auto.
  unfold lapp. cbn [l_rhs].
  rewrite vle_app_iff by (eapply llhs_length; eauto).
  assert (E : llhs pe zc zn be ++ llhs qe zc zn be = l_rhs pe ++ l_rhs qe <->
              llhs pe zc zn be = l_rhs pe /\ llhs qe zc zn be = l_rhs qe).
  { split; [|intros [-> ->]; auto]. intros E. apply app_eq_iff in E; auto.
    eapply llhs_length; eauto. }
  rewrite E. tauto.
Qed.

Lemma mv_units : forall n j ys zn, length zn = n -> (j < n)%nat ->
  mv (map (unit_row n j) ys) zn = vscale (nth j zn 0) ys.
Proof.
  intros. transitivity (map (fun k => nth j zn 0 * k) ys); [|reflexivity].
  unfold mv. rewrite map_map. apply map_ext. intros k.
  rewrite dot_unit_row by auto. ring.
Qed.
Lemma place_wf : forall nc n j r, nwf nc r -> lwf nc n (place n j r).
Proof.
  intros nc n j r [H1 [H2 H3]]. unfold place, lwf. cbn [l_c l_n l_b l_rhs].
  split; auto. split; split; try (rewrite map_length; auto);
    apply Forall_forall; intros v Hv; apply in_map_iff in Hv; destruct Hv as [k [<- _]];
    apply unit_row_length.
Qed.
Lemma place_lhs : forall n j r zc zn be, length zn = n -> length be = n -> (j < n)%nat ->
  llhs (place n j r) zc zn be = nlhs r zc (nth j zn 0) (nth j be 0).
Proof.
  intros. unfold llhs, place, nlhs. cbn [l_c l_n l_b]. rewrite !mv_units by auto. auto.
Qed.

Lemma skipn_cons_nth : forall (l : vec) j, (j < length l)%nat ->
  skipn j l = nth j l 0 :: skipn (S j) l.
Proof.
  induction l; intros j H; simpl in H; [lia|]. destruct j; [reflexivity|].
  cbn [skipn nth]. rewrite IHl by lia. reflexivity.
Qed.

Lemma layer_loop_spec : forall nc n a W j b lo up ri re rg,
  layer_loop n j a W b lo up = Some (ri, re, rg) ->
  (j + length W = n)%nat -> Forall (fun w => length w = nc) W ->
  lwf nc n ri /\ lwf nc n re /\
  (forall zc zn be, length zc = nc -> length zn = n -> length be = n ->
     (lsat ri re zc zn be <-> neurons a zc W b lo up (skipn j zn) (skipn j be))).
Proof.
  intros nc n a W. induction W as [|w W IH]; intros j b lo up ri re rg H L F;
    destruct b as [|bj b], lo as [|l lo], up as [|u up]; simpl in H; try discriminate.
  - injection H as <- <- _. split; [|split].
    + split; [|split]; split; constructor.
    + split; [|split]; split; constructor.
    + intros zc zn be Lc Ln Lb. simpl in L.
      rewrite (skipn_all2 zn), (skipn_all2 be) by lia. unfold lsat, llhs. cbn.
      unfold vle. rewrite F2_nil. tauto.
  - destruct (constraint_by_neuron w bj a l u) as [[[pi pe] pg]|] eqn:E; [|discriminate].
    destruct (layer_loop n (S j) a W b lo up) as [[[qi qe] qg]|] eqn:E2; [|discriminate].
    injection H as <- <- _. inversion F; subst. cbn [length] in *.
    destruct (IH _ _ _ _ _ _ _ E2 ltac:(lia) ltac:(auto)) as [Q1 [Q2 Q3]].
    destruct (neuron_wf _ _ _ _ _ _ _ _ E) as [P1 P2].
    apply (place_wf _ (j + S (length W)) j) in P1. apply (place_wf _ (j + S (length W)) j) in P2.
    split; [apply lwf_app; auto|]. split; [apply lwf_app; auto|].
    intros zc zn be Lc Ln Lb.
    rewrite (lsat_app (length w) (j + S (length W))) by auto.
    rewrite Q3 by auto.
    rewrite (skipn_cons_nth zn j), (skipn_cons_nth be j) by lia.
    cbn [neurons].
    assert (K : lsat (place (j + S (length W)) j pi) (place (j + S (length W)) j pe) zc zn be
                <-> nsat pi pe zc (nth j zn 0) (nth j be 0)).
    { unfold lsat, nsat. rewrite !place_lhs by (auto; lia). tauto. }
    rewrite K. split.
    + intros [A B]. split; auto. eauto.
    + intros [[ri [re [rg' [A B]]]] C]. split; auto. congruence.
Qed.
Lemma layer_loop_total : forall n a W j b lo up,
  length b = length W -> length lo = length W -> length up = length W ->
  layer_loop n j a W b lo up <> None.
Proof.
  intros n a W. induction W; intros j b lo up L1 L2 L3; destruct b, lo, up; try discriminate.
  simpl. destruct (constraint_by_neuron a0 r a r0 r1) as [[[? ?] ?]|] eqn:E.
  - destruct (layer_loop n (S j) a W b lo up) as [[[? ?] ?]|] eqn:E2; [discriminate|].
    exfalso. revert E2. apply IHW; simpl in *; lia.
  - exfalso. revert E. apply neuron_total.
Qed.

Lemma layer_spec : forall nc l a lo up ri re rg,
  constraint_by_layer l a lo up = Some (ri, re, rg) ->
  wfm (out_features l) nc (weight l) ->
  lwf nc (out_features l) ri /\ lwf nc (out_features l) re /\
  (forall zc zn be, length zc = nc -> length zn = out_features l ->
     length be = out_features l ->
     (lsat ri re zc zn be <-> neurons a zc (weight l) (bias_of l) lo up zn be)).
Proof.
  intros nc l a lo up ri re rg H [_ F]. unfold constraint_by_layer in H.
  apply (layer_loop_spec nc) in H; auto.
Qed.

(** ** Rows of the whole network *)

Definition klhs (k : blk) (x s b : vec) : vec :=
  vadd (vadd (mv (k_x k) x) (mv (k_s k) s)) (mv (k_b k) b).
Definition ksat (ki ke : blk) (x s b : vec) : Prop :=
  vle (klhs ki x s b) (k_rhs ki) /\ klhs ke x s b = k_rhs ke.
Definition kwf (nx M : nat) (k : blk) : Prop :=
  wfm (length (k_rhs k)) nx (k_x k) /\ wfm (length (k_rhs k)) M (k_s k) /\
  wfm (length (k_rhs k)) M (k_b k).

Lemma klhs_length : forall nc n r zc zn be, kwf nc n r ->
  length (klhs r zc zn be) = length (k_rhs r).
Proof.
  intros nc n r zc zn be [[H1 _] [[H2 _] [H3 _]]]. unfold klhs.
  assert (length (vadd (mv (k_x r) zc) (mv (k_s r) zn)) = length (k_rhs r))
    by (rewrite vadd_length; rewrite !mv_length; congruence).
  rewrite vadd_length; auto. rewrite mv_length. congruence.
Qed.
Lemma klhs_app : forall nc n p q zc zn be, kwf nc n p -> kwf nc n q ->
  klhs (bapp p q) zc zn be = klhs p zc zn be ++ klhs q zc zn be.
Proof.
  intros nc n p q zc zn be Hp Hq. unfold klhs, bapp. cbn [k_x k_s k_b].
  rewrite !mv_app. destruct Hp as [[P1 _] [[P2 _] [P3 _]]].
  rewrite (vadd_app (mv (k_x p) zc)) by (rewrite !mv_length; congruence).
  rewrite vadd_app; auto. rewrite vadd_length; rewrite !mv_length; congruence.
Qed.
Lemma kwf_app : forall nc n p q, kwf nc n p -> kwf nc n q -> kwf nc n (bapp p q).
Proof.
  intros nc n p q [P1 [P2 P3]] [Q1 [Q2 Q3]]. unfold kwf, bapp. cbn [k_x k_s k_b k_rhs].
  rewrite app_length. split; [|split]; apply wfm_app; auto.
Qed.
Lemma ksat_app : forall nc n pi pe qi qe zc zn be,
  kwf nc n pi -> kwf nc n pe -> kwf nc n qi -> kwf nc n qe ->
  (ksat (bapp pi qi) (bapp pe qe) zc zn be <->
   ksat pi pe zc zn be /\ ksat qi qe zc zn be).
Proof.
  intros nc n pi pe qi qe zc zn be H1 H2 H3 H4. unfold ksat.
  rewrite (klhs_app nc n pi) by auto. rewrite (klhs_app nc n pe) by auto.
  unfold bapp. cbn [k_rhs].
  rewrite vle_app_iff by (eapply klhs_length; eauto).
  rewrite app_eq_iff by (eapply klhs_length; eauto). tauto.
Qed.

(** Slices of spliced rows. *)
Lemma slice_zeros : forall off n M, (off + n <= M)%nat ->
  slice off n (zeros M) = zeros n.
Proof.
  intros off n M H. replace M with (off + (n + (M - off - n)))%nat by lia.
  unfold slice, zeros. rewrite repeat_app, skipn_app, repeat_length, Nat.sub_diag.
  rewrite (skipn_all2 (repeat 0 off)) by (rewrite repeat_length; lia). cbn [app skipn].
  rewrite repeat_app, firstn_app, repeat_length, Nat.sub_diag.
  rewrite firstn_all2 by (rewrite repeat_length; lia). cbn [firstn]. apply app_nil_r.
Qed.
Lemma slice_splice_after : forall off n p (v row : vec), (p + length v <= off)%nat ->
  (p <= length row)%nat ->
  slice off n (splice p v row) = slice off n row.
Proof.
  intros off n p v row H Hp. unfold slice, splice. f_equal.
  rewrite skipn_app. rewrite (skipn_all2 (firstn p row)) by (rewrite firstn_length; lia).
  rewrite firstn_length. replace (Nat.min p (length row)) with p by lia.
  rewrite skipn_app. rewrite (skipn_all2 v) by lia. cbn [app].
  rewrite skipn_skipn'. f_equal. lia.
Qed.
Lemma dot_splice_zeros : forall off v M S, length S = M -> (off + length v <= M)%nat ->
  dot (splice off v (zeros M)) S = dot v (slice off (length v) S).
Proof.
  intros. rewrite dot_splice by (rewrite ?zeros_length; lia).
  rewrite dot_zeros_l, slice_zeros, dot_zeros_l by auto. ring.
Qed.
Lemma dot_splice2 : forall p off c v M S, length S = M -> (p + length c <= off)%nat ->
  (off + length v <= M)%nat ->
  dot (splice off v (splice p c (zeros M))) S
  = dot c (slice p (length c) S) + dot v (slice off (length v) S).
Proof.
  intros. assert (L : length (splice p c (zeros M)) = M)
    by (rewrite splice_length; rewrite zeros_length; lia).
  rewrite dot_splice by (unfold vec in *; lia).
  rewrite slice_splice_after by (rewrite ?zeros_length; lia).
  rewrite slice_zeros, dot_zeros_l by auto.
  rewrite dot_splice_zeros by (auto; lia). ring.
Qed.

Lemma write_rows_wf : forall nx M prev off nc n r, lwf nc n r -> (off + n <= M)%nat ->
  match prev with None => nc = nx | Some p => (p + nc <= off)%nat end ->
  kwf nx M (write_rows nx M prev off r).
Proof.
  intros nx M prev off nc n r [[A1 A2] [[B1 B2] [C1 C2]]] H Hp.
  unfold kwf, write_rows. cbn [k_x k_s k_b k_rhs]. split; [|split].
  - destruct prev; [|subst nc; split; auto]. split; [rewrite map_length; auto|].
    apply Forall_forall. intros v Hv. apply in_map_iff in Hv. destruct Hv as [k [<- _]].
    apply zeros_length.
  - split; [rewrite map2_length; unfold vec, mat in *; lia|].
    assert (L : length (l_c r) = length (l_n r)) by congruence. clear A1 B1 C1 C2.
    revert L B2. generalize (l_n r). induction A2 as [|c lc Hc A2 IH]; intros ln L B2;
      destruct ln as [|v ln]; try discriminate; simpl; constructor.
    + inversion B2; subst. destruct prev.
      * rewrite splice_length; rewrite splice_length; rewrite zeros_length; unfold vec in *; lia.
      * rewrite splice_length; rewrite zeros_length; unfold vec in *; lia.
    + inversion B2; subst. apply IH; auto.
  - split; [rewrite map_length; auto|].
    apply Forall_forall. intros v Hv. apply in_map_iff in Hv. destruct Hv as [k [<- Hk]].
    rewrite Forall_forall in C2. specialize (C2 _ Hk).
    rewrite splice_length; rewrite zeros_length; unfold vec in *; lia.
Qed.

Lemma mv_splices : forall off n M ln S, Forall (fun v => length v = n) ln ->
  length S = M -> (off + n <= M)%nat ->
  mv (map (fun b => splice off b (zeros M)) ln) S = mv ln (slice off n S).
Proof.
  intros off n M ln S F L H. induction F as [|v ln Hv F IH]; auto.
  simpl. f_equal; auto. rewrite dot_splice_zeros by (unfold vec in *; lia). congruence.
Qed.

Lemma write_rows_lhs : forall nx M prev off nc n r x S B, lwf nc n r ->
  (off + n <= M)%nat -> length x = nx -> length S = M -> length B = M ->
  match prev with None => nc = nx | Some p => (p + nc <= off)%nat end ->
  klhs (write_rows nx M prev off r) x S B
  = llhs r (match prev with None => x | Some p => slice p nc S end)
         (slice off n S) (slice off n B).
Proof.
  intros nx M prev off nc n r x S B [[A1 A2] [[B1 B2] [C1 C2]]] H Lx LS LB Hp.
  unfold klhs, llhs, write_rows. cbn [k_x k_s k_b].
  rewrite (mv_splices off n M (l_b r) B) by auto. f_equal.
  assert (L : length (l_c r) = length (l_n r)) by congruence.
  clear A1 B1 C1 C2. revert L B2. generalize (l_n r).
  destruct prev as [p|].
  - induction A2 as [|c lc Hc A2 IH]; intros ln L B2; destruct ln as [|v ln]; try discriminate; auto.
    inversion B2; subst. cbn [map map2 mv vadd]. apply cons_eq_iff. split.
    + rewrite dot_zeros_l, dot_splice2 by (unfold vec in *; lia). ring.
    + apply IH; auto.
  - induction A2 as [|c lc Hc A2 IH]; intros ln L B2; destruct ln as [|v ln]; try discriminate; auto.
    inversion B2; subst. cbn [map map2 mv vadd]. apply cons_eq_iff. split.
    + rewrite dot_splice_zeros by (unfold vec in *; lia). auto.
    + apply IH; auto.
Qed.

(** Network constraints, on the units not yet consumed. *)
Fixpoint net_sat (hs : list (linear * act)) (z lo up S B : vec) : Prop :=
  match hs with
  | [] => True
  | (l, a) :: hs' =>
      let n := out_features l in
      neurons a z (weight l) (bias_of l) (firstn n lo) (firstn n up) (firstn n S) (firstn n B)
      /\ net_sat hs' (firstn n S) (skipn n lo) (skipn n up) (skipn n S) (skipn n B)
  end.

Lemma write_layers_spec : forall nx M hs out prev off nc lo up ki ke,
  write_layers nx M prev off hs lo up = Some (ki, ke) ->
  hidden_wf nc hs out -> (off + num_units hs <= M)%nat ->
  match prev with None => nc = nx | Some p => (p + nc <= off)%nat end ->
  kwf nx M ki /\ kwf nx M ke /\
  (forall x S B, length x = nx -> length S = M -> length B = M ->
     (ksat ki ke x S B <->
      net_sat hs (match prev with None => x | Some p => slice p nc S end)
        (skipn off lo) (skipn off up) (skipn off S) (skipn off B))).
Proof.
  intros nx M hs out. induction hs as [|[l a] hs IH]; intros prev off nc lo up ki ke H W HM Hp.
  - simpl in H. injection H as <- <-. split; [|split].
    + split; [|split]; split; constructor.
    + split; [|split]; split; constructor.
    + intros. unfold ksat, klhs. cbn. unfold vle. rewrite F2_nil. tauto.
  - cbn [write_layers] in H. cbn [num_units] in HM. destruct W as [[W1 [W2 W3]] W4].
    set (n := out_features l) in *.
    destruct (constraint_by_layer l a (slice off n lo) (slice off n up)) as [[[ri re] rg]|] eqn:E;
      [|discriminate].
    destruct (write_layers nx M (Some off) (off + n) hs lo up) as [[bi be]|] eqn:E2; [|discriminate].
    injection H as <- <-.
    destruct (IH (Some off) (off + n)%nat n lo up bi be E2 W4) as [Q1 [Q2 Q3]]; [lia|lia|].
    destruct (layer_spec nc _ _ _ _ _ _ _ E W2) as [P1 [P2 P3]]. fold n in P1, P2, P3.
    assert (K1 : kwf nx M (write_rows nx M prev off ri))
      by (eapply write_rows_wf; eauto; lia).
    assert (K2 : kwf nx M (write_rows nx M prev off re))
      by (eapply write_rows_wf; eauto; lia).
    split; [apply kwf_app; auto|]. split; [apply kwf_app; auto|].
    intros x S B Lx LS LB. rewrite (ksat_app nx M) by auto. rewrite Q3 by auto.
    cbn [net_sat]. fold n.
    assert (Lz : length (match prev with None => x | Some p => slice p nc S end) = nc).
    { destruct prev; [apply slice_length; lia|lia]. }
    assert (Lp : length (slice off n S) = n) by (apply slice_length; lia).
    assert (Lb : length (slice off n B) = n) by (apply slice_length; lia).
    unfold ksat. rewrite (write_rows_lhs nx M prev off nc n ri) by (auto; lia).
    rewrite (write_rows_lhs nx M prev off nc n re) by (auto; lia).
    unfold write_rows at 1 2. cbn [k_rhs].
    fold (lsat ri re (match prev with None => x | Some p => slice p nc S end)
               (slice off n S) (slice off n B)).
    rewrite P3 by auto. rewrite !skipn_skipn'. unfold slice. tauto.
Qed.

Lemma write_layers_total : forall nx M hs out prev off nc lo up,
  hidden_wf nc hs out -> length lo = (off + num_units hs)%nat ->
  length up = (off + num_units hs)%nat ->
  write_layers nx M prev off hs lo up <> None.
Proof.
  intros nx M hs out. induction hs as [|[l a] hs IH]; intros prev off nc lo up W L1 L2.
  - discriminate.
  - cbn [write_layers num_units] in *. destruct W as [[W1 [W2 W3]] W4].
    assert (Lb : length (bias_of l) = out_features l).
    { unfold bias_of. destruct (bias l); auto. apply zeros_length. }
    destruct (constraint_by_layer l a (slice off (out_features l) lo) (slice off (out_features l) up))
      as [[[ri re] rg]|] eqn:E.
    + destruct (write_layers nx M (Some off) (off + out_features l) hs lo up) as [[bi be]|] eqn:E2;
        [discriminate|]. exfalso. revert E2. eapply IH; eauto; lia.
    + exfalso. revert E. apply layer_loop_total; auto; apply slice_length; unfold out_features in *; lia.
Qed.

Lemma firstn_all' : forall {A} n (l m : list A), length l = n -> firstn n (l ++ m) = l.
Proof.
  intros. rewrite firstn_app, H, Nat.sub_diag. cbn [firstn]. rewrite app_nil_r.
  rewrite firstn_all2; auto. lia.
Qed.
Lemma skipn_all' : forall {A} n (l m : list A), length l = n -> skipn n (l ++ m) = m.
Proof.
  intros. rewrite skipn_app, H, Nat.sub_diag. rewrite skipn_all2 by lia. auto.
Qed.

Lemma lin_eval_length : forall n l x, lin_wf n l -> length x = n ->
  length (lin_eval l x) = out_features l.
Proof.
  intros n l x [_ [W Hb]] L. rewrite lin_eval_bias by (rewrite L; auto).
  rewrite vadd_length; rewrite mv_length; auto.
  unfold bias_of. destruct (bias l); auto. rewrite zeros_length; auto.
Qed.

Lemma bins_app_inv : forall n b, bins b -> bins (firstn n b) /\ bins (skipn n b).
Proof.
  intros n b H. rewrite <- (firstn_skipn n b) in H. apply Forall_app in H. auto.
Qed.

(** Binaries that are consistent with the pre-activations. *)
Fixpoint net_binary (hs : list (linear * act)) (lo up p B : vec) : Prop :=
  match hs with
  | [] => True
  | (l, a) :: hs' =>
      let n := out_features l in
      units_binary a (firstn n lo) (firstn n up) (firstn n p) (firstn n B) /\
      net_binary hs' (skipn n lo) (skipn n up) (skipn n p) (skipn n B)
  end.

Lemma num_units_pre : forall hs n out x, hidden_wf n hs out -> length x = n ->
  length (concat (pre_acts hs x)) = num_units hs /\
  length (concat (post_acts hs x)) = num_units hs.
Proof.
  induction hs as [|[l a] hs IH]; intros n out x W L; [auto|].
  destruct W as [W1 W2]. cbn [pre_acts post_acts concat num_units].
  rewrite !app_length, map_length. rewrite (lin_eval_length n) by auto.
  destruct (IH _ _ (map (act_fun a) (lin_eval l x)) W2) as [I1 I2].
  { rewrite map_length. eapply lin_eval_length; eauto. }
  rewrite I1, I2. auto.
Qed.

Lemma net_sound : forall hs n out z lo up S B, hidden_wf n hs out -> length z = n ->
  length S = num_units hs -> bins B ->
  net_sat hs z lo up S B ->
  S = concat (post_acts hs z) /\
  (no_slope_one hs -> length lo = num_units hs -> length up = num_units hs ->
   in_box lo up (concat (pre_acts hs z)) /\
   net_binary hs lo up (concat (pre_acts hs z)) B).
Proof.
  induction hs as [|[l a] hs IH]; intros n out z lo up S B W L LS HB H.
  - simpl in LS. destruct S; [|discriminate]. split; auto. intros _ L1 L2.
    destruct lo; [|discriminate]. destruct up; [|discriminate].
    split; [split; constructor|exact I].
  - destruct W as [W1 W2]. assert (W1' := W1). destruct W1' as [_ [Ww _]].
    cbn [net_sat num_units] in *. destruct H as [H1 H2].
    set (k := out_features l) in *.
    destruct (bins_app_inv k B HB) as [Hb1 Hb2].
    destruct (neurons_sound _ _ _ _ _ _ _ _ H1 Hb1) as [Y M].
    { destruct Ww as [_ F]. rewrite L. auto. }
    assert (E : vadd (mv (weight l) z) (bias_of l) = lin_eval l z).
    { symmetry. apply lin_eval_bias. rewrite L. auto. }
    rewrite E in Y, M.
    assert (Lp := lin_eval_length n l z W1 L). fold k in Lp.
    destruct (IH k out (firstn k S) (skipn k lo) (skipn k up) (skipn k S) (skipn k B))
      as [I1 I2]; auto.
    { rewrite firstn_length. lia. }
    { rewrite skipn_length. lia. }
    cbn [post_acts pre_acts concat net_binary]. fold k. rewrite Y in I1, I2.
    split.
    + rewrite <- (firstn_skipn k S). rewrite I1. rewrite Y at 1. auto.
    + intros Ns L1 L2. inversion Ns; subst. simpl in H3.
      destruct (M H3) as [M1 M2].
      destruct (I2 H4 ltac:(rewrite skipn_length; lia) ltac:(rewrite skipn_length; lia)) as [J1 J2].
      split.
      * rewrite <- (firstn_skipn k lo), <- (firstn_skipn k up).
        destruct M1, J1. split; apply vle_app; auto.
      * rewrite firstn_all', skipn_all' by auto. auto.
Qed.

Lemma in_box_app_inv : forall k lo up p q, in_box lo up (p ++ q) -> length p = k ->
  in_box (firstn k lo) (firstn k up) p /\ in_box (skipn k lo) (skipn k up) q.
Proof.
  intros k lo up p q [H1 H2] L.
  assert (L1 := vle_length _ _ H1). assert (L2 := vle_length _ _ H2).
  rewrite app_length in L1, L2.
  rewrite <- (firstn_skipn k lo) in H1. rewrite <- (firstn_skipn k up) in H2.
  apply vle_app_iff in H1; [|rewrite firstn_length; lia].
  apply vle_app_iff in H2; [|rewrite firstn_length; lia].
  unfold in_box. tauto.
Qed.

Lemma net_complete : forall hs n out z lo up B, hidden_wf n hs out -> length z = n ->
  in_box lo up (concat (pre_acts hs z)) ->
  net_binary hs lo up (concat (pre_acts hs z)) B ->
  net_sat hs z lo up (concat (post_acts hs z)) B.
Proof.
  induction hs as [|[l a] hs IH]; intros n out z lo up B W L Hb N; [exact I|].
  destruct W as [W1 W2]. assert (W1' := W1). destruct W1' as [_ [Ww Wb]].
  cbn [pre_acts post_acts concat net_binary net_sat] in *.
  set (k := out_features l) in *.
  assert (Lp := lin_eval_length n l z W1 L). fold k in Lp.
  rewrite firstn_all', skipn_all' in N by auto. destruct N as [N1 N2].
  assert (Lq : length (map (act_fun a) (lin_eval l z)) = k) by (rewrite map_length; auto).
  rewrite firstn_all', skipn_all' by auto.
  destruct (in_box_app_inv k _ _ _ _ Hb Lp) as [B1 B2].
  assert (E : vadd (mv (weight l) z) (bias_of l) = lin_eval l z).
  { symmetry. apply lin_eval_bias. rewrite L. auto. }
  split.
  - rewrite <- E in *. apply neurons_complete; auto.
    + unfold bias_of. destruct (bias l); auto. apply zeros_length.
    + destruct Ww as [_ F]. rewrite L. auto.
  - eapply IH; eauto.
Qed.

Fixpoint pick_net (hs : list (linear * act)) (lo up p : vec) : vec :=
  match hs with
  | [] => []
  | (l, _) :: hs' =>
      let n := out_features l in
      pick_binaries (firstn n lo) (firstn n up) (firstn n p)
      ++ pick_net hs' (skipn n lo) (skipn n up) (skipn n p)
  end.
Lemma pick_net_ok : forall hs n out z lo up, hidden_wf n hs out -> length z = n ->
  in_box lo up (concat (pre_acts hs z)) ->
  let B := pick_net hs lo up (concat (pre_acts hs z)) in
  net_binary hs lo up (concat (pre_acts hs z)) B /\ bins B /\ length B = num_units hs.
Proof.
  induction hs as [|[l a] hs IH]; intros n out z lo up W L Hb.
  - simpl. split; auto. split; auto. constructor.
  - destruct W as [W1 W2]. cbn [pre_acts concat net_binary pick_net num_units] in *.
    set (k := out_features l) in *.
    assert (Lp := lin_eval_length n l z W1 L). fold k in Lp.
    rewrite firstn_all', skipn_all' by auto.
    destruct (in_box_app_inv k _ _ _ _ Hb Lp) as [B1 B2].
    assert (U := pick_binaries_ok a _ _ _ B1).
    destruct (units_binary_facts _ _ _ _ _ U) as [U1 U2].
    destruct (IH k out (map (act_fun a) (lin_eval l z)) (skipn k lo) (skipn k up) W2)
      as [I1 [I2 I3]]; auto.
    { rewrite map_length; auto. }
    assert (L1 : length (pick_binaries (firstn k lo) (firstn k up) (lin_eval l z)) = k) by congruence.
    cbv zeta. rewrite firstn_all', skipn_all' by auto.
    split; [split; auto|]. split; [apply Forall_app; auto|]. rewrite app_length. lia.
Qed.

(** ** The returned constraint *)

Lemma num_units_app : forall h1 h2, num_units (h1 ++ h2) = (num_units h1 + num_units h2)%nat.
Proof. induction h1 as [|[l a] h1 IH]; intros; auto. simpl. rewrite IH. lia. Qed.
Lemma hidden_wf_app : forall h1 h2 n out, hidden_wf n (h1 ++ h2) out <->
  exists k, hidden_wf n h1 k /\ hidden_wf k h2 out.
Proof.
  induction h1 as [|[l a] h1 IH]; intros h2 n out; simpl.
  - split; [intros; exists n; auto|intros [k [-> ?]]; auto].
  - rewrite IH. split; [intros [? [k [? ?]]]; exists k; auto|intros [k [[? ?] ?]]; eauto].
Qed.
Lemma hidden_eval_app : forall h1 h2 x,
  hidden_eval (h1 ++ h2) x = hidden_eval h2 (hidden_eval h1 x).
Proof. induction h1 as [|[l a] h1 IH]; intros; simpl; auto. Qed.
Lemma post_acts_app : forall h1 h2 x,
  post_acts (h1 ++ h2) x = post_acts h1 x ++ post_acts h2 (hidden_eval h1 x).
Proof. induction h1 as [|[l a] h1 IH]; intros; simpl; auto. f_equal. auto. Qed.
Lemma pre_acts_app : forall h1 h2 x,
  pre_acts (h1 ++ h2) x = pre_acts h1 x ++ pre_acts h2 (hidden_eval h1 x).
Proof. induction h1 as [|[l a] h1 IH]; intros; simpl; auto. f_equal. auto. Qed.
Lemma hidden_eval_length : forall hs n out x, hidden_wf n hs out -> length x = n ->
  length (hidden_eval hs x) = out.
Proof.
  induction hs as [|[l a] hs IH]; intros n out x W L; simpl in *; [congruence|].
  destruct W as [W1 W2]. eapply IH; eauto. rewrite map_length. eapply lin_eval_length; eauto.
Qed.

Lemma rev_last : forall {A} (hs : list A) x t, rev hs = x :: t -> hs = rev t ++ [x].
Proof.
  intros A hs x t H. rewrite <- (rev_involutive hs), H. reflexivity.
Qed.

Lemma last_slice : forall hs n out l a t z, hidden_wf n hs out -> length z = n ->
  rev hs = (l, a) :: t ->
  slice (num_units hs - out_features l) (out_features l) (concat (post_acts hs z))
  = hidden_eval hs z /\ out_features l = out /\ (out_features l <= num_units hs)%nat.
Proof.
  intros hs n out l a t z W L H. apply rev_last in H. subst hs.
  rewrite num_units_app. cbn [num_units].
  rewrite hidden_eval_app, post_acts_app, concat_app. cbn [post_acts concat hidden_eval].
  rewrite app_nil_r. apply hidden_wf_app in W. destruct W as [k [W1 W2]].
  simpl in W2. destruct W2 as [W2 <-].
  assert (L1 := hidden_eval_length _ _ _ _ W1 L).
  destruct (num_units_pre _ _ _ _ W1 L) as [_ L2].
  split; [|split; auto; lia].
  unfold slice. rewrite skipn_all' by lia. apply firstn_all2.
  rewrite map_length, (lin_eval_length k) by auto. lia.
Qed.

Lemma box_block : forall nx M x s b x_lo x_up,
  length x = nx -> length x_lo = nx -> length x_up = nx ->
  let k := mkBlk (eye nx ++ eyek nx (-1)) (zerom (nx + nx) M) (zerom (nx + nx) M)
                 (x_up ++ vneg x_lo) in
  kwf nx M k /\ (vle (klhs k x s b) (k_rhs k) <-> in_box x_lo x_up x).
Proof.
  intros nx M x s b x_lo x_up L L1 L2 k. split.
  - unfold kwf, k. cbn [k_x k_s k_b k_rhs]. rewrite app_length, vneg_length, L1, L2.
    split; [apply wfm_app; apply wfm_eyek|]. split; apply wfm_zerom.
  - unfold klhs, k. cbn [k_x k_s k_b k_rhs]. rewrite !mv_zerom, mv_app, mv_eye, mv_eyek_neg by auto.
    assert (Lv : length (x ++ vneg x) = (nx + nx)%nat) by (rewrite app_length, vneg_length; lia).
    rewrite (vadd_zeros_r _ (x ++ vneg x)) by exact Lv.
    rewrite (vadd_zeros_r _ (x ++ vneg x)) by exact Lv.
    rewrite vle_app_iff by congruence. rewrite vle_vneg.
    unfold in_box. tauto.
Qed.

Lemma encoding_given_bounds : forall n N pre_lo pre_up x_lo x_up,
  net_wf n N -> length x_lo = n -> length x_up = n ->
  length pre_lo = num_units (hidden N) -> length pre_up = num_units (hidden N) ->
  exists c, output_constraint_given_bounds N pre_lo pre_up x_lo x_up = Some c /\
    mic_ok c /\ nin c = n /\ nsl c = num_units (hidden N) /\ nbin c = num_units (hidden N) /\
    num_out c = out_features (last_layer N) /\
    (forall x s b, mic_sat c x s b <->
       length s = nsl c /\ length b = nbin c /\ in_box x_lo x_up x /\
       net_sat (hidden N) x pre_lo pre_up s b) /\
    (forall x b, length x = n ->
       output c x (concat (post_acts (hidden N) x)) b = net_eval N x).
Proof.
  intros n N pre_lo pre_up x_lo x_up [Hne [W Wl]] L1 L2 P1 P2.
  assert (Hx : x_size N = n).
  { unfold x_size. destruct (hidden N) as [|[l a] hs]; [congruence|]. apply W. }
  unfold output_constraint_given_bounds. rewrite Hx.
  set (M := num_units (hidden N)) in *.
  destruct (write_layers n M None 0 (hidden N) pre_lo pre_up) as [[bi be]|] eqn:E;
    [|exfalso; revert E; eapply write_layers_total; eauto; simpl; lia].
  destruct (rev (hidden N)) as [|[l a] t] eqn:ER.
  { exfalso. apply Hne. rewrite <- (rev_involutive (hidden N)), ER. auto. }
  destruct (write_layers_spec n M (hidden N) _ None 0 n _ _ _ _ E W ltac:(unfold M; lia) eq_refl)
    as [K1 [K2 K3]].
  set (box := mkBlk (eye n ++ eyek n (-1)) (zerom (n + n) M) (zerom (n + n) M) (x_up ++ vneg x_lo)).
  eexists. split; [reflexivity|].
  destruct (box_block n M x_lo [] [] x_lo x_up L1 L1 L2) as [K0 _]. fold box in K0.
  assert (K4 := kwf_app _ _ _ _ K0 K1).
  assert (Lz : length (zeros n) = n) by apply zeros_length.
  destruct (last_slice _ _ _ _ _ _ (zeros n) W Lz ER) as [_ [Eo Le]]. fold M in Le.
  assert (Wout : wfm (out_features (last_layer N)) M
    (map (fun w => splice (M - out_features l) w (zeros M)) (weight (last_layer N)))).
  { split; [rewrite map_length; auto|]. apply Forall_forall. intros v Hv.
    apply in_map_iff in Hv. destruct Hv as [w [<- Hw]].
    destruct Wl as [_ [[_ F] _]]. rewrite Forall_forall in F. specialize (F _ Hw).
    rewrite splice_length; rewrite zeros_length; unfold vec in *; lia. }
  assert (Lb : length (bias_of (last_layer N)) = out_features (last_layer N)).
  { unfold bias_of. destruct Wl as [_ [_ Wb]]. destruct (bias (last_layer N)); auto. apply zeros_length. }
  split.
  { unfold mic_ok. cbn [rhs_in rhs_eq Ain_input Ain_slack Ain_binary Aeq_input Aeq_slack Aeq_binary].
    split; [|split; [reflexivity|split; [reflexivity|split; intros; left; discriminate]]].
    destruct K4 as [A1 [A2 A3]]. destruct K2 as [B1 [B2 B3]].
    unfold mic_wf, num_out, num_ineq, num_eq.
    cbn [owf olen olen_is none_if Aout_input Aout_slack Aout_binary Cout Ain_input Ain_slack
         Ain_binary rhs_in Aeq_input Aeq_slack Aeq_binary rhs_eq input_lo input_up slack_lo
         slack_up binary_lo binary_up nin nsl nbin].
    rewrite map_length. fold (out_features (last_layer N)).
    repeat match goal with |- _ /\ _ => split end; auto. }
  split; [reflexivity|]. split; [reflexivity|]. split; [reflexivity|].
  split; [unfold num_out; cbn [olen Aout_input Aout_slack]; rewrite map_length; auto|].
  split.
  - intros x s b. unfold mic_sat, rows_sat, sat_in, sat_eq, bounds_ok, lo_ok, up_ok.
    cbn [nin nsl nbin rhs_in rhs_eq Ain_input Ain_slack Ain_binary Aeq_input Aeq_slack Aeq_binary
         input_lo input_up slack_lo slack_up binary_lo binary_up].
    assert (Ei : lhs (length (k_rhs (bapp box bi))) (Some (k_x (bapp box bi)))
                (Some (k_s (bapp box bi))) (Some (k_b (bapp box bi))) x s b
              = klhs (bapp box bi) x s b) by reflexivity.
    assert (Ee : lhs (length (k_rhs be)) (Some (k_x be)) (Some (k_s be)) (Some (k_b be)) x s b
              = klhs be x s b) by reflexivity.
    rewrite Ei, Ee. rewrite (klhs_app n M box bi) by auto.
    assert (Ev : vle (klhs box x s b ++ klhs bi x s b) (k_rhs (bapp box bi)) <->
                 vle (klhs box x s b) (k_rhs box) /\ vle (klhs bi x s b) (k_rhs bi)).
    { unfold bapp. cbn [k_rhs]. apply vle_app_iff. apply (klhs_length n M box); auto. }
    rewrite Ev. split.
    + intros [[X [Y [Z [[Q1 Q2] Q3]]]] _]. split; auto. split; auto.
      destruct (box_block n M x s b x_lo x_up X L1 L2) as [_ Bx]. split; [apply Bx; auto|].
      specialize (K3 x s b X Y Z). cbn [skipn] in K3. apply K3. split; auto.
    + intros [Y [Z [Bx Q]]].
      assert (X : length x = n) by (destruct Bx as [Bx _]; apply vle_length in Bx; congruence).
      destruct (box_block n M x s b x_lo x_up X L1 L2) as [_ Bx'].
      specialize (K3 x s b X Y Z). cbn [skipn] in K3. apply K3 in Q. destruct Q.
      split; [|tauto]. split; auto. split; auto. split; auto. split; auto. split; auto.
      apply Bx'; auto.
  - intros x b Lx. unfold output, num_out. cbn [olen Aout_input Aout_slack Aout_binary Cout].
    rewrite map_length. fold (out_features (last_layer N)). unfold lhs, term.
    destruct (last_slice _ _ _ _ _ _ x W Lx ER) as [Es _]. fold M in Es.
    destruct (num_units_pre _ _ _ _ W Lx) as [_ Lp]. fold M in Lp.
    rewrite (mv_splices _ (out_features l)); auto; try lia.
    2:{ destruct Wl as [_ [[_ F] _]]. rewrite Eo. auto. }
    rewrite Es. unfold net_eval. rewrite (lin_eval_bias (last_layer N)).
    2:{ rewrite (hidden_eval_length _ _ _ _ W Lx). apply Wl. }
    assert (Lm : length (mv (weight (last_layer N)) (hidden_eval (hidden N) x))
                 = out_features (last_layer N)) by apply mv_length.
    rewrite vadd_zeros_l by auto. rewrite vadd_zeros_r by auto. auto.
Qed.
