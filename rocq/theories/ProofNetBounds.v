(** Bounds of the network computed layer by layer, with interval arithmetic or
    with optimisation over the program of the previous layers. *)

Require Import Reals List Lra Lia.
Require Import Verif.Vec Verif.VecFacts Verif.ModelMip Verif.SpecMip Verif.SpecCore
  Verif.ModelUtils Verif.SpecUtils Verif.ProofUtils Verif.ProofMaxBox Verif.ProofMip
  Verif.ProofSat Verif.ModelNet Verif.SpecNet Verif.ProofBounds Verif.ProofNet.
Import ListNotations.
Open Scope R_scope.

(** ** Frames *)

Definition grown (m m' : mip) : Prop :=
  (nvars m <= nvars m')%nat /\ (wf_mip m -> wf_mip m') /\
  (forall v, known m v = true -> known m' v = true) /\
  (forall sg, gfeas m' sg -> gfeas m sg).
Lemma grown_refl : forall m, grown m m.
Proof. unfold grown; auto. Qed.
Lemma grown_trans : forall a b c, grown a b -> grown b c -> grown a c.
Proof.
  unfold grown; intros a b c (H1 & H2 & H3 & H4) (G1 & G2 & G3 & G4).
  split; [lia|]. auto.
Qed.
Lemma grown_addVars : forall b vt m m' ids, addVars b vt m = (m', ids) -> grown m m'.
Proof.
  intros b vt m m' ids H. split.
  - apply addVars_fields in H. destruct H as (_ & _ & _ & H). lia.
  - split; [eapply wf_addVars; eauto|]. split; [intros; eapply addVars_known; eauto|].
    intros sg G. apply (gfeas_addVars _ _ _ _ _ sg H) in G. tauto.
Qed.
Lemma known_push_rows : forall A vs s b m v, known (push_rows A vs s b m) v = known m v.
Proof.
  induction A as [|row A IH]; destruct b; intros; simpl; auto. rewrite IH.
  destruct s; reflexivity.
Qed.

(** ** The rows of one neuron in the program *)

Lemma vadd_assoc3 : forall a b c, vadd a (vadd b c) = vadd (vadd a b) c.
Proof.
  unfold vadd. induction a as [|x a IH]; destruct b as [|y b], c as [|z c]; simpl; auto.
  f_equal; [ring|auto].
Qed.
Lemma bsum3 : forall r zv y be sg n, nwf n r -> length zv = n ->
  bsum (length (n_rhs r)) (combine [n_x r; col (n_y r); col (n_b r)] [zv; [y]; [be]]) sg
  = nlhs r (map sg zv) (sg y) (sg be).
Proof.
  intros r zv y be sg n [[H1 H2] [H3 H4]] L.
  unfold nlhs. cbn [combine]. 
  change (vadd (mv (n_x r) (map sg zv)) (vadd (mv (col (n_y r)) [sg y])
    (vadd (mv (col (n_b r)) [sg be]) (zeros (length (n_rhs r)))))
    = vadd (vadd (mv (n_x r) (map sg zv)) (vscale (sg y) (n_y r))) (vscale (sg be) (n_b r))).
  assert (C : forall k v, mv (col v) [k] = vscale k v).
  { intros k v. induction v as [|e v IHv]; [reflexivity|].
    transitivity (e * k + 0 :: mv (col v) [k]); [reflexivity|]. rewrite IHv.
    transitivity (k * e :: vscale k v); [f_equal; ring|reflexivity]. }
  rewrite !C. rewrite vadd_zeros_r by (rewrite vscale_length; auto).
  apply vadd_assoc3.
Qed.

Lemma wfm_col : forall v k, length v = k -> wfm k 1 (col v).
Proof.
  intros v k H. split; [unfold col; rewrite map_length; auto|].
  apply Forall_forall. unfold col. intros x Hx. apply in_map_iff in Hx.
  destruct Hx as [? [<- _]]. auto.
Qed.

Lemma neuron_blocks_wf : forall r zv y be n, nwf n r -> length zv = n ->
  blocks_wf (length (n_rhs r)) (combine [n_x r; col (n_y r); col (n_b r)] [zv; [y]; [be]]).
Proof.
  intros r zv y be n [H1 [H3 H4]] L. unfold blocks_wf. cbn [combine].
  constructor; [|constructor; [|constructor; [|constructor]]]; cbn [fst snd length].
  - rewrite L. apply H1.
  - apply (wfm_col _ _ H3).
  - apply (wfm_col _ _ H4).
Qed.

Lemma program_neurons_spec : forall a W b lo up zv yv bv m m',
  program_neurons a W b lo up zv yv bv m = Some m' ->
  Forall (fun w => length w = length zv) W ->
  below (nvars m) zv -> below (nvars m) yv -> below (nvars m) bv ->
  grown m m' /\ nvars m' = nvars m /\
  (forall sg, gfeas m' sg <->
     gfeas m sg /\ neurons a (map sg zv) W b lo up (map sg yv) (map sg bv)).
Proof.
  intros a W. induction W as [|w W IH]; intros b lo up zv yv bv m m' H F Bz By Bb;
    destruct b as [|bj b], lo as [|l lo], up as [|u up], yv as [|y yv], bv as [|be bv];
    try discriminate.
  - injection H as <-. split; [apply grown_refl|]. split; auto. intros; simpl; tauto.
  - cbn [program_neurons] in H.
    destruct (constraint_by_neuron w bj a l u) as [[[ri re] rg]|] eqn:E; [|discriminate].
    cbv zeta in H. inversion F; subst. inversion By; subst. inversion Bb; subst.
    destruct (neuron_wf _ _ _ _ _ _ _ _ E) as [Wi We].
    rewrite H2 in Wi, We.
    set (m1 := addMConstr [n_x ri; col (n_y ri); col (n_b ri)] [zv; [y]; [be]] SLe (n_rhs ri) m) in *.
    set (m2 := addMConstr [n_x re; col (n_y re); col (n_b re)] [zv; [y]; [be]] SEq (n_rhs re) m1) in *.
    assert (N1 : nvars m1 = nvars m) by apply nvars_addMConstr.
    assert (N2 : nvars m2 = nvars m) by (rewrite <- N1; apply nvars_addMConstr).
    assert (S : forall sg, gfeas m2 sg <-> gfeas m sg /\ nsat ri re (map sg zv) (sg y) (sg be)).
    { intros sg. unfold m2. rewrite gfeas_addMConstr;
        [|discriminate|reflexivity|eapply neuron_blocks_wf; eauto].
      unfold m1. rewrite gfeas_addMConstr;
        [|discriminate|reflexivity|eapply neuron_blocks_wf; eauto].
      rewrite !(bsum3 _ _ _ _ _ (length zv)) by auto. unfold nsat. cbn [sense_ok]. tauto. }
    assert (D : below (nvars m) (concat [zv; [y]; [be]])).
    { change (concat [zv; [y]; [be]]) with (zv ++ [y; be]). apply below_app; split; [exact Bz|].
      unfold below. constructor; [auto|]. constructor; [auto|]. constructor. }
    assert (G : grown m m2).
    { split; [lia|]. split.
      - intros. apply wf_addMConstr; [|rewrite N1; auto]. apply wf_addMConstr; auto.
      - split.
        + intros v Hv. unfold m2, m1, addMConstr. rewrite !known_push_rows. auto.
        + intros sg Hs. apply S in Hs. tauto. }
    apply IH in H; [|auto|rewrite N2; auto|rewrite N2; auto|rewrite N2; auto].
    destruct H as (G' & N' & S').
    split; [eapply grown_trans; eauto|]. split; [congruence|].
    intros sg. rewrite S', S. cbn [neurons map]. rewrite E. split.
    + intros ((? & ?) & ?). split; auto. split; eauto. 
    + intros (? & (r1 & r2 & r3 & Q & ?) & ?). injection Q as <- <- <-. tauto.
Qed.

Lemma program_neurons_total : forall a W b lo up zv yv bv m,
  length b = length W -> length lo = length W -> length up = length W ->
  length yv = length W -> length bv = length W ->
  program_neurons a W b lo up zv yv bv m <> None.
Proof.
  intros a W. induction W as [|w W IH]; intros b lo up zv yv bv m L1 L2 L3 L4 L5;
    destruct b as [|bj b], lo as [|l lo], up as [|u up], yv as [|y yv], bv as [|be bv];
    try discriminate.
  cbn [program_neurons]. destruct (constraint_by_neuron w bj a l u) as [[[ri re] rg]|] eqn:E.
  - apply IH; simpl in *; lia.
  - destruct (neuron_total w bj a l u E).
Qed.

Lemma bias_length : forall n l, lin_wf n l -> length (bias_of l) = length (weight l).
Proof.
  intros n l (_ & [L _] & H). unfold bias_of. destruct (bias l); auto.
  apply zeros_length.
Qed.

Lemma below_seqs : forall n k m, (n + k <= m)%nat -> below m (seq n k).
Proof.
  intros. apply Forall_forall. intros v Hv. apply in_seq in Hv. lia.
Qed.

(** ** One layer, then all previous layers *)

Definition zv_ok (n : nat) (m : mip) (zv : list nat) : Prop :=
  length zv = n /\ below (nvars m) zv /\ NoDup zv /\ Forall (fun v => known m v = true) zv.

Lemma program_layer_spec : forall n l a zv lo up vt m m' yv,
  program_layer l a zv lo up vt m = Some (m', yv) -> lin_wf n l -> zv_ok n m zv ->
  grown m m' /\ zv_ok (out_features l) m' yv /\
  (exists bv, forall sg, gfeas m' sg <->
     gfeas m sg /\ length (map sg bv) = out_features l /\ bin_dom vt (map sg bv) /\
     neurons a (map sg zv) (weight l) (bias_of l) lo up (map sg yv) (map sg bv)) /\
  (forall sg ys bs, wf_mip m -> gfeas m sg -> bin_dom vt bs ->
     neurons a (map sg zv) (weight l) (bias_of l) lo up ys bs ->
     exists sg', gfeas m' sg' /\ agree m sg sg' /\ map sg' yv = ys).
Proof.
  intros n l a zv lo up vt m m' yv H (Hn & [WL WF] & Hb) (Z1 & Z2 & Z3 & Z4).
  unfold program_layer in H.
  destruct (addVars (repeat (NInf, PInf) (out_features l)) VCont m) as [m1 ids1] eqn:A1.
  destruct (addVars (repeat (Fin 0, Fin 1) (out_features l)) vt m1) as [m2 ids2] eqn:A2.
  destruct (program_neurons a (weight l) (bias_of l) lo up zv ids1 ids2 m2) as [mm|] eqn:P;
    [|discriminate].
  injection H as <- <-.
  destruct (addVars_fields _ _ _ _ _ A1) as (_ & _ & I1 & N1).
  destruct (addVars_fields _ _ _ _ _ A2) as (_ & _ & I2 & N2).
  rewrite repeat_length in I1, N1, I2, N2.
  assert (B0 : below (nvars m2) zv).
  { eapply Forall_impl; [|exact Z2]. simpl. intros; lia. }
  assert (B1 : below (nvars m2) ids1) by (subst ids1; apply below_seqs; lia).
  assert (B2 : below (nvars m2) ids2) by (subst ids2; apply below_seqs; lia).
  pose proof (program_neurons_spec _ _ _ _ _ _ _ _ _ _ P) as S.
  destruct S as (G & N3 & S); auto.
  { rewrite Z1. auto. }
  assert (G1 := grown_addVars _ _ _ _ _ A1). assert (G2 := grown_addVars _ _ _ _ _ A2).
  split; [exact (grown_trans _ _ _ G1 (grown_trans _ _ _ G2 G))|]. split.
  { split; [subst ids1; apply seq_length|]. split; [rewrite N3; auto|].
    split; [subst ids1; apply seq_NoDup|].
    apply Forall_forall. intros v Hv. apply G, G2.
    eapply addVars_known_new; eauto. }
  split.
  - exists ids2. intros sg. rewrite S.
    rewrite (gfeas_addVars _ _ _ _ _ sg A2), (gfeas_addVars _ _ _ _ _ sg A1).
    rewrite vars_ok_free_iff, vars_ok_bin. split; [tauto|].
    intros (? & ? & ? & ?). split; auto. split; auto. split; auto.
    rewrite map_length, I1. apply seq_length.
  - intros sg ys bs W Gs D Q. destruct (neurons_lengths _ _ _ _ _ _ _ _ Q) as (L1 & L2 & _).
    destruct (addVars_extend _ _ _ _ _ sg ys A1 W Gs) as (E1 & E2 & E3).
    { apply vars_ok_free. exact L1. }
    set (s1 := override sg (nvars m) ys) in *.
    assert (W1 : wf_mip m1) by (eapply wf_addVars; eauto).
    destruct (addVars_extend _ _ _ _ _ s1 bs A2 W1 E1) as (F1 & F2 & F3).
    { apply vars_ok_bin. split; [exact L2|auto]. }
    set (s2 := override s1 (nvars m1) bs) in *.
    assert (AG : agree m sg s2) by (eapply agree_trans with (m' := m1); eauto; lia).
    assert (Y : map s2 ids1 = ys).
    { rewrite <- E3. symmetry. apply (map_agree (nvars m1)); [subst ids1; apply below_seqs; lia|].
      intros; apply F2; auto. }
    exists s2. split; [|auto]. apply S. split; auto.
    rewrite Y, F3. rewrite <- (map_agree (nvars m) sg s2 zv); auto.
Qed.

Lemma program_layer_total : forall n l a zv lo up vt m, lin_wf n l ->
  length lo = out_features l -> length up = out_features l ->
  program_layer l a zv lo up vt m <> None.
Proof.
  intros n l a zv lo up vt m W L1 L2. unfold program_layer.
  destruct (addVars (repeat (NInf, PInf) (out_features l)) VCont m) as [m1 ids1] eqn:A1.
  destruct (addVars (repeat (Fin 0, Fin 1) (out_features l)) vt m1) as [m2 ids2] eqn:A2.
  destruct (addVars_fields _ _ _ _ _ A1) as (_ & _ & I1 & N1).
  destruct (addVars_fields _ _ _ _ _ A2) as (_ & _ & I2 & N2).
  rewrite repeat_length in I1, I2.
  destruct (program_neurons a (weight l) (bias_of l) lo up zv ids1 ids2 m2) eqn:P; [discriminate|].
  exfalso. revert P. apply program_neurons_total; auto.
  - eapply bias_length; eauto.
  - subst ids1. apply seq_length.
  - subst ids2. apply seq_length.
Qed.

Lemma in_box_split : forall n lo up x, in_box lo up x ->
  in_box (firstn n lo) (firstn n up) (firstn n x) /\
  in_box (skipn n lo) (skipn n up) (skipn n x).
Proof.
  induction n; intros lo up x [H1 H2]; [simpl; split; [split; constructor|split; auto]|].
  inversion H1; subst; inversion H2; subst; simpl.
  - split; split; constructor.
  - destruct (IHn l l'0 l') as [[A B] [C D]]; [split; auto|].
    split; split; auto; constructor; auto.
Qed.
Lemma firstn_slice : forall (l : vec) n k off, firstn n (firstn (n + k) (skipn off l)) = slice off n l.
Proof. intros. unfold slice. rewrite firstn_firstn. f_equal. lia. Qed.
Lemma skipn_slice : forall (l : vec) n k off,
  skipn n (firstn (n + k) (skipn off l)) = firstn k (skipn (off + n) l).
Proof.
  intros. rewrite skipn_firstn_comm. rewrite skipn_skipn'. f_equal. lia.
Qed.

Lemma program_layers_spec : forall vt hs n out off lo up zv m m' zv',
  program_layers hs off lo up vt zv m = Some (m', zv') ->
  hidden_wf n hs out -> zv_ok n m zv ->
  grown m m' /\ zv_ok out m' zv' /\
  (vt = VBin -> forall sg, gfeas m' sg -> map sg zv' = hidden_eval hs (map sg zv)) /\
  (forall sg, wf_mip m -> gfeas m sg ->
     in_box (firstn (num_units hs) (skipn off lo)) (firstn (num_units hs) (skipn off up))
            (concat (pre_acts hs (map sg zv))) ->
     exists sg', gfeas m' sg' /\ agree m sg sg' /\
                 map sg' zv' = hidden_eval hs (map sg zv)).
Proof.
  intros vt hs. induction hs as [|[l a] hs IH]; intros n out off lo up zv m m' zv' H W Z.
  - injection H as <- <-. simpl in W. subst out. split; [apply grown_refl|].
    split; auto. split; [auto|]. intros sg _ G _. exists sg. split; auto. split; [|reflexivity].
    intros i _. reflexivity.
  - cbn [program_layers] in H.
    destruct (program_layer l a zv (slice off (out_features l) lo)
                (slice off (out_features l) up) vt m) as [[m1 yv]|] eqn:P; [|discriminate].
    destruct W as [Wl W].
    destruct (program_layer_spec n _ _ _ _ _ _ _ _ _ P Wl Z) as (G1 & Z1 & [bv S1] & X1).
    destruct (IH _ _ _ _ _ _ _ _ _ H W Z1) as (G2 & Z2 & S2 & X2).
    split; [eapply grown_trans; eauto|]. split; auto.
    assert (Wm : forall sg : assignment, Forall (fun w : vec => length w = length (map sg zv)) (weight l)).
    { intros sg. rewrite map_length. destruct Z as [-> _]. apply Wl. }
    assert (LE : forall sg : assignment, lin_eval l (map sg zv) = vadd (mv (weight l) (map sg zv)) (bias_of l)).
    { intros. apply lin_eval_bias. rewrite map_length. destruct Z as [-> _]. apply Wl. }
    split.
    + intros E sg G. pose proof (S2 E sg G) as Q. rewrite Q. cbn [hidden_eval].
      f_equal. assert (G' : gfeas m1 sg) by (apply G2; auto).
      apply S1 in G'. destruct G' as (_ & _ & D & N). subst vt.
      apply neurons_sound in N; auto. destruct N as [N _]. rewrite LE. exact N.
    + intros sg Wf G B. cbn [pre_acts concat num_units] in B.
      apply (in_box_split (out_features l)) in B. destruct B as [B1 B2].
      rewrite !firstn_slice in B1. rewrite !skipn_slice in B2.
      assert (LL : length (lin_eval l (map sg zv)) = out_features l)
        by (eapply lin_eval_length; eauto; rewrite map_length; apply Z).
      rewrite firstn_all' in B1 by exact LL. rewrite skipn_all' in B2 by exact LL.
      pose proof (pick_binaries_ok a _ _ _ B1) as U.
      set (bs := pick_binaries _ _ _) in U.
      rewrite LE in B1, U.
      pose proof (neurons_complete a (map sg zv) (weight l) (bias_of l) _ _ bs
                    (bias_length _ _ Wl) (Wm sg) B1 U) as Q.
      assert (D : bin_dom vt bs) by (apply bins_dom; eapply units_binary_facts; eauto).
      destruct (X1 sg _ bs Wf G D Q) as (s1 & E1 & E2 & E3).
      destruct (X2 s1) as (s2 & F1 & F2 & F3); auto.
      { apply G1; auto. }
      { rewrite E3, <- LE. auto. }
      exists s2. split; auto. split; [exact (agree_trans m m1 sg s1 s2 (proj1 G1) E2 F2)|].
      rewrite F3, E3. cbn [hidden_eval]. rewrite LE. auto.
Qed.

Lemma program_layers_total : forall vt hs n out off lo up zv m,
  hidden_wf n hs out -> (off + num_units hs <= length lo)%nat ->
  (off + num_units hs <= length up)%nat ->
  program_layers hs off lo up vt zv m <> None.
Proof.
  intros vt hs. induction hs as [|[l a] hs IH]; intros n out off lo up zv m W L1 L2; [discriminate|].
  cbn [program_layers]. destruct W as [Wl W]. cbn [num_units] in *.
  destruct (program_layer l a zv (slice off (out_features l) lo)
                (slice off (out_features l) up) vt m) as [[m1 yv]|] eqn:P.
  - eapply IH; eauto; lia.
  - exfalso. revert P. eapply program_layer_total; eauto; apply slice_length; lia.
Qed.

(** ** Setting the objective *)

Lemma nodupb_NoDup : forall l, NoDup l -> nodupb l = true.
Proof.
  induction 1; simpl; auto. rewrite IHNoDup, Bool.andb_true_r.
  destruct (existsb (Nat.eqb x) l) eqn:E; auto.
  apply existsb_exists in E. destruct E as [y [Hy E]]. apply Nat.eqb_eq in E. subst. tauto.
Qed.
Lemma filter_all : forall {A} (f : A -> bool) l, Forall (fun x => f x = true) l ->
  filter f l = l.
Proof. induction 1; simpl; auto. rewrite H. f_equal; auto. Qed.

Lemma setObjective_ok : forall n m zv w b mx, zv_ok n m zv ->
  exists m', setObjective [w] [zv] b mx m = Some m' /\ obj_max m' = mx /\
    zv_ok n m' zv /\ (wf_mip m -> wf_mip m') /\
    (forall sg, gfeas m' sg <-> gfeas m sg) /\
    (forall sg, objective m' sg = dot w (map sg zv) + b).
Proof.
  intros n m zv w b mx (Z1 & Z2 & Z3 & Z4). unfold setObjective. cbn [concat app length].
  rewrite !app_nil_r. rewrite Nat.eqb_refl. cbn [negb].
  rewrite (filter_all (known m) zv) by auto. rewrite nodupb_NoDup by auto.
  eexists. split; [reflexivity|]. split; [reflexivity|]. split; [split; auto|].
  split; [auto|]. split; [reflexivity|]. intros sg. unfold objective. cbn [obj_terms obj_const].
  rewrite filter_all.
  - rewrite eval_combine. auto.
  - apply Forall_forall. intros [c v] Hv. apply in_combine_r in Hv.
    rewrite Forall_forall in Z4. apply Z4. auto.
Qed.

Lemma vars_ok_box : forall lo up x, length lo = length up ->
  (vars_ok VCont (combine (map Fin lo) (map Fin up)) x <-> in_box lo up x).
Proof.
  unfold vars_ok, in_box, vle. induction lo as [|l lo IH]; destruct up as [|u up];
    intros x L; try discriminate; simpl.
  - split; intros H; [inversion H; split; constructor|].
    destruct H as [H _]. inversion H. constructor.
  - split.
    + intros H. inversion H; subst. apply IH in H4; [|simpl in L; lia].
      destruct H4. destruct H2 as (_ & A & B). simpl in A, B. split; constructor; auto.
    + intros [H1 H2]. inversion H1; subst. inversion H2; subst. constructor.
      * split; [intros; discriminate|]. simpl. auto.
      * apply IH; auto.
Qed.

Section Solver.
Variable solve : mip -> gresult.
Hypothesis Hsolve : solver_ok solve.

(** Every input in the box is a feasible point of the program, with the value
    of the row as objective; with binary variables the converse holds too. *)
Lemma bound_sound : forall n hs out w b pre_lo pre_up x_lo x_up vt l u,
  bound_by_optimization solve hs w b pre_lo pre_up x_lo x_up vt = Some (l, u) ->
  hidden_wf n hs out -> length x_lo = n -> length x_up = n ->
  length pre_lo = num_units hs -> length pre_up = num_units hs ->
  (forall x, in_box x_lo x_up x -> in_box pre_lo pre_up (concat (pre_acts hs x)) ->
     l <= dot w (hidden_eval hs x) + b <= u) /\
  (vt = VBin ->
     (exists x, in_box x_lo x_up x /\ dot w (hidden_eval hs x) + b = l) /\
     (exists x, in_box x_lo x_up x /\ dot w (hidden_eval hs x) + b = u)).
Proof.
  intros n hs out w b pre_lo pre_up x_lo x_up vt l u H W Lx Ux Lp Up.
  unfold bound_by_optimization in H.
  destruct (addVars (combine (map Fin x_lo) (map Fin x_up)) VCont init_mip) as [m0 xv] eqn:A.
  destruct (program_layers hs 0 pre_lo pre_up vt xv m0) as [[m1 zv]|] eqn:P; [|discriminate].
  destruct (addVars_fields _ _ _ _ _ A) as (_ & _ & I & N).
  change (nvars init_mip) with 0%nat in I, N.
  rewrite combine_length, !map_length, Lx, Ux, Nat.min_id in I, N.
  assert (Z : zv_ok n m0 xv).
  { split; [subst xv; apply seq_length|]. split; [subst xv; apply below_seqs; lia|].
    split; [subst xv; apply seq_NoDup|]. apply Forall_forall.
    intros v Hv. eapply addVars_known_new; eauto. }
  assert (W0 : wf_mip m0) by (eapply wf_addVars; eauto; constructor).
  destruct (program_layers_spec _ _ _ _ _ _ _ _ _ _ _ P W Z) as (G & Z1 & S & X).
  destruct (setObjective_ok _ _ _ w b true Z1) as (m2 & O2 & M2 & Z2 & _ & F2 & J2).
  rewrite O2 in H.
  destruct (setObjective_ok _ _ _ w b false Z2) as (m3 & O3 & M3 & Z3 & _ & F3 & J3).
  rewrite O3 in H.
  pose proof (Hsolve m2) as S2. pose proof (Hsolve m3) as S3.
  destruct (solve m2) as [u'| | | ]; try discriminate.
  destruct (solve m3) as [l'| | | ]; try discriminate.
  cbn [read_bound] in H. injection H as -> ->.
  rewrite M2 in S2. rewrite M3 in S3. destruct S2 as [[su [Gu Eu]] S2].
  destruct S3 as [[sl [Gl El]] S3].
  assert (G0 : forall sg, gfeas m1 sg -> in_box x_lo x_up (map sg xv)).
  { intros sg Gs. apply G in Gs. apply (gfeas_addVars _ _ _ _ _ sg A) in Gs.
    destruct Gs as [_ Gs]. apply vars_ok_box in Gs; auto. congruence. }
  split.
  - intros x Bx Bp.
    assert (GI : gfeas init_mip (fun _ => 0)).
    { split; [intros i v Hi; destruct i; discriminate|constructor]. }
    destruct (addVars_extend _ _ _ _ _ (fun _ => 0) x A) as (E1 & E2 & E3); auto.
    { constructor. }
    { apply vars_ok_box; auto. congruence. }
    set (s0 := override _ _ _) in *.
    destruct (X s0) as (s1 & K1 & K2 & K3); auto.
    { rewrite E3. cbn [skipn]. rewrite <- Lp at 1. rewrite <- Up.
      rewrite !firstn_all. auto. }
    rewrite E3 in K3.
    split.
    + specialize (S3 s1). rewrite J3, K3 in S3. apply S3. apply F3, F2. auto.
    + specialize (S2 s1). rewrite J2, K3 in S2. apply S2. apply F2. auto.
  - intros Ev. split.
    + assert (G1 : gfeas m1 sl) by (apply F2, F3; auto).
      exists (map sl xv). split; auto. rewrite J3 in El. rewrite (S Ev sl G1) in El. auto.
    + assert (G1 : gfeas m1 su) by (apply F2; auto).
      exists (map su xv). split; auto. rewrite J2 in Eu. rewrite (S Ev su G1) in Eu. auto.
Qed.

Lemma all_some_nth : forall {A B C} (f : A -> B -> option C) l1 l2 rs da db d,
  all_some (map2 f l1 l2) = Some rs -> length l1 = length l2 ->
  length rs = length l1 /\
  forall i, (i < length l1)%nat -> f (nth i l1 da) (nth i l2 db) = Some (nth i rs d).
Proof.
  intros A B C f l1. induction l1 as [|x l1 IH]; intros l2 rs da db d H L;
    destruct l2 as [|y l2]; try discriminate.
  - injection H as <-. split; auto. simpl. intros; lia.
  - simpl in H. destruct (f x y) eqn:E; [|discriminate].
    destruct (all_some (map2 f l1 l2)) eqn:F; [|discriminate]. injection H as <-.
    destruct (IH l2 l da db d F) as [IH1 IH2]; [simpl in L; lia|]. split; [simpl; auto|].
    intros i Hi. destruct i; simpl in *; auto. apply IH2. lia.
Qed.

Lemma in_box_nth : forall lo up x, length lo = length x -> length up = length x ->
  (forall i, (i < length x)%nat -> nth i lo 0 <= nth i x 0 <= nth i up 0) ->
  in_box lo up x.
Proof.
  intros lo up x. revert lo up. induction x as [|v x IH]; intros lo up L1 L2 H;
    destruct lo as [|l lo], up as [|u up]; try discriminate; [split; constructor|].
  destruct (IH lo up) as [A B]; [simpl in *; lia|simpl in *; lia| |].
  - intros i Hi. apply (H (S i)). simpl; lia.
  - specialize (H 0%nat). simpl in H. split; constructor; auto; apply H; lia.
Qed.
Lemma in_box_nth_inv : forall lo up x i, in_box lo up x -> (i < length x)%nat ->
  nth i lo 0 <= nth i x 0 <= nth i up 0.
Proof.
  intros lo up x i [H1 H2]. revert i up H2. induction H1; intros i up H2 Hi; [simpl in Hi; lia|].
  inversion H2; subst. destruct i; simpl; [auto|]. apply IHForall2; auto. simpl in Hi; lia.
Qed.
Lemma in_box_lengths : forall lo up x, in_box lo up x ->
  length lo = length x /\ length up = length x.
Proof.
  intros lo up x [H1 H2]. apply vle_length in H1. apply vle_length in H2. lia.
Qed.

Lemma nth_lin : forall n l x i, lin_wf n l -> length x = n -> (i < out_features l)%nat ->
  nth i (lin_eval l x) 0 = dot (nth i (weight l) []) x + nth i (bias_of l) 0.
Proof.
  intros n l x i W L Hi. pose proof (bias_length _ _ W) as Lb.
  destruct W as (_ & W & _). rewrite lin_eval_bias by (rewrite L; auto).
  rewrite nth_vadd by (rewrite mv_length; auto). rewrite nth_mv by auto. auto.
Qed.

Lemma optimize_rows_spec : forall n prev k l pre_lo pre_up x_lo x_up vt rs,
  optimize_rows solve prev l pre_lo pre_up x_lo x_up vt = Some rs ->
  hidden_wf n prev k -> lin_wf k l -> length x_lo = n -> length x_up = n ->
  length pre_lo = num_units prev -> length pre_up = num_units prev ->
  length rs = out_features l /\
  (forall x, in_box x_lo x_up x -> in_box pre_lo pre_up (concat (pre_acts prev x)) ->
     in_box (map fst rs) (map snd rs) (lin_eval l (hidden_eval prev x))) /\
  (vt = VBin -> forall i, (i < out_features l)%nat ->
     (exists x, in_box x_lo x_up x /\
        nth i (lin_eval l (hidden_eval prev x)) 0 = nth i (map fst rs) 0) /\
     (exists x, in_box x_lo x_up x /\
        nth i (lin_eval l (hidden_eval prev x)) 0 = nth i (map snd rs) 0)).
Proof.
  intros n prev k l pre_lo pre_up x_lo x_up vt rs H W Wl L1 L2 P1 P2.
  unfold optimize_rows in H.
  destruct (all_some_nth _ _ _ _ [] 0 (0, 0) H) as [L E].
  { symmetry. eapply bias_length; eauto. }
  assert (Lx : forall x, in_box x_lo x_up x -> length (hidden_eval prev x) = k).
  { intros x B. eapply hidden_eval_length; eauto. apply in_box_lengths in B. lia. }
  assert (NF : forall i, nth i (map fst rs) 0 = fst (nth i rs (0, 0)))
    by (intros; exact (map_nth fst rs (0,0) i)).
  assert (NS : forall i, nth i (map snd rs) 0 = snd (nth i rs (0, 0)))
    by (intros; exact (map_nth snd rs (0,0) i)).
  assert (Q : forall i, (i < out_features l)%nat -> exists lo up,
    nth i (map fst rs) 0 = lo /\ nth i (map snd rs) 0 = up /\
    (forall x, in_box x_lo x_up x -> in_box pre_lo pre_up (concat (pre_acts prev x)) ->
       lo <= nth i (lin_eval l (hidden_eval prev x)) 0 <= up) /\
    (vt = VBin ->
     (exists x, in_box x_lo x_up x /\ nth i (lin_eval l (hidden_eval prev x)) 0 = lo) /\
     (exists x, in_box x_lo x_up x /\ nth i (lin_eval l (hidden_eval prev x)) 0 = up))).
  { intros i Hi. specialize (E i Hi). destruct (nth i rs (0, 0)) as [lo up] eqn:Er.
    exists lo, up. rewrite NF, NS, Er. split; auto. split; auto.
    destruct (bound_sound _ _ _ _ _ _ _ _ _ _ _ _ E W L1 L2 P1 P2) as [S T]. split.
    - intros x B Bp. rewrite (nth_lin k) by auto. auto.
    - intros Ev. destruct (T Ev) as [[x [B1 B2]] [y [C1 C2]]]. split.
      + exists x. split; auto. rewrite (nth_lin k) by auto. auto.
      + exists y. split; auto. rewrite (nth_lin k) by auto. auto. }
  split; auto. split.
  - intros x B Bp.
    assert (LL : length (lin_eval l (hidden_eval prev x)) = out_features l)
      by (eapply lin_eval_length; eauto).
    apply in_box_nth; rewrite ?map_length, ?LL; auto.
    intros i Hi. destruct (Q i Hi) as (lo & up & -> & -> & S & _). auto.
  - intros Ev i Hi. destruct (Q i Hi) as (lo & up & -> & -> & _ & T). auto.
Qed.

Lemma mix_lo_sound : forall v ia x, v <= x -> ia <= x -> mix_lo v ia <= x.
Proof.
  intros v ia x H1 H2. unfold mix_lo. destruct (Rltb (Rabs (v - ia)) (1 / 10000)); auto.
  destruct (Rltb 0 v); [|lra]. pose proof (Rmin_l ia 0). lra.
Qed.
Lemma mix_up_sound : forall v ia x, x <= v -> x <= ia -> x <= mix_up v ia.
Proof.
  intros v ia x H1 H2. unfold mix_up. destruct (Rltb (Rabs (v - ia)) (1 / 10000)); auto.
  destruct (Rleb v 0) eqn:E; [|lra]. apply Rleb_true in E.
  assert (x <= Rmin ia 0) by (apply Rmin_glb; lra). lra.
Qed.
Lemma mix_out_lo_sound : forall v ia x, v <= x -> ia <= x -> mix_out_lo v ia <= x.
Proof.
  intros v ia x H1 H2. unfold mix_out_lo. destruct (Rltb (Rabs (v - ia)) (1 / 10000)); lra.
Qed.
Lemma mix_out_up_sound : forall v ia x, x <= v -> x <= ia -> x <= mix_out_up v ia.
Proof.
  intros v ia x H1 H2. unfold mix_out_up. destruct (Rltb (Rabs (v - ia)) (1 / 1000)); lra.
Qed.
Lemma map2_in_box : forall f g,
  (forall v ia x, v <= x -> ia <= x -> f v ia <= x) ->
  (forall v ia x, x <= v -> x <= ia -> x <= g v ia) ->
  forall lo1 up1 lo2 up2 x, in_box lo1 up1 x -> in_box lo2 up2 x ->
  in_box (map2 f lo1 lo2) (map2 g up1 up2) x.
Proof.
  intros f g Hf Hg lo1 up1 lo2 up2 x [A1 A2] [B1 B2]. unfold in_box, vle in *.
  split.
  - clear A2 B2. revert lo2 B1. induction A1; intros lo2 B1; inversion B1; subst; simpl;
      constructor; auto.
  - clear A1 B1. revert up2 B2. induction A2; intros up2 B2; inversion B2; subst; simpl;
      constructor; auto.
Qed.

Lemma layer_input_spec : forall n meth prev k l in_lo in_up pre_lo pre_up x_lo x_up lo up,
  layer_input_bounds solve meth prev l in_lo in_up pre_lo pre_up x_lo x_up = Some (lo, up) ->
  hidden_wf n prev k -> lin_wf k l -> length x_lo = n -> length x_up = n ->
  length pre_lo = num_units prev -> length pre_up = num_units prev ->
  length lo = out_features l /\ length up = out_features l /\
  (forall x, in_box x_lo x_up x -> in_box pre_lo pre_up (concat (pre_acts prev x)) ->
     in_box in_lo in_up (hidden_eval prev x) ->
     in_box lo up (lin_eval l (hidden_eval prev x))) /\
  (meth = MIP -> forall i, (i < out_features l)%nat ->
     (exists x, in_box x_lo x_up x /\
        nth i (lin_eval l (hidden_eval prev x)) 0 = nth i lo 0) /\
     (exists x, in_box x_lo x_up x /\
        nth i (lin_eval l (hidden_eval prev x)) 0 = nth i up 0)).
Proof.
  intros n meth prev k l in_lo in_up pre_lo pre_up x_lo x_up lo up H W Wl L1 L2 P1 P2.
  assert (Wl' := Wl). destruct Wl' as (If & [Wn Wf] & _).
  assert (Lb := bias_length _ _ Wl).
  assert (IAs : forall lo up,
    compute_range_by_IA (in_features l) (weight l) (bias_of l) in_lo in_up = Some (lo, up) ->
    length lo = out_features l /\ length up = out_features l /\
    (forall x, in_box x_lo x_up x -> in_box in_lo in_up (hidden_eval prev x) ->
       in_box lo up (lin_eval l (hidden_eval prev x)))).
  { clear H lo up. intros lo up H. assert (H' := H). apply range_inv in H'. destruct H' as (_ & _ & _ & E1 & E2).
    split; [|split].
    - subst lo. rewrite map2_length. unfold out_features. unfold vec, mat in *. lia.
    - subst up. rewrite map2_length. unfold out_features. unfold vec, mat in *. lia.
    - intros x Bx B. rewrite lin_eval_bias.
      + eapply range_sound; eauto. rewrite If. auto.
      + rewrite (hidden_eval_length _ n k); [split; auto|auto|].
        apply in_box_lengths in Bx. lia. }
  unfold layer_input_bounds in H.
  destruct meth; cbn [binary_var_type] in H.
  - destruct (IAs _ _ H) as (A & B & C). split; auto. split; auto. split; [auto|discriminate].
  - destruct (optimize_rows solve prev l pre_lo pre_up x_lo x_up VBinRelax) as [rs|] eqn:O; [|discriminate].
    injection H as <- <-.
    destruct (optimize_rows_spec _ _ _ _ _ _ _ _ _ _ O W Wl L1 L2 P1 P2) as (A & B & C).
    rewrite !map_length. split; auto. split; auto. split; [auto|discriminate].
  - destruct (optimize_rows solve prev l pre_lo pre_up x_lo x_up VBin) as [rs|] eqn:O; [|discriminate].
    injection H as <- <-.
    destruct (optimize_rows_spec _ _ _ _ _ _ _ _ _ _ O W Wl L1 L2 P1 P2) as (A & B & C).
    rewrite !map_length. split; auto.
  - destruct (optimize_rows solve prev l pre_lo pre_up x_lo x_up VBin) as [rs|] eqn:O; [|discriminate].
    destruct (compute_range_by_IA (in_features l) (weight l) (bias_of l) in_lo in_up)
      as [[ilo iup]|] eqn:R; [|discriminate].
    injection H as <- <-.
    destruct (optimize_rows_spec _ _ _ _ _ _ _ _ _ _ O W Wl L1 L2 P1 P2) as (A & B & C).
    destruct (IAs _ _ eq_refl) as (D & E & F).
    rewrite !map2_length, !map_length, A, D, E, Nat.min_id. split; auto. split; auto.
    split; [|discriminate]. intros x B1 B2 B3.
    apply map2_in_box; auto using mix_lo_sound, mix_up_sound.
Qed.

(** ** The loop over the layers *)

Definition acc_inv (n : nat) (meth : method) (x_lo x_up : vec) (prev : list (linear * act))
           (in_lo in_up : vec) (acc : bounds) : Prop :=
  length (b_pre_lo acc) = num_units prev /\ length (b_pre_up acc) = num_units prev /\
  (forall x, in_box x_lo x_up x ->
     in_box (b_pre_lo acc) (b_pre_up acc) (concat (pre_acts prev x)) /\
     in_box (b_post_lo acc) (b_post_up acc) (concat (post_acts prev x)) /\
     in_box in_lo in_up (hidden_eval prev x)) /\
  (meth = MIP -> forall i, (i < num_units prev)%nat ->
     (exists x, in_box x_lo x_up x /\
        nth i (concat (pre_acts prev x)) 0 = nth i (b_pre_lo acc) 0) /\
     (exists x, in_box x_lo x_up x /\
        nth i (concat (pre_acts prev x)) 0 = nth i (b_pre_up acc) 0)).

Lemma in_box_app : forall lo1 up1 x1 lo2 up2 x2, in_box lo1 up1 x1 -> in_box lo2 up2 x2 ->
  in_box (lo1 ++ lo2) (up1 ++ up2) (x1 ++ x2).
Proof.
  intros lo1 up1 x1 lo2 up2 x2 [A B] [C D]. split; apply Forall2_app; auto.
Qed.

Lemma layer_step_inv : forall n meth x_lo x_up prev l a in_lo in_up acc k lo up plo pup,
  layer_input_bounds solve meth prev l in_lo in_up (b_pre_lo acc) (b_pre_up acc)
                x_lo x_up = Some (lo, up) ->
  propagate_act_layer a lo up = (plo, pup) ->
  hidden_wf n prev k -> lin_wf k l -> length x_lo = n -> length x_up = n ->
  acc_inv n meth x_lo x_up prev in_lo in_up acc ->
  acc_inv n meth x_lo x_up (prev ++ [(l, a)]) plo pup
     (mkBounds (b_pre_lo acc ++ lo) (b_pre_up acc ++ up)
               (b_post_lo acc ++ plo) (b_post_up acc ++ pup)).
Proof.
  intros n meth x_lo x_up prev l a in_lo in_up acc k lo up plo pup E Ep W1 Wl L1 L2
    (I1 & I2 & I3 & I4).
  destruct (layer_input_spec _ _ _ _ _ _ _ _ _ _ _ _ _ E W1 Wl L1 L2 I1 I2)
      as (A1 & A2 & A3 & A4).
  split; [|split; [|split]]; cbn [b_pre_lo b_pre_up b_post_lo b_post_up].
  - rewrite app_length, num_units_app. simpl. lia.
  - rewrite app_length, num_units_app. simpl. lia.
  - intros x Bx. destruct (I3 x Bx) as (B1 & B2 & B3).
    rewrite pre_acts_app, post_acts_app, !concat_app, hidden_eval_app.
    cbn [pre_acts post_acts hidden_eval concat]. rewrite !app_nil_r.
    assert (P := A3 x Bx B1 B3). assert (P' := act_layer_sound a _ _ _ P).
    rewrite Ep in P'. cbn [fst snd] in P'.
    split; [apply in_box_app; auto|]. split; [apply in_box_app; auto|auto].
  - intros Em i Hi. rewrite num_units_app in Hi. cbn [num_units] in Hi.
    assert (PL : forall x, in_box x_lo x_up x ->
              length (concat (pre_acts prev x)) = num_units prev).
    { intros x Bx. destruct (I3 x Bx) as [P _]. apply in_box_lengths in P. lia. }
    assert (PE : forall x, concat (pre_acts (prev ++ [(l, a)]) x)
                 = concat (pre_acts prev x) ++ lin_eval l (hidden_eval prev x)).
    { intros x. rewrite pre_acts_app, concat_app. cbn [pre_acts concat]. rewrite app_nil_r. auto. }
    destruct (Nat.lt_ge_cases i (num_units prev)) as [C|C].
    + destruct (I4 Em i C) as [[x [X1 X2]] [y [Y1 Y2]]]. split.
      * exists x. split; auto. rewrite PE, !app_nth1 by (rewrite ?PL; auto; lia). auto.
      * exists y. split; auto. rewrite PE, !app_nth1 by (rewrite ?PL; auto; lia). auto.
    + destruct (A4 Em (i - num_units prev)%nat) as [[x [X1 X2]] [y [Y1 Y2]]]; [lia|]. split.
      * exists x. split; auto. rewrite PE, !app_nth2 by (rewrite ?PL; auto; lia).
        rewrite PL, I1 by auto. auto.
      * exists y. split; auto. rewrite PE, !app_nth2 by (rewrite ?PL; auto; lia).
        rewrite PL, I2 by auto. auto.
Qed.

Lemma layer_loop_inv : forall n meth x_lo x_up hs prev in_lo in_up acc B k out,
  layer_bounds_loop solve meth x_lo x_up prev hs in_lo in_up acc = Some B ->
  hidden_wf n prev k -> hidden_wf k hs out -> length x_lo = n -> length x_up = n ->
  acc_inv n meth x_lo x_up prev in_lo in_up acc ->
  exists lo up, acc_inv n meth x_lo x_up (prev ++ hs) lo up B.
Proof.
  intros n meth x_lo x_up hs. induction hs as [|[l a] hs IH];
    intros prev in_lo in_up acc B k out H W1 W2 L1 L2 Iv.
  - injection H as <-. exists in_lo, in_up. rewrite app_nil_r. auto.
  - cbn [layer_bounds_loop] in H.
    destruct (layer_input_bounds solve meth prev l in_lo in_up (b_pre_lo acc) (b_pre_up acc)
                x_lo x_up) as [[lo up]|] eqn:E; [|discriminate].
    destruct (propagate_act_layer a lo up) as [plo pup] eqn:Ep.
    destruct W2 as [Wl W2].
    assert (W1' : hidden_wf n (prev ++ [(l, a)]) (out_features l)).
    { apply hidden_wf_app. exists k. split; auto. simpl. auto. }
    destruct (IH _ _ _ _ _ _ _ H W1' W2 L1 L2) as (lo' & up' & Q).
    { eapply layer_step_inv; eauto. }
    exists lo', up'. rewrite <- app_assoc in Q. exact Q.
Qed.

Lemma layer_bound_spec : forall n meth N x_lo x_up B, net_wf n N ->
  length x_lo = n -> length x_up = n ->
  compute_layer_bound solve meth N x_lo x_up = Some B ->
  exists lo up, acc_inv n meth x_lo x_up (hidden N) lo up B.
Proof.
  intros n meth N x_lo x_up B (_ & W & _) L1 L2 H.
  apply (layer_loop_inv n) with (k := n) (out := in_features (last_layer N)) in H; auto.
  - reflexivity.
  - split; auto. split; auto. split.
    + intros x Bx. split; [split; constructor|]. split; [split; constructor|]. auto.
    + simpl. intros; lia.
Qed.

Lemma last_pre : forall hs n out l a t x, hidden_wf n hs out -> length x = n ->
  rev hs = (l, a) :: t ->
  map (act_fun a) (slice (num_units hs - out_features l) (out_features l) (concat (pre_acts hs x)))
  = hidden_eval hs x.
Proof.
  intros hs n out l a t x W L H. apply rev_last in H. subst hs.
  rewrite num_units_app. cbn [num_units].
  rewrite hidden_eval_app, pre_acts_app, concat_app. cbn [pre_acts concat hidden_eval].
  rewrite app_nil_r. apply hidden_wf_app in W. destruct W as [k [W1 W2]].
  simpl in W2. destruct W2 as [W2 _].
  destruct (num_units_pre _ _ _ _ W1 L) as [P _].
  assert (Q := hidden_eval_length _ _ _ _ W1 L).
  replace (num_units (rev t) + (out_features l + 0) - out_features l)%nat
    with (num_units (rev t)) by lia.
  unfold slice. rewrite skipn_all' by auto.
  rewrite firstn_all2; auto. erewrite lin_eval_length by eauto. lia.
Qed.

Lemma output_IA_sound : forall n N pre_lo pre_up lo up x, net_wf n N -> length x = n ->
  output_bounds_IA N pre_lo pre_up = Some (lo, up) ->
  in_box pre_lo pre_up (concat (pre_acts (hidden N) x)) ->
  in_box lo up (net_eval N x).
Proof.
  intros n N pre_lo pre_up lo up x (Hh & W & Wl) L H B. unfold output_bounds_IA in H.
  unfold last_units in H.
  destruct (rev (hidden N)) as [|[l a] t] eqn:E; [discriminate|].
  set (q := (num_units (hidden N) - out_features l)%nat) in *.
  assert (B' : in_box (slice q (out_features l) pre_lo) (slice q (out_features l) pre_up)
                 (slice q (out_features l) (concat (pre_acts (hidden N) x)))).
  { unfold slice. apply in_box_split. apply in_box_split. auto. }
  apply (act_layer_sound a) in B'.
  destruct (propagate_act_layer a _ _) as [plo pup]. cbn [fst snd] in B'.
  pose proof (last_pre _ n _ _ _ _ _ W L E) as Q. fold q in Q. rewrite Q in B'.
  unfold propagate_linear in H. unfold net_eval. assert (Wl' := Wl).
  destruct Wl' as (If & [Wn Wf] & _). rewrite lin_eval_bias.
  - eapply range_sound; eauto.
  - rewrite (hidden_eval_length _ n (in_features (last_layer N))); auto. split; auto.
Qed.

Lemma output_bounds_spec : forall n meth N pre_lo pre_up x_lo x_up lo up, net_wf n N ->
  length x_lo = n -> length x_up = n ->
  length pre_lo = num_units (hidden N) -> length pre_up = num_units (hidden N) ->
  compute_network_output_bounds solve meth N pre_lo pre_up x_lo x_up = Some (lo, up) ->
  (forall x, in_box x_lo x_up x -> in_box pre_lo pre_up (concat (pre_acts (hidden N) x)) ->
     in_box lo up (net_eval N x)) /\
  (meth = MIP -> forall i, (i < out_features (last_layer N))%nat ->
     (exists x, in_box x_lo x_up x /\ nth i (net_eval N x) 0 = nth i lo 0) /\
     (exists x, in_box x_lo x_up x /\ nth i (net_eval N x) 0 = nth i up 0)).
Proof.
  intros n meth N pre_lo pre_up x_lo x_up lo up Wn L1 L2 P1 P2 H.
  assert (Lx : forall x, in_box x_lo x_up x -> length x = n).
  { intros x B. apply in_box_lengths in B. lia. }
  destruct Wn as (Hh & W & Wl).
  unfold compute_network_output_bounds in H.
  destruct meth; cbn [binary_var_type] in H.
  - split; [|discriminate]. intros x Bx Bp.
    eapply (output_IA_sound n); eauto. split; auto.
  - destruct (optimize_rows solve (hidden N) (last_layer N) pre_lo pre_up x_lo x_up VBinRelax)
      as [rs|] eqn:O; [|discriminate]. injection H as <- <-.
    destruct (optimize_rows_spec _ _ _ _ _ _ _ _ _ _ O W Wl L1 L2 P1 P2) as (A & B & C).
    split; [exact B|discriminate].
  - destruct (optimize_rows solve (hidden N) (last_layer N) pre_lo pre_up x_lo x_up VBin)
      as [rs|] eqn:O; [|discriminate]. injection H as <- <-.
    destruct (optimize_rows_spec _ _ _ _ _ _ _ _ _ _ O W Wl L1 L2 P1 P2) as (A & B & C).
    split; [exact B|]. intros _. apply C. auto.
  - destruct (optimize_rows solve (hidden N) (last_layer N) pre_lo pre_up x_lo x_up VBin)
      as [rs|] eqn:O; [|discriminate].
    destruct (output_bounds_IA N pre_lo pre_up) as [[ilo iup]|] eqn:R; [|discriminate].
    injection H as <- <-.
    destruct (optimize_rows_spec _ _ _ _ _ _ _ _ _ _ O W Wl L1 L2 P1 P2) as (A & B & C).
    split; [|discriminate]. intros x Bx Bp.
    apply map2_in_box; auto using mix_out_lo_sound, mix_out_up_sound.
    + apply B; auto.
    + eapply (output_IA_sound n); eauto. split; auto.
Qed.

(** C12: all the bounds reported by output_constraint. *)
Lemma network_bounds : forall n meth N x_lo x_up c B lo up, net_wf n N ->
  length x_lo = n -> length x_up = n ->
  output_constraint solve meth N x_lo x_up = Some (c, B, (lo, up)) ->
  (forall x, in_box x_lo x_up x ->
     in_box (b_pre_lo B) (b_pre_up B) (concat (pre_acts (hidden N) x)) /\
     in_box (b_post_lo B) (b_post_up B) (concat (post_acts (hidden N) x)) /\
     in_box lo up (net_eval N x)) /\
  (meth = MIP ->
   (forall i, (i < num_units (hidden N))%nat ->
      (exists x, in_box x_lo x_up x /\
         nth i (concat (pre_acts (hidden N) x)) 0 = nth i (b_pre_lo B) 0) /\
      (exists x, in_box x_lo x_up x /\
         nth i (concat (pre_acts (hidden N) x)) 0 = nth i (b_pre_up B) 0)) /\
   (forall i, (i < out_features (last_layer N))%nat ->
      (exists x, in_box x_lo x_up x /\ nth i (net_eval N x) 0 = nth i lo 0) /\
      (exists x, in_box x_lo x_up x /\ nth i (net_eval N x) 0 = nth i up 0))).
Proof.
  intros n meth N x_lo x_up c B lo up W L1 L2 H. unfold output_constraint in H.
  destruct (vleb x_lo x_up); [|discriminate]. cbn [negb] in H.
  destruct (compute_layer_bound solve meth N x_lo x_up) as [B'|] eqn:E1; [|discriminate].
  destruct (compute_network_output_bounds solve meth N (b_pre_lo B') (b_pre_up B') x_lo x_up)
    as [out|] eqn:E2; [|discriminate].
  destruct (output_constraint_given_bounds N (b_pre_lo B') (b_pre_up B') x_lo x_up)
    as [c'|] eqn:E3; [|discriminate].
  injection H as <- <- ->.
  destruct (layer_bound_spec n _ _ _ _ _ W L1 L2 E1) as (z1 & z2 & I1 & I2 & I3 & I4).
  destruct (output_bounds_spec n _ _ _ _ _ _ _ _ W L1 L2 I1 I2 E2) as [S T].
  split.
  - intros x Bx. destruct (I3 x Bx) as (A1 & A2 & A3). auto.
  - intros Em. auto.
Qed.

(** C13: the constraint returned by output_constraint encodes the network. *)
Lemma network_encodes : forall n meth N x_lo x_up c B out, net_wf n N ->
  length x_lo = n -> length x_up = n ->
  output_constraint solve meth N x_lo x_up = Some (c, B, out) ->
  encodes c (in_box x_lo x_up) (net_eval N).
Proof.
  intros n meth N x_lo x_up c B [lo up] W L1 L2 H.
  destruct (network_bounds n _ _ _ _ _ _ _ _ W L1 L2 H) as [S _].
  unfold output_constraint in H.
  destruct (vleb x_lo x_up); [|discriminate]. cbn [negb] in H.
  destruct (compute_layer_bound solve meth N x_lo x_up) as [B'|] eqn:E1; [|discriminate].
  destruct (compute_network_output_bounds solve meth N (b_pre_lo B') (b_pre_up B') x_lo x_up)
    as [out'|] eqn:E2; [|discriminate].
  destruct (output_constraint_given_bounds N (b_pre_lo B') (b_pre_up B') x_lo x_up)
    as [c'|] eqn:E3; [|discriminate].
  injection H as <- <- ->.
  destruct (layer_bound_spec n _ _ _ _ _ W L1 L2 E1) as (z1 & z2 & I1 & I2 & _).
  destruct (encoding_given_bounds n N _ _ _ _ W L1 L2 I1 I2)
    as (c0 & Ec & M1 & M2 & M3 & M4 & M5 & M6 & M7).
  rewrite E3 in Ec. injection Ec as <-.
  assert (W' := W). destruct W' as (Hh & Wh & Wl).
  split.
  - intros x Bx. destruct (S x Bx) as (A1 & _ & _).
    assert (Lx : length x = n) by (apply in_box_lengths in Bx; lia).
    destruct (pick_net_ok _ _ _ _ _ _ Wh Lx A1) as (P1 & P2 & P3).
    exists (concat (post_acts (hidden N) x)), (pick_net (hidden N) (b_pre_lo B') (b_pre_up B') (concat (pre_acts (hidden N) x))).
    split; auto. apply M6. destruct (num_units_pre _ _ _ _ Wh Lx) as [Q1 Q2].
    split; [congruence|]. split; [congruence|]. split; auto.
    eapply net_complete; eauto.
  - intros x s b Hb Hs. apply M6 in Hs. destruct Hs as (K1 & K2 & K3 & K4).
    split; auto. assert (Lx : length x = n) by (apply in_box_lengths in K3; lia).
    rewrite M3 in K1.
    destruct (net_sound _ _ _ _ _ _ _ _ Wh Lx K1 Hb K4) as [-> _].
    apply M7. auto.
Qed.
End Solver.
