(** Bounds of a network over the points of a program handed over by a callback. *)

Require Import Reals List Lra Lia.
Require Import Verif.Vec Verif.VecFacts Verif.ModelMip Verif.SpecMip Verif.SpecCore
  Verif.ModelUtils Verif.SpecUtils Verif.ProofUtils Verif.ProofMaxBox Verif.ProofMip
  Verif.ProofSat Verif.ModelNet Verif.SpecNet Verif.ProofBounds Verif.ProofNet
  Verif.ProofNetBounds Verif.ProofNetTotal Verif.ModelQuadLoop Verif.SpecQuadLoop.
Import ListNotations.
Open Scope R_scope.

Section Callback.
Variable solve : mip -> gresult.
Hypothesis Hsolve : solver_ok solve.
Variable p : mip.
Variable xv : list nat.
Variable n : nat.
Hypothesis Wp : wf_mip p.
Hypothesis Zp : zv_ok n p xv.

Notation rows_of x_lo x_up :=
  (addMConstr [eye n] [xv] SGe x_lo (addMConstr [eye n] [xv] SLe x_up p)).

Lemma net_x_size : forall N, net_wf n N -> x_size N = n.
Proof.
  intros N [Hne [W _]]. unfold x_size. destruct (hidden N) as [|[l a] hs]; [congruence|]. apply W.
Qed.

Lemma rows_facts : forall x_lo x_up, length x_lo = n -> length x_up = n ->
  wf_mip (rows_of x_lo x_up) /\ zv_ok n (rows_of x_lo x_up) xv /\
  nvars (rows_of x_lo x_up) = nvars p /\
  (forall sg, gfeas (rows_of x_lo x_up) sg <-> gfeas p sg /\ in_box x_lo x_up (map sg xv)).
Proof.
  intros x_lo x_up L1 L2. destruct Zp as (Z1 & Z2 & Z3 & Z4).
  assert (Bl : below (nvars p) (concat [xv])) by (simpl; rewrite app_nil_r; auto).
  assert (E : forall (b : vec) (sg : assignment), length b = n ->
    bsum (length b) (combine [eye n] [xv]) sg = map sg xv).
  { intros b sg Lb. cbn [combine bsum]. unfold eye. rewrite mv_eyek by (rewrite map_length; auto).
    rewrite Lb. rewrite vscale_1. apply vadd_zeros_r. rewrite map_length. auto. }
  assert (Wb : forall b : vec, length b = n -> blocks_wf (length b) (combine [eye n] [xv])).
  { intros b Lb. constructor; [|constructor]. cbn [fst snd]. rewrite Lb, Z1. apply wfm_eyek. }
  split; [|split; [|split]].
  - apply wf_addMConstr; [apply wf_addMConstr; auto|]. rewrite nvars_addMConstr. auto.
  - split; auto. split; [rewrite !nvars_addMConstr; auto|]. split; auto.
    unfold addMConstr. eapply Forall_impl; [|exact Z4]. intros v Hv. cbv beta in *.
    rewrite !known_push_rows. auto.
  - rewrite !nvars_addMConstr. auto.
  - intros sg. rewrite !gfeas_addMConstr; try discriminate; auto.
    rewrite !E by auto. cbn [sense_ok]. unfold in_box. tauto.
Qed.


Lemma cb_bound_sound : forall hs out w b pre_lo pre_up x_lo x_up vt l u,
  bound_by_callback solve n (Some (p, xv)) hs w b pre_lo pre_up x_lo x_up vt = Some (l, u) ->
  hidden_wf n hs out -> length x_lo = n -> length x_up = n ->
  length pre_lo = num_units hs -> length pre_up = num_units hs ->
  (forall x, reach p xv x_lo x_up x -> in_box pre_lo pre_up (concat (pre_acts hs x)) ->
     l <= dot w (hidden_eval hs x) + b <= u) /\
  (vt = VBin ->
     (exists x, reach p xv x_lo x_up x /\ dot w (hidden_eval hs x) + b = l) /\
     (exists x, reach p xv x_lo x_up x /\ dot w (hidden_eval hs x) + b = u)).
Proof.
  intros hs out w b pre_lo pre_up x_lo x_up vt l u H W Lx Ux Lp Up.
  unfold bound_by_callback in H. rewrite (proj2 (Nat.eqb_eq _ _) (proj1 Zp)) in H.
  destruct (rows_facts x_lo x_up Lx Ux) as (W0 & Z & _ & Fr). cbv zeta in H.
  set (m0 := rows_of x_lo x_up) in *.
  destruct (program_layers hs 0 pre_lo pre_up vt xv m0) as [[m1 zv]|] eqn:P; [|discriminate].
  destruct (program_layers_spec _ _ _ _ _ _ _ _ _ _ _ P W Z) as (G & Z1 & S & X).
  destruct (setObjective_ok _ _ _ w b true Z1) as (m2 & O2 & M2 & Z2 & _ & F2 & J2).
  rewrite O2 in H.
  destruct (setObjective_ok _ _ _ w b false Z2) as (m3 & O3 & M3 & Z3 & _ & F3 & J3).
  rewrite O3 in H.
  pose proof (Hsolve m2) as S2. pose proof (Hsolve m3) as S3.
  destruct (solve m2) as [u'| | | ]; try discriminate.
  destruct (solve m3) as [l'| | | ]; try discriminate.
  cbn [read_bound] in H. injection H as -> ->.
  rewrite M2 in S2. rewrite M3 in S3. destruct S2 as [[su [Gu Eu]] S2].
  destruct S3 as [[sl [Gl El]] S3].
  assert (G0 : forall sg, gfeas m1 sg -> reach p xv x_lo x_up (map sg xv)).
  { intros sg Gs. apply G in Gs. apply Fr in Gs. destruct Gs as [Gs Bs]. split; auto.
    exists sg. auto. }
  split.
  - intros x [Bx (s0 & G1 & E3)] Bp.
    destruct (X s0) as (s1 & K1 & K2 & K3); auto.
    { apply Fr. rewrite E3. auto. }
    { rewrite E3. cbn [skipn]. rewrite <- Lp at 1. rewrite <- Up.
      rewrite !firstn_all. auto. }
    rewrite E3 in K3.
    split.
    + specialize (S3 s1). rewrite J3, K3 in S3. apply S3. apply F3, F2. auto.
    + specialize (S2 s1). rewrite J2, K3 in S2. apply S2. apply F2. auto.
  - intros Ev. split.
    + assert (G1 : gfeas m1 sl) by (apply F2, F3; auto).
      exists (map sl xv). split; auto. rewrite J3 in El. rewrite (S Ev sl G1) in El. auto.
    + assert (G1 : gfeas m1 su) by (apply F2; auto).
      exists (map su xv). split; auto. rewrite J2 in Eu. rewrite (S Ev su G1) in Eu. auto.
Qed.

Lemma cb_rows_spec : forall prev k l pre_lo pre_up x_lo x_up vt rs,
  callback_rows solve n (Some (p, xv)) prev l pre_lo pre_up x_lo x_up vt = Some rs ->
  hidden_wf n prev k -> lin_wf k l -> length x_lo = n -> length x_up = n ->
  length pre_lo = num_units prev -> length pre_up = num_units prev ->
  length rs = out_features l /\
  (forall x, reach p xv x_lo x_up x -> in_box pre_lo pre_up (concat (pre_acts prev x)) ->
     in_box (map fst rs) (map snd rs) (lin_eval l (hidden_eval prev x))) /\
  (vt = VBin -> forall i, (i < out_features l)%nat ->
     (exists x, reach p xv x_lo x_up x /\
        nth i (lin_eval l (hidden_eval prev x)) 0 = nth i (map fst rs) 0) /\
     (exists x, reach p xv x_lo x_up x /\
        nth i (lin_eval l (hidden_eval prev x)) 0 = nth i (map snd rs) 0)).
Proof.
  intros prev k l pre_lo pre_up x_lo x_up vt rs H W Wl L1 L2 P1 P2.
  unfold callback_rows in H.
  destruct (all_some_nth _ _ _ _ [] 0 (0, 0) H) as [L E].
  { symmetry. eapply bias_length; eauto. }
  assert (Lx : forall x, reach p xv x_lo x_up x -> length (hidden_eval prev x) = k).
  { intros x [B _]. eapply hidden_eval_length; eauto. apply in_box_lengths in B. lia. }
  assert (NF : forall i, nth i (map fst rs) 0 = fst (nth i rs (0, 0)))
    by (intros; exact (map_nth fst rs (0,0) i)).
  assert (NS : forall i, nth i (map snd rs) 0 = snd (nth i rs (0, 0)))
    by (intros; exact (map_nth snd rs (0,0) i)).
  assert (Q : forall i, (i < out_features l)%nat -> exists lo up,
    nth i (map fst rs) 0 = lo /\ nth i (map snd rs) 0 = up /\
    (forall x, reach p xv x_lo x_up x -> in_box pre_lo pre_up (concat (pre_acts prev x)) ->
       lo <= nth i (lin_eval l (hidden_eval prev x)) 0 <= up) /\
    (vt = VBin ->
     (exists x, reach p xv x_lo x_up x /\ nth i (lin_eval l (hidden_eval prev x)) 0 = lo) /\
     (exists x, reach p xv x_lo x_up x /\ nth i (lin_eval l (hidden_eval prev x)) 0 = up))).
  { intros i Hi. specialize (E i Hi). destruct (nth i rs (0, 0)) as [lo up] eqn:Er.
    exists lo, up. rewrite NF, NS, Er. split; auto. split; auto.
    destruct (cb_bound_sound _ _ _ _ _ _ _ _ _ _ _ E W L1 L2 P1 P2) as [S T]. split.
    - intros x B Bp. rewrite (nth_lin k) by auto. auto.
    - intros Ev. destruct (T Ev) as [[x [B1 B2]] [y [C1 C2]]]. split.
      + exists x. split; auto. rewrite (nth_lin k) by auto. auto.
      + exists y. split; auto. rewrite (nth_lin k) by auto. auto. }
  split; auto. split.
  - intros x B Bp.
    assert (LL : length (lin_eval l (hidden_eval prev x)) = out_features l)
      by (eapply lin_eval_length; eauto).
    apply in_box_nth; rewrite ?map_length, ?LL; auto.
    intros i Hi. destruct (Q i Hi) as (lo & up & -> & -> & S & _). auto.
  - intros Ev i Hi. destruct (Q i Hi) as (lo & up & -> & -> & _ & T). auto.
Qed.

Lemma cb_layer_spec : forall meth prev k l in_lo in_up pre_lo pre_up x_lo x_up lo up,
  callback_layer solve n (Some (p, xv)) meth prev l in_lo in_up pre_lo pre_up x_lo x_up = Some (lo, up) ->
  hidden_wf n prev k -> lin_wf k l -> length x_lo = n -> length x_up = n ->
  length pre_lo = num_units prev -> length pre_up = num_units prev ->
  length lo = out_features l /\ length up = out_features l /\
  (forall x, reach p xv x_lo x_up x -> in_box pre_lo pre_up (concat (pre_acts prev x)) ->
     in_box in_lo in_up (hidden_eval prev x) ->
     in_box lo up (lin_eval l (hidden_eval prev x))) /\
  (meth = MIP -> forall i, (i < out_features l)%nat ->
     (exists x, reach p xv x_lo x_up x /\
        nth i (lin_eval l (hidden_eval prev x)) 0 = nth i lo 0) /\
     (exists x, reach p xv x_lo x_up x /\
        nth i (lin_eval l (hidden_eval prev x)) 0 = nth i up 0)).
Proof.
  intros meth prev k l in_lo in_up pre_lo pre_up x_lo x_up lo up H W Wl L1 L2 P1 P2.
  assert (Wl' := Wl). destruct Wl' as (If & [Wn Wf] & _).
  assert (Lb := bias_length _ _ Wl).
  assert (IAs : forall lo up,
    compute_range_by_IA (in_features l) (weight l) (bias_of l) in_lo in_up = Some (lo, up) ->
    length lo = out_features l /\ length up = out_features l /\
    (forall x, reach p xv x_lo x_up x -> in_box in_lo in_up (hidden_eval prev x) ->
       in_box lo up (lin_eval l (hidden_eval prev x)))).
  { clear H lo up. intros lo up H. assert (H' := H). apply range_inv in H'. destruct H' as (_ & _ & _ & E1 & E2).
    split; [|split].
    - subst lo. rewrite map2_length. unfold out_features. unfold vec, mat in *. lia.
    - subst up. rewrite map2_length. unfold out_features. unfold vec, mat in *. lia.
    - intros x Bx B. rewrite lin_eval_bias.
      + eapply range_sound; eauto. rewrite If. auto.
      + rewrite (hidden_eval_length _ n k); [split; auto|auto|].
        destruct Bx as [Bx _]. apply in_box_lengths in Bx. lia. }
  unfold callback_layer in H.
  destruct meth; cbn [binary_var_type] in H.
  - destruct (IAs _ _ H) as (A & B & C). split; auto. split; auto. split; [auto|discriminate].
  - destruct (callback_rows solve n (Some (p, xv)) prev l pre_lo pre_up x_lo x_up VBinRelax) as [rs|] eqn:O; [|discriminate].
    injection H as <- <-.
    destruct (cb_rows_spec _ _ _ _ _ _ _ _ _ O W Wl L1 L2 P1 P2) as (A & B & C).
    rewrite !map_length. split; auto. split; auto. split; [auto|discriminate].
  - destruct (callback_rows solve n (Some (p, xv)) prev l pre_lo pre_up x_lo x_up VBin) as [rs|] eqn:O; [|discriminate].
    injection H as <- <-.
    destruct (cb_rows_spec _ _ _ _ _ _ _ _ _ O W Wl L1 L2 P1 P2) as (A & B & C).
    rewrite !map_length. split; auto.
  - destruct (callback_rows solve n (Some (p, xv)) prev l pre_lo pre_up x_lo x_up VBin) as [rs|] eqn:O; [|discriminate].
    destruct (compute_range_by_IA (in_features l) (weight l) (bias_of l) in_lo in_up)
      as [[ilo iup]|] eqn:R; [|discriminate].
    injection H as <- <-.
    destruct (cb_rows_spec _ _ _ _ _ _ _ _ _ O W Wl L1 L2 P1 P2) as (A & B & C).
    destruct (IAs _ _ eq_refl) as (D & E & F).
    rewrite !map2_length, !map_length, A, D, E, Nat.min_id. split; auto. split; auto.
    split; [|discriminate]. intros x B1 B2 B3.
    apply map2_in_box; auto using mix_lo_sound, mix_up_sound.
Qed.

Definition cb_inv (n : nat) (meth : method) (x_lo x_up : vec) (prev : list (linear * act))
           (in_lo in_up : vec) (acc : bounds) : Prop :=
  length (b_pre_lo acc) = num_units prev /\ length (b_pre_up acc) = num_units prev /\
  (forall x, reach p xv x_lo x_up x ->
     in_box (b_pre_lo acc) (b_pre_up acc) (concat (pre_acts prev x)) /\
     in_box (b_post_lo acc) (b_post_up acc) (concat (post_acts prev x)) /\
     in_box in_lo in_up (hidden_eval prev x)) /\
  (meth = MIP -> forall i, (i < num_units prev)%nat ->
     (exists x, reach p xv x_lo x_up x /\
        nth i (concat (pre_acts prev x)) 0 = nth i (b_pre_lo acc) 0) /\
     (exists x, reach p xv x_lo x_up x /\
        nth i (concat (pre_acts prev x)) 0 = nth i (b_pre_up acc) 0)).



Lemma cb_step_inv : forall meth x_lo x_up prev l a in_lo in_up acc k lo up plo pup,
  callback_layer solve n (Some (p, xv)) meth prev l in_lo in_up (b_pre_lo acc) (b_pre_up acc)
                x_lo x_up = Some (lo, up) ->
  propagate_act_layer a lo up = (plo, pup) ->
  hidden_wf n prev k -> lin_wf k l -> length x_lo = n -> length x_up = n ->
  cb_inv n meth x_lo x_up prev in_lo in_up acc ->
  cb_inv n meth x_lo x_up (prev ++ [(l, a)]) plo pup
     (mkBounds (b_pre_lo acc ++ lo) (b_pre_up acc ++ up)
               (b_post_lo acc ++ plo) (b_post_up acc ++ pup)).
Proof.
  intros meth x_lo x_up prev l a in_lo in_up acc k lo up plo pup E Ep W1 Wl L1 L2
    (I1 & I2 & I3 & I4).
  destruct (cb_layer_spec _ _ _ _ _ _ _ _ _ _ _ _ E W1 Wl L1 L2 I1 I2)
      as (A1 & A2 & A3 & A4).
  split; [|split; [|split]]; cbn [b_pre_lo b_pre_up b_post_lo b_post_up].
  - rewrite app_length, num_units_app. simpl. lia.
  - rewrite app_length, num_units_app. simpl. lia.
  - intros x Bx. destruct (I3 x Bx) as (B1 & B2 & B3).
    rewrite pre_acts_app, post_acts_app, !concat_app, hidden_eval_app.
    cbn [pre_acts post_acts hidden_eval concat]. rewrite !app_nil_r.
    assert (P := A3 x Bx B1 B3). assert (P' := act_layer_sound a _ _ _ P).
    rewrite Ep in P'. cbn [fst snd] in P'.
    split; [apply in_box_app; auto|]. split; [apply in_box_app; auto|auto].
  - intros Em i Hi. rewrite num_units_app in Hi. cbn [num_units] in Hi.
    assert (PL : forall x, reach p xv x_lo x_up x ->
              length (concat (pre_acts prev x)) = num_units prev).
    { intros x Bx. destruct (I3 x Bx) as [P _]. apply in_box_lengths in P. lia. }
    assert (PE : forall x, concat (pre_acts (prev ++ [(l, a)]) x)
                 = concat (pre_acts prev x) ++ lin_eval l (hidden_eval prev x)).
    { intros x. rewrite pre_acts_app, concat_app. cbn [pre_acts concat]. rewrite app_nil_r. auto. }
    destruct (Nat.lt_ge_cases i (num_units prev)) as [C|C].
    + destruct (I4 Em i C) as [[x [X1 X2]] [y [Y1 Y2]]]. split.
      * exists x. split; auto. rewrite PE, !app_nth1 by (rewrite ?PL; auto; lia). auto.
      * exists y. split; auto. rewrite PE, !app_nth1 by (rewrite ?PL; auto; lia). auto.
    + destruct (A4 Em (i - num_units prev)%nat) as [[x [X1 X2]] [y [Y1 Y2]]]; [lia|]. split.
      * exists x. split; auto. rewrite PE, !app_nth2 by (rewrite ?PL; auto; lia).
        rewrite PL, I1 by auto. auto.
      * exists y. split; auto. rewrite PE, !app_nth2 by (rewrite ?PL; auto; lia).
        rewrite PL, I2 by auto. auto.
Qed.

Lemma cb_loop_inv : forall meth x_lo x_up hs prev in_lo in_up acc B k out,
  callback_loop solve n (Some (p, xv)) meth x_lo x_up prev hs in_lo in_up acc = Some B ->
  hidden_wf n prev k -> hidden_wf k hs out -> length x_lo = n -> length x_up = n ->
  cb_inv n meth x_lo x_up prev in_lo in_up acc ->
  exists lo up, cb_inv n meth x_lo x_up (prev ++ hs) lo up B.
Proof.
  intros meth x_lo x_up hs. induction hs as [|[l a] hs IH];
    intros prev in_lo in_up acc B k out H W1 W2 L1 L2 Iv.
  - injection H as <-. exists in_lo, in_up. rewrite app_nil_r. auto.
  - cbn [callback_loop] in H.
    destruct (callback_layer solve n (Some (p, xv)) meth prev l in_lo in_up (b_pre_lo acc) (b_pre_up acc)
                x_lo x_up) as [[lo up]|] eqn:E; [|discriminate].
    destruct (propagate_act_layer a lo up) as [plo pup] eqn:Ep.
    destruct W2 as [Wl W2].
    assert (W1' : hidden_wf n (prev ++ [(l, a)]) (out_features l)).
    { apply hidden_wf_app. exists k. split; auto. simpl. auto. }
    destruct (IH _ _ _ _ _ _ _ H W1' W2 L1 L2) as (lo' & up' & Q).
    { eapply cb_step_inv; eauto. }
    exists lo', up'. rewrite <- app_assoc in Q. exact Q.
Qed.

Lemma cb_bound_spec : forall meth N x_lo x_up B, net_wf n N ->
  length x_lo = n -> length x_up = n ->
  callback_layer_bound solve (Some (p, xv)) meth N x_lo x_up = Some B ->
  exists lo up, cb_inv n meth x_lo x_up (hidden N) lo up B.
Proof.
  intros meth N x_lo x_up B Wn L1 L2 H. unfold callback_layer_bound in H.
  rewrite (net_x_size _ Wn) in H. destruct Wn as (_ & W & _).
  apply cb_loop_inv with (k := n) (out := in_features (last_layer N)) in H; auto.
  - reflexivity.
  - split; auto. split; auto. split.
    + intros x Bx. split; [split; constructor|]. split; [split; constructor|]. apply Bx.
    + simpl. intros; lia.
Qed.

Hypothesis Htotal : solver_total solve.


Lemma cb_bound_total : forall hs out w b pre_lo pre_up x_lo x_up vt,
  vt <> VCont -> hidden_wf n hs out -> length x_lo = n -> length x_up = n ->
  length pre_lo = num_units hs -> length pre_up = num_units hs ->
  (exists x, reach p xv x_lo x_up x /\ in_box pre_lo pre_up (concat (pre_acts hs x))) ->
  bound_by_callback solve n (Some (p, xv)) hs w b pre_lo pre_up x_lo x_up vt <> None.
Proof.
  intros hs out w b pre_lo pre_up x_lo x_up vt V W Lx Ux Lp Up [x [[Bx (s0 & G1 & E3)] Bp]].
  unfold bound_by_callback. rewrite (proj2 (Nat.eqb_eq _ _) (proj1 Zp)).
  destruct (rows_facts x_lo x_up Lx Ux) as (W0 & Z & _ & Fr). cbv zeta.
  set (m0 := rows_of x_lo x_up) in *.
  destruct (program_layers hs 0 pre_lo pre_up vt xv m0) as [[m1 zv]|] eqn:P.
  2:{ exfalso. revert P. eapply program_layers_total; eauto; lia. }
  destruct (program_layers_spec _ _ _ _ _ _ _ _ _ _ _ P W Z) as (G & Z1 & S & X).
  destruct (setObjective_ok _ _ _ w b true Z1) as (m2 & O2 & M2 & Z2 & _ & F2 & J2).
  rewrite O2.
  destruct (setObjective_ok _ _ _ w b false Z2) as (m3 & O3 & M3 & Z3 & _ & F3 & J3).
  rewrite O3.
  assert (Fe : exists s1, gfeas m1 s1).
  { destruct (X s0) as (s1 & K1 & _); auto.
    { apply Fr. rewrite E3. auto. }
    { rewrite E3. cbn [skipn]. rewrite <- Lp at 1. rewrite <- Up.
      rewrite !firstn_all. auto. }
    exists s1; auto. }
  destruct Fe as [s1 Fe].
  assert (Bd : exists K, forall sg, gfeas m1 sg -> Rabs (dot w (map sg zv) + b) <= K).
  { destruct (box_bound x_lo x_up) as (K & HK & QK).
    destruct (program_layers_bounded _ _ _ _ _ _ _ _ _ _ _ V P W Z K HK) as (K' & HK' & Q').
    exists (norm1 w * K' + Rabs b). intros sg Gs.
    assert (vbound K' (map sg zv)).
    { apply Q'; auto. apply QK. apply G in Gs. apply Fr in Gs. tauto. }
    pose proof (norm_dot w _ K' H HK'). pose proof (Rabs_triang (dot w (map sg zv)) b). lra. }
  destruct Bd as [K Bd].
  destruct (Htotal m2) as [u Eu].
  { exists s1. apply F2. auto. }
  { exists K. intros sg Gs. rewrite J2. apply Bd. apply F2. auto. }
  destruct (Htotal m3) as [l El].
  { exists s1. apply F3, F2. auto. }
  { exists K. intros sg Gs. rewrite J3. apply Bd. apply F2, F3. auto. }
  rewrite Eu, El. discriminate.
Qed.

Lemma cb_rows_total : forall prev k l pre_lo pre_up x_lo x_up vt,
  vt <> VCont ->
  hidden_wf n prev k -> lin_wf k l -> length x_lo = n -> length x_up = n ->
  length pre_lo = num_units prev -> length pre_up = num_units prev ->
  (exists x, reach p xv x_lo x_up x /\ in_box pre_lo pre_up (concat (pre_acts prev x))) ->
  callback_rows solve n (Some (p, xv)) prev l pre_lo pre_up x_lo x_up vt <> None.
Proof.
  intros. unfold callback_rows. apply all_some_total. intros. eapply cb_bound_total; eauto.
Qed.

Lemma cb_layer_total : forall meth prev k l in_lo in_up pre_lo pre_up x_lo x_up,
  hidden_wf n prev k -> lin_wf k l -> length x_lo = n -> length x_up = n ->
  length pre_lo = num_units prev -> length pre_up = num_units prev ->
  length in_lo = k -> length in_up = k ->
  (exists x, reach p xv x_lo x_up x /\ in_box pre_lo pre_up (concat (pre_acts prev x))) ->
  callback_layer solve n (Some (p, xv)) meth prev l in_lo in_up pre_lo pre_up x_lo x_up <> None.
Proof.
  intros meth prev k l in_lo in_up pre_lo pre_up x_lo x_up W Wl L1 L2 P1 P2 I1 I2 Ex.
  assert (R : compute_range_by_IA (in_features l) (weight l) (bias_of l) in_lo in_up <> None).
  { destruct Wl as (If & Wl'). apply range_total; [eapply bias_length; split; eauto|congruence|congruence]. }
  assert (O : forall vt, vt <> VCont -> callback_rows solve n (Some (p, xv)) prev l pre_lo pre_up x_lo x_up vt <> None)
    by (intros; eapply cb_rows_total; eauto).
  unfold callback_layer. destruct meth; cbn [binary_var_type]; auto.
  - specialize (O VBinRelax ltac:(discriminate)).
    destruct (callback_rows solve n (Some (p, xv)) prev l pre_lo pre_up x_lo x_up VBinRelax); congruence.
  - specialize (O VBin ltac:(discriminate)).
    destruct (callback_rows solve n (Some (p, xv)) prev l pre_lo pre_up x_lo x_up VBin); congruence.
  - specialize (O VBin ltac:(discriminate)).
    destruct (callback_rows solve n (Some (p, xv)) prev l pre_lo pre_up x_lo x_up VBin); [|congruence].
    destruct (compute_range_by_IA _ _ _ _ _) as [[? ?]|]; congruence.
Qed.

Lemma cb_loop_total : forall meth x_lo x_up hs prev in_lo in_up acc k out,
  hidden_wf n prev k -> hidden_wf k hs out -> length x_lo = n -> length x_up = n ->
  (exists x, reach p xv x_lo x_up x) ->
  cb_inv n meth x_lo x_up prev in_lo in_up acc ->
  callback_loop solve n (Some (p, xv)) meth x_lo x_up prev hs in_lo in_up acc <> None.
Proof.
  intros meth x_lo x_up hs. induction hs as [|[l a] hs IH];
    intros prev in_lo in_up acc k out W1 W2 L1 L2 [x0 B0] Iv; [discriminate|].
  cbn [callback_loop].
  destruct W2 as [Wl W2].
  assert (Iv' := Iv). destruct Iv' as (I1 & I2 & I3 & I4).
  destruct (I3 _ B0) as (B1 & B2 & B3).
  assert (LE := hidden_eval_length _ _ _ _ W1 (eq_trans (eq_sym (proj1 (in_box_lengths _ _ _ (proj1 B0)))) L1)).
  destruct (in_box_lengths _ _ _ B3) as [E1 E2].
  assert (T := cb_layer_total meth prev k l in_lo in_up (b_pre_lo acc) (b_pre_up acc)
    x_lo x_up W1 Wl L1 L2 I1 I2 ltac:(congruence) ltac:(congruence)
    (ex_intro _ x0 (conj B0 B1))).
  destruct (callback_layer solve n (Some (p, xv)) meth prev l in_lo in_up (b_pre_lo acc) (b_pre_up acc)
                x_lo x_up) as [[lo up]|] eqn:E; [|congruence].
  destruct (propagate_act_layer a lo up) as [plo pup] eqn:Ep.
  assert (W1' : hidden_wf n (prev ++ [(l, a)]) (out_features l)).
  { apply hidden_wf_app. exists k. split; auto. simpl. auto. }
  eapply IH; eauto.
  eapply cb_step_inv; eauto.
Qed.

Lemma cb_layer_bound_total : forall meth N x_lo x_up, net_wf n N ->
  length x_lo = n -> length x_up = n -> (exists x, reach p xv x_lo x_up x) ->
  callback_layer_bound solve (Some (p, xv)) meth N x_lo x_up <> None.
Proof.
  intros meth N x_lo x_up Wn L1 L2 Ex. unfold callback_layer_bound.
  rewrite (net_x_size _ Wn). destruct Wn as (_ & W & _).
  apply cb_loop_total with (k := n) (out := in_features (last_layer N)); auto.
  - reflexivity.
  - split; auto. split; auto. split.
    + intros x Bx. split; [split; constructor|]. split; [split; constructor|]. apply Bx.
    + simpl. intros; lia.
Qed.

End Callback.
