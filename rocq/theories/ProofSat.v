(** Lemmas for the saturation block. *)

Require Import Reals List Bool Lia Lra Arith.
Require Import Verif.Vec Verif.VecFacts Verif.ModelMip Verif.SpecMip
  Verif.ModelUtils Verif.SpecCore Verif.SpecUtils Verif.ProofUtils
  Verif.ProofMaxBox Verif.ProofGrad Verif.ProofMip.
Import ListNotations.
Open Scope R_scope.

(** Rows of the two shifted ReLU blocks. *)
Lemma sat_low_rows : forall lo up l rw x y b m sg s0,
  replace_relu (lo - l) (up - l) = Some rw -> s0 = map sg [b] ->
  (gfeas (addMConstr [col (rw_x rw); col (rw_y rw); col (vneg (rw_b rw))]
           [[x]; [y]; [b]] SLe
           (vadd (vsub (rw_rhs rw) (rw_b rw)) (vscale l (vadd (rw_x rw) (rw_y rw)))) m) sg
   <-> gfeas m sg /\ sat4 rw (sg x - l) (sg y - l) (1 - sg b)).
Proof.
  intros lo up l rw x y b m sg s0 H _. unfold replace_relu in H.
  destruct (Rltb (lo - l) 0 && Rltb 0 (up - l))%bool; [|discriminate].
  injection H as H. subst rw. cbn [rw_x rw_y rw_b rw_rhs].
  rewrite gfeas_addMConstr.
  - cbn. rewrite sat4_4. rewrite !vle_cons, vle_nil. 
    split; intros [G Q]; split; auto; repeat split; lra.
  - discriminate.
  - reflexivity.
  - repeat constructor.
Qed.

Lemma sat_up_rows : forall lo up l rw x y b m sg,
  replace_relu (l - up) (l - lo) = Some rw ->
  (gfeas (addMConstr [col (vneg (rw_x rw)); col (vneg (rw_y rw)); col (vneg (rw_b rw))]
           [[x]; [y]; [b]] SLe
           (vsub (vsub (rw_rhs rw) (rw_b rw)) (vscale l (vadd (rw_x rw) (rw_y rw)))) m) sg
   <-> gfeas m sg /\ sat4 rw (l - sg x) (l - sg y) (1 - sg b)).
Proof.
  intros lo up l rw x y b m sg H. unfold replace_relu in H.
  destruct (Rltb (l - up) 0 && Rltb 0 (l - lo))%bool; [|discriminate].
  injection H as H. subst rw. cbn [rw_x rw_y rw_b rw_rhs].
  rewrite gfeas_addMConstr.
  - cbn. rewrite sat4_4. rewrite !vle_cons, vle_nil.
    split; intros [G Q]; split; auto; repeat split; lra.
  - discriminate.
  - reflexivity.
  - repeat constructor.
Qed.

Lemma known_spec : forall m v, known m v = true <-> In v (r_ m) \/ In v (zeta_ m).
Proof.
  assert (I : forall v l, index_of v l = None <-> ~ In v l).
  { induction l; simpl; [tauto|]. destruct (Nat.eqb a v) eqn:E.
    - apply Nat.eqb_eq in E. subst. split; [discriminate|tauto].
    - apply Nat.eqb_neq in E. destruct (index_of v l).
      + split; [discriminate|]. intros. exfalso. destruct IHl as [_ IH].
        assert (~ In v l) by tauto. apply IH in H0. discriminate.
      + tauto. }
  intros m v. unfold known.
  pose proof (I v (r_ m)). pose proof (I v (zeta_ m)).
  destruct (index_of v (r_ m)), (index_of v (zeta_ m)); split; intros; auto; try discriminate.
  - left. destruct (in_dec Nat.eq_dec v (r_ m)); auto. apply H in n1. discriminate.
  - left. destruct (in_dec Nat.eq_dec v (r_ m)); auto. apply H in n0. discriminate.
  - right. destruct (in_dec Nat.eq_dec v (zeta_ m)); auto. apply H0 in n0. discriminate.
  - exfalso. destruct H, H0. intuition.
Qed.

Lemma addVars_known : forall b vt m m' ids v, addVars b vt m = (m', ids) ->
  known m v = true -> known m' v = true.
Proof.
  intros b vt m m' ids v H. rewrite !known_spec. unfold addVars in H.
  destruct vt.
  - destruct (lb_rows (length (rhs_in_ m)) (length (r_ m)) b) as [c1 b1].
    destruct (ub_rows (length (rhs_in_ m) + length b1) (length (r_ m)) b) as [c2 b2].
    destruct (eq_rows (length (rhs_eq_ m)) (length (r_ m)) b) as [c3 b3].
    injection H as H1 H2. subst. cbn [r_ zeta_]. rewrite in_app_iff. tauto.
  - injection H as H1 H2. subst. cbn [r_ zeta_]. rewrite in_app_iff. tauto.
  - injection H as H1 H2. subst. cbn [r_ zeta_]. rewrite in_app_iff. tauto.
Qed.
Lemma addVars_known_new : forall b vt m m' ids v, addVars b vt m = (m', ids) ->
  In v ids -> known m' v = true.
Proof.
  intros b vt m m' ids v H. rewrite !known_spec. unfold addVars in H.
  destruct vt.
  - destruct (lb_rows (length (rhs_in_ m)) (length (r_ m)) b) as [c1 b1].
    destruct (ub_rows (length (rhs_in_ m) + length b1) (length (r_ m)) b) as [c2 b2].
    destruct (eq_rows (length (rhs_eq_ m)) (length (r_ m)) b) as [c3 b3].
    injection H as H1 H2. subst. cbn [r_ zeta_]. rewrite in_app_iff. tauto.
  - injection H as H1 H2. subst. cbn [r_ zeta_]. rewrite in_app_iff. tauto.
  - injection H as H1 H2. subst. cbn [r_ zeta_]. rewrite in_app_iff. tauto.
Qed.

(** The code raises on no input with [lower <= upper], [ilo <= iup] and known,
    distinct variables. *)
Lemma saturation_total : forall iv ov lower upper ilo iup vt m,
  lower <= upper -> ilo <= iup -> known m iv = true -> known m ov = true -> iv <> ov ->
  add_saturation iv ov lower upper ilo iup vt m <> None.
Proof.
  intros iv ov lower upper ilo iup vt m L1 L2 K1 K2 N.
  unfold add_saturation.
  destruct (Rleb iup lower) eqn:E1.
  { unfold addLConstr. cbn. rewrite K2. cbn. discriminate. }
  destruct (Rleb upper ilo) eqn:E2.
  { unfold addLConstr. cbn. rewrite K2. cbn. discriminate. }
  apply Rleb_false in E1. apply Rleb_false in E2.
  destruct (Rleb lower ilo) eqn:E3; destruct (Rleb iup upper) eqn:E4; cbn [andb].
  { unfold addLConstr. cbn. rewrite K1, K2.
    destruct (Nat.eqb iv ov) eqn:E; [apply Nat.eqb_eq in E; congruence|].
    cbn. discriminate. }
  all: try apply Rleb_true in E3; try apply Rleb_false in E3;
       try apply Rleb_true in E4; try apply Rleb_false in E4.
  - rewrite (Rltb_f ilo lower) by lra. rewrite (Rltb_t upper iup) by lra. cbn [andb].
    unfold replace_relu. rewrite (Rltb_t (upper - iup) 0), (Rltb_t 0 (upper - ilo)) by lra.
    cbn [andb]. destruct (addVars [(Fin 0, Fin 1)] vt m). discriminate.
  - rewrite (Rltb_t ilo lower) by lra. cbn [andb].
    unfold replace_relu. rewrite (Rltb_t (ilo - lower) 0), (Rltb_t 0 (iup - lower)) by lra.
    cbn [andb]. destruct (addVars [(Fin 0, Fin 1)] vt m). discriminate.
  - rewrite (Rltb_t ilo lower) by lra. cbn [andb].
    destruct (addVars [(NInf, PInf)] VCont m) as [m1 z] eqn:A1.
    destruct (addVars [(Fin 0, Fin 1); (Fin 0, Fin 1)] vt m1) as [m2 be] eqn:A2.
    assert (KK : forall v, In v be -> known m2 v = true).
    { intros v Hv. eapply addVars_known_new; eauto. }
    destruct (addVars_fields _ _ _ _ _ A2) as [_ [_ [Ebe _]]].
    unfold addLConstr. cbn [concat app]. rewrite app_nil_r.
    rewrite Ebe. cbn [length seq].
    rewrite Ebe in KK. cbn [length seq] in KK.
    cbn [Nat.eqb negb forallb].
    rewrite (KK (nvars m1)), (KK (S (nvars m1))) by (simpl; auto).
    assert (D : (nvars m1 =? S (nvars m1))%nat = false) by (apply Nat.eqb_neq; lia).
    cbn [nodupb existsb]. rewrite D. cbn [orb negb andb].
    unfold replace_relu.
    rewrite (Rltb_t (ilo - lower) 0), (Rltb_t 0 (iup - lower)) by lra.
    rewrite (Rltb_t (upper - iup) 0), (Rltb_t 0 (upper - ilo)) by lra.
    cbn [andb]. discriminate.
Qed.

(** What the returned binaries mean: none, [b_lower], [b_upper], or both. *)
Definition is_relaxed (vt : vtype) : bool := match vt with VBin => false | _ => true end.

Lemma clamp_cases : forall lo up x, lo <= up ->
  (x <= lo /\ clamp lo up x = lo) \/ (lo <= x <= up /\ clamp lo up x = x) \/
  (up <= x /\ clamp lo up x = up).
Proof.
  intros. unfold clamp. destruct (Rle_dec x lo).
  - left. rewrite Rmax_right by lra. rewrite Rmin_left by lra. auto.
  - destruct (Rle_dec x up).
    + right; left. rewrite Rmax_left by lra. rewrite Rmin_left by lra. split; lra.
    + right; right. rewrite Rmax_left by lra. rewrite Rmin_right by lra. split; lra.
Qed.

Lemma agree_at : forall m s1 s2 v, agree m s1 s2 -> (v < nvars m)%nat -> s2 v = s1 v.
Proof. intros. symmetry. apply H; auto. Qed.

(** Any assignment that satisfies a one-binary block. *)
Lemma one_bin_dom : forall vt b, vars_ok vt [(Fin 0, Fin 1)] [b] <->
  match vt with VBin => is_bin b | _ => 0 <= b <= 1 end.
Proof.
  intros. change [(Fin 0, Fin 1)] with (repeat (Fin 0, Fin 1) 1).
  rewrite vars_ok_bin. destruct vt; unfold bin_dom, bins;
    rewrite Fa_cons, Fa_nil; simpl; tauto.
Qed.

Lemma bin_or : forall b, is_bin (1 - b) <-> is_bin b.
Proof. unfold is_bin. intros; split; intros [H|H]; [right|left|right|left]; lra. Qed.

Lemma saturation_sound : forall iv ov lower upper ilo iup m m' bs sg,
  add_saturation iv ov lower upper ilo iup VBin m = Some (m', bs) ->
  lower <= upper -> ilo <= sg iv <= iup -> gfeas m' sg ->
  gfeas m sg /\ sg ov = clamp lower upper (sg iv).
Proof.
  intros iv ov lower upper ilo iup m m' bs sg H L X G.
  destruct (clamp_cases lower upper (sg iv) L) as [[C1 C2]|[[C1 C2]|[C1 C2]]];
    rewrite C2; clear C2.
  all: unfold add_saturation in H.
  all: destruct (Rleb iup lower) eqn:E1;
    [ destruct (addLConstr [[1]] [[ov]] SEq lower m) eqn:A; [|discriminate];
      injection H as H1 H2; subst;
      apply (gfeas_addLConstr _ _ _ _ _ _ sg A) in G; destruct G as [G Q];
      cbn in Q; injection Q as Q; rcases; split; auto; lra |].
  all: destruct (Rleb upper ilo) eqn:E2;
    [ destruct (addLConstr [[1]] [[ov]] SEq upper m) eqn:A; [|discriminate];
      injection H as H1 H2; subst;
      apply (gfeas_addLConstr _ _ _ _ _ _ sg A) in G; destruct G as [G Q];
      cbn in Q; injection Q as Q; rcases; split; auto; lra |].
  all: destruct (Rleb lower ilo && Rleb iup upper)%bool eqn:E3;
    [ destruct (addLConstr [[1; -1]] [[iv; ov]] SEq 0 m) eqn:A; [|discriminate];
      injection H as H1 H2; subst;
      apply (gfeas_addLConstr _ _ _ _ _ _ sg A) in G; destruct G as [G Q];
      cbn in Q; injection Q as Q; apply andb_prop in E3; destruct E3;
      rcases; split; auto; lra |].
  all: destruct (Rltb ilo lower && Rleb iup upper)%bool eqn:E4;
    [ destruct (replace_relu (ilo - lower) (iup - lower)) as [rw|] eqn:A; [|discriminate];
      destruct (addVars [(Fin 0, Fin 1)] VBin m) as [m1 be] eqn:V;
      destruct (addVars_fields _ _ _ _ _ V) as [_ [_ [F _]]]; cbn in F; subst be;
      injection H as H1 H2; subst;
      rewrite (sat_low_rows _ _ _ _ _ _ _ _ _ _ A eq_refl) in G;
      rewrite (gfeas_addVars _ _ _ _ _ _ V) in G; destruct G as [[G B] Q];
      cbn [map] in B; rewrite one_bin_dom in B;
      apply (relu_exact _ _ _ _ _ _ A) in Q; [|apply bin_or; auto];
      destruct Q as [_ [Q _]]; apply andb_prop in E4; destruct E4;
      unfold relu in Q; rcases; split; auto;
      destruct (Rmax_case' (sg iv - lower) 0) as [[M1 M2]|[M1 M2]]; rewrite M1 in Q; lra |].
  all: destruct (Rleb lower ilo && Rltb upper iup)%bool eqn:E5;
    [ destruct (replace_relu (upper - iup) (upper - ilo)) as [rw|] eqn:A; [|discriminate];
      destruct (addVars [(Fin 0, Fin 1)] VBin m) as [m1 be] eqn:V;
      destruct (addVars_fields _ _ _ _ _ V) as [_ [_ [F _]]]; cbn in F; subst be;
      injection H as H1 H2; subst;
      rewrite (sat_up_rows _ _ _ _ _ _ _ _ _ A) in G;
      rewrite (gfeas_addVars _ _ _ _ _ _ V) in G; destruct G as [[G B] Q];
      cbn [map] in B; rewrite one_bin_dom in B;
      apply (relu_exact _ _ _ _ _ _ A) in Q; [|apply bin_or; auto];
      destruct Q as [_ [Q _]]; apply andb_prop in E5; destruct E5;
      unfold relu in Q; rcases; split; auto;
      destruct (Rmax_case' (upper - sg iv) 0) as [[M1 M2]|[M1 M2]]; rewrite M1 in Q; lra |].
  all: destruct (addVars [(NInf, PInf)] VCont m) as [m1 z] eqn:V1;
       destruct (addVars_fields _ _ _ _ _ V1) as [_ [_ [F1 _]]]; cbn in F1; subst z;
       destruct (addVars [(Fin 0, Fin 1); (Fin 0, Fin 1)] VBin m1) as [m2 be] eqn:V2;
       destruct (addVars_fields _ _ _ _ _ V2) as [_ [_ [F2 _]]]; cbn in F2; subst be;
       cbn [nth] in H;
       destruct (addLConstr [[1; 1]] [[nvars m1; S (nvars m1)]] SLe 1 m2) as [m3|] eqn:A3;
         [|discriminate];
       destruct (replace_relu (ilo - lower) (iup - lower)) as [r1|] eqn:A1; [|discriminate];
       destruct (replace_relu (upper - iup) (upper - ilo)) as [r2|] eqn:A2; [|discriminate];
       injection H as H1 H2; subst;
       rewrite (sat_up_rows _ _ _ _ _ _ _ _ _ A2) in G;
       rewrite (sat_low_rows _ _ _ _ _ _ _ _ _ _ A1 eq_refl) in G;
       rewrite (gfeas_addLConstr _ _ _ _ _ _ sg A3) in G;
       rewrite (gfeas_addVars _ _ _ _ _ _ V2) in G;
       rewrite (gfeas_addVars _ _ _ _ _ _ V1) in G;
       destruct G as [[[[[G _] B] _] Q1] Q2];
       change [(Fin 0, Fin 1); (Fin 0, Fin 1)] with (repeat (Fin 0, Fin 1) 2) in B;
       rewrite vars_ok_bin in B; destruct B as [_ B]; cbn [map bin_dom] in B;
       unfold bins in B; rewrite !Fa_cons in B; destruct B as [B1 [B2 _]];
       apply (relu_exact _ _ _ _ _ _ A1) in Q1; [|apply bin_or; auto];
       apply (relu_exact _ _ _ _ _ _ A2) in Q2; [|apply bin_or; auto];
       destruct Q1 as [_ [Q1 _]]; destruct Q2 as [_ [Q2 _]];
       unfold relu in Q1, Q2; split; auto;
       destruct (Rmax_case' (sg iv - lower) 0) as [[M1 M2]|[M1 M2]]; rewrite M1 in Q1;
       destruct (Rmax_case' (upper - sg (nvars m)) 0) as [[M3 M4]|[M3 M4]]; rewrite M3 in Q2;
       lra.
Qed.

Lemma saturation_complete : forall iv ov lower upper ilo iup vt m m' bs sg,
  add_saturation iv ov lower upper ilo iup vt m = Some (m', bs) ->
  wf_mip m -> (iv < nvars m)%nat -> (ov < nvars m)%nat ->
  lower <= upper -> ilo <= sg iv <= iup -> gfeas m sg ->
  sg ov = clamp lower upper (sg iv) ->
  exists sg', agree m sg sg' /\ gfeas m' sg'.
Proof.
  intros iv ov lower upper ilo iup vt m m' bs sg H W Hiv Hov L X G Y.
  unfold add_saturation in H.
  destruct (Rleb iup lower) eqn:E1.
  { destruct (addLConstr [[1]] [[ov]] SEq lower m) eqn:A; [|discriminate].
    injection H as H1 H2; subst. exists sg. split; [intros i _; auto|].
    apply (gfeas_addLConstr _ _ _ _ _ _ sg A). split; auto.
    cbn. f_equal. rewrite Y. rcases.
    destruct (clamp_cases lower upper (sg iv) L) as [[C1 C2]|[[C1 C2]|[C1 C2]]];
      rewrite C2; lra. }
  destruct (Rleb upper ilo) eqn:E2.
  { destruct (addLConstr [[1]] [[ov]] SEq upper m) eqn:A; [|discriminate].
    injection H as H1 H2; subst. exists sg. split; [intros i _; auto|].
    apply (gfeas_addLConstr _ _ _ _ _ _ sg A). split; auto.
    cbn. f_equal. rewrite Y. rcases.
    destruct (clamp_cases lower upper (sg iv) L) as [[C1 C2]|[[C1 C2]|[C1 C2]]];
      rewrite C2; lra. }
  destruct (Rleb lower ilo && Rleb iup upper)%bool eqn:E3.
  { destruct (addLConstr [[1; -1]] [[iv; ov]] SEq 0 m) eqn:A; [|discriminate].
    injection H as H1 H2; subst. exists sg. split; [intros i _; auto|].
    apply (gfeas_addLConstr _ _ _ _ _ _ sg A). split; auto.
    cbn. f_equal. rewrite Y. apply andb_prop in E3; destruct E3. rcases.
    destruct (clamp_cases lower upper (sg iv) L) as [[C1 C2]|[[C1 C2]|[C1 C2]]];
      rewrite C2; lra. }
  apply Rleb_false in E1. apply Rleb_false in E2.
  destruct (Rltb ilo lower && Rleb iup upper)%bool eqn:E4.
  { destruct (replace_relu (ilo - lower) (iup - lower)) as [rw|] eqn:A; [|discriminate].
    destruct (addVars [(Fin 0, Fin 1)] vt m) as [m1 be] eqn:V.
    destruct (addVars_fields _ _ _ _ _ V) as [_ [_ [F _]]]; cbn in F; subst be.
    injection H as H1 H2; subst.
    set (b := if Rle_dec (sg iv) lower then 1 else 0).
    assert (Bb : is_bin b) by (unfold b; destruct (Rle_dec _ _); [right|left]; auto).
    destruct (addVars_extend _ _ _ _ _ sg [b] V W G) as [G' [Ag Eb]].
    { apply one_bin_dom. destruct vt; auto; destruct Bb as [Bb|Bb]; rewrite Bb; lra. }
    set (sg' := override sg (nvars m) [b]) in *.
    exists sg'. split; auto.
    rewrite (sat_low_rows _ _ _ _ _ _ _ _ _ _ A eq_refl). split; auto.
    injection Eb as Eb. rewrite Eb.
    rewrite (agree_at _ _ _ _ Ag Hiv), (agree_at _ _ _ _ Ag Hov).
    apply (relu_exact _ _ _ _ _ _ A); [apply bin_or; auto|].
    clear E3. apply andb_prop in E4; destruct E4. rcases. rewrite Y. unfold relu, b.
    destruct (Rle_dec (sg iv) lower).
    - rewrite Rmax_right by lra.
      destruct (clamp_cases lower upper (sg iv) L) as [[C1 C2]|[[C1 C2]|[C1 C2]]];
        rewrite C2; repeat split; intros; lra.
    - rewrite Rmax_left by lra.
      destruct (clamp_cases lower upper (sg iv) L) as [[C1 C2]|[[C1 C2]|[C1 C2]]];
        rewrite C2; repeat split; intros; lra. }
  destruct (Rleb lower ilo && Rltb upper iup)%bool eqn:E5.
  { destruct (replace_relu (upper - iup) (upper - ilo)) as [rw|] eqn:A; [|discriminate].
    destruct (addVars [(Fin 0, Fin 1)] vt m) as [m1 be] eqn:V.
    destruct (addVars_fields _ _ _ _ _ V) as [_ [_ [F _]]]; cbn in F; subst be.
    injection H as H1 H2; subst.
    set (b := if Rle_dec upper (sg iv) then 1 else 0).
    assert (Bb : is_bin b) by (unfold b; destruct (Rle_dec _ _); [right|left]; auto).
    destruct (addVars_extend _ _ _ _ _ sg [b] V W G) as [G' [Ag Eb]].
    { apply one_bin_dom. destruct vt; auto; destruct Bb as [Bb|Bb]; rewrite Bb; lra. }
    set (sg' := override sg (nvars m) [b]) in *.
    exists sg'. split; auto.
    rewrite (sat_up_rows _ _ _ _ _ _ _ _ _ A). split; auto.
    injection Eb as Eb. rewrite Eb.
    rewrite (agree_at _ _ _ _ Ag Hiv), (agree_at _ _ _ _ Ag Hov).
    apply (relu_exact _ _ _ _ _ _ A); [apply bin_or; auto|].
    clear E3 E4. apply andb_prop in E5; destruct E5. rcases. rewrite Y. unfold relu, b.
    destruct (Rle_dec upper (sg iv)).
    - rewrite Rmax_right by lra.
      destruct (clamp_cases lower upper (sg iv) L) as [[C1 C2]|[[C1 C2]|[C1 C2]]];
        rewrite C2; repeat split; intros; lra.
    - rewrite Rmax_left by lra.
      destruct (clamp_cases lower upper (sg iv) L) as [[C1 C2]|[[C1 C2]|[C1 C2]]];
        rewrite C2; repeat split; intros; lra. }
  destruct (addVars [(NInf, PInf)] VCont m) as [m1 z] eqn:V1.
  destruct (addVars_fields _ _ _ _ _ V1) as [_ [_ [F1 N1]]]; cbn in F1, N1; subst z.
  destruct (addVars [(Fin 0, Fin 1); (Fin 0, Fin 1)] vt m1) as [m2 be] eqn:V2.
  destruct (addVars_fields _ _ _ _ _ V2) as [_ [_ [F2 _]]]; cbn in F2; subst be.
  cbn [nth] in H.
  destruct (addLConstr [[1; 1]] [[nvars m1; S (nvars m1)]] SLe 1 m2) as [m3|] eqn:A3;
    [|discriminate].
  destruct (replace_relu (ilo - lower) (iup - lower)) as [r1|] eqn:A1; [|discriminate].
  destruct (replace_relu (upper - iup) (upper - ilo)) as [r2|] eqn:A2; [|discriminate].
  injection H as H1 H2; subst.
  set (zv := Rmax (sg iv) lower).
  set (b0 := if Rle_dec (sg iv) lower then 1 else 0).
  set (b1 := if Rlt_dec upper (sg iv) then 1 else 0).
  assert (Bb0 : is_bin b0) by (unfold b0; destruct (Rle_dec _ _); [right|left]; auto).
  assert (Bb1 : is_bin b1) by (unfold b1; destruct (Rlt_dec _ _); [right|left]; auto).
  destruct (addVars_extend _ _ _ _ _ sg [zv] V1 W G) as [G1 [Ag1 Ez]].
  { apply (vars_ok_free 1); auto. }
  set (sg1 := override sg (nvars m) [zv]) in *.
  assert (W1 : wf_mip m1) by (eapply wf_addVars; eauto).
  destruct (addVars_extend _ _ _ _ _ sg1 [b0; b1] V2 W1 G1) as [G2 [Ag2 Eb]].
  { change [(Fin 0, Fin 1); (Fin 0, Fin 1)] with (repeat (Fin 0, Fin 1) 2).
    apply vars_ok_bin. split; auto. apply bins_dom. constructor; [|constructor]; auto. }
  set (sg2 := override sg1 (nvars m1) [b0; b1]) in *.
  assert (Ag : agree m sg sg2) by (eapply agree_trans; [|exact Ag1|exact Ag2]; lia).
  exists sg2. split; auto.
  rewrite (sat_up_rows _ _ _ _ _ _ _ _ _ A2).
  rewrite (sat_low_rows _ _ _ _ _ _ _ _ _ _ A1 eq_refl).
  rewrite (gfeas_addLConstr _ _ _ _ _ _ sg2 A3).
  injection Eb as Eb0 Eb1. injection Ez as Ez.
  rewrite <- (agree_at m1 sg1 sg2) in Ez by (auto; lia).
  cbn [concat app map]. rewrite Eb0, Eb1, Ez.
  rewrite (agree_at _ _ _ _ Ag Hiv), (agree_at _ _ _ _ Ag Hov).
  destruct (Rlt_dec ilo lower) as [I1|I1];
    [|rewrite (Rltb_f ilo lower), (Rleb_t lower ilo) in * by lra;
      cbn [andb] in *; rcases; lra].
  rewrite (Rltb_t ilo lower) in E4 by lra. cbn [andb] in E4. apply Rleb_false in E4.
  split; [split; [split; auto|]|].
  - cbn. rewrite vle_cons, vle_nil. split; auto. unfold b0, b1.
    destruct (Rle_dec (sg iv) lower), (Rlt_dec upper (sg iv)); lra.
  - apply (relu_exact _ _ _ _ _ _ A1); [apply bin_or; auto|].
    unfold relu, zv, b0. destruct (Rle_dec (sg iv) lower).
    + rewrite !Rmax_right by lra. repeat split; intros; lra.
    + rewrite !Rmax_left by lra. repeat split; intros; lra.
  - apply (relu_exact _ _ _ _ _ _ A2); [apply bin_or; auto|].
    rewrite Y. unfold relu, zv, b1. 
    destruct (Rlt_dec upper (sg iv)).
    + rewrite (Rmax_left (sg iv) lower) by lra. rewrite Rmax_right by lra.
      destruct (clamp_cases lower upper (sg iv) L) as [[C1 C2]|[[C1 C2]|[C1 C2]]];
        rewrite C2; repeat split; intros; lra.
    + rewrite (Rmax_left (upper - _)) by
        (destruct (Rmax_case' (sg iv) lower) as [[M1 M2]|[M1 M2]]; rewrite M1; lra).
      destruct (Rmax_case' (sg iv) lower) as [[M1 M2]|[M1 M2]]; rewrite M1;
      destruct (clamp_cases lower upper (sg iv) L) as [[C1 C2]|[[C1 C2]|[C1 C2]]];
        rewrite C2; repeat split; intros; lra.
Qed.

Lemma saturation_frame : forall iv ov lower upper ilo iup vt m m' bs,
  add_saturation iv ov lower upper ilo iup vt m = Some (m', bs) ->
  wf_mip m -> (iv < nvars m)%nat -> (ov < nvars m)%nat ->
  wf_mip m' /\ (nvars m <= nvars m')%nat.
Proof.
  intros iv ov lower upper ilo iup vt m m' bs H W Hiv Hov.
  assert (LC : forall cs vs s r a a', addLConstr cs vs s r a = Some a' -> wf_mip a ->
            below (nvars a) (concat vs) -> wf_mip a' /\ nvars a' = nvars a).
  { intros cs vs s r a a' A Wa B. apply addLConstr_inv in A. destruct A as [A _]. subst.
    destruct (push_row_fields (combine (concat cs) (concat vs)) s r a) as [_ [_ E]].
    split; auto. apply wf_push_row; auto. apply combine_below; auto. }
  unfold add_saturation in H.
  destruct (Rleb iup lower).
  { destruct (addLConstr [[1]] [[ov]] SEq lower m) eqn:A; [|discriminate].
    injection H as H1 H2; subst. apply LC in A; auto; [|repeat constructor; auto].
    destruct A as [A1 A2]. rewrite A2. auto. }
  destruct (Rleb upper ilo).
  { destruct (addLConstr [[1]] [[ov]] SEq upper m) eqn:A; [|discriminate].
    injection H as H1 H2; subst. apply LC in A; auto; [|repeat constructor; auto].
    destruct A as [A1 A2]. rewrite A2. auto. }
  destruct (Rleb lower ilo && Rleb iup upper)%bool.
  { destruct (addLConstr [[1; -1]] [[iv; ov]] SEq 0 m) eqn:A; [|discriminate].
    injection H as H1 H2; subst. apply LC in A; auto; [|repeat constructor; auto].
    destruct A as [A1 A2]. rewrite A2. auto. }
  destruct (Rltb ilo lower && Rleb iup upper)%bool.
  { destruct (replace_relu (ilo - lower) (iup - lower)) as [rw|]; [|discriminate].
    destruct (addVars [(Fin 0, Fin 1)] vt m) as [m1 be] eqn:V.
    destruct (addVars_fields _ _ _ _ _ V) as [_ [_ [F N]]]; cbn in F, N; subst be.
    injection H as H1 H2; subst. rewrite nvars_addMConstr. split; [|lia].
    apply wf_addMConstr; [eapply wf_addVars; eauto|].
    cbn. repeat constructor; lia. }
  destruct (Rleb lower ilo && Rltb upper iup)%bool.
  { destruct (replace_relu (upper - iup) (upper - ilo)) as [rw|]; [|discriminate].
    destruct (addVars [(Fin 0, Fin 1)] vt m) as [m1 be] eqn:V.
    destruct (addVars_fields _ _ _ _ _ V) as [_ [_ [F N]]]; cbn in F, N; subst be.
    injection H as H1 H2; subst. rewrite nvars_addMConstr. split; [|lia].
    apply wf_addMConstr; [eapply wf_addVars; eauto|].
    cbn. repeat constructor; lia. }
  destruct (addVars [(NInf, PInf)] VCont m) as [m1 z] eqn:V1.
  destruct (addVars_fields _ _ _ _ _ V1) as [_ [_ [F1 N1]]]; cbn in F1, N1; subst z.
  destruct (addVars [(Fin 0, Fin 1); (Fin 0, Fin 1)] vt m1) as [m2 be] eqn:V2.
  destruct (addVars_fields _ _ _ _ _ V2) as [_ [_ [F2 N2]]]; cbn in F2, N2; subst be.
  cbn [nth] in H.
  destruct (addLConstr [[1; 1]] [[nvars m1; S (nvars m1)]] SLe 1 m2) as [m3|] eqn:A3;
    [|discriminate].
  destruct (replace_relu (ilo - lower) (iup - lower)) as [r1|]; [|discriminate].
  destruct (replace_relu (upper - iup) (upper - ilo)) as [r2|]; [|discriminate].
  injection H as H1 H2; subst.
  apply LC in A3; [|eapply wf_addVars; eauto; eapply wf_addVars; eauto
                   |repeat constructor; lia].
  destruct A3 as [W3 N3].
  rewrite !nvars_addMConstr. split; [|lia].
  apply wf_addMConstr; [apply wf_addMConstr; auto|rewrite nvars_addMConstr];
    cbn; repeat constructor; lia.
Qed.

Lemma saturation_prop : forall iv ov lower upper ilo iup m,
  wf_mip m -> (iv < nvars m)%nat -> (ov < nvars m)%nat -> iv <> ov ->
  known m iv = true -> known m ov = true -> lower <= upper -> ilo <= iup ->
  exists m' bs, add_saturation iv ov lower upper ilo iup VBin m = Some (m', bs) /\
    forall sg, gfeas m sg -> ilo <= sg iv <= iup ->
      ((exists sg', agree m sg sg' /\ gfeas m' sg') <->
       sg ov = clamp lower upper (sg iv)).
Proof.
  intros iv ov lower upper ilo iup m W Hi Ho N K1 K2 L1 L2.
  assert (T := saturation_total iv ov lower upper ilo iup VBin m L1 L2 K1 K2 N).
  destruct (add_saturation iv ov lower upper ilo iup VBin m) as [[m' bs]|] eqn:E;
    [|congruence].
  exists m', bs. split; auto. intros sg G X. split.
  - intros (sg' & A & G'). rewrite (A iv Hi), (A ov Ho).
    apply (saturation_sound _ _ _ _ _ _ _ _ _ sg' E L1); auto. rewrite <- (A iv Hi). auto.
  - intros Y. apply (saturation_complete _ _ _ _ _ _ _ _ _ _ sg E); auto.
Qed.

Lemma saturation_relaxed : forall iv ov lower upper ilo iup vt m m' bs,
  add_saturation iv ov lower upper ilo iup vt m = Some (m', bs) ->
  wf_mip m -> (iv < nvars m)%nat -> (ov < nvars m)%nat ->
  lower <= upper ->
  forall sg, gfeas m sg -> ilo <= sg iv <= iup -> sg ov = clamp lower upper (sg iv) ->
    exists sg', agree m sg sg' /\ gfeas m' sg'.
Proof.
  intros. eapply saturation_complete; eauto.
Qed.

(** A program with two continuous variables, the first between -2 and 3. *)
Definition two_vars : mip :=
  fst (addVars [(Fin (-2), Fin 3); (NInf, PInf)] VCont init_mip).

Lemma two_vars_eq :
  addVars [(Fin (-2), Fin 3); (NInf, PInf)] VCont init_mip = (two_vars, [0; 1]%nat).
Proof.
  unfold two_vars.
  destruct (addVars [(Fin (-2), Fin 3); (NInf, PInf)] VCont init_mip) as [m ids] eqn:E.
  assert (F := addVars_fields _ _ _ _ _ E). destruct F as (_ & _ & F & _).
  rewrite F. reflexivity.
Qed.

Lemma two_vars_case : wf_mip two_vars /\ (0 < nvars two_vars)%nat /\
  (1 < nvars two_vars)%nat /\ known two_vars 0 = true /\ known two_vars 1 = true /\
  gfeas two_vars (fun i => match i with O => 3 | _ => 1 end) /\
  clamp (-1) 1 3 = 1.
Proof.
  assert (E := two_vars_eq). assert (F := addVars_fields _ _ _ _ _ E).
  destruct F as (F1 & F2 & _ & F4). simpl in F1, F2, F4.
  split. { apply (wf_addVars _ _ _ _ _ E). constructor. }
  rewrite F4. cbn. split; [lia|]. split; [lia|].
  split. { apply (addVars_known_new _ _ _ _ _ _ E). simpl; auto. }
  split. { apply (addVars_known_new _ _ _ _ _ _ E). simpl; auto. }
  split.
  - split.
    + rewrite F1. intros [|[|i]] v Hv; simpl in Hv.
      * injection Hv as Hv; subst v. unfold var_ok. simpl.
        split; [discriminate|]. split; lra.
      * injection Hv as Hv; subst v. unfold var_ok. simpl.
        split; [discriminate|]. auto.
      * destruct i; discriminate.
    + rewrite F2. constructor.
  - unfold clamp. rewrite Rmin_right; auto. rewrite Rmax_left; lra.
Qed.
