(** The saturation block as a construction step, for binary and relaxed
    variables. *)

Require Import Reals List Bool Lia Lra Arith.
Require Import Verif.Vec Verif.VecFacts Verif.ModelMip Verif.SpecMip
  Verif.ModelUtils Verif.SpecCore Verif.SpecUtils Verif.SpecStep Verif.ProofUtils
  Verif.ProofMaxBox Verif.ProofGrad Verif.ProofMip Verif.ProofSat Verif.ProofTorch
  Verif.ProofStep Verif.ProofRoa.
Import ListNotations.
Open Scope R_scope.

Section S.
Variable vt : vtype.
Hypothesis Hvt : vt <> VCont.

Lemma bin_step : forall st k m m' ids, addVars (repeat (Fin 0, Fin 1) k) vt m = (m', ids) ->
  history st m ->
  ids = seq (nvars m) k /\ nvars m' = (nvars m + k)%nat /\ history st m' /\
  (forall sg, feas vt m' sg -> feas vt m sg /\ bins (map sg ids)) /\
  (forall sg x, feas vt m sg -> length x = k -> bins x ->
     exists sg', feas vt m' sg' /\ agree m sg sg' /\ map sg' ids = x).
Proof.
  intros st k m m' ids E H.
  assert (Dm : forall x, length x = k -> bins x -> vars_ok vt (repeat (Fin 0, Fin 1) k) x).
  { intros x L B. apply vars_ok_bin. split; auto. apply bins_dom; auto. }
  destruct (step_addVars vt st _ _ _ _ _ E H) with (x := zeros k) as (S1 & S2 & S3 & S4).
  - intros _ Ev. congruence.
  - apply Dm; [apply zeros_length|]. unfold zeros. apply Forall_forall. intros a Ha.
    apply repeat_spec in Ha. left; auto.
  - intros _. apply Forall_forall. intros a Ha. apply repeat_spec in Ha. left; auto.
  - rewrite repeat_length in *. split; auto. split; auto. split; [apply S1|]. split.
    + intros sg G. destruct S1 as (_ & _ & S1 & _). destruct (S1 sg G) as (G0 & V & Bz).
      split; auto. destruct vt; [congruence| |apply Bz; auto].
      apply vars_ok_bin in V. apply V.
    + intros sg x G L B. apply S4; auto.
Qed.

(** One binary and rows that relate it to two variables. *)
Lemma one_bin_step : forall st m m1 be m' iv ov (P : R -> R -> R -> Prop) (D Q : R -> R -> Prop),
  addVars [(Fin 0, Fin 1)] vt m = (m1, be) -> history st m ->
  (iv < nvars m)%nat -> (ov < nvars m)%nat ->
  history st m' -> nvars m' = nvars m1 -> zeta_ m' = zeta_ m1 ->
  (forall sg, gfeas m' sg <-> gfeas m1 sg /\ P (sg iv) (sg ov) (sg (nvars m))) ->
  (forall x y, D x y -> exists b, is_bin b /\ P x y b) ->
  (forall x y b, is_bin b -> P x y b -> Q x y) ->
  step vt st m m' (fun sg => D (sg iv) (sg ov)) (fun sg => Q (sg iv) (sg ov)).
Proof.
  intros st m m1 be m' iv ov P D Q E H Hi Ho H' Nv Z F HD HQ.
  change [(Fin 0, Fin 1)] with (repeat (Fin 0, Fin 1) 1) in E.
  destruct (bin_step st 1 m m1 be E H) as (Ei & Nv1 & H1 & S1 & S2).
  assert (F' : forall sg, feas vt m' sg <-> feas vt m1 sg /\ P (sg iv) (sg ov) (sg (nvars m))).
  { intros sg. unfold feas. rewrite Z, F. tauto. }
  subst be. split; [lia|]. split; auto. split.
  - intros sg G. apply F' in G. destruct G as [G HP]. destruct (S1 sg G) as [G0 B].
    split; auto. cbn in B. inversion B; subst. eapply HQ; eauto.
  - intros sg G HD'. destruct (HD _ _ HD') as (b & Bb & HP).
    destruct (S2 sg [b] G) as (sg' & G' & A & Eb); auto.
    { constructor; auto. }
    exists sg'. split; auto. apply F'. split; auto. cbn in Eb. injection Eb as Eb.
    rewrite Eb, (agree_at _ _ _ _ A Hi), (agree_at _ _ _ _ A Ho). auto.
Qed.

Lemma one_row_step : forall st cs vs s r m m' (D Q : assignment -> Prop),
  addLConstr cs vs s r m = Some m' -> history st m ->
  length (concat vs) = length (concat cs) ->
  (forall sg, D sg -> sense_ok s [dot (concat cs) (map sg (concat vs))] [r]) ->
  (forall sg, sense_ok s [dot (concat cs) (map sg (concat vs))] [r] -> Q sg) ->
  step vt st m m' D Q.
Proof.
  intros st cs vs s r m m' D Q E H L HD HQ.
  assert (H' : history st m') by (eapply h_lconstr; eauto).
  assert (K := E). apply addLConstr_inv in K. destruct K as (K & _).
  assert (Nv : nvars m' = nvars m).
  { subst m'. destruct (push_row_fields (combine (concat cs) (concat vs)) s r m) as (P3 & P4 & _).
    unfold nvars. rewrite P3. auto. }
  assert (X : forall sg, gfeas m' sg <->
     gfeas m sg /\ sense_ok s [dot (concat cs) (map sg (concat vs))] [r]).
  { intros sg. subst m'. rewrite gfeas_push_row. unfold row_ok. cbn [row_sense row_terms row_rhs].
    rewrite eval_combine. unfold sense_ok, vle. destruct s.
    - split; intros [G X]; (split; [exact G|]); [constructor; auto|]. inversion X; auto.
    - split; intros [G X]; (split; [exact G|]); [congruence|]. injection X; auto.
    - split; intros [G X]; (split; [exact G|]); [constructor; auto; lra|].
      inversion X; subst. lra. }
  assert (Z : zeta_ m' = zeta_ m) by (subst m'; apply zeta_push_row).
  eapply step_weaken.
  - apply (step_iff vt st m m' (fun sg => sense_ok s [dot (concat cs) (map sg (concat vs))] [r]));
      [exact H'|exact Nv|].
    intros sg. unfold feas. rewrite Z, X. tauto.
  - intros sg G HH. apply HD. exact HH.
  - intros sg G HH. apply HQ. exact HH.
Qed.

Lemma known_history : forall st m v, history st m -> (v < nvars m)%nat -> known m v = true.
Proof. intros. apply (history_known st); auto. Qed.

Lemma saturation_step : forall st iv ov lower upper ilo iup m m' bs,
  add_saturation iv ov lower upper ilo iup vt m = Some (m', bs) -> history st m ->
  (iv < nvars m)%nat -> (ov < nvars m)%nat -> lower <= upper ->
  step vt st m m'
    (fun sg => ilo <= sg iv <= iup /\ sg ov = clamp lower upper (sg iv))
    (fun sg => ilo <= sg iv <= iup -> sg ov = clamp lower upper (sg iv)).
Proof.
  intros st iv ov lower upper ilo iup m m' bs E H Hi Ho L.
  unfold add_saturation in E.
  destruct (Rleb iup lower) eqn:E1.
  { destruct (addLConstr [[1]] [[ov]] SEq lower m) as [m1|] eqn:A; [|discriminate].
    injection E as <- <-. apply Rleb_true in E1.
    apply (one_row_step st _ _ _ _ _ _ _ _ A H eq_refl).
    - intros sg [X Y]. cbn. f_equal. rewrite Y.
      destruct (clamp_cases lower upper (sg iv) L) as [[C1 C2]|[[C1 C2]|[C1 C2]]]; rewrite C2; lra.
    - intros sg X Y. cbn in X. injection X as X.
      destruct (clamp_cases lower upper (sg iv) L) as [[C1 C2]|[[C1 C2]|[C1 C2]]]; rewrite C2; lra. }
  destruct (Rleb upper ilo) eqn:E2.
  { destruct (addLConstr [[1]] [[ov]] SEq upper m) as [m1|] eqn:A; [|discriminate].
    injection E as <- <-. apply Rleb_true in E2.
    apply (one_row_step st _ _ _ _ _ _ _ _ A H eq_refl).
    - intros sg [X Y]. cbn. f_equal. rewrite Y.
      destruct (clamp_cases lower upper (sg iv) L) as [[C1 C2]|[[C1 C2]|[C1 C2]]]; rewrite C2; lra.
    - intros sg X Y. cbn in X. injection X as X.
      destruct (clamp_cases lower upper (sg iv) L) as [[C1 C2]|[[C1 C2]|[C1 C2]]]; rewrite C2; lra. }
  destruct (Rleb lower ilo && Rleb iup upper)%bool eqn:E3.
  { destruct (addLConstr [[1; -1]] [[iv; ov]] SEq 0 m) as [m1|] eqn:A; [|discriminate].
    injection E as <- <-. apply andb_prop in E3. destruct E3 as [E3 E4].
    apply Rleb_true in E3. apply Rleb_true in E4.
    apply (one_row_step st _ _ _ _ _ _ _ _ A H eq_refl).
    - intros sg [X Y]. cbn. f_equal. rewrite Y.
      destruct (clamp_cases lower upper (sg iv) L) as [[C1 C2]|[[C1 C2]|[C1 C2]]]; rewrite C2; lra.
    - intros sg X Y. cbn in X. injection X as X.
      destruct (clamp_cases lower upper (sg iv) L) as [[C1 C2]|[[C1 C2]|[C1 C2]]]; rewrite C2; lra. }
  apply Rleb_false in E1. apply Rleb_false in E2.
  destruct (Rltb ilo lower && Rleb iup upper)%bool eqn:E4.
  { destruct (replace_relu (ilo - lower) (iup - lower)) as [rw|] eqn:A; [|discriminate].
    destruct (addVars [(Fin 0, Fin 1)] vt m) as [m1 be] eqn:V.
    destruct (addVars_fields _ _ _ _ _ V) as [_ [_ [F Nv]]]. cbn in F, Nv. subst be.
    injection E as <- <-. apply andb_prop in E4. destruct E4 as [E4 E5].
    apply Rltb_true in E4. apply Rleb_true in E5.
    assert (H1 : history st m1).
    { replace m1 with (fst (addVars [(Fin 0, Fin 1)] vt m)) by (rewrite V; auto).
      apply h_vars; auto. intros; congruence. }
    eapply one_bin_step with (P := fun x y b => sat4 rw (x - lower) (y - lower) (1 - b))
      (D := fun x y => ilo <= x <= iup /\ y = clamp lower upper x)
      (Q := fun x y => ilo <= x <= iup -> y = clamp lower upper x);
      [exact V|exact H|exact Hi|exact Ho| | | | | |].
    - apply h_mconstr; auto. apply (history_allk st m1 _ H1). cbn.
      repeat constructor; lia.
    - apply nvars_addMConstr.
    - apply zeta_addMConstr.
    - intros sg. apply (sat_low_rows _ _ _ _ _ _ _ _ _ _ A eq_refl).
    - intros x y [X ->].
      exists (if Rle_dec x lower then 1 else 0).
      assert (Bb : is_bin (if Rle_dec x lower then 1 else 0))
        by (destruct (Rle_dec _ _); [right|left]; auto).
      split; auto. apply (relu_exact _ _ _ _ _ _ A); [apply bin_or; auto|]. unfold relu.
      destruct (Rle_dec x lower);
        [rewrite Rmax_right by lra|rewrite Rmax_left by lra];
        destruct (clamp_cases lower upper x L) as [[C1 C2]|[[C1 C2]|[C1 C2]]];
        rewrite C2; repeat split; intros; lra.
    - intros x y b Bb HP X.
      apply (relu_exact _ _ _ _ _ _ A) in HP; [|apply bin_or; auto].
      destruct HP as (P1 & P2 & _). unfold relu in P2.
      destruct (Rmax_case' (x - lower) 0) as [[M1 M2]|[M1 M2]]; rewrite M1 in P2;
        destruct (clamp_cases lower upper x L) as [[C1 C2]|[[C1 C2]|[C1 C2]]]; rewrite C2; lra. }
  destruct (Rleb lower ilo && Rltb upper iup)%bool eqn:E5.
  { destruct (replace_relu (upper - iup) (upper - ilo)) as [rw|] eqn:A; [|discriminate].
    destruct (addVars [(Fin 0, Fin 1)] vt m) as [m1 be] eqn:V.
    destruct (addVars_fields _ _ _ _ _ V) as [_ [_ [F Nv]]]. cbn in F, Nv. subst be.
    injection E as <- <-. apply andb_prop in E5. destruct E5 as [E5 E6].
    apply Rltb_true in E6. apply Rleb_true in E5.
    assert (H1 : history st m1).
    { replace m1 with (fst (addVars [(Fin 0, Fin 1)] vt m)) by (rewrite V; auto).
      apply h_vars; auto. intros; congruence. }
    eapply one_bin_step with (P := fun x y b => sat4 rw (upper - x) (upper - y) (1 - b))
      (D := fun x y => ilo <= x <= iup /\ y = clamp lower upper x)
      (Q := fun x y => ilo <= x <= iup -> y = clamp lower upper x);
      [exact V|exact H|exact Hi|exact Ho| | | | | |].
    - apply h_mconstr; auto. apply (history_allk st m1 _ H1). cbn.
      repeat constructor; lia.
    - apply nvars_addMConstr.
    - apply zeta_addMConstr.
    - intros sg. apply (sat_up_rows _ _ _ _ _ _ _ _ _ A).
    - intros x y [X ->].
      exists (if Rle_dec upper x then 1 else 0).
      assert (Bb : is_bin (if Rle_dec upper x then 1 else 0))
        by (destruct (Rle_dec _ _); [right|left]; auto).
      split; auto. apply (relu_exact _ _ _ _ _ _ A); [apply bin_or; auto|]. unfold relu.
      destruct (Rle_dec upper x);
        [rewrite Rmax_right by lra|rewrite Rmax_left by lra];
        destruct (clamp_cases lower upper x L) as [[C1 C2]|[[C1 C2]|[C1 C2]]];
        rewrite C2; repeat split; intros; lra.
    - intros x y b Bb HP X.
      apply (relu_exact _ _ _ _ _ _ A) in HP; [|apply bin_or; auto].
      destruct HP as (P1 & P2 & _). unfold relu in P2.
      destruct (Rmax_case' (upper - x) 0) as [[M1 M2]|[M1 M2]]; rewrite M1 in P2;
        destruct (clamp_cases lower upper x L) as [[C1 C2]|[[C1 C2]|[C1 C2]]]; rewrite C2; lra. }
  destruct (addVars [(NInf, PInf)] VCont m) as [m1 z] eqn:V1.
  change [(NInf, PInf)] with (repeat (NInf, PInf) 1) in V1.
  destruct (step_free vt st 1 m m1 z V1 H) as (Ez & Nv1 & H1 & S1 & S1').
  destruct (addVars [(Fin 0, Fin 1); (Fin 0, Fin 1)] vt m1) as [m2 be] eqn:V2.
  change [(Fin 0, Fin 1); (Fin 0, Fin 1)] with (repeat (Fin 0, Fin 1) 2) in V2.
  destruct (bin_step st 2 m1 m2 be V2 H1) as (Eb & Nv2 & H2 & S2 & S2').
  subst z be. cbn [nth seq] in E.
  destruct (addLConstr [[1; 1]] [[nvars m1; S (nvars m1)]] SLe 1 m2) as [m3|] eqn:A3;
    [|discriminate].
  destruct (replace_relu (ilo - lower) (iup - lower)) as [r1|] eqn:A1; [|discriminate].
  destruct (replace_relu (upper - iup) (upper - ilo)) as [r2|] eqn:A2; [|discriminate].
  injection E as <- <-.
  destruct (Rlt_dec ilo lower) as [I1|I1];
    [|rewrite (Rltb_f ilo lower), (Rleb_t lower ilo) in * by lra;
      cbn [andb] in *; rcases; lra].
  rewrite (Rltb_t ilo lower) in E4 by lra. cbn [andb] in E4. apply Rleb_false in E4.
  assert (H3 : history st m3) by (eapply h_lconstr; eauto).
  assert (Nv3 : nvars m3 = nvars m2).
  { apply addLConstr_inv in A3. destruct A3 as [A3 _]. subst m3.
    destruct (push_row_fields (combine (concat [[1; 1]]) (concat [[nvars m1; S (nvars m1)]])) SLe 1 m2)
      as (P3 & _). unfold nvars at 1. rewrite P3. auto. }
  assert (Z3 : zeta_ m3 = zeta_ m2)
    by (apply addLConstr_inv in A3; destruct A3 as [A3 _]; subst m3; apply zeta_push_row).
  match goal with |- step _ _ _ ?M _ _ => set (mf := M) end.
  assert (F : forall sg, feas vt mf sg <-> feas vt m2 sg /\
     sg (nvars m1) + sg (S (nvars m1)) <= 1 /\
     sat4 r1 (sg iv - lower) (sg (nvars m) - lower) (1 - sg (nvars m1)) /\
     sat4 r2 (upper - sg (nvars m)) (upper - sg ov) (1 - sg (S (nvars m1)))).
  { intros sg. unfold mf, feas. rewrite !zeta_addMConstr, Z3.
    rewrite (sat_up_rows _ _ _ _ _ _ _ _ _ A2).
    rewrite (sat_low_rows _ _ _ _ _ _ _ _ _ _ A1 eq_refl).
    rewrite (gfeas_addLConstr _ _ _ _ _ _ sg A3). cbn.
    rewrite vle_cons, vle_nil.
    replace (1 * sg (nvars m1) + (1 * sg (S (nvars m1)) + 0))
      with (sg (nvars m1) + sg (S (nvars m1))) by lra. tauto. }
  split; [unfold mf; rewrite !nvars_addMConstr; lia|]. split.
  { unfold mf.
    assert (HA : history st (addMConstr
        [col (rw_x r1); col (rw_y r1); col (vneg (rw_b r1))] [[iv]; [nvars m]; [nvars m1]] SLe
        (vadd (vsub (rw_rhs r1) (rw_b r1)) (vscale lower (vadd (rw_x r1) (rw_y r1)))) m3)).
    { apply h_mconstr; auto. apply (history_allk st m3 _ H3). cbn. repeat constructor; lia. }
    apply h_mconstr; auto. apply (history_allk st _ _ HA). rewrite nvars_addMConstr.
    cbn. repeat constructor; lia. }
  split.
  - intros sg G. apply F in G. destruct G as (G2 & Sb & P1 & P2).
    destruct (S2 sg G2) as [G1 B]. split; [apply S1; auto|]. intros X.
    cbn in B. inversion B as [|? ? B0 B']; subst. inversion B' as [|? ? B1 _]; subst.
    apply (relu_exact _ _ _ _ _ _ A1) in P1; [|apply bin_or; auto].
    apply (relu_exact _ _ _ _ _ _ A2) in P2; [|apply bin_or; auto].
    destruct P1 as (P11 & P12 & _). destruct P2 as (P21 & P22 & _). unfold relu in *.
    destruct (Rmax_case' (sg iv - lower) 0) as [[M1 M2]|[M1 M2]]; rewrite M1 in P12;
      destruct (Rmax_case' (upper - sg (nvars m)) 0) as [[M3 M4]|[M3 M4]]; rewrite M3 in P22;
      destruct (clamp_cases lower upper (sg iv) L) as [[C1 C2]|[[C1 C2]|[C1 C2]]]; rewrite C2; lra.
  - intros sg G [X Y].
    set (zv := Rmax (sg iv) lower).
    set (b0 := if Rle_dec (sg iv) lower then 1 else 0).
    set (b1 := if Rlt_dec upper (sg iv) then 1 else 0).
    assert (Bb0 : is_bin b0) by (unfold b0; destruct (Rle_dec _ _); [right|left]; auto).
    assert (Bb1 : is_bin b1) by (unfold b1; destruct (Rlt_dec _ _); [right|left]; auto).
    destruct (S1' sg [zv] G eq_refl) as (s1 & G1 & Ag1 & Ez).
    destruct (S2' s1 [b0; b1] G1 eq_refl) as (s2 & G2 & Ag2 & Eb).
    { constructor; auto. }
    assert (Ag : agree m sg s2) by (eapply agree_trans; [|exact Ag1|exact Ag2]; lia).
    exists s2. split; auto. apply F. split; auto.
    cbn in Eb, Ez. injection Eb as Eb0 Eb1. injection Ez as Ez.
    rewrite <- (agree_at m1 s1 s2) in Ez by (auto; lia).
    rewrite Eb0, Eb1, Ez.
    rewrite (agree_at _ _ _ _ Ag Hi), (agree_at _ _ _ _ Ag Ho).
    split; [|split].
    + unfold b0, b1. destruct (Rle_dec (sg iv) lower), (Rlt_dec upper (sg iv)); lra.
    + apply (relu_exact _ _ _ _ _ _ A1); [apply bin_or; auto|].
      unfold relu, zv, b0. destruct (Rle_dec (sg iv) lower).
      * rewrite !Rmax_right by lra. repeat split; intros; lra.
      * rewrite !Rmax_left by lra. repeat split; intros; lra.
    + apply (relu_exact _ _ _ _ _ _ A2); [apply bin_or; auto|].
      rewrite Y. unfold relu, zv, b1.
      destruct (Rlt_dec upper (sg iv)).
      * rewrite (Rmax_left (sg iv) lower) by lra. rewrite Rmax_right by lra.
        destruct (clamp_cases lower upper (sg iv) L) as [[C1 C2]|[[C1 C2]|[C1 C2]]];
          rewrite C2; repeat split; intros; lra.
      * rewrite (Rmax_left (upper - _)) by
          (destruct (Rmax_case' (sg iv) lower) as [[M1 M2]|[M1 M2]]; rewrite M1; lra).
        destruct (Rmax_case' (sg iv) lower) as [[M1 M2]|[M1 M2]]; rewrite M1;
        destruct (clamp_cases lower upper (sg iv) L) as [[C1 C2]|[[C1 C2]|[C1 C2]]];
          rewrite C2; repeat split; intros; lra.
Qed.

End S.
