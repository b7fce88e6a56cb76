(** The bounds obtained by optimisation — lemmas. *)

Require Import Reals List Bool Arith Lra Lia.
Require Import Verif.Vec Verif.VecFacts Verif.ModelMip Verif.SpecMip
  Verif.ModelUtils Verif.ModelNet Verif.SpecCore Verif.SpecUtils Verif.SpecNet
  Verif.ModelPattern Verif.SpecPattern Verif.ModelOptBounds
  Verif.ProofUtils Verif.ProofMaxBox Verif.ProofMip Verif.ProofConcat Verif.ProofBounds
  Verif.ProofGrad Verif.ProofNet Verif.ProofNetBounds Verif.ProofPattern Verif.ProofGradVec
  Verif.ProofAttain Verif.ProofLyapCert Verif.ProofContinuous.
Import ListNotations.
Open Scope R_scope.

Definition tangent (a : act) (pat : list bool) (v : vec) : vec :=
  map2 (fun b v => act_slope a b * v) pat v.

Lemma slope_slope : forall a (f : bool), (if f then 1 else slope_of a) = act_slope a f.
Proof. intros [|c] [|]; reflexivity. Qed.

Section Solver.
Variable solve : mip -> gresult.
Hypothesis Hsolve : solver_ok solve.

Lemma extremes_ok : forall ts m l u, extremes solve ts m = Some (l, u) ->
  l <= u /\ (forall sg, gfeas m sg -> l <= eval_terms ts sg <= u) /\
  (exists sg, gfeas m sg /\ eval_terms ts sg = l) /\ (exists sg, gfeas m sg /\ eval_terms ts sg = u).
Proof.
  intros ts m l u E. unfold extremes in E.
  assert (H1 := Hsolve (g_objective ts true m)). assert (H2 := Hsolve (g_objective ts false m)).
  destruct (solve (g_objective ts true m)) as [u'| | |]; try discriminate.
  destruct (solve (g_objective ts false m)) as [l'| | |]; try discriminate.
  injection E as -> ->. destruct H1 as [(s1 & G1 & O1) M1]. destruct H2 as [(s2 & G2 & O2) M2].
  change (gfeas m s1) in G1. change (gfeas m s2) in G2.
  change (eval_terms ts s1 + 0 = u) in O1. change (eval_terms ts s2 + 0 = l) in O2.
  assert (K : forall sg, gfeas m sg -> l <= eval_terms ts sg <= u).
  { intros sg G. specialize (M1 sg G). specialize (M2 sg G).
    cbn [obj_max g_objective] in M1, M2. unfold objective in M1, M2.
    cbn [obj_terms obj_const g_objective] in M1, M2. lra. }
  split; [specialize (K s1 G1); lra|]. split; auto.
  split; [exists s2|exists s1]; split; auto; lra.
Qed.

Lemma extremes_some : solver_total solve -> forall ts m K, (exists sg, gfeas m sg) ->
  (forall sg, gfeas m sg -> Rabs (eval_terms ts sg) <= K) ->
  exists l u, extremes solve ts m = Some (l, u).
Proof.
  intros Tot ts m K Ne B. unfold extremes.
  destruct (Tot (g_objective ts true m)) as [u ->]; auto.
  { exists K. intros sg G. unfold objective. cbn [obj_terms obj_const g_objective]. rewrite Rplus_0_r. auto. }
  destruct (Tot (g_objective ts false m)) as [l ->]; auto.
  { exists K. intros sg G. unfold objective. cbn [obj_terms obj_const g_objective]. rewrite Rplus_0_r. auto. }
  eauto.
Qed.

(** ** One unit *)

Lemma unit_rows_sat : forall w a l u zs zn be r sg, grad_unit w a l u = Some r ->
  nwf (length w) r ->
  (Forall (row_ok sg)
     (map2 (fun cs b => mkRow cs SLe b)
        (map2 (fun cz cy => cz ++ cy) (map (fun ws => combine ws zs) (n_x r))
           (map2 (fun y b => [(y, zn); (b, be)]) (n_y r) (n_b r))) (n_rhs r))
   <-> gsat1 r (map sg zs) (sg zn) (sg be)).
Proof.
  intros w a l u zs zn be r sg _ ((W1 & _) & W2 & W3). destruct r as [X Y Bv H].
  unfold gsat1, nlhs. cbn [n_x n_y n_b n_rhs] in *. clear w a l u.
  revert Y Bv H W1 W2 W3. induction X as [|x X IH]; intros Y Bv H W1 W2 W3;
    destruct H as [|h H]; try discriminate; destruct Y as [|y Y]; try discriminate;
    destruct Bv as [|b Bv]; try discriminate.
  - split; [intros _; constructor|intros _; constructor].
  - cbn [map map2 mv vscale vadd]. rewrite Forall_cons_iff.
    specialize (IH Y Bv H). cbn [length] in *. rewrite IH by lia.
    unfold row_ok at 1. cbn [row_sense row_terms row_rhs].
    rewrite eval_app, eval_combine. unfold eval_terms. cbn [map vsum fst snd].
    unfold vle. split.
    + intros [A B]. constructor; [lra|exact B].
    + intros A. inversion A; subst. split; [lra|assumption].
Qed.

Lemma combine_below' : forall n (ws : vec) zs, below n zs ->
  Forall (fun t : R * nat => (snd t < n)%nat) (combine ws zs).
Proof.
  intros n ws zs B. revert ws. induction B as [|z zs Hz B IH]; intros [|w ws]; constructor; auto.
Qed.
Lemma unit_rows_wf : forall n w a l u zs zn be rows, unit_rows a w l u zs zn be = Some rows ->
  below n zs -> (zn < n)%nat -> (be < n)%nat ->
  Forall (fun g => Forall (fun t => (snd t < n)%nat) (row_terms g)) rows.
Proof.
  intros n w a l u zs zn be rows E Bz Hn Hb. unfold unit_rows in E.
  destruct (grad_unit w a l u) as [r|]; [|discriminate]. injection E as <-.
  generalize (n_rhs r) as H. generalize (n_y r) as Y. generalize (n_b r) as Bv.
  induction (n_x r) as [|x X IH]; intros Bv Y H; [constructor|].
  destruct Y as [|y Y]; [constructor|]. destruct Bv as [|b Bv]; [constructor|].
  destruct H as [|h H]; [constructor|]. cbn [map map2]. constructor; [|apply IH].
  cbn [row_terms]. apply Forall_app. split; [apply combine_below'; auto|].
  constructor; [exact Hn|]. constructor; [exact Hb|constructor].
Qed.

Lemma g_unit_feas : forall rows m sg, gfeas (g_unit rows m) sg <-> gfeas m sg /\ Forall (row_ok sg) rows.
Proof.
  intros rows m sg. unfold gfeas, g_unit. cbn [gvars grows]. rewrite Forall_app. split.
  - intros [A [B C]]. split; auto. split; auto. intros i v E. apply A.
    rewrite nth_error_app1; auto. apply nth_error_Some. congruence.
  - intros [[A B] C]. split; auto. intros i v E.
    destruct (Nat.lt_ge_cases i (length (gvars m))) as [Hi|Hi].
    + rewrite nth_error_app1 in E by auto. auto.
    + rewrite nth_error_app2 in E by auto. destruct (i - length (gvars m))%nat as [|k]; cbn in E.
      * injection E as <-. split; [discriminate|]. split; exact I.
      * destruct k; discriminate.
Qed.
Lemma g_unit_nvars : forall rows m, nvars (g_unit rows m) = S (nvars m).
Proof. intros. unfold nvars, g_unit. cbn [gvars]. rewrite app_length. simpl. lia. Qed.

(** ** One layer *)

Lemma layer_units_ok : forall a W bs zs m m' zn zl zu p q,
  layer_units solve a W bs zs m = Some (m', zn, (zl, zu), (p, q)) ->
  wf_mip m -> below (nvars m) zs -> below (nvars m) bs -> Forall (fun w => length w = length zs) W ->
  (nvars m <= nvars m')%nat /\ wf_mip m' /\ below (nvars m') zn /\ length zn = length W /\
  length p = length W /\ vle p q /\ r_ m' = r_ m /\ zeta_ m' = zeta_ m /\
  (forall sg, gfeas m' sg -> gfeas m sg /\ in_box zl zu (map sg zn)) /\
  (forall sg pat, gfeas m sg -> map sg bs = map bit pat ->
     in_box p q (mv W (map sg zs)) /\
     exists sg', gfeas m' sg' /\ agree m sg sg' /\ map sg' zn = tangent a pat (mv W (map sg zs))) /\
  (forall sg pat, gfeas m' sg -> map sg bs = map bit pat ->
     map sg zn = tangent a pat (mv W (map sg zs))) /\
  (forall j, (j < length W)%nat ->
     (exists sg, gfeas m sg /\ nth j (mv W (map sg zs)) 0 = nth j p 0) /\
     (exists sg, gfeas m sg /\ nth j (mv W (map sg zs)) 0 = nth j q 0)).
Proof.
  intros a. induction W as [|w W IH]; intros bs zs m m' zn zl zu p q E Wf Bz Bb Lw;
    destruct bs as [|be bs]; cbn [layer_units] in E; try discriminate.
  - injection E as <- <- <- <- <- <-.
    split; [lia|]. split; [auto|]. split; [constructor|]. split; [auto|]. split; [auto|].
    split; [constructor|]. split; auto. split; auto.
    split. { intros sg G. split; auto. split; constructor. }
    split. { intros sg pat G Eb. destruct pat; [|discriminate]. split; [split; constructor|].
      exists sg. split; auto. split; [intros i _; auto|auto]. }
    split. { intros sg pat G Eb. destruct pat; [|discriminate]. auto. }
    intros j Hj. simpl in Hj. lia.
  - destruct (extremes solve (combine w zs) m) as [[l u]|] eqn:E1; [|discriminate].
    destruct (unit_rows a w l u zs (nvars m) be) as [rows|] eqn:E2; [|discriminate].
    destruct (extremes solve [(1, nvars m)] (g_unit rows m)) as [[zl0 zu0]|] eqn:E3; [|discriminate].
    destruct (layer_units solve a W bs zs (g_unit rows m))
      as [[[[m'' zn0] [zls zus]] [ls us]]|] eqn:E4; [|discriminate].
    injection E as <- <- <- <- <- <-.
    inversion Lw as [|? ? Lw1 Lw2]; subst. inversion Bb as [|? ? Hbe Bb']; subst.
    destruct (extremes_ok _ _ _ _ E1) as (Hlu & X1 & X2 & X3).
    destruct (extremes_ok _ _ _ _ E3) as (Hzz & Z1 & _ & _).
    set (m1 := g_unit rows m) in *.
    assert (N1 : nvars m1 = S (nvars m)) by apply g_unit_nvars.
    assert (W1 : wf_mip m1).
    { unfold wf_mip. rewrite N1. unfold m1, g_unit. cbn [grows]. apply Forall_app. split.
      - eapply Forall_impl; [|exact Wf]. intros g Fg. eapply Forall_impl; [|exact Fg].
        intros t Ht. cbn beta in *. lia.
      - eapply unit_rows_wf; eauto. apply (below_weaken _ _ _ Bz). lia. }
    destruct (IH bs zs m1 m'' zn0 zls zus ls us E4 W1)
      as (I1 & I2 & I3 & I4 & I5 & I6 & I6r & I6z & I7 & I8 & I9 & I10); auto.
    { apply (below_weaken _ _ _ Bz). lia. } { apply (below_weaken _ _ _ Bb'). lia. }
    destruct (grad_unit_spec w a l u Hlu) as (r & Er & Wr & Sr).
    assert (RW : forall sg, Forall (row_ok sg) rows <-> gsat1 r (map sg zs) (sg (nvars m)) (sg be)).
    { intros sg. unfold unit_rows in E2. rewrite Er in E2. injection E2 as <-.
      apply (unit_rows_sat w a l u); auto. }
    assert (Dw : forall sg, gfeas m sg -> l <= dot w (map sg zs) <= u).
    { intros sg G. rewrite <- eval_combine. auto. }
    split; [lia|]. split; [auto|]. split; [constructor; [lia|auto]|]. split; [simpl; auto|].
    split; [simpl; auto|]. split; [constructor; auto|].
    split; [exact I6r|]. split; [exact I6z|].
    split. { intros sg G. destruct (I7 sg G) as [G1 [Q1 Q2]].
      assert (Z := Z1 sg G1). unfold eval_terms in Z. cbn [map vsum fst snd] in Z.
      apply g_unit_feas in G1. split; [apply G1|]. split; constructor; auto; lra. }
    split. { intros sg pat G Eb. destruct pat as [|f pat]; [discriminate|].
      cbn [map] in Eb. apply cons_eq_iff in Eb. destruct Eb as [Eb1 Eb2].
      pose (v := act_slope a f * dot w (map sg zs)).
      pose (s1 := override sg (nvars m) [v]).
      assert (A1 : agree m sg s1) by (intros i Hi; symmetry; apply override_old; auto).
      assert (V1 : s1 (nvars m) = v).
      { assert (K := override_new sg (nvars m) [v]). cbn in K. apply cons_eq_iff in K. apply K. }
      assert (Zs : map s1 zs = map sg zs) by (apply override_map_old; auto).
      assert (Bs1 : map s1 bs = map sg bs) by (apply override_map_old; auto).
      assert (G1 : gfeas m1 s1).
      { apply g_unit_feas. split; [eapply gfeas_agree; eauto|]. apply RW.
        assert (Hb : s1 be = (if f then 1 else 0)) by (rewrite <- A1 by auto; exact Eb1).
        rewrite Hb, Zs, V1. apply (Sr (map sg zs) v f).
        - rewrite map_length. auto.
        - apply Dw; auto.
        - unfold v. rewrite slope_slope. auto. }
      destruct (I8 s1 pat G1) as ([J1 J2] & s2 & J3 & J4 & J5); [congruence|].
      rewrite Zs in *. split.
      - assert (D := Dw sg G). cbn [mv map]. split; constructor; auto; apply D.
      - exists s2. split; auto. split.
        + intros i Hi. rewrite A1 by auto. apply J4. lia.
        + cbn [map mv tangent map2]. rewrite <- J4 by lia. rewrite V1, J5. auto. }
    split. { intros sg pat G Eb. destruct pat as [|f pat]; [discriminate|].
      cbn [map] in Eb. apply cons_eq_iff in Eb. destruct Eb as [Eb1 Eb2].
      assert (K := I9 sg pat G Eb2).
      destruct (I7 sg G) as [G1 _]. apply g_unit_feas in G1. destruct G1 as [G1 R1]. apply RW in R1.
      rewrite Eb1 in R1. unfold bit in R1. apply Sr in R1; [|rewrite map_length; auto|apply Dw; auto].
      cbn [map mv tangent map2]. rewrite R1, K, slope_slope. auto. }
    intros [|j] Hj; cbn [length] in Hj; cbn [mv map nth].
    + destruct X2 as (s1 & G1 & O1). destruct X3 as (s2 & G2 & O2). rewrite eval_combine in O1, O2.
      split; [exists s1|exists s2]; auto.
    + destruct (I10 j) as ((s1 & G1 & O1) & (s2 & G2 & O2)); [lia|].
      apply g_unit_feas in G1. apply g_unit_feas in G2.
      split; [exists s1|exists s2]; split; auto; try apply G1; try apply G2.
Qed.

Lemma last_units_ok : forall W zs m p q, last_units solve W zs m = Some (p, q) ->
  length p = length W /\ vle p q /\ forall sg, gfeas m sg -> in_box p q (mv W (map sg zs)).
Proof.
  induction W as [|w W IH]; intros zs m p q E; cbn [last_units] in E.
  - injection E as <- <-. split; auto. split; [constructor|]. intros. split; constructor.
  - destruct (extremes solve (combine w zs) m) as [[l u]|] eqn:E1; [|discriminate].
    destruct (last_units solve W zs m) as [[ls us]|] eqn:E2; [|discriminate].
    injection E as <- <-. destruct (IH _ _ _ _ E2) as (I1 & I2 & I3).
    destruct (extremes_ok _ _ _ _ E1) as (Hlu & X1 & _).
    split; [simpl; auto|]. split; [constructor; auto|].
    intros sg G. destruct (I3 sg G) as [J1 J2]. specialize (X1 sg G). rewrite eval_combine in X1.
    split; constructor; auto; apply X1.
Qed.

(** ** All layers *)

Lemma layer_loop_ok : forall hs n out last lo up zs beta m m' B,
  layer_loop solve hs last lo up zs beta m = Some (m', B) ->
  hidden_wf n hs out -> length zs = n ->
  wf_mip m -> below (nvars m) zs -> below (nvars m) beta -> length beta = num_units hs ->
  (nvars m <= nvars m')%nat /\ wf_mip m' /\ r_ m' = r_ m /\ zeta_ m' = zeta_ m /\
  length (w_lo B) = S (length hs) /\ Forall2 vle (w_lo B) (w_up B) /\
  (forall i, (i < length hs)%nat -> length (nth i (w_lo B) []) = nth i (widths_of hs) 0%nat) /\
  (forall sg, gfeas m' sg -> gfeas m sg) /\
  (forall sg pats, gfeas m sg -> map sg beta = flat pats -> pattern_shape hs pats ->
     (forall i, (i < length hs)%nat ->
        in_box (nth i (w_lo B) []) (nth i (w_up B) []) (nth i (pre_tangents hs pats (map sg zs)) [])) /\
     exists sg', gfeas m' sg' /\ agree m sg sg') /\
  (forall i j, (i < length hs)%nat -> (j < nth i (widths_of hs) 0)%nat ->
     (exists sg, gfeas m sg /\ forall pats, map sg beta = flat pats -> pattern_shape hs pats ->
        nth j (nth i (pre_tangents hs pats (map sg zs)) []) 0 = nth j (nth i (w_lo B) []) 0) /\
     (exists sg, gfeas m sg /\ forall pats, map sg beta = flat pats -> pattern_shape hs pats ->
        nth j (nth i (pre_tangents hs pats (map sg zs)) []) 0 = nth j (nth i (w_up B) []) 0)).
Proof.
  induction hs as [|[l a] hs IH]; intros n out last lo up zs beta m m' B E W Lz Wf Bz Bb Lb;
    cbn [layer_loop] in E.
  - destruct (last_units solve (weight last) zs m) as [[p q]|] eqn:E1; [|discriminate].
    injection E as <- <-. destruct (last_units_ok _ _ _ _ _ E1) as (K1 & K2 & K3).
    cbn [w_lo w_up length].
    split; [lia|]. split; auto. split; auto. split; auto. split; auto.
    split; [constructor; [exact K2|constructor]|].
    split; [intros i Hi; lia|]. split; auto. split; [|intros i j Hi; lia].
    intros sg pats G _ _. split; [intros i Hi; lia|]. exists sg. split; auto. intros i _. auto.
  - cbn [num_units] in Lb. destruct W as [W1 W2].
    destruct (layer_units solve a (weight l) (firstn (out_features l) beta) zs m)
      as [[[[m1 zn] [zl zu]] [p q]]|] eqn:E1; [|discriminate].
    destruct (layer_loop solve hs last zl zu zn (skipn (out_features l) beta) m1)
      as [[m2 B1]|] eqn:E2; [|discriminate].
    injection E as <- <-. cbn [w_lo w_up].
    assert (Lw : length (weight l) = out_features l) by apply W1.
    assert (B1' : below (nvars m) (firstn (out_features l) beta)).
    { rewrite <- (firstn_skipn (out_features l) beta) in Bb. apply Forall_app in Bb. apply Bb. }
    assert (B2' : below (nvars m) (skipn (out_features l) beta)).
    { rewrite <- (firstn_skipn (out_features l) beta) in Bb. apply Forall_app in Bb. apply Bb. }
    destruct (layer_units_ok _ _ _ _ _ _ _ _ _ _ _ E1 Wf Bz B1')
      as (I1 & I2 & I3 & I4 & I5 & I6 & I6r & I6z & I7 & I8 & I9 & I10).
    { rewrite Lz. apply W1. }
    destruct (IH (out_features l) out last zl zu zn (skipn (out_features l) beta) m1 m2 B1 E2 W2)
      as (J1 & J2 & J2r & J2z & J3 & J4 & J5 & J6 & J7 & J8); auto.
    { apply (below_weaken _ _ _ B2'). lia. }
    { rewrite skipn_length. lia. }
    assert (Split : forall (sg : assignment) pats, map sg beta = flat pats -> pattern_shape ((l, a) :: hs) pats ->
      exists pat pats', pats = pat :: pats' /\ length pat = out_features l /\ pattern_shape hs pats' /\
        map sg (firstn (out_features l) beta) = map bit pat /\
        map sg (skipn (out_features l) beta) = flat pats').
    { intros sg pats Eb Sh. inversion Sh as [|? pat ? pats' Sp Sh' A1 A2]; subst. cbn [fst] in Sp.
      exists pat, pats'. split; auto. split; auto. split; auto.
      rewrite flat_bits in Eb. cbn [concat] in Eb. rewrite map_app in Eb.
      rewrite <- firstn_map, <- skipn_map, Eb, flat_bits.
      assert (Lp : length (map bit pat) = out_features l) by (rewrite map_length; auto).
      rewrite firstn_all', skipn_all' by auto. auto. }
    split; [lia|]. split; auto. split; [congruence|]. split; [congruence|].
    split; [simpl; auto|]. split; [constructor; auto|].
    split. { intros [|i] Hi; cbn [nth widths_of map fst]; [congruence|]. apply J5. simpl in Hi. lia. }
    split. { intros sg G. apply J6 in G. apply I7 in G. apply G. }
    split.
    + intros sg pats G Eb Sh. destruct (Split sg pats Eb Sh) as (pat & pats' & -> & Lp & Sh' & Q1 & Q2).
      destruct (I8 sg pat G Q1) as (K1 & s1 & G1 & A1 & T1).
      destruct (J7 s1 pats' G1) as (K2 & s2 & G2 & A2); auto.
      { rewrite <- Q2. symmetry. apply (map_agree (nvars m)); auto. }
      rewrite T1 in K2. split.
      * intros [|i] Hi; cbn [pre_tangents nth]; [exact K1|]. apply K2. simpl in Hi. lia.
      * exists s2. split; auto. intros i Hi. rewrite A1 by auto. apply A2. lia.
    + intros [|i] j Hi Hj; cbn [nth widths_of map fst] in *.
      * destruct (I10 j) as ((s1 & G1 & O1) & (s2 & G2 & O2)); [congruence|].
        split; [exists s1|exists s2]; split; auto; intros pats Eb Sh;
          [destruct (Split s1 pats Eb Sh) as (pat & pats' & -> & _)
          |destruct (Split s2 pats Eb Sh) as (pat & pats' & -> & _)]; cbn [pre_tangents nth]; auto.
      * destruct (J8 i j) as ((s1 & G1 & O1) & (s2 & G2 & O2)); [simpl in Hi; lia|auto|].
        split; [exists s1|exists s2]; (split; [apply I7; auto|]); intros pats Eb Sh;
          [destruct (Split s1 pats Eb Sh) as (pat & pats' & -> & Lp & Sh' & Q1 & Q2)
          |destruct (Split s2 pats Eb Sh) as (pat & pats' & -> & Lp & Sh' & Q1 & Q2)];
          cbn [pre_tangents nth].
        -- rewrite <- (O1 pats' Q2 Sh'). rewrite (I9 s1 pat G1 Q1). reflexivity.
        -- rewrite <- (O2 pats' Q2 Sh'). rewrite (I9 s2 pat G2 Q1). reflexivity.
Qed.

End Solver.
