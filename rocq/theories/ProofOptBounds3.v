(** The bounds obtained by optimisation: tight for the MIP method, and always found. *)

Require Import Reals List Bool Arith Lra Lia.
Require Import Verif.Vec Verif.VecFacts Verif.ModelMip Verif.SpecMip
  Verif.ModelUtils Verif.ModelNet Verif.SpecCore Verif.SpecUtils Verif.SpecNet Verif.SpecStep
  Verif.ModelPattern Verif.SpecPattern Verif.SpecLyapunov Verif.ModelContinuous Verif.SpecContinuous
  Verif.ModelOptBounds Verif.SpecOptBounds
  Verif.ProofUtils Verif.ProofMaxBox Verif.ProofMip Verif.ProofTorch Verif.ProofConcat Verif.ProofBounds
  Verif.ProofGrad Verif.ProofNet Verif.ProofNetBounds Verif.ProofNetTotal Verif.ProofPattern Verif.ProofGradVec
  Verif.ProofStep Verif.ProofNetStep Verif.ProofLyapCert Verif.ProofContinuous Verif.ProofOptBounds
  Verif.ProofOptBounds2.
Import ListNotations.
Open Scope R_scope.

Section Tight.
Variable solve : mip -> gresult.
Hypothesis Hsolve : solver_ok solve.
Variable N : network.
Variable n : nat.
Variables x_lo x_up : vec.
Hypothesis W : net_wf n N.
Hypothesis L1 : length x_lo = n.
Hypothesis L2 : length x_up = n.
Hypothesis Hns : no_slope_one (hidden N).
Variable M : mat.
Variable p : bound_prog.
Variable T : vec -> vec -> Prop.
Hypothesis Hp : covers n p x_lo x_up T.
Hypothesis Hno : no_more p x_lo x_up T.

Lemma optimisation_tight : forall B r,
  optimisation_bounds solve MIP N x_lo x_up (Some p) M = Some (B, r) ->
  (forall i j, (i < length (hidden N))%nat -> (j < nth i (widths_of (hidden N)) 0)%nat ->
     (exists x d pats, in_box x_lo x_up x /\ T x d /\ consistent pats (pre_acts (hidden N) x) /\
        nth j (nth i (pre_tangents (hidden N) pats d) []) 0 = nth j (nth i (w_lo B) []) 0) /\
     (exists x d pats, in_box x_lo x_up x /\ T x d /\ consistent pats (pre_acts (hidden N) x) /\
        nth j (nth i (pre_tangents (hidden N) pats d) []) 0 = nth j (nth i (w_up B) []) 0)) /\
  (forall j, (j < length M)%nat ->
     (exists x d, in_box x_lo x_up x /\ T x d /\ nth j (mv M d) 0 = nth j (fst r) 0) /\
     (exists x d, in_box x_lo x_up x /\ T x d /\ nth j (mv M d) 0 = nth j (snd r) 0)).
Proof.
  intros B [ls us] E.
  destruct (optimisation_run solve Hsolve MIP N n x_lo x_up W L1 L2 M p T Hp B (ls, us) E)
    as (c & Bd & out & m & sl & beta & lo & up & m' & Eo & Em & Wm & Bn & Bb & Lb & El & Er & Ka).
  destruct (constraint_flags solve Hsolve MIP N n x_lo x_up W L1 L2 _ _ _ Eo) as (C1 & C2 & C3 & _ & C5).
  assert (H := cv_built _ _ _ _ _ Hp). destruct (cv_next _ _ _ _ _ Hp) as (N1 & N2 & N3).
  destruct (cv_x _ _ _ _ _ Hp) as (X1 & X2).
  assert (W' := W). destruct W' as (Hh & Wh & Wl).
  destruct (layer_loop_ok solve Hsolve _ _ _ _ _ _ _ _ _ _ _ El Wh N2 Wm Bn Bb Lb)
    as (J1 & J2 & J2r & J2z & J3 & J4 & J5 & J6 & J7 & J8).
  destruct (Rxdot_ok solve Hsolve _ _ _ _ _ Er) as (_ & _ & _ & R2).
  { eapply allk_same; eauto. }
  destruct (add_mic_new _ _ _ _ _ _ _ _ Em C1 (history_wf _ _ H) X1 ltac:(congruence) I)
    as (Q1 & Q2 & Q3 & Q4 & Q5).
  assert (Down : forall sg, gfeas m sg ->
    in_box x_lo x_up (map sg (bp_x p)) /\ T (map sg (bp_x p)) (map sg (bp_next p)) /\
    exists pats, map sg beta = flat pats /\ consistent pats (pre_acts (hidden N) (map sg (bp_x p)))).
  { intros sg G. apply Q5 in G. destruct G as (G0 & Hb & Hm & _). destruct (Hno sg G0) as [K1 K2].
    split; auto. split; auto. cbn [bin_dom] in Hb.
    destruct (C5 Hns (map sg (bp_x p)) _ _ ltac:(rewrite map_length; auto) Hb Hm) as (_ & pats & P1 & P2 & _).
    exists pats. auto. }
  split.
  - intros i j Hi Hj. destruct (J8 i j Hi Hj) as ((s1 & G1 & O1) & (s2 & G2 & O2)).
    destruct (Down s1 G1) as (D1 & D2 & p1 & D3 & D4). destruct (Down s2 G2) as (F1 & F2 & p2 & F3 & F4).
    split; [exists (map s1 (bp_x p)), (map s1 (bp_next p)), p1|exists (map s2 (bp_x p)), (map s2 (bp_next p)), p2];
      (split; [auto|split; [auto|split; [auto|]]]).
    + apply O1; auto. apply (shape_of_consistent _ n _ _ _ Wh) in D4; auto. rewrite map_length. auto.
    + apply O2; auto. apply (shape_of_consistent _ n _ _ _ Wh) in F4; auto. rewrite map_length. auto.
  - intros j Hj. destruct (R2 j Hj) as ((s1 & G1 & O1) & (s2 & G2 & O2)).
    destruct (Down s1 (J6 _ G1)) as (D1 & D2 & _). destruct (Down s2 (J6 _ G2)) as (F1 & F2 & _).
    split; [exists (map s1 (bp_x p)), (map s1 (bp_next p))|exists (map s2 (bp_x p)), (map s2 (bp_next p))]; auto.
Qed.
End Tight.

(** ** The optima exist *)

Lemma abs_between : forall a b, Rabs a <= b -> - b <= a <= b.
Proof.
  intros a b H. assert (X1 := Rle_abs a). assert (X2 := Rle_abs (- a)). rewrite Rabs_Ropp in X2. lra.
Qed.

Lemma unit_bounded : forall w a lo up r, lo <= up -> grad_unit w a lo up = Some r ->
  exists K, forall z y b, 0 <= b <= 1 -> lo <= dot w z <= up -> gsat1 r z y b -> Rabs y <= K.
Proof.
  intros w a lo up r H E. unfold grad_unit in E. destruct a as [|c].
  - unfold replace_binary_continuous_product in E. rewrite (proj2 (Rleb_true lo up)) in E by auto.
    cbn [rw_x rw_y rw_b rw_rhs] in E. apply Some_inj in E. subst r.
    exists (Rabs lo + Rabs up). intros z y b Hb Hd G. unfold gsat1, nlhs in G.
    cbn [n_x n_y n_b n_rhs] in G. rewrite mv_outer in G. cbn in G.
    inversion G as [|? ? ? ? G1 G2]; subst. inversion G2 as [|? ? ? ? G3 G4]; subst.
    assert (lo * b <= y <= up * b) by lra.
    assert (Rabs (lo * b) <= Rabs lo).
    { rewrite Rabs_mult. rewrite (Rabs_pos_eq b) by lra.
      assert (0 <= Rabs lo) by apply Rabs_pos. nra. }
    assert (Rabs (up * b) <= Rabs up).
    { rewrite Rabs_mult. rewrite (Rabs_pos_eq b) by lra.
      assert (0 <= Rabs up) by apply Rabs_pos. nra. }
    assert (A1 := Rle_abs (up * b)). assert (A2 := Rle_abs (- (lo * b))). rewrite Rabs_Ropp in A2.
    assert (0 <= Rabs lo) by apply Rabs_pos. assert (0 <= Rabs up) by apply Rabs_pos.
    apply Rabs_le. lra.
  - unfold leaky_relu_gradient_times_x in E. rewrite (proj2 (Rleb_true lo up)) in E by auto.
    set (A := Rabs lo + Rabs up).
    assert (PA : 0 <= A) by (unfold A; assert (0 <= Rabs lo) by apply Rabs_pos;
      assert (0 <= Rabs up) by apply Rabs_pos; lra).
    assert (PC : 0 <= Rabs c) by apply Rabs_pos.
    assert (PC1 : 0 <= Rabs (c - 1)) by apply Rabs_pos.
    assert (BA : forall v, lo <= v <= up -> Rabs v <= A).
    { intros v Hv. unfold A. assert (X1 := Rle_abs up). assert (X2 := Rle_abs (- lo)). rewrite Rabs_Ropp in X2.
      assert (0 <= Rabs lo) by apply Rabs_pos. assert (0 <= Rabs up) by apply Rabs_pos. apply Rabs_le. lra. }
    assert (T1 : forall v b, lo <= v <= up -> 0 <= b <= 1 -> - (Rabs (c - 1) * A) <= (c - 1) * v * b <= Rabs (c - 1) * A).
    { intros v b Hv Hb. assert (K : Rabs ((c - 1) * v * b) <= Rabs (c - 1) * A).
      { rewrite !Rabs_mult, (Rabs_pos_eq b) by lra. assert (X := BA v Hv). assert (0 <= Rabs v) by apply Rabs_pos.
        assert (Rabs (c - 1) * Rabs v <= Rabs (c - 1) * A) by (apply Rmult_le_compat_l; auto).
        assert (0 <= Rabs (c - 1) * Rabs v) by (apply Rmult_le_pos; auto).
        assert (Rabs (c - 1) * Rabs v * b <= Rabs (c - 1) * Rabs v * 1) by (apply Rmult_le_compat_l; lra). lra. }
      apply abs_between in K. exact K. }
    assert (T2 : forall v, lo <= v <= up -> - (Rabs c * A) <= c * v <= Rabs c * A).
    { intros v Hv. assert (K : Rabs (c * v) <= Rabs c * A).
      { rewrite Rabs_mult. apply Rmult_le_compat_l; auto. }
      apply abs_between in K. exact K. }
    exists (A + Rabs c * A + Rabs (c - 1) * A + Rabs (c - 1) * A).
    assert (P1 : 0 <= Rabs c * A) by (apply Rmult_le_pos; auto).
    assert (P2 : 0 <= Rabs (c - 1) * A) by (apply Rmult_le_pos; auto).
    intros z y b Hb Hd G.
    assert (X1 := T1 lo b ltac:(lra) Hb). assert (X2 := T1 lo (1 - b) ltac:(lra) ltac:(lra)).
    assert (X3 := T2 _ Hd). assert (X4 := BA _ Hd). apply abs_between in X4.
    destruct (Rltb c 1); cbn [rw_x rw_y rw_b rw_rhs] in E; apply Some_inj in E; subst r;
      unfold gsat1, nlhs in G; cbn [n_x n_y n_b n_rhs] in G; rewrite mv_outer in G; cbn in G;
      inversion G as [|? ? ? ? G1 G2]; subst; inversion G2 as [|? ? ? ? G3 G4]; subst;
      inversion G4 as [|? ? ? ? G5 G6]; subst; apply Rabs_le; lra.
Qed.

Lemma dot_bounded : forall w K, exists K', forall z, Forall (fun v => Rabs v <= K) z -> Rabs (dot w z) <= K'.
Proof.
  induction w as [|a w IH]; intros K.
  - exists 0. intros z _. cbn. rewrite Rabs_R0. lra.
  - destruct (IH K) as [K1 H1]. exists (Rabs a * Rmax K 0 + Rmax K1 0). intros z F.
    assert (0 <= Rabs a) by apply Rabs_pos. assert (0 <= Rmax K 0) by apply Rmax_r.
    assert (0 <= Rmax K1 0) by apply Rmax_r.
    destruct z as [|v z]; cbn [dot].
    + rewrite Rabs_R0. assert (0 <= Rabs a * Rmax K 0) by (apply Rmult_le_pos; auto). lra.
    + inversion F; subst. eapply Rle_trans; [apply Rabs_triang|]. rewrite Rabs_mult.
      assert (Rabs (dot w z) <= Rmax K1 0) by (eapply Rle_trans; [apply H1; auto|apply Rmax_l]).
      assert (Rabs v <= Rmax K 0) by (eapply Rle_trans; [eassumption|apply Rmax_l]).
      assert (Rabs a * Rabs v <= Rabs a * Rmax K 0) by (apply Rmult_le_compat_l; auto). lra.
Qed.

Section Total.
Variable solve : mip -> gresult.
Hypothesis Hsolve : solver_ok solve.
Hypothesis Htotal : solver_total solve.

Definition bounded_vars (m : mip) (vs : list nat) : Prop :=
  exists K, forall sg, gfeas m sg -> Forall (fun v => Rabs v <= K) (map sg vs).
Definition unit_vars (m : mip) (bs : list nat) : Prop :=
  forall sg, gfeas m sg -> Forall (fun v => 0 <= v <= 1) (map sg bs).

Lemma extremes_dot : forall w zs m, (exists sg, gfeas m sg) -> bounded_vars m zs ->
  exists l u, extremes solve (combine w zs) m = Some (l, u).
Proof.
  intros w zs m Ne [K B]. destruct (dot_bounded w K) as [K' D].
  apply (extremes_some solve Htotal _ _ K' Ne). intros sg G. rewrite eval_combine. auto.
Qed.

Lemma var_extremes_some : forall vs m, (exists sg, gfeas m sg) -> bounded_vars m vs ->
  exists lo up, var_extremes solve vs m = Some (lo, up).
Proof.
  induction vs as [|v vs IH]; intros m Ne [K B]; cbn [var_extremes]; [eauto|].
  destruct (extremes_some solve Htotal [(1, v)] m K Ne) as (l & u & ->).
  { intros sg G. specialize (B sg G). inversion B; subst. unfold eval_terms. cbn [map vsum fst snd].
    replace (1 * sg v + 0) with (sg v) by ring. auto. }
  destruct (IH m Ne) as (lo & up & ->); [|eauto].
  exists K. intros sg G. specialize (B sg G). inversion B; auto.
Qed.

Lemma layer_units_some : forall a W bs zs m, length bs = length W ->
  wf_mip m -> below (nvars m) zs -> below (nvars m) bs -> Forall (fun w => length w = length zs) W ->
  bounded_vars m zs -> unit_vars m bs ->
  (exists sg pat, gfeas m sg /\ map sg bs = map bit pat) ->
  exists m' zn zb wb, layer_units solve a W bs zs m = Some (m', zn, zb, wb) /\ bounded_vars m' zn.
Proof.
  intros a. induction W as [|w W IH]; intros bs zs m L Wf Bz Bb Lw Bd Ub (sg & pat & G & Eb);
    destruct bs as [|be bs]; try discriminate; cbn [layer_units].
  - do 4 eexists. split; [reflexivity|]. exists 0. intros. constructor.
  - inversion Lw as [|? ? Lw1 Lw2]; subst. inversion Bb as [|? ? Hbe Bb']; subst.
    destruct pat as [|f pat]; [discriminate|]. cbn [map] in Eb. apply cons_eq_iff in Eb. destruct Eb as [Eb1 Eb2].
    destruct (extremes_dot w zs m) as (l & u & E1); [eauto|auto|]. rewrite E1.
    destruct (extremes_ok solve Hsolve _ _ _ _ E1) as (Hlu & X1 & _).
    destruct (grad_unit_spec w a l u Hlu) as (r & Er & Wr & Sr).
    destruct (unit_bounded w a l u r Hlu Er) as (K & HK).
    unfold unit_rows at 1. rewrite Er. cbv zeta.
    match goal with |- context [g_unit ?rw m] => set (rows := rw) end.
    assert (E2 : unit_rows a w l u zs (nvars m) be = Some rows) by (unfold unit_rows; rewrite Er; reflexivity).
    set (m1 := g_unit rows m).
    assert (RW : forall sg, Forall (row_ok sg) rows <-> gsat1 r (map sg zs) (sg (nvars m)) (sg be)).
    { intros s. apply (unit_rows_sat w a l u); auto. }
    assert (Dw : forall sg, gfeas m sg -> l <= dot w (map sg zs) <= u).
    { intros s Gs. rewrite <- eval_combine. auto. }
    assert (N1 : nvars m1 = S (nvars m)) by apply g_unit_nvars.
    assert (W1 : wf_mip m1).
    { unfold wf_mip. rewrite N1. unfold m1, g_unit. cbn [grows]. apply Forall_app. split.
      - eapply Forall_impl; [|exact Wf]. intros g Fg. eapply Forall_impl; [|exact Fg].
        intros t Ht. cbn beta in *. lia.
      - eapply unit_rows_wf; eauto. apply (below_weaken _ _ _ Bz). lia. }
    pose (v := act_slope a f * dot w (map sg zs)).
    pose (s1 := override sg (nvars m) [v]).
    assert (A1 : agree m sg s1) by (intros i Hi; symmetry; apply override_old; auto).
    assert (V1 : s1 (nvars m) = v).
    { assert (Kv := override_new sg (nvars m) [v]). cbn in Kv. apply cons_eq_iff in Kv. apply Kv. }
    assert (Zs : map s1 zs = map sg zs) by (apply override_map_old; auto).
    assert (Bs1 : map s1 bs = map sg bs) by (apply override_map_old; auto).
    assert (G1 : gfeas m1 s1).
    { apply g_unit_feas. split; [eapply gfeas_agree; eauto|]. apply RW.
      assert (Hb : s1 be = (if f then 1 else 0)) by (rewrite <- A1 by auto; exact Eb1).
      rewrite Hb, Zs, V1. apply (Sr (map sg zs) v f).
      - rewrite map_length. auto.
      - apply Dw; auto.
      - unfold v. rewrite slope_slope. auto. }
    assert (Bnew : forall s, gfeas m1 s -> Rabs (s (nvars m)) <= K).
    { intros s Gs. apply g_unit_feas in Gs. destruct Gs as [Gs Rs]. apply RW in Rs.
      apply (HK (map s zs) (s (nvars m)) (s be)); auto.
      specialize (Ub s Gs). inversion Ub; auto. }
    destruct (extremes_some solve Htotal [(1, nvars m)] m1 K) as (zl & zu & E3); [eauto| |].
    { intros s Gs. unfold eval_terms. cbn [map vsum fst snd].
      replace (1 * s (nvars m) + 0) with (s (nvars m)) by ring. auto. }
    rewrite E3.
    destruct (IH bs zs m1) as (m' & zn & [zls zus] & [ls us] & E4 & [K4 B4]); auto.
    { apply (below_weaken _ _ _ Bz). lia. } { apply (below_weaken _ _ _ Bb'). lia. }
    { destruct Bd as [K0 B0]. exists K0. intros s Gs. apply B0. apply g_unit_feas in Gs. apply Gs. }
    { intros s Gs. apply g_unit_feas in Gs. destruct Gs as [Gs _]. specialize (Ub s Gs). inversion Ub; auto. }
    { exists s1, pat. split; auto. congruence. }
    rewrite E4. do 4 eexists. split; [reflexivity|].
    destruct (layer_units_ok solve Hsolve _ _ _ _ _ _ _ _ _ _ _ E4 W1) as (_ & _ & _ & _ & _ & _ & _ & _ & I7 & _); auto.
    { apply (below_weaken _ _ _ Bz). lia. } { apply (below_weaken _ _ _ Bb'). lia. }
    exists (Rmax K K4). intros s Gs. cbn [map]. constructor.
    + eapply Rle_trans; [apply Bnew; apply I7; auto|apply Rmax_l].
    + eapply Forall_impl; [|apply (B4 s Gs)]. intros t Ht. eapply Rle_trans; [exact Ht|apply Rmax_r].
Qed.

Lemma last_units_some : forall W zs m, (exists sg, gfeas m sg) -> bounded_vars m zs ->
  exists r, last_units solve W zs m = Some r.
Proof.
  induction W as [|w W IH]; intros zs m Ne Bd; cbn [last_units]; [eauto|].
  destruct (extremes_dot w zs m Ne Bd) as (l & u & ->). destruct (IH zs m Ne Bd) as ([ls us] & ->). eauto.
Qed.

Lemma layer_loop_some : forall hs n out last lo up zs beta m,
  hidden_wf n hs out -> length zs = n ->
  wf_mip m -> below (nvars m) zs -> below (nvars m) beta -> length beta = num_units hs ->
  bounded_vars m zs -> unit_vars m beta ->
  (exists sg pats, gfeas m sg /\ map sg beta = flat pats /\ pattern_shape hs pats) ->
  exists m' B, layer_loop solve hs last lo up zs beta m = Some (m', B).
Proof.
  induction hs as [|[l a] hs IH]; intros n out last lo up zs beta m W Lz Wf Bz Bb Lb Bd Ub (sg & pats & G & Eb & Sh);
    cbn [layer_loop].
  - destruct (last_units_some (weight last) zs m) as ([p q] & ->); eauto.
  - cbn [num_units] in Lb. destruct W as [W1 W2].
    assert (Lw : length (weight l) = out_features l) by apply W1.
    assert (B1' : below (nvars m) (firstn (out_features l) beta) /\ below (nvars m) (skipn (out_features l) beta)).
    { rewrite <- (firstn_skipn (out_features l) beta) in Bb. apply Forall_app in Bb. apply Bb. }
    destruct B1' as [B1' B2'].
    assert (Us : unit_vars m (firstn (out_features l) beta) /\ unit_vars m (skipn (out_features l) beta)).
    { split; intros s Gs; specialize (Ub s Gs);
        rewrite <- (firstn_skipn (out_features l) beta), map_app in Ub; apply Forall_app in Ub; apply Ub. }
    destruct Us as [U1 U2].
    inversion Sh as [|? pat ? pats' Sp Sh' A1 A2]; subst. cbn [fst] in Sp.
    rewrite flat_bits in Eb. cbn [concat] in Eb. rewrite map_app in Eb.
    assert (Lp : length (map bit pat) = out_features l) by (rewrite map_length; auto).
    assert (Q1 : map sg (firstn (out_features l) beta) = map bit pat).
    { rewrite <- firstn_map, Eb. apply firstn_all'. auto. }
    assert (Q2 : map sg (skipn (out_features l) beta) = flat pats').
    { rewrite <- skipn_map, Eb, flat_bits. apply skipn_all'. auto. }
    destruct (layer_units_some a (weight l) (firstn (out_features l) beta) zs m)
      as (m1 & zn & [zl zu] & [p q] & E1 & Bd1); auto.
    { rewrite firstn_length. lia. } { apply W1. } { exists sg, pat. auto. }
    rewrite E1.
    destruct (layer_units_ok solve Hsolve _ _ _ _ _ _ _ _ _ _ _ E1 Wf Bz B1')
      as (I1 & I2 & I3 & I4 & I5 & I6 & I6r & I6z & I7 & I8 & I9 & I10).
    { apply W1. }
    destruct (I8 sg pat G Q1) as (_ & s1 & G1 & Ag & _).
    destruct (IH (out_features l) out last zl zu zn (skipn (out_features l) beta) m1 W2) as (m2 & B & ->); eauto.
    + apply (below_weaken _ _ _ B2'). lia.
    + rewrite skipn_length. lia.
    + intros s Gs. apply U2. apply I7. auto.
    + exists s1, pats'. split; auto. split; auto. rewrite <- Q2. symmetry. apply (map_agree (nvars m)); auto.
Qed.

Lemma Rxdot_some : forall M xd m, allk m xd -> NoDup xd -> (exists sg, gfeas m sg) -> bounded_vars m xd ->
  exists r, Rxdot_extremes solve M xd m = Some r.
Proof.
  induction M as [|r M IH]; intros xd m K Nd Ne Bd; cbn [Rxdot_extremes]; [eauto|].
  destruct Bd as [K0 B0]. destruct (dot_bounded r K0) as [K' D].
  assert (St : forall mx m, allk m xd -> exists m', setObjective [r] [xd] 0 mx m = Some m').
  { intros mx m0 K1. unfold setObjective. cbn [length Nat.eqb negb concat].
    rewrite filter_all by (rewrite app_nil_r; exact K1). rewrite app_nil_r, nodupb_NoDup by auto. eauto. }
  destruct (St true m K) as [m1 E1]. rewrite E1.
  destruct (setObjective_one _ _ _ _ _ E1 K) as (A1 & A2 & A3 & A4 & A5).
  assert (K1 : allk m1 xd) by (eapply allk_same; eauto).
  destruct (Htotal m1) as [u ->].
  { destruct Ne as [s G]. exists s. apply A4. auto. }
  { exists K'. intros s G. rewrite A5. apply D. apply B0. apply A4. auto. }
  destruct (St false m1 K1) as [m2 E2]. rewrite E2.
  destruct (setObjective_one _ _ _ _ _ E2 K1) as (C1 & C2 & C3 & C4 & C5).
  assert (DD : forall s, gfeas m2 s <-> gfeas m s) by (intros s; rewrite C4, A4; tauto).
  destruct (Htotal m2) as [l ->].
  { destruct Ne as [s G]. exists s. apply DD. auto. }
  { exists K'. intros s G. rewrite C5. apply D. apply B0. apply DD. auto. }
  destruct (IH xd m2) as ([ls us] & ->); auto; [| | |eauto].
  - eapply allk_same; eauto.
  - destruct Ne as [s G]. exists s. apply DD. auto.
  - exists K0. intros s G. apply B0. apply DD. auto.
Qed.

Variable meth : method.
Variable N : network.
Variable n : nat.
Variables x_lo x_up : vec.
Hypothesis W : net_wf n N.
Hypothesis L1 : length x_lo = n.
Hypothesis L2 : length x_up = n.
Variable M : mat.
Variable p : bound_prog.
Variable T : vec -> vec -> Prop.
Hypothesis Hp : covers n p x_lo x_up T.

Lemma optimisation_total : bounded_velocity p ->
  (exists x d, in_box x_lo x_up x /\ T x d) ->
  (exists c B out, output_constraint solve meth N x_lo x_up = Some (c, B, out)) ->
  exists B r, optimisation_bounds solve meth N x_lo x_up (Some p) M = Some (B, r).
Proof.
  intros [K BK] (x & d & Bx & Td) (c & Bd & out & Eo). unfold optimisation_bounds. rewrite Eo.
  destruct (constraint_flags solve Hsolve meth N n x_lo x_up W L1 L2 _ _ _ Eo) as (C1 & C2 & C3 & C4 & _).
  set (vt := match meth with LP => VCont | _ => VBin end).
  destruct (add_mic c (bp_x p) None NewBinary vt (bp_mip p)) as [[m sl] beta] eqn:Em.
  assert (H := cv_built _ _ _ _ _ Hp). destruct (cv_next _ _ _ _ _ Hp) as (N1 & N2 & N3).
  destruct (cv_x _ _ _ _ _ Hp) as (X1 & X2).
  assert (W' := W). destruct W' as (Hh & Wh & Wl).
  destruct (add_mic_new _ _ _ _ _ _ _ _ Em C1 (history_wf _ _ H) X1 ltac:(congruence) I)
    as (Q1 & Q2 & Q3 & Q4 & Q5).
  assert (H' : history false m).
  { eapply history_mic; eauto.
    - apply (history_allk _ _ _ H). auto.
    - constructor.
    - constructor.
    - discriminate. }
  assert (Bn : below (nvars m) (bp_next p)) by (apply (below_weaken _ _ _ N1); lia).
  assert (Bb : below (nvars m) beta) by (rewrite Q2; apply below_seq; lia).
  assert (Lb : length beta = num_units (hidden N)) by (rewrite Q2, seq_length; auto).
  assert (BV : bounded_vars m (bp_next p)) by (exists K; intros sg G; apply BK; apply Q5; auto).
  assert (UV : unit_vars m beta).
  { intros sg G. apply Q5 in G. destruct G as (_ & G & _). unfold vt in G.
    destruct meth; cbn [bin_dom] in G; auto; (eapply Forall_impl; [|exact G]); intros v [-> | ->]; lra. }
  destruct (cv_all _ _ _ _ _ Hp x d Bx Td) as (s0 & G0 & Ex & Ed).
  destruct (some_encodable solve Hsolve meth N n x_lo x_up W L1 L2 x Bx) as (pats & Cp & Ep).
  destruct (C4 x pats Bx Cp (Ep _ _ _ Eo)) as (s & Ms).
  destruct (add_mic_extend _ _ _ _ _ _ _ _ s0 s (flat pats) Em C1 (history_wf _ _ H) X1
      ltac:(congruence) I G0) as (s1 & G1 & A1 & _ & E1).
  { apply bins_dom. rewrite flat_bits. apply bits_bins. } { rewrite Ex. auto. } { exact I. }
  assert (Lx : length x = n) by (eapply in_box_length; eauto).
  assert (Sh := shape_of_consistent _ _ _ _ _ Wh Lx Cp).
  unfold compute_Wz_bounds_optimization.
  destruct (var_extremes_some (bp_next p) m) as (lo & up & ->); eauto.
  destruct (layer_loop_some (hidden N) n _ (last_layer N) lo up (bp_next p) beta m Wh) as (m' & B & El); auto.
  { exists s1, pats. auto. }
  rewrite El.
  destruct (layer_loop_ok solve Hsolve _ _ _ _ _ _ _ _ _ _ _ El Wh N2 Q4 Bn Bb Lb)
    as (J1 & J2 & J2r & J2z & J3 & J4 & J5 & J6 & J7 & J8).
  destruct (J7 s1 pats G1 E1 Sh) as (_ & s2 & G2 & _).
  destruct (Rxdot_some M (bp_next p) m') as (r & ->); eauto.
  - eapply allk_same; eauto. apply (history_allk _ _ _ H'). auto.
  - destruct BV as [K' B']. exists K'. intros sg G. apply B'. apply J6. auto.
Qed.
End Total.
