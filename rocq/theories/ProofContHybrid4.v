(** The part common to the hybrid derivative programs, and the first program. *)

Require Import Reals List Lia Lra Bool Arith.
Require Import Verif.Vec Verif.VecFacts Verif.ModelMip Verif.SpecMip Verif.SpecCore
  Verif.ModelUtils Verif.SpecUtils Verif.ModelNet Verif.SpecNet Verif.SpecStep
  Verif.ModelPattern Verif.SpecPattern
  Verif.ModelGrad Verif.ModelLyapunov Verif.SpecLyapunov Verif.ModelContinuous Verif.SpecContinuous
  Verif.ModelHybrid Verif.SpecHybrid Verif.ModelContHybrid Verif.SpecContHybrid
  Verif.ProofUtils Verif.ProofMip Verif.ProofSat Verif.ProofConcat Verif.ProofTorch
  Verif.ProofBounds Verif.ProofNet Verif.ProofMaxBox Verif.ProofGrad Verif.ProofPattern Verif.ProofGradVec
  Verif.ProofStep Verif.ProofLyapunov Verif.ProofLyapCert Verif.ProofContinuous Verif.ProofContinuous2
  Verif.ProofContinuous3 Verif.ProofContinuous4
  Verif.ProofHybrid Verif.ProofHybrid2
  Verif.ProofContHybrid Verif.ProofContHybrid2 Verif.ProofContHybrid3.
Import ListNotations.
Open Scope R_scope.

(** ** The rows of the sign products with the velocity *)

Lemma sign_xdot_spec : forall st lo up xd z al m m', sign_xdot_loop lo up xd z al m = Some m' ->
  history st m -> below (nvars m) xd -> below (nvars m) z -> below (nvars m) al ->
  nvars m' = nvars m /\ history st m' /\ vle lo up /\
  (forall sg, feas VBin m' sg -> feas VBin m sg) /\
  forall sg, bins (map sg al) ->
    (feas VBin m' sg <-> feas VBin m sg /\ in_box lo up (map sg xd) /\
       map sg z = vmul (map sg al) (map sg xd)).
Proof.
  intros st. induction lo as [|l lo IH]; intros up xd z al m m' E Hi Bx Bt Ba; cbn [sign_xdot_loop] in E.
  - destruct up, xd, z, al; try discriminate. injection E as <-.
    split; auto. split; auto. split; [constructor|]. split; auto.
    intros sg _. split; [|tauto]. intros G. split; auto. split; [split; constructor|reflexivity].
  - destruct up as [|u up]; [discriminate|]. destruct xd as [|d xd]; [discriminate|].
    destruct z as [|t z]; [discriminate|]. destruct al as [|a al]; [discriminate|].
    destruct (replace_binary_continuous_product l u) as [rw|] eqn:Er; [|discriminate].
    inversion Bx as [|? ? Bx1 Bx2]; subst. inversion Bt as [|? ? Bt1 Bt2]; subst.
    inversion Ba as [|? ? Ba1 Ba2]; subst.
    assert (Hrw : length (rw_x rw) = 4%nat /\ length (rw_y rw) = 4%nat /\ length (rw_b rw) = 4%nat /\
       length (rw_rhs rw) = 4%nat).
    { assert (Er' := Er). unfold replace_binary_continuous_product in Er'. destruct (Rleb l u); [|discriminate].
      apply Some_inj in Er'. subst rw. cbn. auto. }
    destruct Hrw as (R1 & R2 & R3 & R4).
    set (m1 := addMConstr [col (rw_x rw); col (rw_y rw); col (rw_b rw)]
                 [[d]; [t]; [a]] SLe (rw_rhs rw) m) in *.
    assert (V1 : nvars m1 = nvars m) by apply nvars_addMConstr.
    assert (Wf : blocks_wf (length (rw_rhs rw)) (combine [col (rw_x rw); col (rw_y rw); col (rw_b rw)]
                 [[d]; [t]; [a]])).
    { rewrite R4. repeat constructor; cbn [fst snd]; unfold col; rewrite ?map_length; auto;
        apply Forall_forall; intros y Hy; apply in_map_iff in Hy; destruct Hy as (q & <- & _); auto. }
    assert (H1 : history st m1).
    { apply h_mconstr; auto. apply (history_allk st); auto. cbn [concat app].
      constructor; [exact Bx1|constructor; [exact Bt1|constructor; [exact Ba1|constructor]]]. }
    destruct (IH up xd z al m1 m' E H1) as (I1 & I2 & I3 & I0 & I6); rewrite ?V1; auto.
    split; [congruence|]. split; auto. split.
    { apply vle_cons. split; auto. destruct (Rle_lt_dec l u) as [|C]; auto.
      exfalso. apply product_reject in C. congruence. }
    split.
    { intros sg G. apply I0 in G. rewrite feas_bin in *. unfold m1 in G.
      rewrite gfeas_addMConstr in G; auto; [tauto|discriminate]. }
    intros sg Bb. cbn [map] in Bb. inversion Bb as [|? ? Bb1 Bb2]; subst.
    rewrite (I6 sg Bb2). rewrite !feas_bin. unfold m1.
    rewrite gfeas_addMConstr; auto; [|discriminate].
    assert (Es : sense_ok SLe (bsum (length (rw_rhs rw)) (combine [col (rw_x rw); col (rw_y rw); col (rw_b rw)]
                 [[d]; [t]; [a]]) sg) (rw_rhs rw)
       <-> sat4 rw (sg d) (sg t) (sg a)).
    { unfold sense_ok, sat4. cbn [combine bsum map]. rewrite !mv_col, R4.
      rewrite (vadd_zeros_r 4 (vscale (sg a) (rw_b rw))) by (unfold vscale; rewrite map_length; auto).
      rewrite vadd_assoc. reflexivity. }
    rewrite Es, (product_exact l u rw _ _ _ Er Bb1).
    cbn [map]. unfold vmul. cbn [map2]. fold vmul.
    rewrite cons_eq_iff.
    unfold in_box. rewrite !vle_cons. tauto.
Qed.

Lemma sign_xdot_vle : forall lo up xd z al m m', sign_xdot_loop lo up xd z al m = Some m' -> vle lo up.
Proof.
  induction lo as [|l lo IH]; intros up xd z a m m' E.
  - destruct up, xd, z, a; cbn in E; try discriminate. constructor.
  - cbn in E. destruct up as [|u up]; [discriminate|]. destruct xd as [|d xd]; [discriminate|].
    destruct z as [|t z]; [discriminate|]. destruct a as [|a al]; [discriminate|].
    destruct (replace_binary_continuous_product l u) as [rw|] eqn:Er; [|discriminate].
    apply vle_cons. split; [|eapply IH; eauto].
    destruct (Rle_lt_dec l u) as [|C]; auto. exfalso. apply product_reject in C. congruence.
Qed.

Lemma sign_sum : forall sgs (v : vec), length sgs = length v ->
  2 * vsum (vmul (map bit sgs) v) - vsum v = dot (map sign_of sgs) v.
Proof.
  induction sgs as [|b sgs IH]; intros [|t v] L; try discriminate; [cbn; ring|].
  injection L as L. specialize (IH v L). cbn [map vmul map2 vsum dot]. fold (vmul (map bit sgs) v).
  rewrite <- IH. destruct b; cbn; ring.
Qed.

Section Core.
Variable solve : mip -> gresult.
Hypothesis Hsolve : solver_ok solve.
Variable meth : method.
Variable N : network.
Variable h : hybrid.
Variables x_lo x_up xeq : vec.
Variables lam eps : R.
Variable st : bool.
Variables lower upper : option R.
Let n := h_nx h.
Hypothesis Args : lyap_args n N x_lo x_up None xeq.
Hypothesis Hns : no_slope_one (hidden N).
Hypothesis Enu : h_nu h = 0%nat.
Hypothesis Wm : Forall (mode_wf n 0) (h_modes h).
Hypothesis Va : Forall (mode_valid n 0) (h_modes h).
Hypothesis Hbox : hybrid_box h x_lo x_up.
Variable axb : mat -> vec -> vec -> option (Vec.ext * Vec.ext).
Hypothesis Hax : row_bounds_valid axb.

Let W := la_net _ _ _ _ _ _ Args.
Let Ho := la_out _ _ _ _ _ _ Args.
Let L1 := la_lo _ _ _ _ _ _ Args.
Let L2 := la_up _ _ _ _ _ _ Args.
Let M := eye n.
Let WR : wfm (length M) n M := la_R _ _ _ _ _ _ Args.
Let Leq : length xeq = n := in_box_length _ _ _ _ (la_eq _ _ _ _ _ _ Args) L1.
Let K := length (h_modes h).

Lemma core : forall xv m2 m3 rr m4 s al m5, history st m2 -> below (nvars m2) xv -> length xv = n ->
  add_relu_output solve meth N x_lo x_up xv VBin m2 = Some (m3, rr) ->
  add_state_error n x_lo x_up false xeq None xv VBin m3 = Some (m4, s, al) ->
  add_value_bounds lower upper (ret_a rr) (ret_b rr) lam (ret_z rr) (phi N xeq) s m4 = Some m5 ->
  (nvars m2 <= nvars m5)%nat /\ history st m5 /\ fresh (nvars m2) (nvars m5) (ret_z rr ++ s) /\
  length (ret_a rr) = length (ret_z rr) /\ length s = n /\
  below (nvars m5) (ret_beta rr) /\ length (ret_beta rr) = num_units (hidden N) /\
  below (nvars m5) (concat al) /\ length (concat al) = n /\
  (forall sg, feas VBin m5 sg -> feas VBin m2 sg) /\
  exists blo bup ls us, (compute_range_by_IA n M (vneg (mv M xeq)) x_lo x_up = Some (ls, us) /\
    exists c B out, output_constraint solve meth N x_lo x_up = Some (c, B, out) /\
      blo = b_pre_lo B /\ bup = b_pre_up B) /\
  (forall sg, feas VBin m5 sg ->
     in_box x_lo x_up (map sg xv) /\ within lower upper (V N M lam xeq (map sg xv)) /\
     dot (ret_a rr) (map sg (ret_z rr)) + ret_b rr - phi N xeq + lam * vsum (map sg s)
       = V N M lam xeq (map sg xv) /\
     exists pats sgs, selects N M xeq (map sg xv) pats sgs /\
       map sg (ret_beta rr) = flat pats /\ map sg (concat al) = map bit sgs /\
       forced_all blo bup (concat pats) /\ forced_all ls us sgs) /\
  length blo = num_units (hidden N) /\ length bup = num_units (hidden N) /\
  length ls = length M /\ length us = length M /\
  (forall y, in_box x_lo x_up y -> in_box blo bup (concat (pre_acts (hidden N) y))) /\
  (forall y, in_box x_lo x_up y -> in_box ls us (mv M (vsub y xeq))) /\
  (forall sg x pats sgs, feas VBin m2 sg -> map sg xv = x -> in_box x_lo x_up x ->
     within lower upper (V N M lam xeq x) ->
     selects N M xeq x pats sgs -> forced_all blo bup (concat pats) -> forced_all ls us sgs ->
     exists sg', feas VBin m5 sg' /\ agree m2 sg sg' /\
       map sg' (ret_beta rr) = flat pats /\ map sg' (concat al) = map bit sgs).
Proof.
  intros xv m2 m3 rr m4 s al m5 H2 Bv2 Lv E3 E4 E5.
  assert (Hvt : VBin <> VCont) by discriminate.
  destruct (relu_output_step solve Hsolve meth N n x_lo x_up W Ho L1 L2 st xv VBin m2 m3 rr
    H2 Bv2 Lv Hvt E3) as (P1 & P2 & P3 & P4 & P5 & S3).
  destruct (relu_flags solve Hsolve meth N n x_lo x_up W Ho L1 L2 Hns st xv m2 m3 rr H2 Bv2 Lv E3)
    as (G1 & G2 & G3 & G4 & G5 & G6).
  assert (V3 : (nvars m2 <= nvars m3)%nat) by apply S3.
  assert (H3 : history st m3) by apply S3.
  assert (Bv3 : below (nvars m3) xv) by (apply (below_weaken _ _ _ Bv2); lia).
  assert (E4' : add_state_error n x_lo x_up false xeq (Some M) xv VBin m3 = Some (m4, s, al)).
  { rewrite <- E4. unfold add_state_error.
    assert (G : get_R n None = get_R n (Some M)).
    { rewrite (get_R_ok n (Some M) WR), (get_R_ok n None WR). reflexivity. }
    rewrite G. reflexivity. }
  destruct (state_error_step n x_lo x_up L1 L2 (Some M) xeq WR st _ _ _ _ _ _ _ E4'
    H3 Bv3 Lv Hvt) as (K1 & K2 & _ & _ & S4).
  destruct (state_error_flags n st x_lo x_up xeq M xv m3 m4 s al E4' WR L1 L2 H3 Bv3 Lv)
    as (F1 & F2 & ls & us & F0 & F3 & F4 & F5 & F6 & F7).
  cbn [R_of] in *.
  assert (V4 : (nvars m3 <= nvars m4)%nat) by apply S4.
  assert (H4 : history st m4) by apply S4.
  destruct (value_bounds_step lam VBin st lower upper (ret_a rr) (ret_b rr) (ret_z rr) (phi N xeq) s m4
    H4 P3) as (m5' & E5' & V5 & H5 & I5).
  { apply Forall_app. split.
    - apply fresh_below in P1. apply (below_weaken _ _ _ P1). lia.
    - apply fresh_below in K1. exact K1. }
  { eapply fresh_disj; eauto. }
  rewrite E5 in E5'. apply Some_inj in E5'. subst m5'.
  assert (LM : length M = n) by apply eyek_length.
  assert (EV : forall sg : assignment,
     dot (ret_a rr) (map sg (ret_z rr)) + ret_b rr = phi N (map sg xv) ->
     map sg s = map Rabs (mv M (vsub (map sg xv) xeq)) ->
     dot (ret_a rr) (map sg (ret_z rr)) + ret_b rr - phi N xeq + lam * vsum (map sg s)
     = V N M lam xeq (map sg xv)).
  { intros sg X Y. rewrite X, Y. reflexivity. }
  split; [lia|]. split; auto. split.
  { eapply fresh_weaken; [eapply fresh_app; [exact P1|exact K1|lia|lia|lia]|lia|lia]. }
  split; auto. split; [congruence|]. split.
  { apply fresh_below in P2. apply (below_weaken _ _ _ P2). lia. }
  split; auto. split.
  { apply fresh_below in F2. apply (below_weaken _ _ _ F2). lia. }
  split; [congruence|].
  assert (Down : forall sg, feas VBin m5 sg -> feas VBin m4 sg /\ feas VBin m3 sg /\ feas VBin m2 sg).
  { intros sg X5. assert (X4 := proj1 (proj1 (I5 _) X5)).
    assert (X3 : feas VBin m3 sg) by (apply S4; auto). assert (X2 : feas VBin m2 sg) by (apply S3; auto). auto. }
  split; [intros sg G; apply Down; auto|].
  exists (b_pre_lo (ret_bounds rr)), (b_pre_up (ret_bounds rr)), ls, us. split.
  { split; [exact F0|]. destruct P5 as (c & B0 & out & Eo & _ & ->). exists c, B0, out. auto. }
  split.
  { intros sg X5. destruct (Down sg X5) as (X4 & X3 & X2).
    destruct S3 as (_ & _ & S3 & _). destruct (S3 sg X3) as (_ & Bx & Ep).
    destruct S4 as (_ & _ & S4 & _). destruct (S4 sg X4) as (_ & Es).
    destruct (proj1 (I5 sg) X5) as (_ & Hw). rewrite (EV sg Ep Es) in Hw.
    split; [exact Bx|]. split; [exact Hw|]. split; [apply EV; auto|].
    destruct (G5 sg X3) as (pats & U1 & U2 & U5).
    destruct (F6 sg X4) as (sgs & U3 & U4 & U6).
    exists pats, sgs. split; [split; auto|]. auto. }
  split; auto. split; auto. split; auto. split; auto. split; auto. split; auto.
  intros s2 x pats sgs Y2 Ex2 Bx Hw [Sel1 Sel2] At1 At2.
  assert (Sh : pattern_shape (hidden N) pats).
  { eapply shape_of_consistent; [apply W| |exact Sel1]. eapply in_box_length; eauto. }
  destruct (G6 s2 pats Y2) as (s3 & Y3 & Ag3 & Eb3); rewrite ?Ex2; auto.
  assert (Ex3 : map s3 xv = x) by (rewrite <- Ex2; symmetry; apply (map_agree (nvars m2)); auto).
  destruct (F7 s3 sgs Y3) as (s4 & Y4 & Ag4 & Ea4); rewrite ?Ex3; auto.
  assert (Ag24 : agree m2 s2 s4) by (eapply agree_trans; [|exact Ag3|exact Ag4]; lia).
  assert (Ex4 : map s4 xv = x) by (rewrite <- Ex2; symmetry; apply (map_agree (nvars m2)); auto).
  exists s4. split; [|split; [auto|split; auto]].
  - apply I5. split; auto.
    destruct S4 as (_ & _ & S4s & _). destruct (S4s s4 Y4) as (Y3' & Es).
    destruct S3 as (_ & _ & S3s & _). destruct (S3s s4 Y3') as (_ & _ & Ep).
    rewrite (EV s4 Ep Es), Ex4. auto.
  - rewrite <- Eb3. symmetry. apply (map_agree (nvars m3)); auto.
    apply fresh_below in P2. exact P2.
Qed.

(** What both programs have to satisfy; the selections are described by the
    bounds that force a flag. *)
Definition forced_program (d : hderiv) : Prop :=
  obj_max (hd_mip d) = true /\ length (hd_x d) = n /\ history st (hd_mip d) /\
  exists blo bup ls us, (compute_range_by_IA n M (vneg (mv M xeq)) x_lo x_up = Some (ls, us) /\
    exists c B out, output_constraint solve meth N x_lo x_up = Some (c, B, out) /\
      blo = b_pre_lo B /\ bup = b_pre_up B) /\
  (forall sg, gfeas (hd_mip d) sg ->
     in_box x_lo x_up (map sg (hd_x d)) /\ within lower upper (V N M lam xeq (map sg (hd_x d))) /\
     exists k v pats sgs, moves h k (map sg (hd_x d)) v /\ selects N M xeq (map sg (hd_x d)) pats sgs /\
       map sg (hd_beta d) = flat pats /\ map sg (hd_gamma d) = one_hot K k /\
       objective (hd_mip d) sg = Vdot N M lam pats sgs v + eps * V N M lam xeq (map sg (hd_x d)) /\
       forced_all blo bup (concat pats) /\ forced_all ls us sgs) /\
  length blo = num_units (hidden N) /\ length bup = num_units (hidden N) /\
  length ls = length M /\ length us = length M /\
  (forall y, in_box x_lo x_up y -> in_box blo bup (concat (pre_acts (hidden N) y))) /\
  (forall y, in_box x_lo x_up y -> in_box ls us (mv M (vsub y xeq))) /\
  (forall x k v pats sgs, length x = n -> moves h k x v ->
     within lower upper (V N M lam xeq x) ->
     selects N M xeq x pats sgs -> forced_all blo bup (concat pats) -> forced_all ls us sgs ->
     exists sg, gfeas (hd_mip d) sg /\ map sg (hd_x d) = x /\ map sg (hd_beta d) = flat pats /\
       map sg (hd_gamma d) = one_hot K k /\
       objective (hd_mip d) sg = Vdot N M lam pats sgs v + eps * V N M lam xeq x).

Lemma moves_length : forall k x v, moves h k x v -> length v = n.
Proof.
  intros k x v (md & Hk & _ & ->). rewrite Forall_forall in Wm.
  destruct (Wm md (nth_error_In _ _ Hk)) as ((WA & _) & _ & Wc & _).
  rewrite vadd_length; rewrite mv_length; unfold mat, vec in *; congruence.
Qed.

Lemma one_hot_inj : forall i j, (i < K)%nat -> (j < K)%nat -> one_hot K i = one_hot K j -> i = j.
Proof.
  intros i j Hi Hj E. apply (f_equal (fun v => nth i v 0)) in E.
  rewrite !nth_one_hot, Nat.eqb_refl in E by auto.
  destruct (Nat.eqb_spec i j); auto. lra.
Qed.

Lemma program1_forced : forall et R0 d,
  hybrid_ct_milp solve axb meth N h x_lo x_up xeq lam eps et R0 lower upper = Some d ->
  et = ExpLower /\ forced_program d.
Proof.
  intros et R0 d E. unfold hybrid_ct_milp in E. fold n in E. destruct et; try discriminate.
  destruct (R_identity n R0); [|discriminate]. split; auto.
  destruct (addVars (repeat (NInf, PInf) n) VCont init_mip) as [m0 xv] eqn:E0.
  destruct (addVars (repeat (NInf, PInf) n) VCont m0) as [m1 xd] eqn:E1.
  destruct (step_free VBin st n _ _ _ E0 (h_init st)) as (A1 & A2 & A3 & A4 & A5).
  destruct (step_free VBin st n _ _ _ E1 A3) as (B1 & B2 & B3 & B4 & B5).
  assert (Bv : below (nvars m1) xv) by (rewrite A1; apply below_seq; lia).
  assert (Bd : below (nvars m1) xd) by (rewrite B1; apply below_seq; lia).
  assert (Lv : length xv = n) by (rewrite A1; apply seq_length).
  assert (Ld : length xd = n) by (rewrite B1; apply seq_length).
  assert (Fd : fresh 0 (nvars m1) xd).
  { rewrite B1. eapply fresh_weaken; [apply (fresh_seq (nvars m0) n (nvars m1)); lia|lia|lia]. }
  destruct (hybrid_mic h None None None None) as [c|] eqn:Ec; [|discriminate].
  destruct (add_mic c xv (Some xd) NewBinary VBin m1) as [[m2 sv] gv] eqn:E2.
  destruct (hybrid_fine h n eq_refl Enu Wm Va st c xv (Some xd) m1 m2 sv gv Ec E2 B3 Bv Lv)
    as (T1 & T2 & T3 & H2 & T4 & T5 & T6).
  { cbn. auto. }
  fold K in T1, T2, T3, T5, T6.
  destruct (add_relu_output solve meth N x_lo x_up xv VBin m2) as [[m3 rr]|] eqn:E3; [|discriminate].
  destruct (add_state_error n x_lo x_up false xeq None xv VBin m3) as [[[m4 s] al]|] eqn:E4; [|discriminate].
  rewrite (scalar_phi n) in E by auto.
  destruct (add_value_bounds lower upper (ret_a rr) (ret_b rr) lam (ret_z rr) (phi N xeq) s m4) as [m5|] eqn:E5;
    [|discriminate].
  assert (Bv2 : below (nvars m2) xv) by (apply (below_weaken _ _ _ Bv); lia).
  destruct (core xv m2 m3 rr m4 s al m5 H2 Bv2 Lv E3 E4 E5)
    as (V5 & H5 & F5 & P3 & Ls & Bb & Lb & Ba & La & Dn & blo & bup & ls & us & Er & Sd & C1 & C2 & C3 & C4 & C5 & C6 & Cp).
  destruct (dx_bounds axb h) as [[dlo dup]|] eqn:Ed; [|discriminate].
  destruct (all_some (map fin dlo)) as [lo|] eqn:El; [|discriminate].
  destruct (all_some (map fin dup)) as [up|] eqn:Eu; [|discriminate].
  destruct (add_gradient N (ret_beta rr) (fun A => A) lo up xd m5) as [[[m6 z1] co]|] eqn:E6; [|discriminate].
  destruct (addVars (repeat (NInf, PInf) n) VCont m6) as [m7 z2] eqn:E7.
  destruct (sign_xdot_loop lo up xd z2 (concat al) m7) as [m8|] eqn:E8; [|discriminate].
  assert (Vl := sign_xdot_vle _ _ _ _ _ _ _ E8).
  assert (Bd5 : below (nvars m5) xd) by (apply (below_weaken _ _ _ Bd); lia).
  destruct (gradient_spec st n N (ret_beta rr) (fun A => A) (fun w => w) n lo up xd m5 m6 z1 co W Ho Vl)
    as (Llo & (Fz1 & V6 & H6 & D6) & Lco & Kg); auto.
  cbn [concat] in Fz1. rewrite app_nil_r in Fz1.
  destruct (step_free VBin st n _ _ _ E7 H6) as (Z1 & Z2 & H7 & Z4 & Z5).
  assert (Lz2 : length z2 = n) by (rewrite Z1; apply seq_length).
  assert (Fz2 : fresh (nvars m6) (nvars m7) z2) by (rewrite Z1; apply fresh_seq; lia).
  destruct (sign_xdot_spec st lo up xd z2 (concat al) m7 m8 E8 H7) as (V8 & H8 & _ & D8 & K8).
  { apply (below_weaken _ _ _ Bd); lia. }
  { rewrite Z1. apply below_seq. lia. }
  { apply (below_weaken _ _ _ Ba). lia. }
  destruct (setObjective_step VBin st
     [co; repeat (2 * lam) n; repeat (-1 * lam) n; vscale eps (ret_a rr); repeat (eps * lam) n]
     [z1; z2; xd; ret_z rr; s] (eps * ret_b rr - eps * phi N xeq) true m8 H8)
    as (m9 & E9 & O1 & O2 & O3 & O4 & O5).
  { constructor; [exact Lco|]. constructor; [rewrite repeat_length; auto|].
    constructor; [rewrite repeat_length; auto|].
    constructor; [unfold vscale; rewrite map_length; exact P3|].
    constructor; [rewrite repeat_length; auto|constructor]. }
  { cbn [concat]. rewrite app_nil_r. apply fresh_below in Fz1, Fz2, F5.
    apply Forall_app; split; [eapply below_weaken; [exact Fz1|lia]|].
    apply Forall_app; split; [eapply below_weaken; [exact Fz2|lia]|].
    apply Forall_app; split; [eapply below_weaken; [exact Bd|lia]|].
    apply (below_weaken _ _ _ F5). lia. }
  { cbn [concat]. rewrite app_nil_r.
    rewrite (app_assoc z1).
    eapply (fresh_disj (nvars m5) (nvars m7) 0 (nvars m5)).
    - eapply fresh_app; [exact Fz1|exact Fz2|lia|lia|lia].
    - eapply fresh_weaken; [eapply fresh_app; [exact Fd|exact F5|lia|lia|lia]|lia|lia].
    - right. lia. }
  rewrite E9 in E. apply Some_inj in E. subst d. unfold forced_program. cbn [hd_mip hd_x hd_beta hd_gamma].
  assert (Down : forall sg, gfeas m9 sg ->
     feas VBin m8 sg /\ feas VBin m7 sg /\ feas VBin m6 sg /\ feas VBin m5 sg /\ feas VBin m2 sg).
  { intros sg G. apply feas_bin in G. apply O4 in G.
    assert (X7 := D8 _ G). assert (X6 := Z4 _ X7). assert (X5 := D6 _ X6). assert (X2 := Dn _ X5). auto. }
  assert (Sound : forall sg, gfeas m9 sg ->
     in_box x_lo x_up (map sg xv) /\ within lower upper (V N M lam xeq (map sg xv)) /\
     exists k v pats sgs, moves h k (map sg xv) v /\ selects N M xeq (map sg xv) pats sgs /\
       map sg (ret_beta rr) = flat pats /\ map sg gv = one_hot K k /\ map sg (concat al) = map bit sgs /\
       objective m9 sg = Vdot N M lam pats sgs v + eps * V N M lam xeq (map sg xv) /\
       forced_all blo bup (concat pats) /\ forced_all ls us sgs).
  { intros sg G. destruct (Down sg G) as (X8 & X7 & X6 & X5 & X2).
    destruct (Sd sg X5) as (Bx & Hw & EV & pats & sgs & Sel & Eb & Ea & Fo1 & Fo2).
    destruct (T5 sg X2) as (k & md & Hk & I & Eg & _ & Hv). specialize (Hv xd eq_refl).
    split; auto. split; auto.
    assert (Mv : moves h k (map sg xv) (map sg xd)) by (exists md; auto).
    exists k, (map sg xd), pats, sgs. split; auto. split; auto. split; auto. split; auto. split; auto.
    split; [|split; auto].
    assert (Lvx : length (map sg xv) = n) by (rewrite map_length; auto).
    assert (Ldx : length (map sg xd) = n) by (rewrite map_length; auto).
    assert (Sh : pattern_shape (hidden N) pats).
    { eapply shape_of_consistent; [apply W| |exact (proj1 Sel)]. auto. }
    assert (Bxd : in_box lo up (map sg xd)).
    { exact (dx_valid h n eq_refl Wm axb Hax _ _ _ _ _ _ _ Ed El Eu Lvx Mv). }
    destruct (Kg (fun s' => map s' xd = map sg xd /\ map s' (ret_beta rr) = flat pats) pats (map sg xd)) as [[Pn _] Dt];
      auto.
    specialize (Pn sg X6 (conj eq_refl Eb)). cbn [map] in Pn. injection Pn as Pn.
    assert (Bin : bins (map sg (concat al))) by (rewrite Ea; apply bits_bins).
    destruct (proj1 (K8 sg Bin) X8) as (_ & _ & Et).
    assert (Lsg : length sgs = length (map sg xd)).
    { apply (f_equal (@length R)) in Ea. rewrite !map_length in *. unfold mat, vec in *. congruence. }
    rewrite O5. cbn [map2 vsum].
    rewrite !dot_repeat_l by (rewrite map_length; auto).
    rewrite dot_vscale_l, Et, Ea, Pn, Dt. unfold Vdot, M. rewrite mv_eye by auto.
    rewrite <- (sign_sum sgs (map sg xd) Lsg). fold M. rewrite <- EV. ring. }
  split; auto. split; auto. split; auto.
  exists blo, bup, ls, us. split; [exact Er|].
  split.
  { intros sg G. destruct (Sound sg G) as (U1 & U2 & k & v & pats & sgs & U3 & U4 & U5 & U6 & U7 & U8 & U9 & U10).
    split; auto. split; auto. exists k, v, pats, sgs. auto 10. }
  split; auto. split; auto. split; auto. split; auto. split; auto. split; auto.
  intros x k v pats sgs Lx Mv Hw Sel At1 At2.
  assert (Lvv := moves_length _ _ _ Mv).
  assert (Bx : in_box x_lo x_up x) by exact (moves_box h n eq_refl Wm x_lo x_up Enu Va Hbox _ _ _ Lx Mv).
  destruct (A5 (fun _ => 0) x (init_feas _ _) Lx) as (s0 & Y0 & _ & Ex).
  destruct (B5 s0 v Y0 Lvv) as (s1 & Y1 & Ag1 & Ev).
  assert (Ex1 : map s1 xv = x).
  { rewrite <- Ex. symmetry. apply (map_agree (nvars m0)); auto. rewrite A1. apply below_seq. simpl. lia. }
  assert (Mv' := Mv). destruct Mv' as (md & Hk & I & Evd).
  assert (HkK : (k < K)%nat) by (apply nth_error_Some; rewrite Hk; discriminate).
  destruct (T6 s1 k md Y1 Hk) as (s2 & Y2 & Ag2 & Eg2 & _).
  { rewrite Ex1. auto. }
  { intros xn Q. injection Q as <-. rewrite Ev, Ex1. auto. }
  assert (Ex2 : map s2 xv = x) by (rewrite <- Ex1; symmetry; apply (map_agree (nvars m1)); auto).
  assert (Ev2 : map s2 xd = v) by (rewrite <- Ev; symmetry; apply (map_agree (nvars m1)); auto).
  destruct (Cp s2 x pats sgs Y2 Ex2 Bx Hw Sel At1 At2) as (s5 & Y5 & Ag5 & Eb5 & Ea5).
  assert (Ev5 : map s5 xd = v).
  { rewrite <- Ev2. symmetry. apply (map_agree (nvars m2)); auto. apply (below_weaken _ _ _ Bd). lia. }
  assert (Sh : pattern_shape (hidden N) pats).
  { eapply shape_of_consistent; [apply W| |exact (proj1 Sel)]. auto. }
  assert (Bxd : in_box lo up v) by exact (dx_valid h n eq_refl Wm axb Hax _ _ _ _ _ _ _ Ed El Eu Lx Mv).
  destruct (Kg (fun s' => map s' xd = v /\ map s' (ret_beta rr) = flat pats) pats v) as [[_ Pc] _]; auto.
  destruct (Pc s5 Y5 (conj Ev5 Eb5)) as (s6 & Y6 & Ag6 & Ez6).
  destruct (Z5 s6 (vmul (map bit sgs) v) Y6) as (s7 & Y7 & Ag7 & Et7).
  { assert (Ea' := Ea5). apply (f_equal (@length R)) in Ea'. rewrite !map_length in Ea'.
    unfold vmul. rewrite map2_length, map_length. unfold mat, vec in *. lia. }
  assert (Ag57 : agree m5 s5 s7) by (eapply agree_trans; [|exact Ag6|exact Ag7]; lia).
  assert (Ev7 : map s7 xd = v) by (rewrite <- Ev5; symmetry; apply (map_agree (nvars m5)); auto).
  assert (Ea7 : map s7 (concat al) = map bit sgs).
  { rewrite <- Ea5. symmetry. apply (map_agree (nvars m5)); auto. }
  assert (Eb7 : map s7 (ret_beta rr) = flat pats).
  { rewrite <- Eb5. symmetry. apply (map_agree (nvars m5)); auto. }
  assert (Ag27 : agree m2 s2 s7) by (eapply agree_trans; [|exact Ag5|exact Ag57]; lia).
  assert (Ex7 : map s7 xv = x) by (rewrite <- Ex2; symmetry; apply (map_agree (nvars m2)); auto).
  assert (Eg7 : map s7 gv = one_hot K k).
  { rewrite <- Eg2. symmetry. apply (map_agree (nvars m2)); auto. rewrite T2. apply below_seq. lia. }
  assert (Y9 : gfeas m9 s7).
  { apply (proj1 (feas_bin _ _)). apply O4. apply K8.
    - rewrite Ea7. apply bits_bins.
    - rewrite Ea7, Ev7. auto. }
  exists s7. split; auto. split; auto. split; auto. split; auto.
  destruct (Sound s7 Y9) as (_ & _ & k' & v' & pats' & sgs' & Mv' & Sel' & Eb' & Eg' & Ea' & Eo & _).
  rewrite Eo, Ex7.
  assert (pats' = pats) as ->.
  { apply (pattern_unique (hidden N)); auto; [|congruence].
    eapply shape_of_consistent; [apply W| |apply Sel']. rewrite map_length. auto. }
  assert (sgs' = sgs) as -> by (apply bits_inj; congruence).
  assert (k' = k) as ->.
  { destruct Mv' as (md' & Hk' & _). apply one_hot_inj; auto; [|congruence].
    apply nth_error_Some. rewrite Hk'. discriminate. }
  destruct Mv' as (md' & Hk' & _ & ->). rewrite Hk in Hk'. injection Hk' as <-.
  rewrite Ex7, <- Evd. reflexivity.
Qed.
End Core.
