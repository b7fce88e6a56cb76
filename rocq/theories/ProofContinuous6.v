(** What the optimum of the continuous-time program says. *)

Require Import Reals List Lia Lra Bool Arith.
Require Import Verif.Vec Verif.VecFacts Verif.ModelMip Verif.SpecMip Verif.SpecCore
  Verif.ModelUtils Verif.SpecUtils Verif.ModelNet Verif.SpecNet Verif.SpecStep
  Verif.ModelPattern Verif.SpecPattern
  Verif.ModelGrad Verif.ModelLyapunov Verif.SpecLyapunov Verif.ModelContinuous Verif.SpecContinuous
  Verif.ProofUtils Verif.ProofMip Verif.ProofSat Verif.ProofConcat Verif.ProofTorch
  Verif.ProofBounds Verif.ProofNet Verif.ProofNetBounds Verif.ProofNetTotal Verif.ProofWarm
  Verif.ProofStep Verif.ProofNetStep Verif.ProofPattern Verif.ProofMaxBox Verif.ProofGrad Verif.ProofGradVec Verif.ProofLyapunov
  Verif.ProofLyapCert Verif.ProofLyapMore Verif.ProofContinuous Verif.ProofContinuous2 Verif.ProofContinuous3
  Verif.ProofContinuous4 Verif.ProofContinuous5.
Import ListNotations.
Open Scope R_scope.

Lemma dl1_total : forall M lb ub ts als xd m, vle lb ub -> length lb = length M ->
  length ts = length M -> length als = length M ->
  exists m', dl1_loop M lb ub ts als xd m = Some m'.
Proof.
  induction M as [|r M IH]; intros lb ub ts als xd m V L1 L2 L3.
  - destruct lb; [|discriminate]. destruct ts; [|discriminate]. inversion V; subst. eexists. reflexivity.
  - destruct lb as [|l lb]; [discriminate|]. destruct ts as [|t ts]; [discriminate|].
    destruct als as [|al als]; [discriminate|]. destruct ub as [|u ub]; [inversion V|].
    apply vle_cons in V. destruct V as [V0 V]. cbn [dl1_loop].
    destruct (replace_binary_continuous_product l u) as [rw|] eqn:E.
    + apply IH; auto.
    + apply product_reject in E. lra.
Qed.

Lemma range_vle : forall n A b lb ub lo up, vle lb ub -> Forall (fun r => length r = n) A ->
  compute_range_by_IA n A b lb ub = Some (lo, up) -> vle lo up /\ length lo = length A.
Proof.
  intros n A b lb ub lo up V F E.
  assert (B : in_box lb ub lb).
  { split; auto. clear -lb. induction lb; [constructor|]. apply vle_cons. split; auto. lra. }
  assert (K := range_sound _ _ _ _ _ _ _ lb E F B). destruct K as [K1 K2].
  split.
  - clear -K1 K2. revert lo K1 up K2. generalize (vadd (mv A lb) b).
    intros w lo K1. induction K1; intros up K2; inversion K2; subst; constructor; [lra|]. apply IHK1; auto.
  - destruct (range_inv _ _ _ _ _ _ _ E) as (L & _ & _ & -> & _). rewrite map2_length. unfold mat, vec in *. lia.
Qed.

Section Verdict.
Variable solve : mip -> gresult.
Hypothesis Hsolve : solver_ok solve.
Variable meth : method.
Variable N : network.
Variable n : nat.
Variables x_lo x_up : vec.
Variable R0 : option mat.
Variable xeq : vec.
Hypothesis Args : lyap_args n N x_lo x_up R0 xeq.
Variables lam eps : R.
Variable st : bool.
Variable add_system : list nat -> list nat -> vtype -> mip -> option (mip * option (vec * vec)).
Variable T : vec -> vec -> Prop.
Hypothesis Hsys : flow_contract n st add_system x_lo x_up T.
Variable opt_bounds : mat -> option (wzb * (vec * vec)).
Let M := R_of n R0.
Hypothesis Hns : no_slope_one (hidden N).

(** The program is built as soon as the system and the bounds are there. *)
Lemma continuous_total_gen : forall lower upper,
  (forall m xv xn, history st m -> below (nvars m) xv -> below (nvars m) xn ->
     length xv = n -> length xn = n -> NoDup (xv ++ xn) ->
     exists m' ia B lb ub, add_system xv xn VBin m = Some (m', ia) /\
       product_bounds meth N n opt_bounds M ia = Some (B, (lb, ub)) /\
       bounds_shape N B /\ vle lb ub /\ length lb = length M) ->
  (exists c B out, output_constraint solve meth N x_lo x_up = Some (c, B, out)) ->
  exists d, continuous_milp solve meth N n x_lo x_up add_system opt_bounds xeq lam eps ExpLower R0
              lower upper = Some d.
Proof.
  intros lower upper Ht C.
  assert (W := la_net _ _ _ _ _ _ Args). assert (Ho := la_out _ _ _ _ _ _ Args).
  assert (L1 := la_lo _ _ _ _ _ _ Args). assert (L2 := la_up _ _ _ _ _ _ Args).
  assert (WR := la_R _ _ _ _ _ _ Args). assert (Hu := la_units _ _ _ _ _ _ Args).
  assert (Rr := la_rows _ _ _ _ _ _ Args). assert (Bq := la_eq _ _ _ _ _ _ Args).
  assert (Leq : length xeq = n) by (eapply in_box_length; eauto).
  unfold continuous_milp. rewrite get_R_ok by exact WR. fold M. fold M in WR, Rr.
  destruct (addVars (repeat (NInf, PInf) n) VCont init_mip) as [m0 xv] eqn:E0.
  destruct (addVars (repeat (NInf, PInf) n) VCont m0) as [m1 xd] eqn:E1.
  destruct (step_free VBin st n _ _ _ E0 (h_init st)) as (A1 & A2 & A3 & A4 & A5).
  destruct (step_free VBin st n _ _ _ E1 A3) as (B1 & B2 & B3 & B4 & B5).
  assert (Bv : below (nvars m1) xv) by (rewrite A1; apply below_seq; lia).
  assert (Bd : below (nvars m1) xd) by (rewrite B1; apply below_seq; lia).
  assert (Lv : length xv = n) by (rewrite A1; apply seq_length).
  assert (Ld : length xd = n) by (rewrite B1; apply seq_length).
  assert (Fd : fresh 0 (nvars m1) xd).
  { rewrite B1. eapply fresh_weaken; [apply (fresh_seq (nvars m0) n (nvars m1)); lia|lia|lia]. }
  assert (ND : NoDup (xv ++ xd)).
  { apply (fresh_disj 0 n n (n + n)); [| |left; lia].
    - rewrite A1. apply fresh_seq. simpl. lia.
    - rewrite B1, A2. apply fresh_seq. simpl. lia. }
  destruct (Ht m1 xv xd B3 Bv Bd Lv Ld ND) as (m2 & ia & B & lb & ub & E2 & EP & Bs & Vr & Lr). rewrite E2.
  assert (Hvt : VBin <> VCont) by discriminate.
  assert (S2 : step VBin st m1 m2 (fun sg => T (map sg xv) (map sg xd)) (fun sg => T (map sg xv) (map sg xd))).
  { apply (proj1 Hsys VBin m1 m2 xv xd Hvt B3 Bv Bd Lv Ld ND). rewrite E2. reflexivity. }
  destruct (relu_output_total solve Hsolve meth N n x_lo x_up W Ho L1 L2 xv VBin m2 Hu C) as (m3 & rr & E3).
  rewrite E3. rewrite (scalar_phi n) by auto.
  assert (V2 : (nvars m1 <= nvars m2)%nat) by apply S2.
  assert (H2 : history st m2) by apply S2.
  assert (Bv2 : below (nvars m2) xv) by (apply (below_weaken _ _ _ Bv); lia).
  destruct (relu_output_step solve Hsolve meth N n x_lo x_up W Ho L1 L2 st xv VBin m2 m3 rr
    H2 Bv2 Lv Hvt E3) as (P1 & P2 & P3 & P4 & P5 & S3).
  assert (V3 : (nvars m2 <= nvars m3)%nat) by apply S3.
  assert (H3 : history st m3) by apply S3.
  assert (Bv3 : below (nvars m3) xv) by (apply (below_weaken _ _ _ Bv); lia).
  destruct (state_error_total n x_lo x_up L1 L2 (Some M) xeq WR st false xv VBin m3 Bq Rr
    H3 Bv3 Lv Hvt) as (m4 & s & al & E4). rewrite E4.
  destruct (state_error_step n x_lo x_up L1 L2 (Some M) xeq WR st _ _ _ _ _ _ _ E4
    H3 Bv3 Lv Hvt) as (K1 & K2 & _ & _ & S4).
  destruct (state_error_flags n st x_lo x_up xeq M xv m3 m4 s al E4 WR L1 L2 H3 Bv3 Lv)
    as (F1 & F2 & ls & us & _ & F3 & F4 & F5 & F6 & F7).
  cbn [R_of] in *.
  assert (V4 : (nvars m3 <= nvars m4)%nat) by apply S4.
  assert (H4 : history st m4) by apply S4.
  destruct (value_bounds_step lam VBin st lower upper (ret_a rr) (ret_b rr) (ret_z rr) (phi N xeq) s m4
    H4 P3) as (m5 & E5 & V5 & H5 & I5).
  { apply Forall_app. split.
    - apply fresh_below in P1. apply (below_weaken _ _ _ P1). lia.
    - apply fresh_below in K1. exact K1. }
  { eapply fresh_disj; eauto. }
  rewrite E5.
  destruct W as [Hne [Wh Wl]].
  rewrite EP.
  destruct (grad_mic n N B (conj Hne (conj Wh Wl)) Ho Bs) as (c & row & Ec & _ & _ & _ & _ & _ & Ea & Lrow & Kg).
  rewrite Ec.
  destruct (add_mic c xd None (GivenBinary (ret_beta rr)) VBin m5) as [[m6 gs] bi] eqn:Em6.
  assert (Bd5 : below (nvars m5) xd) by (apply (below_weaken _ _ _ Bd); lia).
  assert (Bb3 : below (nvars m3) (ret_beta rr)) by (apply fresh_below in P2; exact P2).
  assert (Bb5 : below (nvars m5) (ret_beta rr)) by (apply (below_weaken _ _ _ Bb3); lia).
  destruct (grad_program st n N B c xd (ret_beta rr) m5 m6 gs bi (conj Hne (conj Wh Wl)) Ho Bs Ec Em6 H5 Bd5 Ld Bb5)
    as (J1 & J2 & H6 & J4 & J5).
  { apply (relu_flags solve Hsolve meth N n x_lo x_up (conj Hne (conj Wh Wl)) Ho L1 L2 Hns st xv m2 m3 rr H2 Bv2 Lv E3). }
  destruct (addVars (repeat (NInf, PInf) (length M)) VCont m6) as [m7 ts] eqn:E7.
  destruct (step_free VBin st (length M) _ _ _ E7 H6) as (C1 & C2 & H7 & C4 & C5).
  destruct (dl1_total M lb ub ts (concat al) xd m7) as (m8 & E8); auto.
  { rewrite C1. apply seq_length. }
  rewrite E8, Ea.
  assert (Ba4 : below (nvars m4) (concat al)) by (apply fresh_below in F2; exact F2).
  destruct (dl1_spec st n xd Ld M lb ub ts (concat al) m7 m8 E8 H7) as (D1 & H8 & _); auto.
  { apply (below_weaken _ _ _ Bd); lia. }
  { rewrite C1. apply below_seq. lia. }
  { apply (below_weaken _ _ _ Ba4). lia. }
  { apply WR. }
  assert (Lc : length (colsum n M) = n) by (apply colsum_length, WR).
  cbn [concat]. rewrite app_nil_r.
  assert (Fg : fresh (nvars m5) (nvars m6) gs) by (rewrite J1; apply fresh_seq; lia).
  assert (Ft : fresh (nvars m6) (nvars m7) ts) by (rewrite C1; apply fresh_seq; lia).
  destruct (setObjective_step VBin st
     [vscale eps (ret_a rr); repeat (eps * lam) (length M); row;
      repeat (2 * lam) (length M) ++ vscale (- lam) (colsum n M)]
     [ret_z rr; s; gs; ts ++ xd] (eps * (ret_b rr - phi N xeq)) true m8 H8)
    as (m9 & E9 & _).
  { constructor; [unfold vscale; rewrite map_length; exact P3|].
    constructor; [rewrite repeat_length; auto|].
    constructor; [rewrite J1, seq_length; auto|].
    constructor; [|constructor]. rewrite !app_length, repeat_length. unfold vscale.
    rewrite map_length, C1, seq_length. unfold vec in *. lia. }
  { cbn [concat]. rewrite app_nil_r. apply fresh_below in P1, K1, Fg, Ft.
    repeat (apply Forall_app; split); (eapply below_weaken; [eassumption|lia]). }
  { cbn [concat]. rewrite app_nil_r.
    rewrite !app_assoc.
    eapply fresh_disj; [|exact Fd|right; exact V2].
    eapply fresh_app; [eapply fresh_app; [eapply fresh_app; [exact P1|exact K1|lia|lia|lia]
      |exact Fg|lia|lia|lia]|exact Ft|lia|lia|lia]. }
  rewrite E9. eexists. reflexivity.
Qed.

(** By interval arithmetic. *)
Lemma continuous_total : forall lower upper, meth = IA -> slopes_nonneg (hidden N) ->
  (forall m xv xn, history st m -> below (nvars m) xv -> below (nvars m) xn ->
     length xv = n -> length xn = n -> NoDup (xv ++ xn) ->
     exists m' a b, add_system xv xn VBin m = Some (m', Some (a, b))) ->
  (exists c B out, output_constraint solve meth N x_lo x_up = Some (c, B, out)) ->
  exists d, continuous_milp solve meth N n x_lo x_up add_system opt_bounds xeq lam eps ExpLower R0
              lower upper = Some d.
Proof.
  intros lower upper Hm Hsl Ht C. apply continuous_total_gen; auto.
  intros m xv xn H Bv Bn Lv Ln ND. destruct (Ht m xv xn H Bv Bn Lv Ln ND) as (m2 & a & b & E2).
  destruct (proj2 Hsys _ _ _ _ _ _ _ E2) as (Q1 & Q2 & Q3).
  assert (W := la_net _ _ _ _ _ _ Args). assert (WR := la_R _ _ _ _ _ _ Args). fold M in WR.
  destruct W as [Hne [Wh Wl]].
  destruct (wz_loop_spec (hidden N) n _ (last_layer N) a b Wh Wl Hsl Q1 Q2)
    as (B & EB & Y1 & Y2 & Y3 & Y4 & Y5).
  assert (Lb : length b = n) by (rewrite <- Q2; symmetry; eapply vle_length; eauto).
  destruct (compute_range_by_IA n M (zeros (length M)) a b) as [[lb ub]|] eqn:Er.
  2:{ exfalso. revert Er. apply range_total; auto. unfold zeros. apply repeat_length. }
  destruct (range_vle _ _ _ _ _ _ _ Q1 (proj2 WR) Er) as [Vr Lr].
  exists m2, (Some (a, b)), B, lb, ub. split; auto. split.
  { unfold product_bounds. rewrite Hm, Er. unfold compute_Wz_bounds_IA. rewrite EB. auto. }
  split; [split; [lia|split; auto]|auto].
Qed.

(** By optimisation. *)
Lemma continuous_total_opt : forall lower upper B r, meth = LP \/ meth = MIP ->
  system_total n st (fun xv xn vt m => option_map fst (add_system xv xn vt m)) ->
  opt_bounds M = Some (B, r) -> (exists A, product_bounds_ok x_lo x_up N M T A B r) ->
  (exists x d, in_box x_lo x_up x /\ T x d) ->
  (exists c B out, output_constraint solve meth N x_lo x_up = Some (c, B, out)) ->
  exists d, continuous_milp solve meth N n x_lo x_up add_system opt_bounds xeq lam eps ExpLower R0
              lower upper = Some d.
Proof.
  intros lower upper B [lb ub] Hm Ht Eo [A (P1 & P2 & P3 & P4)] (x & d & Bx & Td) C.
  apply continuous_total_gen; auto.
  intros m xv xn H Bv Bn Lv Ln ND.
  assert (Hvt : VBin <> VCont) by discriminate.
  specialize (Ht VBin m xv xn Hvt H Bv Bn Lv Ln ND). cbn beta in Ht.
  destruct (add_system xv xn VBin m) as [[m' ia]|]; [|exfalso; apply Ht; reflexivity].
  destruct (P4 x d Bx Td) as [[V1 V2] _]. cbn [fst snd] in V1, V2.
  exists m', ia, B, lb, ub. split; auto. split.
  { unfold product_bounds. destruct Hm as [-> | ->]; auto. }
  split; [split; [auto|split; auto]|]. split.
  - eapply vle_trans; eauto.
  - apply Forall2_len in V1. rewrite mv_length in V1. auto.
Qed.

Hypothesis Hopt : meth = LP \/ meth = MIP -> forall B r, opt_bounds M = Some (B, r) ->
  product_bounds_ok x_lo x_up N M T (encodable solve meth N x_lo x_up) B r.

Let W := la_net _ _ _ _ _ _ Args.
Let L1 := la_lo _ _ _ _ _ _ Args.
Let Leq : length xeq = n := in_box_length _ _ _ _ (la_eq _ _ _ _ _ _ Args) L1.

Lemma continuous_verdict : forall et lower upper d,
  continuous_milp solve meth N n x_lo x_up add_system opt_bounds xeq lam eps et R0 lower upper = Some d ->
  (forall v, solve (cd_mip d) = GOptimal v -> v <= 0 ->
     forall x w pats sgs, in_box x_lo x_up x -> T x w -> length w = n ->
       within lower upper (V N M lam xeq x) -> selects N M xeq x pats sgs ->
       selection_attained x_lo x_up N M xeq pats sgs ->
       Vdot N M lam pats sgs w + eps * V N M lam xeq x <= 0) /\
  (forall v, solve (cd_mip d) = GOptimal v ->
     exists x w pats sgs, in_box x_lo x_up x /\ T x w /\ within lower upper (V N M lam xeq x) /\
       selects N M xeq x pats sgs /\ v = Vdot N M lam pats sgs w + eps * V N M lam xeq x) /\
  (solve (cd_mip d) = GInfeasible ->
     forall x w, in_box x_lo x_up x -> T x w -> length w = n -> ~ within lower upper (V N M lam xeq x)).
Proof.
  intros et lower upper d E.
  destruct (continuous_program solve Hsolve meth N n x_lo x_up R0 xeq Args lam eps st add_system T
    Hsys opt_bounds Hopt lower upper Hns et d E) as (_ & Q2 & _ & _ & Q5 & Q6).
  destruct (continuous_program_forced solve Hsolve meth N n x_lo x_up R0 xeq Args lam eps st add_system T
    Hsys opt_bounds Hopt lower upper Hns et d E)
    as (_ & _ & _ & _ & _ & blo & bup & ls & us & _ & _ & K1 & K2 & K3 & K4 & K5 & K6 & K7).
  assert (Hs := Hsolve (cd_mip d)). split; [|split].
  - intros v S Hv x w pats sgs Bx Tx Lw Wi Sel At. rewrite S, Q2 in Hs. destruct Hs as [_ Mx].
    destruct (Q6 x w pats sgs Bx Tx Lw Wi Sel At) as (sg & G & _ & _ & _ & _ & Eo).
    specialize (Mx sg G). rewrite Eo in Mx. unfold M in *. lra.
  - intros v S. rewrite S, Q2 in Hs. destruct Hs as [(sg & G & Ev) _].
    destruct (Q5 sg G) as (Bx & Tx & Wi & pats & sgs & Sel & _ & _ & Eo).
    exists (map sg (cd_x d)), (map sg (cd_xdot d)), pats, sgs.
    split; auto. split; auto. split; auto. split; auto. rewrite <- Ev. exact Eo.
  - intros S x w Bx Tx Lw Wi. rewrite S in Hs.
    assert (Lx : length x = n) by (eapply in_box_length; eauto).
    destruct (V_rderiv N n M lam xeq W Leq (fun _ => x) 0 (zeros n) blo bup ls us) as (pats & sgs & U1 & U2 & U3 & _);
      auto.
    + intros i. unfold zeros. assert (Z : nth i (repeat 0 n) 0 = 0).
      { destruct (Nat.lt_ge_cases i n); [apply nth_repeat|apply nth_overflow; rewrite repeat_length; auto]. }
      rewrite Z. apply rderiv_const.
    + exists 1. split; [lra|]. auto.
    + destruct (K7 x w pats sgs Bx Tx Lw Wi U1 U2 U3) as (sg & G & _). exact (Hs sg G).
Qed.

Lemma continuous_decay : forall et lower upper d v,
  continuous_milp solve meth N n x_lo x_up add_system opt_bounds xeq lam eps et R0 lower upper = Some d ->
  solve (cd_mip d) = GOptimal v -> v <= 0 ->
  forall b x, flow x_lo x_up T b x ->
    (forall t, 0 <= t < b -> within lower upper (V N M lam xeq (x t))) ->
    forall t, 0 <= t <= b -> V N M lam xeq (x t) <= exp (- eps * t) * V N M lam xeq (x 0).
Proof.
  intros et lower upper d v E S Hv.
  destruct (continuous_program_forced solve Hsolve meth N n x_lo x_up R0 xeq Args lam eps st add_system T
    Hsys opt_bounds Hopt lower upper Hns et d E)
    as (_ & Q2 & _ & _ & _ & blo & bup & ls & us & _ & _ & K1 & K2 & K3 & K4 & K5 & K6 & K7).
  assert (Hs := Hsolve (cd_mip d)). rewrite S, Q2 in Hs. destruct Hs as [_ Mx].
  apply (flow_decay N n M lam eps xeq W Leq x_lo x_up L1 T blo bup ls us K1 K2 K5 K6
    (fun y => within lower upper (V N M lam xeq y))).
  intros x w pats sgs Bx Tx Lw Wi Sel F1 F2.
  destruct (K7 x w pats sgs Bx Tx Lw Wi Sel F1 F2) as (sg & G & _ & _ & _ & _ & Eo).
  specialize (Mx sg G). rewrite Eo in Mx. unfold M in *. lra.
Qed.

Lemma continuous_certified : forall et d v eps1 mp xp vp,
  positivity_milp solve meth N n x_lo x_up xeq lam eps1 R0 = Some (mp, xp) ->
  solve mp = GOptimal vp -> vp <= 0 ->
  continuous_milp solve meth N n x_lo x_up add_system opt_bounds xeq lam eps et R0 None None = Some d ->
  solve (cd_mip d) = GOptimal v -> v <= 0 ->
  forall b x, flow x_lo x_up T b x ->
    forall t, 0 <= t <= b ->
      eps1 * error1 M xeq (x t) <= V N M lam xeq (x t) <= exp (- eps * t) * V N M lam xeq (x 0).
Proof.
  intros et d v eps1 mp xp vp Ep Sp Hp E S Hv b x F t Ht. split.
  - apply (positivity_verdict solve Hsolve meth N n x_lo x_up R0 xeq Args lam eps1 mp xp vp Ep Sp); auto.
    apply F. auto.
  - eapply continuous_decay; eauto. intros s Hs. split; intros ? X; discriminate X.
Qed.
End Verdict.
