(** The continuous-time program as a whole. *)

Require Import Reals List Lia Lra Bool Arith.
Require Import Verif.Vec Verif.VecFacts Verif.ModelMip Verif.SpecMip Verif.SpecCore
  Verif.ModelUtils Verif.SpecUtils Verif.ModelNet Verif.SpecNet Verif.SpecStep
  Verif.ModelPattern Verif.SpecPattern
  Verif.ModelGrad Verif.ModelLyapunov Verif.SpecLyapunov Verif.ModelContinuous Verif.SpecContinuous
  Verif.ProofUtils Verif.ProofMip Verif.ProofSat Verif.ProofConcat Verif.ProofTorch
  Verif.ProofBounds Verif.ProofNet Verif.ProofNetBounds Verif.ProofNetTotal Verif.ProofWarm
  Verif.ProofStep Verif.ProofNetStep Verif.ProofPattern Verif.ProofMaxBox Verif.ProofGrad Verif.ProofGradVec Verif.ProofLyapunov
  Verif.ProofLyapCert Verif.ProofContinuous Verif.ProofContinuous2 Verif.ProofContinuous3.
Import ListNotations.
Open Scope R_scope.

Lemma wz_slopes : forall hs last lo up B, wz_loop hs last lo up = Some B -> slopes_nonneg hs.
Proof.
  induction hs as [|[l a] hs IH]; intros last lo up B E.
  - constructor.
  - cbn [wz_loop] in E. destruct (wz_bounds l lo up) as [p q].
    destruct (z_bounds a p q) as [[lo' up']|] eqn:Ez; [|discriminate].
    destruct (wz_loop hs last lo' up') as [B'|] eqn:Ew; [|discriminate].
    constructor; [|eapply IH; eauto]. cbn [snd]. destruct a as [|c]; cbn; [lra|].
    cbn [z_bounds] in Ez. destruct (Rleb 0 c) eqn:El; [|discriminate]. apply Rleb_true in El. auto.
Qed.

Lemma ia_product_bounds : forall n N M (T : vec -> vec -> Prop) lo up A a b B r, net_wf n N ->
  Forall (fun r => length r = n) M -> length lo = n -> vle a b -> length a = n ->
  (forall x d, in_box lo up x -> T x d -> in_box a b d) ->
  compute_Wz_bounds_IA N a b = Some B ->
  compute_range_by_IA n M (zeros (length M)) a b = Some r ->
  product_bounds_ok lo up N M T A B r.
Proof.
  intros n N M T lo up A a b B [rl ru] [Hne [W Wl]] F Ll Vab La Hd Ew Er.
  unfold compute_Wz_bounds_IA in Ew.
  destruct (wz_loop_spec (hidden N) n _ (last_layer N) a b W Wl (wz_slopes _ _ _ _ _ Ew) Vab La)
    as (B' & EB & B1 & B2 & B3 & B4 & B5).
  rewrite Ew in EB. apply Some_inj in EB. subst B'.
  split; [lia|]. split; [exact B3|]. split; [exact B4|].
  intros x d Bx Td. assert (Bd := Hd x d Bx Td).
  assert (Ld : length d = n) by (eapply in_box_length; eauto).
  split.
  - assert (K := range_sound _ _ _ _ _ _ _ d Er F Bd).
    rewrite vadd_zeros_r in K by apply mv_length. exact K.
  - intros pats C _ i Hi.
    assert (S : pattern_shape (hidden N) pats).
    { apply (shape_of_consistent (hidden N) n _ x pats W); auto. exact (in_box_length _ _ _ _ Bx Ll). }
    destruct (B5 d pats Bd S) as [_ (_ & _ & X2)].
    rewrite app_length, pre_tangents_length in X2 by auto.
    specialize (X2 i ltac:(simpl; lia)). rewrite app_nth1 in X2; auto.
    rewrite pre_tangents_length; auto.
Qed.

Lemma app_split : forall {A} (a c b d : list A), length a = length c -> a ++ b = c ++ d ->
  a = c /\ b = d.
Proof.
  induction a as [|x a IH]; intros [|y c] b d L E; try discriminate; auto.
  injection E as -> E. destruct (IH c b d) as [-> ->]; auto.
Qed.
Lemma pattern_unique : forall hs p q, pattern_shape hs p -> pattern_shape hs q ->
  flat p = flat q -> p = q.
Proof.
  intros hs p q Sp Sq E. rewrite !flat_bits in E. apply bits_inj in E. revert q Sq E.
  induction Sp as [|h pat hs p Hp Sp IH]; intros q Sq E; inversion Sq as [|? pat' ? q' Hq Sq']; subst; auto.
  cbn [concat] in E. apply app_split in E; [|congruence]. destruct E as [-> E]. f_equal. auto.
Qed.

Section Program.
Variable solve : mip -> gresult.
Hypothesis Hsolve : solver_ok solve.
Variable meth : method.
Variable N : network.
Variable n : nat.
Variables x_lo x_up : vec.
Variable R0 : option mat.
Variable xeq : vec.
Hypothesis Args : lyap_args n N x_lo x_up R0 xeq.
Variables lam eps : R.
Variable st : bool.
Variable add_system : list nat -> list nat -> vtype -> mip -> option (mip * option (vec * vec)).
Variable T : vec -> vec -> Prop.
Hypothesis Hsys : flow_contract n st add_system x_lo x_up T.
Variable opt_bounds : mat -> option (wzb * (vec * vec)).
Let M := R_of n R0.
Hypothesis Hopt : meth = LP \/ meth = MIP -> forall B r, opt_bounds M = Some (B, r) ->
  product_bounds_ok x_lo x_up N M T (encodable solve meth N x_lo x_up) B r.
Variables lower upper : option R.
Hypothesis Hns : no_slope_one (hidden N).

Let W := la_net _ _ _ _ _ _ Args.
Let Ho := la_out _ _ _ _ _ _ Args.
Let L1 := la_lo _ _ _ _ _ _ Args.
Let L2 := la_up _ _ _ _ _ _ Args.
Let WR : wfm (length M) n M := la_R _ _ _ _ _ _ Args.
Let Leq : length xeq = n := in_box_length _ _ _ _ (la_eq _ _ _ _ _ _ Args) L1.

Lemma continuous_program_forced : forall et d,
  continuous_milp solve meth N n x_lo x_up add_system opt_bounds xeq lam eps et R0 lower upper = Some d ->
  et = ExpLower /\ obj_max (cd_mip d) = true /\ length (cd_x d) = n /\ length (cd_xdot d) = n /\
  history st (cd_mip d) /\
  exists blo bup ls us, compute_range_by_IA n M (vneg (mv M xeq)) x_lo x_up = Some (ls, us) /\
  (forall sg, gfeas (cd_mip d) sg ->
     in_box x_lo x_up (map sg (cd_x d)) /\ T (map sg (cd_x d)) (map sg (cd_xdot d)) /\
     within lower upper (V N M lam xeq (map sg (cd_x d))) /\
     exists pats sgs, selects N M xeq (map sg (cd_x d)) pats sgs /\
       map sg (ret_beta (cd_relu d)) = flat pats /\ map sg (cd_l1 d) = map bit sgs /\
       objective (cd_mip d) sg
       = Vdot N M lam pats sgs (map sg (cd_xdot d)) + eps * V N M lam xeq (map sg (cd_x d)) /\
       forced_all blo bup (concat pats) /\ forced_all ls us sgs) /\
  length blo = num_units (hidden N) /\ length bup = num_units (hidden N) /\
  length ls = length M /\ length us = length M /\
  (forall y, in_box x_lo x_up y -> in_box blo bup (concat (pre_acts (hidden N) y))) /\
  (forall y, in_box x_lo x_up y -> in_box ls us (mv M (vsub y xeq))) /\
  (forall x v pats sgs, in_box x_lo x_up x -> T x v -> length v = n ->
     within lower upper (V N M lam xeq x) ->
     selects N M xeq x pats sgs -> forced_all blo bup (concat pats) -> forced_all ls us sgs ->
     exists sg, gfeas (cd_mip d) sg /\ map sg (cd_x d) = x /\ map sg (cd_xdot d) = v /\
       map sg (ret_beta (cd_relu d)) = flat pats /\ map sg (cd_l1 d) = map bit sgs /\
       objective (cd_mip d) sg = Vdot N M lam pats sgs v + eps * V N M lam xeq x).
Proof.
  intros et d E. unfold continuous_milp in E. destruct et; try discriminate.
  rewrite get_R_ok in E by exact WR. fold M in E.
  destruct (addVars (repeat (NInf, PInf) n) VCont init_mip) as [m0 xv] eqn:E0.
  destruct (addVars (repeat (NInf, PInf) n) VCont m0) as [m1 xd] eqn:E1.
  destruct (step_free VBin st n _ _ _ E0 (h_init st)) as (A1 & A2 & A3 & A4 & A5).
  destruct (step_free VBin st n _ _ _ E1 A3) as (B1 & B2 & B3 & B4 & B5).
  assert (Bv : below (nvars m1) xv) by (rewrite A1; apply below_seq; lia).
  assert (Bd : below (nvars m1) xd) by (rewrite B1; apply below_seq; lia).
  assert (Lv : length xv = n) by (rewrite A1; apply seq_length).
  assert (Ld : length xd = n) by (rewrite B1; apply seq_length).
  assert (Fd : fresh 0 (nvars m1) xd).
  { rewrite B1. eapply fresh_weaken; [apply (fresh_seq (nvars m0) n (nvars m1)); lia|lia|lia]. }
  assert (ND : NoDup (xv ++ xd)).
  { apply (fresh_disj 0 n n (n + n)); [| |left; lia].
    - rewrite A1. apply fresh_seq. simpl. lia.
    - rewrite B1, A2. apply fresh_seq. simpl. lia. }
  destruct (add_system xv xd VBin m1) as [[m2 ia]|] eqn:E2; [|discriminate].
  assert (Hvt : VBin <> VCont) by discriminate.
  assert (S2 : step VBin st m1 m2 (fun sg => T (map sg xv) (map sg xd)) (fun sg => T (map sg xv) (map sg xd))).
  { apply (proj1 Hsys VBin m1 m2 xv xd Hvt B3 Bv Bd Lv Ld ND). rewrite E2. reflexivity. }
  destruct (add_relu_output solve meth N x_lo x_up xv VBin m2) as [[m3 rr]|] eqn:E3; [|discriminate].
  assert (V2 : (nvars m1 <= nvars m2)%nat) by apply S2.
  assert (H2 : history st m2) by apply S2.
  assert (Bv2 : below (nvars m2) xv) by (apply (below_weaken _ _ _ Bv); lia).
  destruct (relu_output_step solve Hsolve meth N n x_lo x_up W Ho L1 L2 st xv VBin m2 m3 rr
    H2 Bv2 Lv Hvt E3) as (P1 & P2 & P3 & P4 & P5 & S3).
  destruct (relu_flags solve Hsolve meth N n x_lo x_up W Ho L1 L2 Hns st xv m2 m3 rr H2 Bv2 Lv E3)
    as (G1 & G2 & G3 & G4 & G5 & G6).
  assert (V3 : (nvars m2 <= nvars m3)%nat) by apply S3.
  assert (H3 : history st m3) by apply S3.
  assert (Bv3 : below (nvars m3) xv) by (apply (below_weaken _ _ _ Bv); lia).
  destruct (add_state_error n x_lo x_up false xeq (Some M) xv VBin m3) as [[[m4 s] al]|] eqn:E4; [|discriminate].
  destruct (state_error_step n x_lo x_up L1 L2 (Some M) xeq WR st _ _ _ _ _ _ _ E4
    H3 Bv3 Lv Hvt) as (K1 & K2 & _ & _ & S4).
  destruct (state_error_flags n st x_lo x_up xeq M xv m3 m4 s al E4 WR L1 L2 H3 Bv3 Lv)
    as (F1 & F2 & ls & us & F0 & F3 & F4 & F5 & F6 & F7).
  cbn [R_of] in *.
  assert (V4 : (nvars m3 <= nvars m4)%nat) by apply S4.
  assert (H4 : history st m4) by apply S4.
  rewrite (scalar_phi n) in E by auto.
  destruct (value_bounds_step lam VBin st lower upper (ret_a rr) (ret_b rr) (ret_z rr) (phi N xeq) s m4
    H4 P3) as (m5 & E5 & V5 & H5 & I5).
  { apply Forall_app. split.
    - apply fresh_below in P1. apply (below_weaken _ _ _ P1). lia.
    - apply fresh_below in K1. exact K1. }
  { eapply fresh_disj; eauto. }
  rewrite E5 in E.
  destruct (product_bounds meth N n opt_bounds M ia) as [[B [lb ub]]|] eqn:E6; [|discriminate].
  assert (PB : product_bounds_ok x_lo x_up N M T (encodable solve meth N x_lo x_up) B (lb, ub)).
  { unfold product_bounds in E6. destruct meth; try discriminate.
    - destruct ia as [[a b]|]; [|discriminate].
      destruct (compute_Wz_bounds_IA N a b) as [B'|] eqn:Ew; [|discriminate].
      destruct (compute_range_by_IA n M (zeros (length M)) a b) as [r'|] eqn:Er; [|discriminate].
      apply Some_inj in E6. apply pair_equal_spec in E6. destruct E6 as [-> ->].
      destruct (proj2 Hsys _ _ _ _ _ _ _ E2) as (Q1 & Q2 & Q3).
      eapply ia_product_bounds; eauto. apply WR.
    - apply Hopt; auto.
    - apply Hopt; auto. }
  assert (Enc : forall pats, forced_all (b_pre_lo (ret_bounds rr)) (b_pre_up (ret_bounds rr)) (concat pats) ->
    encodable solve meth N x_lo x_up pats).
  { intros pats F. destruct P5 as (c & B0 & out & Eo & _ & Eb). intros c' B' out' Eo'.
    rewrite Eo in Eo'. apply Some_inj in Eo'.
    apply pair_equal_spec in Eo'. destruct Eo' as [Eo' _].
    apply pair_equal_spec in Eo'. destruct Eo' as [_ <-]. rewrite <- Eb. apply forced_possible, F. }
  destruct PB as (PB1 & PB2 & PB3 & PB4). cbn [fst snd] in PB4.
  assert (Bs : bounds_shape N B) by (split; [exact PB1|split; [exact PB2|exact PB3]]).
  destruct (grad_mic n N B W Ho Bs) as (c & row & Ec & _ & _ & _ & _ & _ & Ea & Lrow & Kg).
  rewrite Ec in E.
  destruct (add_mic c xd None (GivenBinary (ret_beta rr)) VBin m5) as [[m6 gs] bi] eqn:Em6.
  assert (Bd5 : below (nvars m5) xd) by (apply (below_weaken _ _ _ Bd); lia).
  assert (Bb3 : below (nvars m3) (ret_beta rr)) by (apply fresh_below in P2; exact P2).
  assert (Bb5 : below (nvars m5) (ret_beta rr)) by (apply (below_weaken _ _ _ Bb3); lia).
  destruct (grad_program st n N B c xd (ret_beta rr) m5 m6 gs bi W Ho Bs Ec Em6 H5 Bd5 Ld Bb5 G1)
    as (J1 & J2 & H6 & J4 & J5).
  destruct (addVars (repeat (NInf, PInf) (length M)) VCont m6) as [m7 ts] eqn:E7.
  destruct (step_free VBin st (length M) _ _ _ E7 H6) as (C1 & C2 & H7 & C4 & C5).
  destruct (dl1_loop M lb ub ts (concat al) xd m7) as [m8|] eqn:E8; [|discriminate].
  rewrite Ea in E.
  assert (Ba4 : below (nvars m4) (concat al)) by (apply fresh_below in F2; exact F2).
  destruct (dl1_spec st n xd Ld M lb ub ts (concat al) m7 m8 E8 H7) as (D1 & H8 & D3 & D4 & D5 & D0 & D6); auto.
  { apply (below_weaken _ _ _ Bd); lia. }
  { rewrite C1. apply below_seq. lia. }
  { apply (below_weaken _ _ _ Ba4). lia. }
  { apply WR. }
  assert (Lc : length (colsum n M) = n) by (apply colsum_length, WR).
  cbn [concat] in E. rewrite app_nil_r in E.
  assert (Fg : fresh (nvars m5) (nvars m6) gs) by (rewrite J1; apply fresh_seq; lia).
  assert (Ft : fresh (nvars m6) (nvars m7) ts) by (rewrite C1; apply fresh_seq; lia).
  destruct (setObjective_step VBin st
     [vscale eps (ret_a rr); repeat (eps * lam) (length M); row;
      repeat (2 * lam) (length M) ++ vscale (- lam) (colsum n M)]
     [ret_z rr; s; gs; ts ++ xd] (eps * (ret_b rr - phi N xeq)) true m8 H8)
    as (m9 & E9 & O1 & O2 & O3 & O4 & O5).
  { constructor; [unfold vscale; rewrite map_length; exact P3|].
    constructor; [rewrite repeat_length; auto|].
    constructor; [rewrite J1, seq_length; auto|].
    constructor; [|constructor]. rewrite !app_length, repeat_length. unfold vscale.
    rewrite map_length. unfold vec in *. lia. }
  { cbn [concat]. rewrite app_nil_r. apply fresh_below in P1, K1, Fg, Ft.
    repeat (apply Forall_app; split); (eapply below_weaken; [eassumption|lia]). }
  { cbn [concat]. rewrite app_nil_r.
    rewrite !app_assoc.
    eapply fresh_disj; [|exact Fd|right; exact V2].
    eapply fresh_app; [eapply fresh_app; [eapply fresh_app; [exact P1|exact K1|lia|lia|lia]
      |exact Fg|lia|lia|lia]|exact Ft|lia|lia|lia]. }
  rewrite E9 in E. apply Some_inj in E. subst d. cbn [cd_mip cd_x cd_xdot cd_relu cd_l1].
  assert (EV : forall sg : assignment,
     dot (ret_a rr) (map sg (ret_z rr)) + ret_b rr = phi N (map sg xv) ->
     map sg s = map Rabs (mv M (vsub (map sg xv) xeq)) ->
     dot (ret_a rr) (map sg (ret_z rr)) + ret_b rr - phi N xeq + lam * vsum (map sg s)
     = V N M lam xeq (map sg xv)).
  { intros sg X Y. rewrite X, Y. reflexivity. }
  assert (Down : forall sg, gfeas m9 sg ->
     feas VBin m8 sg /\ feas VBin m7 sg /\ feas VBin m6 sg /\ feas VBin m5 sg /\ feas VBin m4 sg /\ feas VBin m3 sg /\
     feas VBin m2 sg).
  { intros sg G. apply feas_bin in G. apply O4 in G.
    assert (X7 := D0 _ G).
    assert (X6 := C4 _ X7). assert (X5 := proj1 (J4 _ X6)). assert (X4 := proj1 (proj1 (I5 _) X5)).
    assert (X3 : feas VBin m3 sg) by (apply S4; auto). assert (X2 : feas VBin m2 sg) by (apply S3; auto).
    auto 10. }
  assert (Sound : forall sg, gfeas m9 sg ->
     in_box x_lo x_up (map sg xv) /\ T (map sg xv) (map sg xd) /\
     within lower upper (V N M lam xeq (map sg xv)) /\
     exists pats sgs, selects N M xeq (map sg xv) pats sgs /\
       map sg (ret_beta rr) = flat pats /\ map sg (concat al) = map bit sgs /\
       objective m9 sg
       = Vdot N M lam pats sgs (map sg xd) + eps * V N M lam xeq (map sg xv) /\
       forced_all (b_pre_lo (ret_bounds rr)) (b_pre_up (ret_bounds rr)) (concat pats) /\ forced_all ls us sgs).
  { intros sg G. destruct (Down sg G) as (X8 & X7 & X6 & X5 & X4 & X3 & X2).
    destruct S3 as (_ & _ & S3 & _). destruct (S3 sg X3) as (_ & Bx & Ep).
    destruct S4 as (_ & _ & S4 & _). destruct (S4 sg X4) as (_ & Es).
    destruct S2 as (_ & _ & S2 & _). destruct (S2 sg X2) as (_ & HT).
    destruct (proj1 (I5 sg) X5) as (_ & Hw). rewrite (EV sg Ep Es) in Hw.
    split; [exact Bx|]. split; [exact HT|]. split; [exact Hw|].
    destruct (G5 sg X3) as (pats & U1 & U2 & U5).
    destruct (F6 sg X4) as (sgs & U3 & U4 & U6).
    exists pats, sgs. split; [split; auto|]. split; auto. split; auto. split; [|split; auto].
    assert (Lvx : length (map sg xv) = n) by (rewrite map_length; auto).
    assert (Ldx : length (map sg xd) = n) by (rewrite map_length; auto).
    assert (Sh : pattern_shape (hidden N) pats).
    { eapply shape_of_consistent; [apply W| |exact U2]. auto. }
    destruct (PB4 _ _ Bx HT) as [PB5 PB6].
    assert (TB : tangent_boxes N B pats (map sg xd)) by (intros i Hi; apply PB6; auto).
    assert (Eg := proj2 (J4 sg X6) pats U1 Sh TB).
    destruct (Kg _ _ Ldx Sh TB) as (_ & _ & Kd).
    assert (Bb : bins (map sg (concat al))) by (rewrite U3; apply bits_bins).
    destruct (proj1 (D6 sg Bb) X8) as (_ & _ & Et).
    assert (Lsg : length sgs = length M).
    { apply (f_equal (@length R)) in U3. rewrite !map_length in U3. unfold mat, vec in *. congruence. }
    rewrite O5. cbn [map2 vsum]. rewrite map_app, dot_app by (rewrite repeat_length, map_length; auto).
    rewrite dot_repeat_l by (rewrite map_length; auto).
    rewrite dot_repeat_l by (rewrite map_length; auto).
    rewrite !dot_vscale_l, Et, U3, Eg, Kd. unfold Vdot.
    rewrite <- (sign_identity n M (map sg xd) sgs (proj2 WR) Ldx Lsg).
    rewrite <- (EV sg Ep Es). ring. }
  split; auto. split; auto. split; auto. split; auto. split; auto.
  exists (b_pre_lo (ret_bounds rr)), (b_pre_up (ret_bounds rr)), ls, us. split; [exact F0|].
  split; [exact Sound|].
  split; auto. split; auto. split; auto. split; auto. split; auto. split; auto.
  intros x v pats sgs Bx HT Lvv Hw [Sel1 Sel2] At1 At2.
  destruct (A5 (fun _ => 0) x (init_feas _ _)) as (s0 & Y0 & _ & Ex).
  { eapply in_box_length; eauto. }
  destruct (B5 s0 v Y0 Lvv) as (s1 & Y1 & Ag1 & Ev).
  assert (Ex1 : map s1 xv = x).
  { rewrite <- Ex. symmetry. apply (map_agree (nvars m0)); auto. rewrite A1. apply below_seq. simpl. lia. }
  destruct S2 as (_ & _ & S2s & S2c). destruct (S2c s1 Y1) as (s2 & Y2 & Ag2).
  { rewrite Ex1, Ev. auto. }
  assert (Ex2 : map s2 xv = x) by (rewrite <- Ex1; symmetry; apply (map_agree (nvars m1)); auto).
  assert (Ev2 : map s2 xd = v) by (rewrite <- Ev; symmetry; apply (map_agree (nvars m1)); auto).
  assert (Sh : pattern_shape (hidden N) pats).
  { eapply shape_of_consistent; [apply W| |exact Sel1]. eapply in_box_length; eauto. }
  assert (Lp : length (concat pats) = num_units (hidden N)).
  { rewrite <- (flat_length _ _ Sh). unfold flat. rewrite map_length. auto. }
  destruct (G6 s2 pats Y2) as (s3 & Y3 & Ag3 & Eb3); rewrite ?Ex2; auto.
  assert (Ag13 : agree m1 s1 s3) by (eapply agree_trans; [|exact Ag2|exact Ag3]; lia).
  assert (Lsg : length sgs = length M).
  { apply Forall2_len in Sel2. rewrite mv_length in Sel2. auto. }
  assert (Ex3 : map s3 xv = x) by (rewrite <- Ex1; symmetry; apply (map_agree (nvars m1)); auto).
  destruct (F7 s3 sgs Y3) as (s4 & Y4 & Ag4 & Ea4); rewrite ?Ex3; auto.
  assert (Ag14 : agree m1 s1 s4) by (eapply agree_trans; [|exact Ag13|exact Ag4]; lia).
  assert (Ex4 : map s4 xv = x) by (rewrite <- Ex1; symmetry; apply (map_agree (nvars m1)); auto).
  assert (Ev4 : map s4 xd = v) by (rewrite <- Ev; symmetry; apply (map_agree (nvars m1)); auto).
  assert (Eb4 : map s4 (ret_beta rr) = flat pats).
  { rewrite <- Eb3. symmetry. apply (map_agree (nvars m3)); auto. }
  assert (Y5 : feas VBin m5 s4).
  { apply I5. split; auto.
    destruct S4 as (_ & _ & S4s & _). destruct (S4s s4 Y4) as (Y3' & Es).
    destruct S3 as (_ & _ & S3s & _). destruct (S3s s4 Y3') as (_ & _ & Ep).
    rewrite (EV s4 Ep Es), Ex4. auto. }
  destruct (PB4 x v Bx HT) as [PB5 PB6].
  destruct (J5 s4 pats Y5 Eb4 Sh) as (s6 & Y6 & Ag6 & Eg6).
  { rewrite Ev4. intros i Hi. apply PB6; auto. }
  destruct (C5 s6 (vmul (map bit sgs) (mv M v)) Y6) as (s7 & Y7 & Ag7 & Et7).
  { unfold vmul. rewrite map2_length, map_length, mv_length. unfold mat, vec in *. lia. }
  assert (Ag57 : agree m5 s4 s7) by (eapply agree_trans; [|exact Ag6|exact Ag7]; lia).
  assert (Ag17 : agree m1 s1 s7) by (eapply agree_trans; [|exact Ag14|exact Ag57]; lia).
  assert (Ex7 : map s7 xv = x) by (rewrite <- Ex1; symmetry; apply (map_agree (nvars m1)); auto).
  assert (Ev7 : map s7 xd = v) by (rewrite <- Ev; symmetry; apply (map_agree (nvars m1)); auto).
  assert (Eb7 : map s7 (ret_beta rr) = flat pats).
  { rewrite <- Eb4. symmetry. apply (map_agree (nvars m5)); auto. }
  assert (Ea7 : map s7 (concat al) = map bit sgs).
  { rewrite <- Ea4. symmetry. apply (map_agree (nvars m5)); auto. rewrite V5. auto. }
  assert (Y9 : gfeas m9 s7).
  { apply (proj1 (feas_bin _ _)). apply O4. apply D6.
    - rewrite Ea7. apply bits_bins.
    - rewrite Ea7, Ev7. auto. }
  exists s7. split; auto. split; auto. split; auto. split; auto. split; auto.
  destruct (Sound s7 Y9) as (_ & _ & _ & pats' & sgs' & Sel' & Eb' & Ea' & Eo & _).
  rewrite Eo, Ex7, Ev7.
  assert (pats' = pats) as ->.
  { apply (pattern_unique (hidden N)); auto; [|congruence].
    eapply shape_of_consistent; [apply W| |apply Sel']. rewrite map_length. auto. }
  assert (sgs' = sgs) as -> by (apply bits_inj; congruence).
  reflexivity.
Qed.

Lemma continuous_program : forall et d,
  continuous_milp solve meth N n x_lo x_up add_system opt_bounds xeq lam eps et R0 lower upper = Some d ->
  et = ExpLower /\ obj_max (cd_mip d) = true /\ length (cd_x d) = n /\ length (cd_xdot d) = n /\
  (forall sg, gfeas (cd_mip d) sg ->
     in_box x_lo x_up (map sg (cd_x d)) /\ T (map sg (cd_x d)) (map sg (cd_xdot d)) /\
     within lower upper (V N M lam xeq (map sg (cd_x d))) /\
     exists pats sgs, selects N M xeq (map sg (cd_x d)) pats sgs /\
       map sg (ret_beta (cd_relu d)) = flat pats /\
       map sg (cd_l1 d) = map (fun f : bool => if f then 1 else 0) sgs /\
       objective (cd_mip d) sg
       = Vdot N M lam pats sgs (map sg (cd_xdot d)) + eps * V N M lam xeq (map sg (cd_x d))) /\
  (forall x v pats sgs, in_box x_lo x_up x -> T x v -> length v = n ->
     within lower upper (V N M lam xeq x) ->
     selects N M xeq x pats sgs -> selection_attained x_lo x_up N M xeq pats sgs ->
     exists sg, gfeas (cd_mip d) sg /\ map sg (cd_x d) = x /\ map sg (cd_xdot d) = v /\
       map sg (ret_beta (cd_relu d)) = flat pats /\
       map sg (cd_l1 d) = map (fun f : bool => if f then 1 else 0) sgs /\
       objective (cd_mip d) sg = Vdot N M lam pats sgs v + eps * V N M lam xeq x).
Proof.
  intros et d E.
  destruct (continuous_program_forced et d E)
    as (Q1 & Q2 & Q3 & Q4 & _ & blo & bup & ls & us & _ & Q5 & K1 & K2 & K3 & K4 & K5 & K6 & K7).
  split; auto. split; auto. split; auto. split; auto. split.
  { intros sg G. destruct (Q5 sg G) as (U1 & U2 & U3 & pats & sgs & U4 & U5 & U6 & U7 & _).
    split; auto. split; auto. split; auto. exists pats, sgs. auto. }
  intros x v pats sgs Bx HT Lv Hw [Sel1 Sel2] [At1 At2].
  assert (Sh : pattern_shape (hidden N) pats).
  { eapply shape_of_consistent; [apply W| |exact Sel1]. eapply in_box_length; eauto. }
  assert (Lp : length (concat pats) = num_units (hidden N)).
  { rewrite <- (flat_length _ _ Sh). unfold flat. rewrite map_length. auto. }
  assert (Lsg : length sgs = length M).
  { apply Forall2_len in Sel2. rewrite mv_length in Sel2. auto. }
  apply (K7 x v pats sgs); auto; [split; auto| |].
  - eapply attained_forced; [exact At1|congruence|congruence|exact K5].
  - eapply attained_forced; [exact At2|unfold mat, vec in *; congruence|unfold mat, vec in *; congruence|exact K6].
Qed.
End Program.
