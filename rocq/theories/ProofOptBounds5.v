(** The separate program of the continuous-time closed loop. *)

Require Import Reals List Bool Arith Lra Lia.
Require Import Verif.Vec Verif.VecFacts Verif.ModelMip Verif.SpecMip
  Verif.ModelUtils Verif.ModelNet Verif.SpecCore Verif.SpecUtils Verif.SpecNet Verif.SpecStep
  Verif.ModelPattern Verif.SpecPattern Verif.SpecLyapunov Verif.ModelContinuous Verif.SpecContinuous
  Verif.ModelHybrid Verif.SpecHybrid Verif.ModelSystems Verif.SpecSystems Verif.ModelContSys Verif.SpecContSys
  Verif.ModelOptBounds Verif.SpecOptBounds
  Verif.ProofUtils Verif.ProofMaxBox Verif.ProofMip Verif.ProofTorch Verif.ProofConcat Verif.ProofBounds
  Verif.ProofGrad Verif.ProofNet Verif.ProofNetBounds Verif.ProofNetTotal Verif.ProofRelaxed Verif.ProofPattern
  Verif.ProofStep Verif.ProofNetStep Verif.ProofLyapCert Verif.ProofSystems Verif.ProofSystems2
  Verif.ProofFeedback Verif.ProofContSys Verif.ProofContSys2 Verif.ProofOptBounds4.
Import ListNotations.
Open Scope R_scope.

Section Solver.
Variable solve : mip -> gresult.
Hypothesis Hsolve : solver_ok solve.
Variable S : cp_sys.
Variable F : feedback.
Hypothesis Bt : cp_built S.
Hypothesis Ef : fb_fwd F = cp_fwd solve S.
Hypothesis Fb : feedback_built F.
Hypothesis Vx : vle (cp_xlo S) (cp_xup S).
Let nx := cp_nx (cp_kind_ S).
Let nu := cp_nu (cp_kind_ S).
Let box := in_box (cp_xlo S) (cp_xup S).

Lemma input_length : forall x u, length x = nx -> compute_u F x = Some u -> length u = nu.
Proof.
  intros x u Lx E. destruct Fb as (Cw & _ & _ & Hl & Bf).
  destruct (compute_u_spec F x Cw Bf (limit_ok_any _ _ Hl)) as (u' & E1 & E2 & _).
  - rewrite Ef. exact Lx.
  - assert (u' = u) by congruence. subst u'. rewrite Ef in E2. exact E2.
Qed.

Definition exact_method (meth : method) : Prop := meth = MIP \/ meth = IA_MIP.

(** The program over x and u. *)
Lemma control_prog_facts : forall m2 xv uv, control_bound_prog solve F = Some (m2, xv, uv) ->
  history false m2 /\ below (nvars m2) (xv ++ uv) /\ length xv = nx /\ length uv = nu /\
  (forall x u, box x -> compute_u F x = Some u ->
     exists sg, gfeas m2 sg /\ map sg xv = x /\ map sg uv = u) /\
  (exact_method (fb_meth F) -> forall sg, gfeas m2 sg -> box (map sg xv) ->
     compute_u F (map sg xv) = Some (map sg uv)).
Proof.
  intros m2 xv uv E. unfold control_bound_prog in E.
  destruct (addVars (repeat (NInf, PInf) (f_nx (fb_fwd F))) VCont init_mip) as [m0 xv0] eqn:E0.
  destruct (addVars (repeat (NInf, PInf) (f_nu (fb_fwd F))) VCont m0) as [m1 uv0] eqn:E1.
  assert (Fx : f_nx (fb_fwd F) = nx) by (rewrite Ef; reflexivity).
  assert (Fu : f_nu (fb_fwd F) = nu) by (rewrite Ef; reflexivity).
  assert (Fl : f_lo (fb_fwd F) = cp_xlo S) by (rewrite Ef; reflexivity).
  assert (Fp : f_up (fb_fwd F) = cp_xup S) by (rewrite Ef; reflexivity).
  rewrite Fx in E0. rewrite Fu in E1.
  assert (Free : forall vt, xv0 = seq 0 nx /\ uv0 = seq (nvars m0) nu /\ nvars m0 = nx /\
    nvars m1 = (nx + nu)%nat /\ history false m1 /\
    forall x u, length x = nx -> length u = nu ->
      exists sg, feas vt m1 sg /\ map sg xv0 = x /\ map sg uv0 = u).
  { intros vt. destruct (step_free vt false _ _ _ _ E0 (h_init false)) as (I0 & V0 & H0 & _ & X0).
    destruct (step_free vt false _ _ _ _ E1 H0) as (I1 & V1 & H1 & _ & X1).
    change (nvars init_mip) with 0%nat in I0, V0. cbn [Nat.add] in V0.
    split; auto. split; auto. split; auto. split; [lia|]. split; auto.
    intros x u Lx Lu. destruct (X0 (fun _ => 0) x (feas_init vt _) Lx) as (s0 & G0 & _ & M0).
    destruct (X1 s0 u G0 Lu) as (s1 & G1 & A1 & M1). exists s1. split; auto. split; auto.
    rewrite (agree_map _ _ _ _ A1); auto. rewrite I0. apply below_seq. lia. }
  assert (Bx : below (nvars m1) xv0 /\ below (nvars m1) uv0 /\ length xv0 = nx /\ length uv0 = nu /\
    history false m1).
  { destruct (Free VBin) as (I0 & I1 & V0 & V1 & H1 & _). rewrite V1.
    split; [rewrite I0; apply below_seq; lia|]. split; [rewrite I1; apply below_seq; lia|].
    split; [rewrite I0; apply seq_length|]. split; [rewrite I1; apply seq_length|]. auto. }
  destruct Bx as (Bx & Bu & Lx & Lu & H1).
  assert (Ctl : forall vt m3 ulo uup rc, vt <> VCont -> add_controller solve F xv0 uv0 vt m1 = Some (m3, (ulo, uup), rc) ->
    (nvars m1 <= nvars m3)%nat /\ history false m3 /\
    (forall x u, box x -> compute_u F x = Some u ->
       exists sg, gfeas m3 sg /\ map sg xv0 = x /\ map sg uv0 = u) /\
    (vt = VBin -> forall sg, gfeas m3 sg -> box (map sg xv0) ->
       compute_u F (map sg xv0) = Some (map sg uv0))).
  { intros vt m3 ulo uup rc Vt Ec.
    destruct (controller_step solve Hsolve F false vt m1 m3 xv0 uv0 ulo uup rc Fb Vt H1 Bx Bu) as (_ & _ & _ & St); auto.
    - congruence.
    - congruence.
    - rewrite Fl, Fp. exact Vx.
    - rewrite Fl, Fp in St. destruct St as (S1 & S2 & S3 & S4). split; auto. split; auto. split.
      + intros x u Hb Hu. assert (Lx' : length x = nx).
        { destruct (cp_built_facts S Bt) as (K1 & _). apply in_box_lengths in Hb. unfold nx, vec in *. lia. }
        destruct (Free vt) as (_ & _ & _ & _ & _ & Pt).
        destruct (Pt x u Lx' (input_length x u Lx' Hu)) as (sg & G & M1 & M2).
        destruct (S4 sg G) as (sg' & G' & A').
        { rewrite M1, M2. auto. }
        exists sg'. split; [apply G'|]. rewrite !(agree_map _ _ _ _ A'); auto.
      + intros -> sg G Hb. destruct (S3 sg) as [_ [_ K]]; [apply feas_bin; exact G|]. apply K. exact Hb. }
  assert (Dv : VBin <> VCont) by discriminate. assert (Dr : VBinRelax <> VCont) by discriminate.
  destruct (fb_meth F) eqn:Em; cbn [binary_var_type] in E.
  - injection E as <- <- <-. split; auto. split; [apply Forall_app; split; auto|]. split; auto. split; auto. split.
    + intros x u Hb Hu. assert (Lx' : length x = nx).
      { destruct (cp_built_facts S Bt) as (K1 & _). apply in_box_lengths in Hb. unfold nx, vec in *. lia. }
      destruct (Free VBin) as (_ & _ & _ & _ & _ & Pt).
      destruct (Pt x u Lx' (input_length x u Lx' Hu)) as (sg & G & M1 & M2).
      exists sg. split; [apply G|]. auto.
    + intros [C|C]; discriminate C.
  - destruct (add_controller solve F xv0 uv0 VBinRelax m1) as [[[m3 [ulo uup]] rc]|] eqn:Ec; [|discriminate].
    injection E as <- <- <-. destruct (Ctl _ _ _ _ _ Dr Ec) as (K1 & K2 & K3 & K4).
    split; auto. split; [apply Forall_app; split; eapply below_weaken; eauto|]. split; auto. split; auto. split; auto.
    intros [C|C]; discriminate C.
  - destruct (add_controller solve F xv0 uv0 VBin m1) as [[[m3 [ulo uup]] rc]|] eqn:Ec; [|discriminate].
    injection E as <- <- <-. destruct (Ctl _ _ _ _ _ Dv Ec) as (K1 & K2 & K3 & K4).
    split; auto. split; [apply Forall_app; split; eapply below_weaken; eauto|]. split; auto.
  - destruct (add_controller solve F xv0 uv0 VBin m1) as [[[m3 [ulo uup]] rc]|] eqn:Ec; [|discriminate].
    injection E as <- <- <-. destruct (Ctl _ _ _ _ _ Dv Ec) as (K1 & K2 & K3 & K4).
    split; auto. split; [apply Forall_app; split; eapply below_weaken; eauto|]. split; auto.
Qed.

Lemma cp_prog_facts : forall ulo uup p, length ulo = nu -> length uup = nu ->
  (forall x u, box x -> compute_u F x = Some u -> in_box ulo uup u) ->
  cp_bound_prog solve S F ulo uup = Some p ->
  covers nx p (cp_xlo S) (cp_xup S) (fb_next F (cp_moves S)) /\ bounded_velocity p /\
  (exact_method (cp_meth S) -> exact_method (fb_meth F) ->
   no_more p (cp_xlo S) (cp_xup S) (fb_next F (cp_moves S))).
Proof.
  intros ulo uup p Lul Luu Cb E. unfold cp_bound_prog in E.
  destruct (binary_var_type (cp_meth S)) as [vt|] eqn:Ev; [|discriminate].
  destruct (cp_mic solve S ulo uup) as [[[[c B] nn] bb]|] eqn:Ec; [|discriminate].
  destruct (control_bound_prog solve F) as [[[m2 xv] uv]|] eqn:Ep; [|discriminate].
  destruct (cp_mic_form solve Hsolve S ulo uup c B nn bb Bt Lul Luu Ec) as [C1 C2 C3 _ C4 C5 C6 C7].
  destruct (control_prog_facts _ _ _ Ep) as (H2 & B2 & Lx & Lu & P1 & P2).
  fold nx in E. destruct (addVars (repeat (NInf, PInf) nx) VCont m2) as [m3 xn] eqn:E3.
  destruct (add_mic c (xv ++ uv) (Some xn) NewBinary vt m3) as [[m4 sl] bi] eqn:E4.
  injection E as <-.
  destruct (step_free VBin false _ _ _ _ E3 H2) as (I3 & V3 & H3 & G3 & X3).
  assert (B3 : below (nvars m3) (xv ++ uv)) by (eapply below_weaken; [exact B2|lia]).
  assert (Bn : below (nvars m3) xn) by (rewrite I3; apply below_seq; lia).
  assert (Ln : length xn = nx) by (rewrite I3; apply seq_length).
  assert (Li : length (xv ++ uv) = nin c) by (rewrite app_length, C2, Lx, Lu; reflexivity).
  assert (Ov : ov_wf (nvars m3) (num_out c) (Some xn)) by (split; [exact Bn|rewrite Ln, C3; reflexivity]).
  destruct (add_mic_new _ _ _ _ _ _ _ _ E4 C1 (history_wf _ _ H3) B3 Li Ov) as (Q1 & Q2 & Q3 & Q4 & Q5).
  assert (Lbox : forall x, box x -> length x = nx).
  { intros x Hb. destruct (cp_built_facts S Bt) as (K1 & _). apply in_box_lengths in Hb.
    unfold nx, vec in *. lia. }
  assert (Bxv : below (nvars m3) xv) by (apply Forall_app in B3; apply B3).
  split; [|split].
  - constructor; cbn [bp_mip bp_next bp_x].
    + eapply history_mic; [exact H3| | | | |exact E4].
      * apply (history_allk false); auto.
      * apply (history_allk false); auto.
      * constructor.
      * discriminate.
    + split; [eapply below_weaken; [exact Bn|lia]|]. split; auto. rewrite I3. apply seq_NoDup.
    + split; [eapply below_weaken; [exact Bxv|lia]|]. auto.
    + intros x d Hx (_ & u & Eu & _ & Es).
      assert (Lx' := Lbox x Hx). assert (Lu' := input_length x u Lx' Eu).
      destruct (P1 x u Hx Eu) as (s2 & G2 & M1 & M2).
      destruct (cp_step_total S x u Bt Lx' Lu') as (d' & Es' & Ld').
      assert (d' = d) by congruence. subst d'.
      destruct (X3 s2 d) as (s3 & G & A3 & M3); auto.
      { apply feas_bin. exact G2. }
      assert (M12 : map s3 (xv ++ uv) = x ++ u).
      { rewrite (agree_map _ _ _ _ A3); auto. rewrite map_app. congruence. }
      destruct (C4 x u Hx (Cb x u Hx Eu)) as (s & b & Hb & Hs).
      destruct (C5 x u s b Lx' Lu' Hb Hs) as (_ & _ & Eo).
      destruct (add_mic_extend _ _ _ _ _ _ _ _ s3 s b E4 C1 (history_wf _ _ H3) B3 Li Ov) as (s4 & G4 & A4 & _).
      { apply G. }
      { apply bins_dom. auto. }
      { rewrite M12. exact Hs. }
      { cbn [out_ok]. rewrite M3, M12. congruence. }
      exists s4. split; auto.
      assert (M13 : map s3 xv = x).
      { rewrite (agree_map _ _ _ _ A3); auto. apply Forall_app in B2. apply B2. }
      rewrite !(agree_map _ _ _ _ A4); auto.
  - destruct C7 as [K HK]. exists K. cbn [bp_mip bp_next]. intros sg G. apply Q5 in G.
    destruct G as (_ & Hb & Hs & Ho). cbn [out_ok] in Ho. rewrite Ho. rewrite map_app in *. apply HK; auto.
    + rewrite map_length. exact Lx.
    + rewrite map_length. exact Lu.
    + eapply bin_dom_relaxed; eauto.
  - intros Me Mf sg G. cbn [bp_mip bp_next bp_x] in *. apply Q5 in G.
    destruct G as (G & Hb & Hs & Ho). cbn [out_ok] in Ho. rewrite map_app in *.
    assert (Hb' : bins (map sg bi)).
    { destruct Me as [Me | Me]; rewrite Me in Ev; injection Ev as <-; exact Hb. }
    assert (Lmx : length (map sg xv) = cp_nx (cp_kind_ S)) by (rewrite map_length; exact Lx).
    assert (Lmu : length (map sg uv) = cp_nu (cp_kind_ S)) by (rewrite map_length; exact Lu).
    destruct (C5 _ _ _ _ Lmx Lmu Hb' Hs) as (Bx & Iu & Es).
    split; auto. split; [rewrite Ef; exact Bx|]. exists (map sg uv). split.
    + apply P2; auto. apply feas_bin, G3, feas_bin. exact G.
    + split; auto. congruence.
Qed.

Lemma loop_prog_facts : forall p, loop_bound_prog solve S F = Some p ->
  covers nx p (cp_xlo S) (cp_xup S) (fb_next F (cp_moves S)) /\ bounded_velocity p /\
  (exact_method (cp_meth S) -> exact_method (fb_meth F) ->
   no_more p (cp_xlo S) (cp_xup S) (fb_next F (cp_moves S))).
Proof.
  intros p E. unfold loop_bound_prog in E. fold nx in E.
  destruct (addVars (repeat (NInf, PInf) nx) VCont init_mip) as [m0 xv] eqn:E0.
  destruct (addVars (repeat (NInf, PInf) nx) VCont m0) as [m1 xn] eqn:E1.
  destruct (addVars (repeat (NInf, PInf) (f_nu (fb_fwd F))) VCont m1) as [m2 uv] eqn:E2.
  destruct (add_controller solve F xv uv VBin m2) as [[[m3 [ulo uup]] rc]|] eqn:Ec; [|discriminate].
  destruct (step_free VBin false _ _ _ _ E0 (h_init false)) as (I0 & V0 & H0 & _).
  destruct (step_free VBin false _ _ _ _ E1 H0) as (I1 & V1 & H1 & _).
  destruct (step_free VBin false _ _ _ _ E2 H1) as (I2 & V2 & H2 & _).
  assert (Fx : f_nx (fb_fwd F) = nx) by (rewrite Ef; reflexivity).
  assert (Fu : f_nu (fb_fwd F) = nu) by (rewrite Ef; reflexivity).
  assert (Fl : f_lo (fb_fwd F) = cp_xlo S) by (rewrite Ef; reflexivity).
  assert (Fp : f_up (fb_fwd F) = cp_xup S) by (rewrite Ef; reflexivity).
  destruct (controller_step solve Hsolve F false VBin m2 m3 xv uv ulo uup rc Fb) as (K1 & K2 & K3 & _); auto.
  - discriminate.
  - rewrite I0. apply below_seq. lia.
  - rewrite I2. apply below_seq. lia.
  - rewrite I0, seq_length. auto.
  - rewrite I2, seq_length. auto.
  - rewrite Fl, Fp. exact Vx.
  - rewrite Fu in K2, K3. rewrite Fl, Fp in K1.
    apply (cp_prog_facts ulo uup p); auto.
Qed.

Lemma loop_bound_prog_total : solver_total solve -> cp_meth S <> IA ->
  exists p, loop_bound_prog solve S F = Some p.
Proof.
  intros St Hm. unfold loop_bound_prog. fold nx.
  destruct (addVars (repeat (NInf, PInf) nx) VCont init_mip) as [m0 xv] eqn:E0.
  destruct (addVars (repeat (NInf, PInf) nx) VCont m0) as [m1 xn] eqn:E1.
  destruct (addVars (repeat (NInf, PInf) (f_nu (fb_fwd F))) VCont m1) as [m2 uv] eqn:E2.
  destruct (step_free VBin false _ _ _ _ E0 (h_init false)) as (I0 & V0 & H0 & _).
  destruct (step_free VBin false _ _ _ _ E1 H0) as (I1 & V1 & H1 & _).
  destruct (step_free VBin false _ _ _ _ E2 H1) as (I2 & V2 & H2 & _).
  assert (Fx : f_nx (fb_fwd F) = nx) by (rewrite Ef; reflexivity).
  assert (Fu : f_nu (fb_fwd F) = nu) by (rewrite Ef; reflexivity).
  assert (Fl : f_lo (fb_fwd F) = cp_xlo S) by (rewrite Ef; reflexivity).
  assert (Fp : f_up (fb_fwd F) = cp_xup S) by (rewrite Ef; reflexivity).
  assert (Vf : vle (f_lo (fb_fwd F)) (f_up (fb_fwd F))) by (rewrite Fl, Fp; exact Vx).
  assert (Dv : VBin <> VCont) by discriminate.
  assert (Dr : VBinRelax <> VCont) by discriminate.
  assert (Bx : below (nvars m2) xv) by (rewrite I0; apply below_seq; lia).
  assert (Bu : below (nvars m2) uv) by (rewrite I2; apply below_seq; lia).
  assert (Lx : length xv = f_nx (fb_fwd F)) by (rewrite I0, seq_length; auto).
  assert (Lu : length uv = f_nu (fb_fwd F)) by (rewrite I2, seq_length; auto).
  assert (Ct := add_controller_total solve Hsolve St F false VBin m2 xv uv Fb Dv H2 Bx Bu Lx Lu Vf).
  destruct (add_controller solve F xv uv VBin m2) as [[[m3 [ulo uup]] rc]|] eqn:Ec;
    [|exfalso; apply Ct; reflexivity].
  destruct (controller_step solve Hsolve F false VBin m2 m3 xv uv ulo uup rc Fb Dv H2 Bx Bu Lx Lu Vf Ec)
    as (K1 & K2 & K3 & _).
  rewrite Fu in K2, K3. rewrite Fl, Fp in K1.
  destruct (cp_built_facts S Bt) as (L1 & L2 & _).
  assert (CU : exists u, compute_u F (cp_xlo S) = Some u).
  { destruct Fb as (Cw & _ & _ & Hl & Bf).
    destruct (compute_u_spec F (cp_xlo S) Cw Bf (limit_ok_any _ _ Hl)) as (u & Eu & _); eauto.
    rewrite Ef. exact L1. }
  destruct CU as [u0 Eu0].
  assert (Iu : in_box ulo uup u0) by (apply (K1 (cp_xlo S)); auto; split; [apply vle_refl|exact Vx]).
  assert (Cm := cp_mic_total solve Hsolve St S ulo uup Bt K2 K3 Vx (in_box_ordered _ _ _ Iu)).
  unfold cp_bound_prog.
  destruct (cp_mic solve S ulo uup) as [[[[c B] nn] bb]|]; [|exfalso; apply Cm; reflexivity].
  assert (Cp : exists m xv' uv', control_bound_prog solve F = Some (m, xv', uv')).
  { unfold control_bound_prog.
    destruct (addVars (repeat (NInf, PInf) (f_nx (fb_fwd F))) VCont init_mip) as [q0 yv] eqn:Y0.
    destruct (addVars (repeat (NInf, PInf) (f_nu (fb_fwd F))) VCont q0) as [q1 wv] eqn:Y1.
    destruct (step_free VBin false _ _ _ _ Y0 (h_init false)) as (J0 & W0 & Z0 & _).
    destruct (step_free VBin false _ _ _ _ Y1 Z0) as (J1 & W1 & Z1 & _).
    assert (By : below (nvars q1) yv) by (rewrite J0; apply below_seq; lia).
    assert (Bw : below (nvars q1) wv) by (rewrite J1; apply below_seq; lia).
    assert (Ly : length yv = f_nx (fb_fwd F)) by (rewrite J0, seq_length; auto).
    assert (Lw : length wv = f_nu (fb_fwd F)) by (rewrite J1, seq_length; auto).
    assert (Ct1 := add_controller_total solve Hsolve St F false VBin q1 yv wv Fb Dv Z1 By Bw Ly Lw Vf).
    assert (Ct2 := add_controller_total solve Hsolve St F false VBinRelax q1 yv wv Fb Dr Z1 By Bw Ly Lw Vf).
    destruct (fb_meth F); cbn [binary_var_type]; eauto.
    - destruct (add_controller solve F yv wv VBinRelax q1) as [[[? ?] ?]|]; [eauto|exfalso; apply Ct2; reflexivity].
    - destruct (add_controller solve F yv wv VBin q1) as [[[? ?] ?]|]; [eauto|exfalso; apply Ct1; reflexivity].
    - destruct (add_controller solve F yv wv VBin q1) as [[[? ?] ?]|]; [eauto|exfalso; apply Ct1; reflexivity]. }
  destruct Cp as (m & xv' & uv' & ->). fold nx.
  assert (Hv : exists vt, binary_var_type (cp_meth S) = Some vt).
  { destruct (cp_meth S); cbn; eauto. congruence. }
  destruct Hv as [vt ->].
  destruct (addVars (repeat (NInf, PInf) nx) VCont m) as [m4 xn4].
  destruct (add_mic c (xv' ++ uv') (Some xn4) NewBinary vt m4) as [[m5 sl] bi]. eauto.
Qed.

Lemma loop_flow_total : solver_total solve -> forall st,
  system_total nx st (fun xv xn vt m => option_map fst (cp_loop_add solve S F xv xn vt m)).
Proof.
  intros St st vt m xv xn Vt H B1 B2 L1 L2 ND E.
  destruct (cp_loop_total solve Hsolve St S F st vt m xv xn Bt Ef Fb Vx Vt H B1 B2 L1 L2 ND) as (m' & b & E' & _).
  rewrite E' in E. discriminate.
Qed.

Lemma loop_moves_somewhere : exists x d, box x /\ fb_next F (cp_moves S) x d.
Proof.
  destruct (cp_built_facts S Bt) as (L1 & L2 & _).
  assert (Ix : box (cp_xlo S)) by (split; [apply vle_refl|exact Vx]).
  assert (CU : exists u, compute_u F (cp_xlo S) = Some u).
  { destruct Fb as (Cw & _ & _ & Hl & Bf).
    destruct (compute_u_spec F (cp_xlo S) Cw Bf (limit_ok_any _ _ Hl)) as (u & Eu & _); eauto.
    rewrite Ef. exact L1. }
  destruct CU as [u Eu]. destruct (cp_step_total S (cp_xlo S) u Bt L1 (input_length _ _ L1 Eu)) as (d & Ed & _).
  exists (cp_xlo S), d. split; auto. split; [rewrite Ef; exact Ix|]. exists u. split; auto. split; auto.
Qed.
End Solver.
