(** The closed loop of the quadrotor built through the callback. *)

Require Import Reals List Lia Lra Bool Arith.
Require Import Verif.Vec Verif.VecFacts Verif.ModelMip Verif.SpecMip Verif.SpecCore
  Verif.ModelUtils Verif.SpecUtils Verif.ModelNet Verif.SpecNet Verif.SpecStep
  Verif.ProofUtils Verif.ProofMaxBox Verif.ProofGrad Verif.ProofMip Verif.ProofSat
  Verif.ProofConcat Verif.ProofBounds Verif.ProofNet Verif.ProofNetBounds Verif.ProofNetTotal
  Verif.ProofWarm Verif.ProofStep Verif.ProofNetStep Verif.ModelPattern Verif.ModelStrengthen
  Verif.ModelLyapunov Verif.SpecLyapunov Verif.ProofLyapunov Verif.ModelHybrid Verif.SpecHybrid
  Verif.ProofHybrid2 Verif.ModelSystems Verif.SpecSystems Verif.ProofMilp Verif.ProofRoa
  Verif.ModelExSystems Verif.SpecExSystems Verif.ProofSystems Verif.ProofSystems2
  Verif.ProofSatStep Verif.ProofFeedback Verif.ProofExSystems Verif.ProofExSystems2
  Verif.ModelQuadLoop Verif.SpecQuadLoop Verif.ProofQuadLoop Verif.ProofQuadLoop2
  Verif.ProofQuadLoop3.
Import ListNotations.
Open Scope R_scope.

Section Solver.
Variable solve : mip -> gresult.
Hypothesis Hsolve : solver_ok solve.

(** The branch of the callback. *)
Lemma loop_inv : forall S F meth xv xn vt m m' r,
  quad_loop_add_ret solve S F meth xv xn vt m = Some (m', r) ->
  (fb_add_ret solve F xv xn vt m = Some (m', r) /\
   (is_IA meth || is_IA (fb_meth F))%bool = true) \/
  exists uv m1 m2 ulo uup rc B c nn,
    addVars (repeat (NInf, PInf) (f_nu (fb_fwd F))) VCont m = (m1, uv) /\
    add_controller solve F xv uv vt m1 = Some (m2, (ulo, uup), rc) /\
    let tl := tight_lo (ex_ulo S) (Some ulo) in
    let tu := tight_up (ex_uup S) (Some uup) in
    let lo := part 3 6 (ex_xlo S) ++ part 9 12 (ex_xlo S) ++ tl in
    let up := part 3 6 (ex_xup S) ++ part 9 12 (ex_xup S) ++ tu in
    callback_layer_bound solve (loop_callback solve S F tl tu) meth (ex_net S) lo up = Some B /\
    output_constraint_given_bounds (ex_net S) (b_pre_lo B) (b_pre_up B) lo up = Some c /\
    quad_given S xv xn uv lo up c B vt m2 = Some (m', ExReLU nn) /\ nn_bounds nn = B /\
    r = mkFbRet uv (Some nn) rc /\ is_net (fb_ctl F).
Proof.
  intros S F meth xv xn vt m m' r E. unfold quad_loop_add_ret in E.
  destruct (is_IA meth || is_IA (fb_meth F))%bool; [left; auto|right].
  destruct (LP_or_MIP meth && LP_or_MIP (fb_meth F))%bool; [|discriminate].
  destruct (fb_ctl F) as [N|l] eqn:Ec; [|discriminate].
  destruct (addVars (repeat (NInf, PInf) (f_nu (fb_fwd F))) VCont m) as [m1 uv] eqn:Ea.
  destruct (add_controller solve F xv uv vt m1) as [[[m2 [ulo uup]] rc]|] eqn:Ed; [|discriminate].
  cbv zeta in E. unfold quad_add_callback in E. cbv zeta in E.
  set (tl := tight_lo (ex_ulo S) (Some ulo)) in *. set (tu := tight_up (ex_uup S) (Some uup)) in *.
  destruct (callback_layer_bound solve (loop_callback solve S F tl tu) meth (ex_net S)
    (part 3 6 (ex_xlo S) ++ part 9 12 (ex_xlo S) ++ tl)
    (part 3 6 (ex_xup S) ++ part 9 12 (ex_xup S) ++ tu)) as [B|] eqn:E1; [|discriminate].
  destruct (output_constraint_given_bounds (ex_net S) (b_pre_lo B) (b_pre_up B)
    (part 3 6 (ex_xlo S) ++ part 9 12 (ex_xlo S) ++ tl)
    (part 3 6 (ex_xup S) ++ part 9 12 (ex_xup S) ++ tu)) as [c|] eqn:E2; [|discriminate].
  destruct (quad_given S xv xn uv _ _ c B vt m2) as [[m3 rr]|] eqn:E3; [|discriminate].
  assert (T : exists nn, rr = ExReLU nn /\ nn_bounds nn = B).
  { unfold quad_given in E3. destruct (add_mic c _ None NewBinary vt m2) as [[? ?] ?].
    destruct (ex_out c) as [[? ?]|]; [|discriminate]. apply Some_inj in E3.
    apply pair_equal_spec in E3. destruct E3 as [_ <-]. eexists. split; reflexivity. }
  destruct T as (nn & -> & Eb).
  apply Some_inj in E. apply pair_equal_spec in E. destruct E as [-> <-].
  exists uv, m1, m2, ulo, uup, rc, B, c, nn.
  split; auto. split; auto. cbv zeta. split; auto. split; auto. split; auto. split; auto. split; auto.
  exact I.
Qed.

Lemma part_box : forall a b lo up x, in_box lo up x -> in_box (part a b lo) (part a b up) (part a b x).
Proof.
  intros a b lo up x H. unfold part. apply in_box_split. apply (in_box_split a) in H. tauto.
Qed.

Section Branch.
Variable S : ex_sys.
Variable h : R.
Variable meth0 : method.
Variable F : feedback.
Hypothesis Bt : ex_built S.
Hypothesis Ek : ex_kind_ S = KQuad h meth0.
Hypothesis Vx : vle (ex_xlo S) (ex_xup S).
Hypothesis Ef : fb_fwd F = ex_fwd solve S.
Hypothesis Bf : feedback_built F.
Hypothesis Hn : is_net (fb_ctl F).

(** What the callback branch computes. *)
Lemma branch_facts : forall ulo uup meth xv uv vt m1 m2 rc B c,
  length ulo = 4%nat -> length uup = 4%nat ->
  add_controller solve F xv uv vt m1 = Some (m2, (ulo, uup), rc) ->
  let tl := tight_lo (ex_ulo S) (Some ulo) in
  let tu := tight_up (ex_uup S) (Some uup) in
  let lo := part 3 6 (ex_xlo S) ++ part 9 12 (ex_xlo S) ++ tl in
  let up := part 3 6 (ex_xup S) ++ part 9 12 (ex_xup S) ++ tu in
  callback_layer_bound solve (loop_callback solve S F tl tu) meth (ex_net S) lo up = Some B ->
  output_constraint_given_bounds (ex_net S) (b_pre_lo B) (b_pre_up B) lo up = Some c ->
  exists D : vec -> Prop, net_on 10 (ex_net S) lo up D c /\
    (forall x u, loop_state S F x u -> in_box ulo uup u -> D (quad_input x u)) /\
    (forall v, D v ->
       in_box (b_pre_lo B) (b_pre_up B) (concat (pre_acts (hidden (ex_net S)) v)) /\
       in_box (b_post_lo B) (b_post_up B) (concat (post_acts (hidden (ex_net S)) v))) /\
    (meth = MIP -> fb_meth F = MIP -> forall i, (i < num_units (hidden (ex_net S)))%nat ->
       (exists x u, loop_state S F x u /\
          nth i (concat (pre_acts (hidden (ex_net S)) (quad_input x u))) 0 = nth i (b_pre_lo B) 0) /\
       (exists x u, loop_state S F x u /\
          nth i (concat (pre_acts (hidden (ex_net S)) (quad_input x u))) 0 = nth i (b_pre_up B) 0)).
Proof.
  intros ulo uup meth xv uv vt m1 m2 rc B c L1 L2 Ec tl tu lo up E1 E2.
  assert (Bt' := Bt). destruct Bt' as (W & Lxu & Lul & Luu & _). destruct (ex_built_facts _ Bt) as [Lxl _].
  rewrite Ek in W, Lxu, Lxl, Lul, Luu. cbn [ex_nx ex_nin ex_nu] in *.
  assert (Ls : forall v, Some ulo = Some v -> length v = 4%nat) by (intros q K; apply Some_inj in K; rewrite <- K; auto).
  assert (Ls' : forall v, Some uup = Some v -> length v = 4%nat) by (intros q K; apply Some_inj in K; rewrite <- K; auto).
  destruct (tight_length _ _ _ _ _ Lul Luu Ls Ls') as [T1 T2]. fold tl in T1. fold tu in T2.
  assert (Lp : forall (l : vec) a b, length l = 12%nat -> (b <= 12)%nat -> length (part a b l) = (b - a)%nat).
  { intros q a b Ll Hb. unfold part. rewrite firstn_length, skipn_length. lia. }
  assert (Llo : length lo = 10%nat).
  { unfold lo. rewrite !app_length, !Lp by (auto; lia). unfold vec in *. lia. }
  assert (Lup : length up = 10%nat).
  { unfold up. rewrite !app_length, !Lp by (auto; lia). unfold vec in *. lia. }
  destruct (loop_callback solve S F tl tu) as [[p iv]|] eqn:El.
  2:{ exfalso. revert El. eapply (callback_again solve Hsolve S h meth0 F tl tu xv uv vt m1); eauto.
      rewrite Ec. discriminate. }
  destruct (callback_spec solve Hsolve S h meth0 F tl tu p iv Bt Ek Vx Ef Bf Hn T1 T2 El)
    as (Wp & Zp & Cc & Cs).
  exists (reach p iv lo up). split; [|split; [|split]].
  - eapply given_bounds_on; eauto.
  - intros x u (Hx & Hc & Hu) Hb.
    assert (Ht : in_box tl tu u).
    { assert (Lu := in_box_lengths _ _ _ Hu). apply tight_box; try tauto; unfold vec in *.
      - intros a Ha. rewrite (Ls a Ha). lia.
      - intros a Ha. rewrite (Ls' a Ha). lia.
      - split; auto. destruct Hb. split; intros q Hl; apply Some_inj in Hl; subst; auto. }
    split.
    + unfold lo, up, quad_input. repeat apply in_box_app; auto; apply part_box; auto.
    + destruct (Cc x u Hx Hc Ht) as (sg & G & E). exists sg. auto.
  - intros v Hv. destruct (cb_bound_spec solve Hsolve p iv 10 Wp Zp _ _ _ _ _ W Llo Lup E1) as (z1 & z2 & _ & _ & I3 & _).
    destruct (I3 v Hv) as (K1 & K2 & _). auto.
  - intros Em Ef' i Hi.
    destruct (cb_bound_spec solve Hsolve p iv 10 Wp Zp _ _ _ _ _ W Llo Lup E1) as (z1 & z2 & _ & _ & _ & I4).
    assert (Q : forall v, reach p iv lo up v -> exists x u, loop_state S F x u /\ v = quad_input x u).
    { intros v [_ (sg & G & <-)]. destruct (Cs Ef' sg G) as (x & u & K1 & K2 & K3 & K4).
      exists x, u. split; auto. split; auto. split; auto.
      assert (Lu := in_box_lengths _ _ _ K3). apply tight_box in K3; try tauto; unfold vec in *; try lia.
      - intros a Ha. rewrite (Ls a Ha). lia.
      - intros a Ha. rewrite (Ls' a Ha). lia. }
    destruct (I4 Em i Hi) as [(v1 & R1 & N1) (v2 & R2 & N2)]. split.
    + destruct (Q _ R1) as (x & u & K & ->). eauto.
    + destruct (Q _ R2) as (x & u & K & ->). eauto.
Qed.

Lemma loop_step : forall st vt m m' meth xv xn r, vt <> VCont -> history st m ->
  below (nvars m) xv -> below (nvars m) xn -> length xv = 12%nat -> length xn = 12%nat ->
  quad_loop_add_ret solve S F meth xv xn vt m = Some (m', r) ->
  step vt st m m' (fun sg => fb_next F (ex_next S) (map sg xv) (map sg xn))
    (fun sg => ex_next S (map sg xv) (map sg (fr_u r)) (map sg xn) /\
       in_box (ex_xlo S) (ex_xup S) (map sg xv) /\
       compute_u F (map sg xv) = Some (map sg (fr_u r))).
Proof.
  intros st vt m m' meth xv xn r Vt H Bx Bn Lx Ln E.
  assert (Nx : f_nx (fb_fwd F) = 12%nat) by (rewrite Ef; cbn; rewrite Ek; auto).
  assert (Nu : f_nu (fb_fwd F) = 4%nat) by (rewrite Ef; cbn; rewrite Ek; auto).
  assert (Fl : f_lo (fb_fwd F) = ex_xlo S /\ f_up (fb_fwd F) = ex_xup S) by (rewrite Ef; auto).
  destruct Fl as [Fl Fu].
  assert (Fc : forward_contract st (fb_fwd F) (ex_next S)).
  { rewrite Ef. eapply quad_forward_contract; eauto. }
  destruct (loop_inv _ _ _ _ _ _ _ _ _ E) as [[E' _]|Iv].
  { eapply step_weaken; [eapply (closed_loop_step solve Hsolve F (ex_next S) st vt m m' xv xn r); eauto;
      rewrite ?Fl, ?Fu; auto; congruence| |].
    - intros sg _ D. exact D.
    - rewrite Fl, Fu. intros sg _ (K1 & K2 & K3). auto. }
  destruct Iv as (uv & m1 & m2 & ulo & uup & rc & B & c & nn & Ea & Ec & Q). cbv zeta in Q.
  destruct Q as (E1 & E2 & E3 & _ & Er & _). subst r. cbn [fr_u].
  destruct (step_free vt st _ m m1 uv Ea H) as (Eu & Nv1 & H1 & Fr1 & Fr2).
  assert (Up : forall a b l, (a <= b)%nat -> below a l -> below b l).
  { unfold below. intros a b l Hab Hl. eapply Forall_impl; [|exact Hl]. cbv beta. intros. lia. }
  assert (Bu : below (nvars m1) uv).
  { subst uv. unfold below. apply Forall_forall. intros i Hi. apply in_seq in Hi. lia. }
  assert (Lu : length uv = f_nu (fb_fwd F)) by (subst uv; apply seq_length).
  assert (Vf : vle (f_lo (fb_fwd F)) (f_up (fb_fwd F))) by (rewrite Fl, Fu; auto).
  destruct (controller_step solve Hsolve F st vt m1 m2 xv uv ulo uup rc) as (Cb & L1 & L2 & C1 & C2 & C3 & C4); auto.
  { apply (Up (nvars m)); auto; lia. }
  { congruence. }
  rewrite Fl, Fu, Nu in *.
  destruct (branch_facts ulo uup meth xv uv vt m1 m2 rc B c L1 L2 Ec E1 E2) as (D & M & HD & _).
  destruct (quad_given_on S h meth0 D vt st m2 m' xv xn uv (Some ulo) (Some uup) c B (ExReLU nn))
    as (D1 & D2 & D3 & D4); auto.
  { apply (Up (nvars m)); auto; lia. }
  { apply (Up (nvars m)); auto; lia. }
  { apply (Up (nvars m1)); auto. }
  { intros a Ha. apply Some_inj in Ha. subst; auto. }
  { intros a Ha. apply Some_inj in Ha. subst; auto. }
  split; [lia|]. split; auto. split.
  - intros sg G. destruct (D3 sg G) as [G2 [K1 K1']]. destruct (C3 sg G2) as [G1 [K2 K3]].
    split; [auto|]. assert (Ib := K2 Hn). split; [|split; auto].
    split; auto. destruct K1 as [Q1 Q2]. split; auto. eapply Forall_impl; [|exact Q2].
    cbv beta. intros j (Q3 & _). split; auto. split; discriminate.
  - intros sg G (Ib & u & Ecu & Ht). rewrite Fl, Fu in Ib.
    assert (Hb := Cb _ _ Ib Ecu).
    assert (Lus : length u = 4%nat).
    { assert (K := in_box_lengths _ _ _ Hb). unfold vec in *; lia. }
    assert (Ls : loop_state S F (map sg xv) u).
    { split; auto. split; auto. destruct Ht as [Hd _].
      eapply domain_limits; eauto; rewrite Ek; auto. reflexivity. }
    destruct (Fr2 sg u G ltac:(congruence)) as (s1 & G1 & A1 & Eu1).
    assert (X1 : map s1 xv = map sg xv) by (symmetry; apply map_agree with (n := nvars m); auto).
    destruct (C4 s1 G1) as (s2 & G2 & A2).
    { rewrite X1, Eu1. split; auto. }
    assert (X2 : map s2 xv = map sg xv).
    { rewrite <- X1. symmetry. apply map_agree with (n := nvars m1); auto.
      apply (Up (nvars m)); auto; lia. }
    assert (N2 : map s2 xn = map sg xn).
    { symmetry. apply map_agree with (n := nvars m); auto. intros i Hi.
      rewrite (A1 i), (A2 i); auto; lia. }
    assert (U2 : map s2 uv = u).
    { rewrite <- Eu1. symmetry. apply map_agree with (n := nvars m1); auto. }
    destruct (D4 s2 G2) as (s3 & G3 & A3).
    { rewrite !map_app, !map_part, X2, N2, U2. split; [apply (HD _ _ Ls Hb)|apply Ht]. }
    exists s3. split; auto. intros i Hi. rewrite (A1 i), (A2 i), (A3 i); auto; lia.
Qed.

Lemma loop_u_length : forall vt m m' meth xv xn r,
  quad_loop_add_ret solve S F meth xv xn vt m = Some (m', r) -> length (fr_u r) = 4%nat.
Proof.
  intros vt m m' meth xv xn r E. assert (Nu : f_nu (fb_fwd F) = 4%nat) by (rewrite Ef; cbn; rewrite Ek; auto).
  destruct (loop_inv _ _ _ _ _ _ _ _ _ E) as [[E' _]|Iv].
  - rewrite <- Nu. eapply fr_u_length; eauto.
  - destruct Iv as (uv & m1 & m2 & ulo & uup & rc & B & c & nn & Ea & _ & Q). cbv zeta in Q.
    destruct Q as (_ & _ & _ & _ & -> & _). cbn [fr_u].
    destruct (addVars_fields _ _ _ _ _ Ea) as (_ & _ & -> & _). rewrite seq_length, repeat_length. auto.
Qed.

Lemma loop_exact : forall st vt m m' meth xv xn r,
  vt <> VCont -> history st m -> below (nvars m) xv -> below (nvars m) xn ->
  length xv = 12%nat -> length xn = 12%nat ->
  quad_loop_add_ret solve S F meth xv xn vt m = Some (m', r) ->
  (forall sg, feas vt m' sg ->
     feas vt m sg /\ loop_state S F (map sg xv) (map sg (fr_u r)) /\
     fb_step F (map sg xv) = Some (map sg xn)) /\
  (forall sg u, feas vt m sg -> loop_state S F (map sg xv) u ->
     fb_step F (map sg xv) = Some (map sg xn) ->
     exists sg', feas vt m' sg' /\ agree m sg sg').
Proof.
  intros st vt m m' meth xv xn r Vt H Bx Bn Lx Ln E.
  assert (Ra : ex_reads_all (ex_kind_ S)) by (rewrite Ek; reflexivity).
  destruct (loop_step st vt m m' meth xv xn r Vt H Bx Bn Lx Ln E) as (_ & _ & S3 & S4).
  assert (Lr := loop_u_length _ _ _ _ _ _ _ E).
  assert (L4 : forall sg : assignment, length (map sg (fr_u r)) = ex_nu (ex_kind_ S)).
  { intros sg. rewrite map_length, Ek. exact Lr. }
  split.
  - intros sg G. destruct (S3 sg G) as (G0 & (K0 & K1) & Ib & K3). split; auto.
    split; [split; auto; split; auto; eapply domain_limits; eauto|].
    unfold fb_step. rewrite K3, Ef. cbn [ex_fwd f_step].
    rewrite (ex_step_agrees S None None); auto.
  - intros sg u G (Ib & Eu & Hu) Es. apply S4; auto.
    split; [rewrite Ef; exact Ib|]. exists u. split; auto.
    unfold fb_step in Es. rewrite Eu, Ef in Es. cbn [ex_fwd f_step] in Es.
    assert (Lu : length u = ex_nu (ex_kind_ S)).
    { destruct Bt as (_ & _ & L1 & _). apply in_box_lengths in Hu. unfold vec in *. lia. }
    assert (D : ex_domain S None None (map sg xv) u).
    { destruct (ex_built_facts _ Bt) as [Lxl _]. assert (Bt' := Bt). destruct Bt' as (_ & Lxu & Lul & _).
      split; apply Forall_forall; intros i Hi.
      - destruct Ib as [I1 I2]. rewrite Ek in *. cbn [ex_nx ex_reads fst] in *.
        split; apply nth_vle; auto; [|rewrite map_length]; cbn in Hi; unfold vec in *; lia.
      - destruct Hu as [I1 I2]. rewrite Ek in *. cbn [ex_nu ex_reads snd] in *.
        split; [|split; discriminate].
        split; apply nth_vle; auto; cbn in Hi; unfold vec in *; lia. }
    split; auto. rewrite <- (ex_step_agrees S None None); auto.
Qed.

Lemma loop_contract : forall st meth,
  system_contract 12 st (quad_loop_add solve S F meth) (fb_next F (ex_next S)).
Proof.
  intros st meth vt m m' xv xn Vt H Bx Bn Lx Ln _ E. unfold quad_loop_add in E.
  destruct (quad_loop_add_ret solve S F meth xv xn vt m) as [[m1 r]|] eqn:Ea; [|discriminate].
  apply Some_inj in E. subst m1.
  eapply step_weaken; [exact (loop_step st vt m m' meth xv xn r Vt H Bx Bn Lx Ln Ea)| |].
  - intros sg _ D. exact D.
  - intros sg _ (K1 & K2 & K3). split; [rewrite Ef; exact K2|]. exists (map sg (fr_u r)). auto.
Qed.

(** The returned bounds of the forward network hold at every state of the closed loop. *)
Lemma loop_bounds : forall st vt m m' xv xn r nn,
  vt <> VCont -> history st m -> below (nvars m) xv -> length xv = 12%nat ->
  quad_loop_add_ret solve S F meth0 xv xn vt m = Some (m', r) -> fr_fwd r = Some nn ->
  (forall x u, loop_state S F x u ->
     in_box (b_pre_lo (nn_bounds nn)) (b_pre_up (nn_bounds nn))
       (concat (pre_acts (hidden (ex_net S)) (quad_input x u))) /\
     in_box (b_post_lo (nn_bounds nn)) (b_post_up (nn_bounds nn))
       (concat (post_acts (hidden (ex_net S)) (quad_input x u)))) /\
  (meth0 = MIP -> fb_meth F = MIP -> forall i, (i < num_units (hidden (ex_net S)))%nat ->
     (exists x u, loop_state S F x u /\
        nth i (concat (pre_acts (hidden (ex_net S)) (quad_input x u))) 0
        = nth i (b_pre_lo (nn_bounds nn)) 0) /\
     (exists x u, loop_state S F x u /\
        nth i (concat (pre_acts (hidden (ex_net S)) (quad_input x u))) 0
        = nth i (b_pre_up (nn_bounds nn)) 0)).
Proof.
  intros st vt m m' xv xn r nn Vt H Bx Lx E En.
  assert (Nx : f_nx (fb_fwd F) = 12%nat) by (rewrite Ef; cbn; rewrite Ek; auto).
  assert (Nu : f_nu (fb_fwd F) = 4%nat) by (rewrite Ef; cbn; rewrite Ek; auto).
  assert (Fl : f_lo (fb_fwd F) = ex_xlo S /\ f_up (fb_fwd F) = ex_xup S) by (rewrite Ef; auto).
  destruct Fl as [Fl Fu].
  assert (Vf : vle (f_lo (fb_fwd F)) (f_up (fb_fwd F))) by (rewrite Fl, Fu; auto).
  assert (Ctl : forall m1 uv m2 ulo uup rc,
    addVars (repeat (NInf, PInf) (f_nu (fb_fwd F))) VCont m = (m1, uv) ->
    add_controller solve F xv uv vt m1 = Some (m2, (ulo, uup), rc) ->
    (forall x u, in_box (ex_xlo S) (ex_xup S) x -> compute_u F x = Some u -> in_box ulo uup u) /\
    length ulo = 4%nat /\ length uup = 4%nat).
  { intros m1 uv m2 ulo uup rc Ea Ec.
    destruct (step_free vt st _ m m1 uv Ea H) as (Eu & Nv1 & H1 & Fr1 & Fr2).
    destruct (controller_step solve Hsolve F st vt m1 m2 xv uv ulo uup rc) as (Cb & L1 & L2 & _); auto.
    { unfold below. eapply Forall_impl; [|exact Bx]. cbv beta. intros. lia. }
    { subst uv. unfold below. apply Forall_forall. intros i Hi. apply in_seq in Hi. lia. }
    { congruence. }
    { subst uv. apply seq_length. }
    rewrite Fl, Fu in Cb. rewrite Nu in L1, L2. auto. }
  destruct (loop_inv _ _ _ _ _ _ _ _ _ E) as [[E' Ia]|Iv].
  - split.
    2:{ intros -> Em. rewrite Em in Ia. discriminate. }
    unfold fb_add_ret in E'.
    destruct (addVars (repeat (NInf, PInf) (f_nu (fb_fwd F))) VCont m) as [m1 uv] eqn:Ea.
    destruct (add_controller solve F xv uv vt m1) as [[[m2 [ulo uup]] rc]|] eqn:Ec; [|discriminate].
    destruct (Ctl _ _ _ _ _ _ eq_refl Ec) as (Cb & L1 & L2).
    rewrite Ef in E'. cbn [ex_fwd f_add] in E'. rewrite Ek in E' at 1 2.
    cbn [takes_binary_var_type takes_u_input_prog andb] in E'.
    unfold ex_add_ret in E'. rewrite Ek in E'. unfold quad_add in E'. rewrite Ek in E'. cbn [ex_encode] in E'.
    match type of E' with context [compute_layer_bound solve meth0 _ ?a ?b] =>
      set (lo := a) in *; set (up := b) in * end.
    destruct (compute_layer_bound solve meth0 (ex_net S) lo up) as [B|] eqn:E1; [|discriminate].
    destruct (output_constraint_given_bounds (ex_net S) (b_pre_lo B) (b_pre_up B) lo up) as [c|]; [|discriminate].
    unfold quad_given in E'. destruct (add_mic c _ None NewBinary vt m2) as [[? ?] ?].
    destruct (ex_out c) as [[? ?]|]; [|discriminate].
    apply Some_inj in E'. apply pair_equal_spec in E'. destruct E' as [_ <-].
    cbn [fr_fwd] in En. apply Some_inj in En. subst nn. cbn [nn_bounds].
    assert (Bt' := Bt). destruct Bt' as (W & Lxu & Lul & Luu & _). destruct (ex_built_facts _ Bt) as [Lxl _].
    rewrite Ek in W, Lxu, Lxl, Lul, Luu. cbn [ex_nx ex_nin ex_nu] in *.
    assert (Ls : forall v, Some ulo = Some v -> length v = 4%nat) by (intros q K; apply Some_inj in K; rewrite <- K; auto).
    assert (Ls' : forall v, Some uup = Some v -> length v = 4%nat) by (intros q K; apply Some_inj in K; rewrite <- K; auto).
    destruct (tight_length _ _ _ _ _ Lul Luu Ls Ls') as [T1 T2].
    assert (Lp : forall (l : vec) a b, length l = 12%nat -> (b <= 12)%nat -> length (part a b l) = (b - a)%nat).
    { intros q a b Ll Hb. unfold part. rewrite firstn_length, skipn_length. lia. }
    assert (Llo : length lo = 10%nat).
    { unfold lo. rewrite !app_length, !Lp by (auto; lia). unfold vec in *. lia. }
    assert (Lup : length up = 10%nat).
    { unfold up. rewrite !app_length, !Lp by (auto; lia). unfold vec in *. lia. }
    intros x u (Hx & Hc & Hu). assert (Hb := Cb x u Hx Hc).
    destruct (layer_bound_spec solve Hsolve 10 _ _ _ _ _ W Llo Lup E1) as (z1 & z2 & _ & _ & I3 & _).
    destruct (I3 (quad_input x u)) as (K1 & K2 & _); [|auto].
    unfold lo, up, quad_input. apply in_box_app; [apply part_box; auto|].
    apply in_box_app; [apply part_box; auto|].
    assert (Lu := in_box_lengths _ _ _ Hu). apply tight_box; try tauto; unfold vec in *.
    + intros a Ha. rewrite (Ls a Ha). lia.
    + intros a Ha. rewrite (Ls' a Ha). lia.
    + split; auto. destruct Hb. split; intros q Hl; apply Some_inj in Hl; subst; auto.
  - destruct Iv as (uv & m1 & m2 & ulo & uup & rc & B & c & nn' & Ea & Ec & Q). cbv zeta in Q.
    destruct Q as (E1 & E2 & E3 & Eb & Er & _). subst r. cbn [fr_fwd] in En. apply Some_inj in En. subst nn'.
    destruct (Ctl _ _ _ _ _ _ Ea Ec) as (Cb & L1 & L2).
    destruct (branch_facts ulo uup meth0 xv uv vt m1 m2 rc B c L1 L2 Ec E1 E2) as (D & M & HD & HB & HT).
    rewrite Eb. split; auto. intros x u Hl. apply HB. apply HD; auto. destruct Hl as (? & ? & _). eauto.
Qed.

(** With one admissible state the closed loop can be built. *)
Lemma loop_total : solver_total solve -> forall st meth x0 u0, loop_state S F x0 u0 ->
  meth = meth0 -> meth <> IA_MIP -> fb_meth F <> IA_MIP ->
  system_total 12 st (quad_loop_add solve S F meth).
Proof.
  intros St st meth x0 u0 Hl Em M1 M2.
  assert (Fb : system_total 12 st (fb_add solve F)).
  { destruct Hl as (H1 & H2 & H3). eapply quad_loop_total; eauto. }
  intros vt m xv xn Vt H Bx Bn Lx Ln Nd.
  specialize (Fb vt m xv xn Vt H Bx Bn Lx Ln Nd). unfold fb_add in Fb.
  unfold quad_loop_add, quad_loop_add_ret.
  destruct (is_IA meth || is_IA (fb_meth F))%bool eqn:Ia.
  { destruct (fb_add_ret solve F xv xn vt m) as [[? ?]|]; [discriminate|congruence]. }
  assert (Lm : (LP_or_MIP meth && LP_or_MIP (fb_meth F))%bool = true).
  { destruct meth, (fb_meth F); auto; try discriminate; congruence. }
  rewrite Lm. clear Fb.
  destruct (fb_ctl F) as [N|l] eqn:Ect; [|contradiction].
  assert (Nx : f_nx (fb_fwd F) = 12%nat) by (rewrite Ef; cbn; rewrite Ek; auto).
  assert (Nu : f_nu (fb_fwd F) = 4%nat) by (rewrite Ef; cbn; rewrite Ek; auto).
  assert (Fl : f_lo (fb_fwd F) = ex_xlo S /\ f_up (fb_fwd F) = ex_xup S) by (rewrite Ef; auto).
  destruct Fl as [Fl Fu].
  assert (Vf : vle (f_lo (fb_fwd F)) (f_up (fb_fwd F))) by (rewrite Fl, Fu; auto).
  destruct (addVars (repeat (NInf, PInf) (f_nu (fb_fwd F))) VCont m) as [m1 uv] eqn:Ea.
  destruct (step_free vt st _ m m1 uv Ea H) as (Eu & Nv1 & H1 & Fr1 & Fr2).
  assert (Bx1 : below (nvars m1) xv).
  { unfold below. eapply Forall_impl; [|exact Bx]. cbv beta. intros. lia. }
  assert (Bu : below (nvars m1) uv).
  { subst uv. unfold below. apply Forall_forall. intros i Hi. apply in_seq in Hi. lia. }
  assert (Lu : length uv = f_nu (fb_fwd F)) by (subst uv; apply seq_length).
  destruct (add_controller solve F xv uv vt m1) as [[[m2 [ulo uup]] rc]|] eqn:Ec.
  2:{ exfalso. revert Ec. eapply add_controller_total; eauto. congruence. }
  destruct (controller_step solve Hsolve F st vt m1 m2 xv uv ulo uup rc) as (Cb & L1 & L2 & _); auto.
  { congruence. }
  rewrite Fl, Fu in Cb. rewrite Nu in L1, L2. cbv zeta. unfold quad_add_callback. cbv zeta.
  assert (Bt' := Bt). destruct Bt' as (W & Lxu & Lul & Luu & _). destruct (ex_built_facts _ Bt) as [Lxl _].
  rewrite Ek in W, Lxu, Lxl, Lul, Luu. cbn [ex_nx ex_nin ex_nu] in *.
  assert (Ls : forall v, Some ulo = Some v -> length v = 4%nat) by (intros q K; apply Some_inj in K; rewrite <- K; auto).
  assert (Ls' : forall v, Some uup = Some v -> length v = 4%nat) by (intros q K; apply Some_inj in K; rewrite <- K; auto).
  destruct (tight_length _ _ _ _ _ Lul Luu Ls Ls') as [T1 T2].
  set (tl := tight_lo (ex_ulo S) (Some ulo)) in *. set (tu := tight_up (ex_uup S) (Some uup)) in *.
  set (lo := part 3 6 (ex_xlo S) ++ part 9 12 (ex_xlo S) ++ tl).
  set (up := part 3 6 (ex_xup S) ++ part 9 12 (ex_xup S) ++ tu).
  assert (Lp : forall (l : vec) a b, length l = 12%nat -> (b <= 12)%nat -> length (part a b l) = (b - a)%nat).
  { intros q a b Ll Hb. unfold part. rewrite firstn_length, skipn_length. lia. }
  assert (Llo : length lo = 10%nat).
  { unfold lo. rewrite !app_length, !Lp by (auto; lia). unfold vec in *. lia. }
  assert (Lup : length up = 10%nat).
  { unfold up. rewrite !app_length, !Lp by (auto; lia). unfold vec in *. lia. }
  destruct (loop_callback solve S F tl tu) as [[p iv]|] eqn:El.
  2:{ exfalso. revert El. eapply (callback_again solve Hsolve S h meth0 F tl tu xv uv vt m1); eauto.
      - rewrite Ec. discriminate.
      - rewrite Ect. exact I. }
  assert (Hn' : is_net (fb_ctl F)) by (rewrite Ect; exact I).
  destruct (callback_spec solve Hsolve S h meth0 F tl tu p iv Bt Ek Vx Ef Bf Hn' T1 T2 El)
    as (Wp & Zp & Cc & Cs).
  assert (Rx : reach p iv lo up (quad_input x0 u0)).
  { destruct Hl as (Hx & Hc & Hu). assert (Hb := Cb _ _ Hx Hc).
    assert (Ht : in_box tl tu u0).
    { assert (Lu0 := in_box_lengths _ _ _ Hu). apply tight_box; try tauto; unfold vec in *.
      - intros a Ha. rewrite (Ls a Ha). lia.
      - intros a Ha. rewrite (Ls' a Ha). lia.
      - split; auto. destruct Hb. split; intros q Hq; apply Some_inj in Hq; subst; auto. }
    split.
    + unfold lo, up, quad_input. repeat apply in_box_app; auto; apply part_box; auto.
    + destruct (Cc x0 u0 Hx Hc Ht) as (sg & G & E). exists sg. auto. }
  destruct (callback_layer_bound solve (Some (p, iv)) meth (ex_net S) lo up) as [B|] eqn:E1.
  2:{ exfalso. revert E1. apply (cb_layer_bound_total solve Hsolve p iv 10 Wp Zp St); eauto. }
  destruct (cb_bound_spec solve Hsolve p iv 10 Wp Zp _ _ _ _ _ W Llo Lup E1) as (z1 & z2 & I1 & I2 & _).
  destruct (encoding_given_bounds 10 (ex_net S) _ _ _ _ W Llo Lup I1 I2) as (c & E2 & _).
  rewrite E2.
  assert (M := given_bounds_on solve Hsolve 10 p iv meth (ex_net S) lo up c B W Wp Zp Llo Lup E1 E2).
  unfold quad_given. destruct (add_mic c _ None NewBinary vt m2) as [[? ?] ?].
  destruct (net_affine_on _ _ _ _ _ _ M) as (A & EA & _ & EC & _).
  unfold ex_out. destruct (no_aout _ _ _ _ _ _ M) as [Ei Eb]. rewrite Ei, Eb, EA, EC. discriminate.
Qed.

End Branch.

(** ** Methods that raise *)

Lemma loop_mixed : forall S F meth xv xn vt m, meth <> IA -> fb_meth F <> IA ->
  (meth = IA_MIP \/ fb_meth F = IA_MIP) -> quad_loop_add solve S F meth xv xn vt m = None.
Proof.
  intros S F meth xv xn vt m H1 H2 H3. unfold quad_loop_add, quad_loop_add_ret.
  destruct meth, (fb_meth F); try congruence; cbn; auto; destruct H3; discriminate.
Qed.
Lemma loop_linear : forall S F meth xv xn vt m, meth <> IA -> fb_meth F <> IA -> ~ is_net (fb_ctl F) ->
  quad_loop_add solve S F meth xv xn vt m = None.
Proof.
  intros S F meth xv xn vt m H1 H2 H3. unfold quad_loop_add, quad_loop_add_ret.
  destruct (fb_ctl F); [destruct H3; exact I|].
  destruct meth, (fb_meth F); try congruence; cbn; auto.
Qed.

End Solver.
