(** Strengthening of closed loops (C29) — lemmas. *)

Require Import Reals List Bool Arith Lra Lia Psatz.
Require Import Verif.Vec Verif.VecFacts Verif.ModelMip Verif.SpecMip
  Verif.ModelUtils Verif.ModelGrad Verif.ModelNet Verif.SpecCore Verif.SpecUtils Verif.SpecNet
  Verif.ModelPattern Verif.ModelStrengthen
  Verif.ProofUtils Verif.ProofGrad Verif.ProofMip Verif.ProofTorch Verif.ProofNet
  Verif.SpecStep Verif.ProofStep Verif.ModelLyapunov Verif.SpecLyapunov Verif.ProofNetStep
  Verif.ProofLyapunov Verif.ProofLyapCert Verif.ProofStrengthen Verif.ProofLyapStrengthen
  Verif.ModelHybrid Verif.ModelSystems Verif.SpecSystems Verif.ProofSystems Verif.ProofSystems2
  Verif.ProofFeedback Verif.ProofNetTotal Verif.ProofNetBounds Verif.ProofMaxBox Verif.ProofSat Verif.ProofConcat Verif.ProofBounds Verif.ProofWarm Verif.SpecHybrid Verif.ProofMilp Verif.ProofRoa Verif.ProofSatStep Verif.ProofHybrid Verif.ProofHybrid2 Verif.ProofDynamics Verif.ModelFeedbackCuts Verif.SpecFeedbackCuts.
Import ListNotations.
Open Scope R_scope.

Lemma gfeas_push_rows : forall A vs s b m sg, gfeas (push_rows A vs s b m) sg -> gfeas m sg.
Proof.
  induction A as [|row A IH]; intros vs s b m sg G; [exact G|].
  destruct b; [exact G|]. cbn [push_rows] in G. apply IH in G.
  destruct G as [G1 G2]. unfold push_row in *. split.
  - intros i v Hi. apply G1. destruct s; exact Hi.
  - destruct s; cbn in G2; rewrite Forall_app in G2; tauto.
Qed.
Lemma feas_addM_down : forall vt As xs s b m sg, feas vt (addMConstr As xs s b m) sg -> feas vt m sg.
Proof.
  intros vt As xs s b m sg [G Z]. rewrite zeta_addMConstr in Z. split; auto.
  unfold addMConstr in G. eapply gfeas_push_rows; eauto.
Qed.

Lemma setObjective_feas : forall vt cs vs k mx m m' sg,
  setObjective cs vs k mx m = Some m' -> feas vt m' sg -> feas vt m sg.
Proof.
  intros vt cs vs k mx m m' sg E G. unfold setObjective in E. destruct (negb _); [discriminate|].
  destruct (nodupb _); [|discriminate]. injection E as <-. exact G.
Qed.

Section Solver.
Variable solve : mip -> gresult.
Hypothesis Hsolve : solver_ok solve.

(** The returned variables carry the encoding of the network. *)
Definition carries (meth : method) (N : network) (r : nn_ret) (P : assignment -> Prop) : Prop :=
  exists n c out, net_wf n N /\ length (nn_lo r) = n /\ length (nn_up r) = n /\
    output_constraint solve meth N (nn_lo r) (nn_up r) = Some (c, nn_bounds r, out) /\
    length (nn_in r) = n /\ length (nn_z r) = num_units (hidden N) /\
    length (nn_be r) = num_units (hidden N) /\
    forall sg, P sg -> bins (map sg (nn_be r)) /\
      mic_sat c (map sg (nn_in r)) (map sg (nn_z r)) (map sg (nn_be r)).

Lemma carries_weaken : forall meth N r (P P' : assignment -> Prop), carries meth N r P ->
  (forall sg, P' sg -> P sg) -> carries meth N r P'.
Proof.
  intros meth N r P P' (n & c & out & A1 & A2 & A3 & A4 & A5 & A6 & A7 & A8) K.
  exists n, c, out. repeat (split; auto); apply A8; auto.
Qed.

Lemma ctl_carries : forall C st vt m m' xv xn uv alo aup r,
  ctl_built C -> vt <> VCont -> history st m ->
  below (nvars m) xv -> below (nvars m) xn -> below (nvars m) uv ->
  length xv = ct_nx C -> length xn = ct_nx C -> length uv = ct_nu C ->
  (forall a, alo = Some a -> length a = ct_nu C) -> (forall a, aup = Some a -> length a = ct_nu C) ->
  ctl_add_ret solve C xv xn uv alo aup vt m = Some (m', r) ->
  carries IA (ct_net C) r (feas vt m').
Proof.
  intros C st vt m m' xv xn uv alo aup r Bt Vt H Bx Bn Bu Lx Ln Lu La Lb E.
  assert (St := ctl_add_step solve Hsolve C st vt m m' xv xn uv alo aup r Bt Vt H Bx Bn Bu Lx Ln Lu La Lb E).
  destruct (ctl_built_facts _ Bt) as (Lx' & Lu' & _ & _ & Kf).
  destruct (tight_length _ _ _ _ (ct_nu C) eq_refl Lu' La Lb) as [T1 T2].
  assert (W0 := Bt). destruct W0 as (W & _).
  assert (Plain : (match ct_kind C with CResidue _ _ _ _ => False | _ => True end) ->
    x_size (ct_net C) = (ct_nx C + ct_nu C)%nat ->
    (match ctl_mic solve C (tight_lo (ct_ulo C) alo) (tight_up (ct_uup C) aup) with
     | None => None
     | Some (c, B) =>
         let '(m', z, be) := add_mic c (xv ++ uv) (Some xn) NewBinary vt m in
         Some (m', mkNN (xv ++ uv) z be (ct_xlo C ++ tight_lo (ct_ulo C) alo)
                     (ct_xup C ++ tight_up (ct_uup C) aup) B)
     end = Some (m', r)) -> carries IA (ct_net C) r (feas vt m')).
  { intros Kd Xs E0.
    destruct (ctl_mic solve C (tight_lo (ct_ulo C) alo) (tight_up (ct_uup C) aup)) as [[c B]|] eqn:Ec;
      [|discriminate].
    destruct (add_mic c (xv ++ uv) (Some xn) NewBinary vt m) as [[m1 z] be] eqn:Em.
    apply Some_inj in E0. apply pair_equal_spec in E0. destruct E0 as [-> <-].
    destruct (ctl_mic_form _ Hsolve _ _ _ _ _ Bt T1 T2 Ec) as (c0 & out & Ai & As & K & Eo & M & -> & W1 & W2 & LC & _).
    destruct (out_step st _ _ _ _ _ _ Ai As K (xv ++ uv) xn vt m m' z be M W1 W2 LC H) as (Z1 & Z2 & _ & S4); auto.
    { apply below_app; auto. }
    { rewrite app_length; lia. }
    exists (ct_nx C + ct_nu C)%nat, c0, out. cbn [nn_in nn_z nn_be nn_lo nn_up nn_bounds].
    rewrite Xs in W. split; auto.
    split; [rewrite app_length; unfold ct_nx, vec in *; lia|].
    split; [rewrite app_length; unfold ct_nx, vec in *; lia|].
    split; [exact Eo|]. split; [rewrite app_length; lia|].
    split; [subst z; apply seq_length|]. split; [subst be; apply seq_length|].
    destruct S4 as (_ & _ & S4 & _). intros sg G. apply S4 in G. tauto. }
  unfold ctl_add_ret in E.
  destruct (ct_kind C) as [|xe ue d|qe ue dt|qe ue dt idx] eqn:Ek.
  - apply Plain; auto. unfold kind_facts in Kf. rewrite Ek in Kf. apply Kf.
  - apply Plain; auto. unfold kind_facts in Kf. rewrite Ek in Kf. apply Kf.
  - apply Plain; auto. unfold kind_facts in Kf. rewrite Ek in Kf. apply Kf.
  - clear Plain. unfold kind_facts in Kf. rewrite Ek in Kf.
    destruct Kf as (K1 & K2 & K3 & K4 & K5 & K6).
    destruct (gather idx (ct_xlo C)) as [xlo|] eqn:G1; [|discriminate].
    destruct (gather idx (ct_xup C)) as [xup|] eqn:G2; [|discriminate].
    destruct (gather idx xv) as [xi|] eqn:G3; [|discriminate].
    destruct (gather idx (qe ++ zeros (ct_nv C))) as [xei|] eqn:G4; [|discriminate].
    destruct (output_constraint solve IA (ct_net C) (xlo ++ tight_lo (ct_ulo C) alo)
               (xup ++ tight_up (ct_uup C) aup)) as [[[c B] out]|] eqn:Eo; [|discriminate].
    destruct (add_mic c (xi ++ uv) None NewBinary vt m) as [[m1 z] be] eqn:Em.
    set (ni := (length idx + ct_nu C)%nat) in *. rewrite K1 in W.
    assert (L1 : length (xlo ++ tight_lo (ct_ulo C) alo) = ni).
    { rewrite app_length, (gather_length _ _ _ G1). unfold ni, vec in *. lia. }
    assert (L2 : length (xup ++ tight_up (ct_uup C) aup) = ni).
    { rewrite app_length, (gather_length _ _ _ G2). unfold ni, vec in *. lia. }
    assert (M := output_constraint_mic solve Hsolve ni _ _ _ _ _ _ _ W L1 L2 Eo).
    destruct (net_affine _ _ _ _ _ M) as (Am & EA & WA & EC & LC & F).
    destruct (nm_aout _ _ _ _ _ M) as [Ei Eb].
    rewrite Ei, Eb, EA, EC in E.
    destruct (Nat.eqb (ct_nq C) (ct_nv C)) eqn:Eq; [|discriminate].
    apply Some_inj in E. apply pair_equal_spec in E. destruct E as [E <-].
    assert (Lxi : length xi = length idx) by (eapply gather_length; eauto).
    assert (Bxi : below (nvars m) (xi ++ uv)).
    { apply below_app. split; auto. apply (below_gather _ idx xv); auto. }
    assert (Lxu : length (xi ++ uv) = ni) by (rewrite app_length; unfold ni; lia).
    destruct (net_step st ni _ _ _ _ (xi ++ uv) vt m m1 z be M H Bxi Lxu Vt Em) as (Z1 & Z2 & Nv & S1).
    exists ni, c, out. cbn [nn_in nn_z nn_be nn_lo nn_up nn_bounds].
    split; auto. split; auto. split; auto. split; auto. split; auto.
    split; [subst z; apply seq_length|]. split; [subst be; apply seq_length|].
    intros sg G. destruct S1 as (_ & _ & S1 & _).
    assert (G1' : feas vt m1 sg).
    { subst m'. apply feas_addM_down in G. apply feas_addM_down in G. exact G. }
    apply S1 in G1'. tauto.
Qed.

Lemma controller_carries : forall F st vt m m' xv uv ulo uup rc r, feedback_built F -> vt <> VCont ->
  history st m -> below (nvars m) xv -> below (nvars m) uv ->
  length xv = f_nx (fb_fwd F) -> length uv = f_nu (fb_fwd F) ->
  vle (f_lo (fb_fwd F)) (f_up (fb_fwd F)) ->
  add_controller solve F xv uv vt m = Some (m', (ulo, uup), rc) -> rc = Some r ->
  exists N, fb_ctl F = CtlNet N /\ nn_lo r = f_lo (fb_fwd F) /\ nn_up r = f_up (fb_fwd F) /\
    carries (fb_meth F) N r (feas vt m').
Proof.
  intros F st vt m m' xv uv ulo uup rc r (Cw & Ll & Lp & Hl & Bt) Vt H Bx Bu Lx Lu Hv E Hrc.
  destruct (feedback_facts F Bt) as (Fx & Fu & Flo & Fup).
  assert (CL := controller_length F Cw Bt).
  unfold add_controller in E.
  destruct (fb_ctl F) as [N|l] eqn:Ek.
  2:{ destruct (addVars (repeat (NInf, PInf) (f_nu (fb_fwd F))) VCont m) as [m1 pv].
      cbv zeta in E. destruct (propagate_linear _ _ _) as [[olo oup]|]; [|discriminate].
      match type of E with match ?X with _ => _ end = _ => destruct X as [[m4 b]|]; [|discriminate] end.
      apply Some_inj in E. apply pair_equal_spec in E. destruct E as [_ E]. congruence. }
  destruct Cw as [W On].
  destruct (compute_layer_bound solve (fb_meth F) N (f_lo (fb_fwd F)) (f_up (fb_fwd F))) as [B|] eqn:E1;
    [|discriminate].
  destruct (compute_network_output_bounds solve (fb_meth F) N (b_pre_lo B) (b_pre_up B)
     (f_lo (fb_fwd F)) (f_up (fb_fwd F))) as [[olo oup]|] eqn:E2; [|discriminate].
  destruct (output_constraint_given_bounds N (b_pre_lo B) (b_pre_up B) (f_lo (fb_fwd F))
     (f_up (fb_fwd F))) as [c|] eqn:E3; [|discriminate].
  assert (Eo : output_constraint solve (fb_meth F) N (f_lo (fb_fwd F)) (f_up (fb_fwd F))
               = Some (c, B, (olo, oup))).
  { unfold output_constraint. apply vleb_spec in Hv. rewrite Hv. cbn [negb]. rewrite E1, E2, E3. auto. }
  assert (M := output_constraint_mic solve Hsolve _ _ _ _ _ _ _ _ W Ll Lp Eo).
  destruct (network_bounds solve Hsolve _ _ _ _ _ _ _ _ _ W Ll Lp Eo) as [Nb _].
  destruct (net_affine _ _ _ _ _ M) as (A & EA & WA & EC & LC & FA).
  destruct (nm_aout _ _ _ _ _ M) as [Ei Eb]. rewrite Ei, Eb, EA, EC in E.
  destruct (add_mic c xv None NewBinary vt m) as [[m1 z] be] eqn:Em.
  destruct (addVars (repeat (NInf, PInf) (f_nu (fb_fwd F))) VCont m1) as [m2 pv] eqn:Ef.
  set (eqv := forward N (fb_xeq F)) in *. cbv zeta in E.
  match type of E with match ?X with _ => _ end = _ => destruct X as [[m4 b]|] eqn:Es; [|discriminate] end.
  apply Some_inj in E. apply pair_equal_spec in E. destruct E as [E Er].
  apply pair_equal_spec in E. destruct E as [-> ->].
  destruct (net_step st _ _ _ _ _ xv vt m m1 z be M H Bx Lx Vt Em) as (Z1 & Z2 & Nv1 & S1).
  destruct (step_free vt st _ m1 m2 pv Ef ltac:(apply S1)) as (Ep & Nv2 & H2 & Fr1 & _).
  assert (Leq : length eqv = f_nu (fb_fwd F)) by (apply (CL _ Fx)).
  set (rhs := vsub (vsub eqv (fb_ueq F)) (bias_of (last_layer N))) in *.
  assert (Lr : length rhs = f_nu (fb_fwd F)).
  { unfold rhs. rewrite vsub_length; rewrite vsub_length; congruence. }
  destruct (step_addM vt st [A; eyek (f_nu (fb_fwd F)) (-1)] [z; pv] SEq rhs m2) as (H3 & N3 & F3); auto.
  { discriminate. }
  { rewrite Lr. cbn [combine]. constructor; [|constructor; [|constructor]]; cbn [fst snd].
    - subst z. rewrite seq_length, <- On. exact WA.
    - subst pv. rewrite seq_length. apply wfm_eyek. }
  { cbn. rewrite app_nil_r. apply below_app. subst z pv. unfold below.
    split; apply Forall_forall; intros i Hi; apply in_seq in Hi; lia. }
  assert (Lolo : length olo = f_nu (fb_fwd F) /\ length oup = f_nu (fb_fwd F)).
  { assert (Ip : in_box (f_lo (fb_fwd F)) (f_up (fb_fwd F)) (f_lo (fb_fwd F)))
      by (split; [apply (box_refl (f_lo (fb_fwd F)))|exact Hv]).
    destruct (Nb _ Ip) as (_ & _ & K). apply in_box_lengths in K.
    rewrite (net_eval_length _ _ _ W Ll), On in K. exact K. }
  destruct Lolo as [Lo1 Lo2].
  match type of Es with add_input_saturation _ _ _ _ _ _ _ ?m3 = _ =>
  destruct (saturation_block vt Vt st uv pv (fb_lower F) (fb_upper F)
    (vadd (vsub olo eqv) (fb_ueq F)) (vadd (vsub oup eqv) (fb_ueq F)) m3 m' ulo uup Es H3)
    as (_ & _ & _ & _ & _ & T3 & _) end.
  { rewrite N3. unfold below. eapply Forall_impl; [|exact Bu]. cbv beta. intros; lia. }
  { rewrite N3. subst pv. unfold below. apply Forall_forall. intros i Hi. apply in_seq in Hi. lia. }
  { exact Hl. }
  { subst pv. rewrite seq_length. congruence. }
  { congruence. }
  { rewrite vadd_length; rewrite vsub_length; congruence. }
  { rewrite vadd_length; rewrite vsub_length; congruence. }
  subst rc. apply Some_inj in Hrc. subst r. cbn [nn_lo nn_up].
  exists N. split; auto. split; auto. split; auto.
  exists (f_nx (fb_fwd F)), c, (olo, oup). cbn [nn_in nn_z nn_be nn_lo nn_up nn_bounds].
  split; auto. split; auto. split; auto. split; auto. split; auto.
  split; [subst z; apply seq_length|]. split; [subst be; apply seq_length|].
  intros sg G. apply T3 in G. destruct G as [G _]. apply F3 in G. destruct G as [G _].
  apply Fr1 in G. destruct S1 as (_ & _ & S1 & _). apply S1 in G. tauto.
Qed.

(** What the constraints of a forward system return. *)
Definition fwd_carries (st : bool) (f : fwd_sys) (fwd_net : option network) : Prop :=
  forall vt m m' xv xn uv alo aup rf, vt <> VCont -> history st m ->
    below (nvars m) xv -> below (nvars m) xn -> below (nvars m) uv ->
    length xv = f_nx f -> length xn = f_nx f -> length uv = f_nu f ->
    length alo = f_nu f -> length aup = f_nu f ->
    f_add f xv xn uv (Some alo) (Some aup) vt m = Some (m', Some rf) ->
    exists N meth, fwd_net = Some N /\ no_slope_one (hidden N) /\ carries meth N rf (feas vt m').

Lemma ctl_fwd_carries : forall st C, ctl_built C -> no_slope_one (hidden (ct_net C)) ->
  fwd_carries st (ctl_fwd solve C) (Some (ct_net C)).
Proof.
  intros st C Bt O vt m m' xv xn uv alo aup rf Vt H Bx Bn Bu Lx Ln Lu La Lb E.
  cbn [ctl_fwd f_add f_nx f_nu] in *.
  destruct (ctl_add_ret solve C xv xn uv (Some alo) (Some aup) vt m) as [[m1 r1]|] eqn:Ea; [|discriminate].
  apply Some_inj in E. apply pair_equal_spec in E. destruct E as [-> E]. apply Some_inj in E. subst r1.
  exists (ct_net C), IA. split; auto. split; auto.
  apply (ctl_carries C st vt m m' xv xn uv (Some alo) (Some aup) rf); auto.
  - intros a Ha. apply Some_inj in Ha. subst a. exact La.
  - intros a Ha. apply Some_inj in Ha. subst a. exact Lb.
Qed.
Lemma hybrid_fwd_carries : forall st h f net, hybrid_fwd h = Some f -> fwd_carries st f net.
Proof.
  intros st h f net Ef vt m m' xv xn uv alo aup rf _ _ _ _ _ _ _ _ _ _ E.
  unfold hybrid_fwd in Ef. destruct (all_some _) as [lo|]; [|discriminate].
  destruct (all_some _) as [up|]; [|discriminate]. apply Some_inj in Ef. subst f. cbn [f_add] in E.
  destruct (hybrid_add_dynamics _ _ _ _ _ _) as [m1|]; [|discriminate].
  apply Some_inj in E. apply pair_equal_spec in E. destruct E as [_ E]. discriminate.
Qed.

Lemma loop_carries : forall F Tf net st vt m m' xv xn r, feedback_built F -> vt <> VCont ->
  forward_contract st (fb_fwd F) Tf -> fwd_carries st (fb_fwd F) net ->
  vle (f_lo (fb_fwd F)) (f_up (fb_fwd F)) ->
  history st m -> below (nvars m) xv -> below (nvars m) xn ->
  length xv = f_nx (fb_fwd F) -> length xn = f_nx (fb_fwd F) ->
  fb_add_ret solve F xv xn vt m = Some (m', r) ->
  (forall rf, fr_fwd r = Some rf -> exists N meth, net = Some N /\ no_slope_one (hidden N) /\
     carries meth N rf (feas vt m')) /\
  (forall rc, fr_ctl r = Some rc -> exists N, fb_ctl F = CtlNet N /\
     nn_lo rc = f_lo (fb_fwd F) /\ nn_up rc = f_up (fb_fwd F) /\
     carries (fb_meth F) N rc (feas vt m')).
Proof.
  intros F Tf net st vt m m' xv xn r Bt Vt Hf Hc Hv H Bx Bn Lx Ln E. unfold fb_add_ret in E.
  destruct (addVars (repeat (NInf, PInf) (f_nu (fb_fwd F))) VCont m) as [m1 uv] eqn:Ef.
  destruct (add_controller solve F xv uv vt m1) as [[[m2 [ulo uup]] rc]|] eqn:Ec; [|discriminate].
  destruct (f_add (fb_fwd F) xv xn uv (Some ulo) (Some uup) vt m2) as [[m3 rf]|] eqn:Ea; [|discriminate].
  apply Some_inj in E. apply pair_equal_spec in E. destruct E as [-> <-]. cbn [fr_fwd fr_ctl].
  destruct (step_free vt st _ m m1 uv Ef H) as (Eu & Nv1 & H1 & Fr1 & Fr2).
  assert (Up : forall a b l, (a <= b)%nat -> below a l -> below b l).
  { unfold below. intros a b l Hab Hl. eapply Forall_impl; [|exact Hl]. cbv beta. intros. lia. }
  assert (Bu : below (nvars m1) uv).
  { subst uv. unfold below. apply Forall_forall. intros i Hi. apply in_seq in Hi. lia. }
  assert (Lu : length uv = f_nu (fb_fwd F)) by (subst uv; apply seq_length).
  assert (Bx1 : below (nvars m1) xv) by (apply (Up (nvars m)); auto; lia).
  destruct (controller_step solve Hsolve F st vt m1 m2 xv uv ulo uup rc Bt Vt H1 Bx1 Bu Lx Lu Hv Ec)
    as (Cb & L1 & L2 & C1 & C2 & C3 & C4).
  assert (Bx2 : below (nvars m2) xv) by (apply (Up (nvars m1)); auto).
  assert (Bn2 : below (nvars m2) xn) by (apply (Up (nvars m)); auto; lia).
  assert (Bu2 : below (nvars m2) uv) by (apply (Up (nvars m1)); auto).
  split.
  - intros rf0 Erf. subst rf.
    exact (Hc vt m2 m' xv xn uv ulo uup rf0 Vt C2 Bx2 Bn2 Bu2 Lx Ln Lu L1 L2 Ea).
  - intros rc0 Erc.
    destruct (controller_carries F st vt m1 m2 xv uv ulo uup rc rc0 Bt Vt H1 Bx1 Bu Lx Lu Hv Ec Erc)
      as (N & A1 & A2 & A3 & A4).
    exists N. split; auto. split; auto. split; auto.
    eapply carries_weaken; [exact A4|].
    destruct (Hf vt m2 m' xv xn uv ulo uup rf Vt C2 Bx2 Bn2 Bu2 Lx Ln Lu L1 L2 Ea) as (_ & _ & D3 & _).
    intros sg G. apply D3 in G. tauto.
Qed.

(** ** The cuts keep the points of the program *)

Lemma same_cuts : forall N xv sv bv lo up plo pup sol m1 m2,
  strengthen_relu_mip_at_solution N xv sv bv lo up plo pup sol m1 = Some m2 ->
  zeta_ m2 = zeta_ m1 /\ nvars m2 = nvars m1 /\ same_obj m1 m2.
Proof.
  intros N xv sv bv lo up plo pup sol m1 m2 E. unfold strengthen_relu_mip_at_solution in E.
  destruct (strengthen_mip_at_point _ _ _ _ _) as [[k|]|]; [| |discriminate].
  - injection E as <-. split; [apply zeta_addMConstr|]. split; [apply nvars_addMConstr|apply push_rows_obj].
  - injection E as <-. split; auto. split; auto. apply same_obj_refl.
Qed.

Lemma nn_cuts_ok : forall meth N r P, no_slope_one (hidden N) -> carries meth N r P ->
  cuts_ok (nn_cuts N r) P.
Proof.
  intros meth N r P O (n & c & out & W & L1 & L2 & Eo & Lx & Lz & Lb & K) sol m1 m2 E.
  unfold nn_cuts in E. destruct (same_cuts _ _ _ _ _ _ _ _ _ _ _ E) as (Z1 & Z2 & Z3 & Z4 & Z5).
  destruct (program_kept solve Hsolve n meth N _ _ c _ out _ _ _ sol m1 m2 W O L1 L2 Eo Lx Lz Lb E) as [K1 K2].
  split; auto. split; [|repeat split; auto].
  intros sg G Hp. destruct (K sg Hp) as [Hb Hm]. apply (K2 sg Hb Hm). exact G.
Qed.

Lemma cuts_ok_seq : forall f g P, cuts_ok f P -> cuts_ok g P ->
  cuts_ok (fun sol m => match f sol m with Some m1 => g sol m1 | None => None end) P.
Proof.
  intros f g P Hf Hg sol m1 m2 E. destruct (f sol m1) as [m0|] eqn:Ef; [|discriminate].
  destruct (Hf sol m1 m0 Ef) as (A1 & A2 & A3 & A4 & A5 & A6 & A7).
  destruct (Hg sol m0 m2 E) as (B1 & B2 & B3 & B4 & B5 & B6 & B7).
  split; auto. split; [intros; apply B2; auto|]. repeat split; congruence.
Qed.
Lemma cuts_ok_id : forall P, cuts_ok (fun _ m => Some m) P.
Proof. intros P sol m1 m2 E. injection E as <-. split; auto. split; auto 10. Qed.
Lemma cuts_ok_none : forall P, cuts_ok (fun _ _ => None) P.
Proof. intros P sol m1 m2 E. discriminate. Qed.

Lemma fb_cuts_ok : forall F net r P, controller_slopes (fb_ctl F) ->
  (forall rf, fr_fwd r = Some rf -> exists N meth, net = Some N /\ no_slope_one (hidden N) /\
     carries meth N rf P) ->
  (forall rc, fr_ctl r = Some rc -> exists N, fb_ctl F = CtlNet N /\
     nn_lo rc = f_lo (fb_fwd F) /\ nn_up rc = f_up (fb_fwd F) /\
     carries (fb_meth F) N rc P) ->
  cuts_ok (fb_cuts net F r) P.
Proof.
  intros F net r P Hs H1 H2.
  apply (cuts_ok_seq (fun sol m => match fr_fwd r with
         | None => Some m
         | Some rf => match net with Some N => nn_cuts N rf sol m | None => None end
         end)
       (fun sol m1 => match fr_ctl r with
      | None => Some m1
      | Some rc => controller_cuts F rc sol m1
      end)).
  - destruct (fr_fwd r) as [rf|]; [|apply cuts_ok_id].
    destruct (H1 rf eq_refl) as (N & meth & -> & O & C). exact (nn_cuts_ok meth N rf P O C).
  - destruct (fr_ctl r) as [rc|]; [|apply cuts_ok_id].
    destruct (H2 rc eq_refl) as (N & Ek & E1 & E2 & C).
    assert (K := nn_cuts_ok _ N rc P ltac:(rewrite Ek in Hs; exact Hs) C).
    unfold controller_cuts. rewrite Ek, <- E1, <- E2. exact K.
Qed.

(** ** Inside the decrease program *)

Section Program.
Variable meth : method.
Variable N : network.
Variable n : nat.
Variables x_lo x_up : vec.
Variable R0 : option mat.
Variable xeq : vec.
Hypothesis Args : lyap_args n N x_lo x_up R0 xeq.
Variables lam eps : R.
Variable st : bool.
Variable add_system : list nat -> list nat -> vtype -> mip -> option mip.
Variable T : vec -> vec -> Prop.
Hypothesis Hsys : system_contract n st add_system T.
Variable et : eps_type.
Variables lower upper : option R.
Variable vt : vtype.
Hypothesis Hvt : vt <> VCont.

(** The points of the decrease program satisfy the constraints of the system
    as they were added. *)
Lemma derivative_prefix : forall d m0 xn m1 xv,
  derivative_milp solve meth N n x_lo x_up add_system xeq lam eps et R0 lower upper vt = Some d ->
  addVars (repeat (NInf, PInf) n) VCont init_mip = (m0, xn) ->
  addVars (repeat (NInf, PInf) n) VCont m0 = (m1, xv) ->
  exists m2, add_system xv xn vt m1 = Some m2 /\
    forall sg, feas vt (d_mip d) sg -> feas vt m2 sg.
Proof.
  intros d m0 xn m1 xv E E0 E1. destruct Args as [W Ho Hu L1 L2 WR Lr Hq]. assert (Lq := in_box_length n _ _ _ Hq L1).
  unfold derivative_milp in E. rewrite get_R_ok in E by exact WR. rewrite E0, E1 in E.
  destruct (step_free vt st n _ _ _ E0 (h_init st)) as (A1 & A2 & A3 & A4 & A5).
  destruct (step_free vt st n _ _ _ E1 A3) as (B1 & B2 & B3 & B4 & B5).
  assert (Bn : below (nvars m1) xn) by (rewrite A1; apply below_seq; lia).
  assert (Bv : below (nvars m1) xv) by (rewrite B1; apply below_seq; lia).
  assert (Ln : length xn = n) by (rewrite A1; apply seq_length).
  assert (Lv : length xv = n) by (rewrite B1; apply seq_length).
  assert (ND : NoDup (xv ++ xn)).
  { apply (fresh_disj n (n + n) 0 n); auto.
    - rewrite B1, A2. apply fresh_seq. simpl. lia.
    - rewrite A1. apply fresh_seq. simpl. lia. }
  destruct (add_system xv xn vt m1) as [m2|] eqn:E2; [|discriminate].
  exists m2. split; auto.
  assert (S2 := Hsys vt m1 m2 xv xn Hvt B3 Bv Bn Lv Ln ND E2).
  destruct (add_relu_output solve meth N x_lo x_up xv vt m2) as [[m3 rr]|] eqn:E3; [|discriminate].
  rewrite (scalar_phi n) in E by auto.
  assert (V2 : (nvars m1 <= nvars m2)%nat) by apply S2.
  destruct (relu_output_step solve Hsolve meth N n x_lo x_up W Ho L1 L2 st xv vt m2 m3 rr
    (proj1 (proj2 S2)) (below_weaken _ _ _ Bv V2) Lv Hvt E3) as (P1 & P2 & P3 & P4 & P5 & S3).
  assert (V3 : (nvars m2 <= nvars m3)%nat) by apply S3.
  assert (Bv3 : below (nvars m3) xv) by (apply (below_weaken _ _ _ Bv); lia).
  destruct (add_state_error n x_lo x_up false xeq (Some (R_of n R0)) xv vt m3) as [[[m4 s] al]|] eqn:E4; [|discriminate].
  destruct (state_error_step n x_lo x_up L1 L2 (Some (R_of n R0)) xeq WR st _ _ _ _ _ _ _ E4
    (proj1 (proj2 S3)) Bv3 Lv Hvt) as (K1 & K2 & _ & _ & S4).
  assert (V4 : (nvars m3 <= nvars m4)%nat) by apply S4.
  assert (Bn4 : below (nvars m4) xn) by (apply (below_weaken _ _ _ Bn); lia).
  destruct (add_state_error n x_lo x_up false xeq (Some (R_of n R0)) xn vt m4) as [[[m5 sn] aln]|] eqn:E5; [|discriminate].
  destruct (state_error_step n x_lo x_up L1 L2 (Some (R_of n R0)) xeq WR st _ _ _ _ _ _ _ E5
    (proj1 (proj2 S4)) Bn4 Ln Hvt) as (K3 & K4 & _ & _ & S5).
  assert (V5 : (nvars m4 <= nvars m5)%nat) by apply S5.
  destruct (value_bounds_step lam vt st lower upper (ret_a rr) (ret_b rr) (ret_z rr) (phi N xeq) s m5
    (proj1 (proj2 S5)) P3) as (m6 & E6 & V6 & H6 & G6).
  { apply Forall_app. split.
    - apply fresh_below in P1. apply (below_weaken _ _ _ P1). lia.
    - apply fresh_below in K1. apply (below_weaken _ _ _ K1). lia. }
  { eapply fresh_disj; eauto. }
  rewrite E6 in E.
  assert (Bn6 : below (nvars m6) xn) by (apply (below_weaken _ _ _ Bn); lia).
  destruct (add_relu_output solve meth N x_lo x_up xn vt m6) as [[m7 rn]|] eqn:E7; [|discriminate].
  destruct (relu_output_step solve Hsolve meth N n x_lo x_up W Ho L1 L2 st xn vt m6 m7 rn
    H6 Bn6 Ln Hvt E7) as (Q1 & Q2 & Q3 & Q4 & Q5 & S7).
  destruct (derivative_objective et eps lam (ret_a rr) (ret_b rr) (phi N xeq) (length (R_of n R0))) as [cs k].
  destruct (setObjective cs [ret_z rn; ret_z rr; sn; s] k true m7) as [m8|] eqn:E8; [|discriminate].
  apply Some_inj in E. subst d. cbn [d_mip]. intros sg G.
  assert (G7 : feas vt m7 sg) by (eapply setObjective_feas; eauto).
  destruct S7 as (_ & _ & S7 & _). apply S7 in G7. destruct G7 as [G7 _]. apply G6 in G7.
  destruct G7 as [G5 _]. destruct S5 as (_ & _ & S5 & _). apply S5 in G5. destruct G5 as [G4 _].
  destruct S4 as (_ & _ & S4 & _). apply S4 in G4. destruct G4 as [G3 _].
  destruct S3 as (_ & _ & S3 & _). apply S3 in G3. tauto.
Qed.
End Program.

Lemma loop_cuts_ok : forall F Tf net st, feedback_built F ->
  forward_contract st (fb_fwd F) Tf -> vle (f_lo (fb_fwd F)) (f_up (fb_fwd F)) ->
  (is_net (fb_ctl F) \/ confines (fb_fwd F) Tf) ->
  fwd_carries st (fb_fwd F) net -> controller_slopes (fb_ctl F) ->
  forall meth N x_lo x_up R0 xeq, lyap_args (f_nx (fb_fwd F)) N x_lo x_up R0 xeq ->
  forall lam eps et lower upper d0,
  derivative_milp solve meth N (f_nx (fb_fwd F)) x_lo x_up (fb_add solve F) xeq lam eps et R0
    lower upper VBinRelax = Some d0 ->
  cuts_ok (fb_sys_cuts solve net F) (feas VBinRelax (d_mip d0)).
Proof.
  intros F Tf net st Bt Hf Hv Hc Hn Hs meth N x_lo x_up R0 xeq Args lam eps et lower upper d0 E.
  set (n := f_nx (fb_fwd F)) in *.
  assert (Sc := feedback_contract solve Hsolve F Tf st Bt Hf Hv Hc).
  unfold fb_sys_cuts, fb_system_return. fold n.
  destruct (addVars (repeat (NInf, PInf) n) VCont init_mip) as [m0 xn] eqn:E0.
  destruct (addVars (repeat (NInf, PInf) n) VCont m0) as [m1 xv] eqn:E1.
  destruct (derivative_prefix meth N n x_lo x_up R0 xeq Args lam eps st (fb_add solve F) _ Sc et
    lower upper VBinRelax ltac:(discriminate) d0 m0 xn m1 xv E E0 E1) as (m2 & E2 & Hd).
  unfold fb_add in E2.
  destruct (fb_add_ret solve F xv xn VBinRelax m1) as [[m2' r]|] eqn:Er; [|discriminate].
  apply Some_inj in E2. subst m2'.
  destruct (step_free VBinRelax st n _ _ _ E0 (h_init st)) as (A1 & A2 & A3 & A4 & A5).
  destruct (step_free VBinRelax st n _ _ _ E1 A3) as (B1 & B2 & B3 & B4 & B5).
  assert (Bn : below (nvars m1) xn) by (rewrite A1; apply below_seq; lia).
  assert (Bv : below (nvars m1) xv) by (rewrite B1; apply below_seq; lia).
  assert (Ln : length xn = n) by (rewrite A1; apply seq_length).
  assert (Lv : length xv = n) by (rewrite B1; apply seq_length).
  destruct (loop_carries F Tf net st VBinRelax m1 m2 xv xn r Bt ltac:(discriminate) Hf Hn Hv B3 Bv Bn
    Lv Ln Er) as [K1 K2].
  apply fb_cuts_ok; auto.
  - intros rf Hr. destruct (K1 rf Hr) as (N1 & me & X1 & X2 & X3). exists N1, me.
    split; auto. split; auto. eapply carries_weaken; eauto.
  - intros rc Hr. destruct (K2 rc Hr) as (N1 & X1 & X2 & X3 & X4). exists N1.
    split; auto. split; auto. split; auto. eapply carries_weaken; eauto.
Qed.

Lemma loop_strengthened : forall F Tf net st, feedback_built F ->
  forward_contract st (fb_fwd F) Tf -> vle (f_lo (fb_fwd F)) (f_up (fb_fwd F)) ->
  (is_net (fb_ctl F) \/ confines (fb_fwd F) Tf) ->
  fwd_carries st (fb_fwd F) net -> controller_slopes (fb_ctl F) ->
  forall meth N x_lo x_up R0 xeq, lyap_args (f_nx (fb_fwd F)) N x_lo x_up R0 xeq ->
  no_slope_one (hidden N) -> forall lam eps et lower upper lp num d,
  strengthen_derivative solve meth N (f_nx (fb_fwd F)) x_lo x_up (fb_add solve F) lp
    (fb_sys_cuts solve net F) xeq lam eps et R0 lower upper num = Some d ->
  obj_max (d_mip d) = true /\
  (forall sg, gfeas (d_mip d) sg ->
     in_box x_lo x_up (map sg (d_x d)) /\ in_box x_lo x_up (map sg (d_next d)) /\
     fb_next F Tf (map sg (d_x d)) (map sg (d_next d)) /\
     within lower upper (V N (R_of (f_nx (fb_fwd F)) R0) lam xeq (map sg (d_x d))) /\
     objective (d_mip d) sg
     = violation et N (R_of (f_nx (fb_fwd F)) R0) lam eps xeq (map sg (d_x d)) (map sg (d_next d))) /\
  (forall x x', in_box x_lo x_up x -> in_box x_lo x_up x' -> fb_next F Tf x x' ->
     within lower upper (V N (R_of (f_nx (fb_fwd F)) R0) lam xeq x) ->
     exists sg, gfeas (d_mip d) sg /\ map sg (d_x d) = x /\ map sg (d_next d) = x').
Proof.
  intros F Tf net st Bt Hf Hv Hc Hn Hs meth N x_lo x_up R0 xeq Args Ns lam eps et lower upper lp num d E.
  assert (Sc := feedback_contract solve Hsolve F Tf st Bt Hf Hv Hc).
  apply (strengthened_exact solve Hsolve meth N _ x_lo x_up R0 xeq Args lam eps st _ _ Sc et lower upper
    lp (fb_sys_cuts solve net F) num d Ns); auto.
  intros d0 E0. eapply loop_cuts_ok; eauto.
Qed.
End Solver.

(** A ReLU forward system. *)
Lemma relu_loop_strengthened : forall solve, solver_ok solve -> forall C F, ctl_built C ->
  fb_fwd F = ctl_fwd solve C -> feedback_built F ->
  (is_net (fb_ctl F) \/ match ct_kind C with CResidue _ _ _ _ => False | _ => True end) ->
  controller_slopes (fb_ctl F) -> no_slope_one (hidden (ct_net C)) ->
  forall meth N x_lo x_up R0 xeq, lyap_args (ct_nx C) N x_lo x_up R0 xeq ->
  no_slope_one (hidden N) -> forall lam eps et lower upper lp num d,
  strengthen_derivative solve meth N (ct_nx C) x_lo x_up (fb_add solve F) lp
    (fb_sys_cuts solve (Some (ct_net C)) F) xeq lam eps et R0 lower upper num = Some d ->
  obj_max (d_mip d) = true /\
  (forall sg, gfeas (d_mip d) sg ->
     in_box x_lo x_up (map sg (d_x d)) /\ in_box x_lo x_up (map sg (d_next d)) /\
     fb_next F (ctl_next C) (map sg (d_x d)) (map sg (d_next d)) /\
     within lower upper (V N (R_of (ct_nx C) R0) lam xeq (map sg (d_x d))) /\
     objective (d_mip d) sg
     = violation et N (R_of (ct_nx C) R0) lam eps xeq (map sg (d_x d)) (map sg (d_next d))) /\
  (forall x x', in_box x_lo x_up x -> in_box x_lo x_up x' -> fb_next F (ctl_next C) x x' ->
     within lower upper (V N (R_of (ct_nx C) R0) lam xeq x) ->
     exists sg, gfeas (d_mip d) sg /\ map sg (d_x d) = x /\ map sg (d_next d) = x').
Proof.
  intros solve Hsolve C F Ct Ef Bt Hc Hs Ns meth N x_lo x_up R0 xeq Args Nl lam eps et lower upper lp num d E.
  assert (En : f_nx (fb_fwd F) = ct_nx C) by (rewrite Ef; reflexivity).
  rewrite <- En in *. destruct (ctl_built_facts _ Ct) as (_ & _ & Hv & _ & _).
  apply (loop_strengthened solve Hsolve F (ctl_next C) (Some (ct_net C)) false)
    with (meth := meth) (lp := lp) (num := num); auto.
  - rewrite Ef. apply ctl_forward_contract; auto.
  - rewrite Ef. exact Hv.
  - destruct Hc as [Hc|Hc]; [left; auto|right; rewrite Ef; apply ctl_confines; auto].
  - rewrite Ef. apply ctl_fwd_carries; auto.
Qed.

(** A hybrid linear forward system. *)
Lemma hybrid_loop_strengthened : forall solve, solver_ok solve ->
  forall bounds bounded nx nu h f F net, bounds_valid bounds -> built bounds bounded nx nu h ->
  hybrid_fwd h = Some f -> fb_fwd F = f -> feedback_built F -> vle (f_lo f) (f_up f) ->
  controller_slopes (fb_ctl F) ->
  forall meth N x_lo x_up R0 xeq, lyap_args nx N x_lo x_up R0 xeq ->
  no_slope_one (hidden N) -> forall lam eps et lower upper lp num d,
  strengthen_derivative solve meth N nx x_lo x_up (fb_add solve F) lp
    (fb_sys_cuts solve net F) xeq lam eps et R0 lower upper num = Some d ->
  obj_max (d_mip d) = true /\
  (forall sg, gfeas (d_mip d) sg ->
     in_box x_lo x_up (map sg (d_x d)) /\ in_box x_lo x_up (map sg (d_next d)) /\
     fb_next F (hybrid_next h) (map sg (d_x d)) (map sg (d_next d)) /\
     within lower upper (V N (R_of nx R0) lam xeq (map sg (d_x d))) /\
     objective (d_mip d) sg
     = violation et N (R_of nx R0) lam eps xeq (map sg (d_x d)) (map sg (d_next d))) /\
  (forall x x', in_box x_lo x_up x -> in_box x_lo x_up x' -> fb_next F (hybrid_next h) x x' ->
     within lower upper (V N (R_of nx R0) lam xeq x) ->
     exists sg, gfeas (d_mip d) sg /\ map sg (d_x d) = x /\ map sg (d_next d) = x').
Proof.
  intros solve Hsolve bounds bounded nx nu h f F net Vb Bt Eh Ef Bf Hv Hs meth N x_lo x_up R0 xeq Args
    Nl lam eps et lower upper lp num d E.
  destruct (built_inv _ _ _ _ _ Vb Bt) as (Enx & Enu & _).
  assert (En : f_nx f = nx /\ f_nu f = nu).
  { unfold hybrid_fwd in Eh.
    destruct (all_some (map fin (firstn (h_nx h) (lo_all h)))); [|discriminate].
    destruct (all_some (map fin (firstn (h_nx h) (up_all h)))); [|discriminate].
    apply Some_inj in Eh. subst f. cbn. auto. }
  destruct En as [En1 Enu1].
  assert (En2 : nx = f_nx (fb_fwd F)) by congruence. rewrite En2 in Args, E |- *.
  apply (loop_strengthened solve Hsolve F (hybrid_next h) net false)
    with (meth := meth) (lp := lp) (num := num); auto; try (rewrite Ef; auto).
  - eapply hybrid_forward_contract; eauto.
  - right. eapply hybrid_confines; eauto.
  - eapply hybrid_fwd_carries; eauto.
Qed.
