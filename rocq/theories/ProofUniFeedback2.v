(** The unicycle closed loop: the program of the controller and of the loop. *)

Require Import Reals List Lia Lra Bool Arith.
Require Import Verif.Vec Verif.VecFacts Verif.ModelMip Verif.SpecMip Verif.SpecCore
  Verif.ModelUtils Verif.SpecUtils Verif.ModelNet Verif.SpecNet Verif.SpecStep
  Verif.ProofUtils Verif.ProofMaxBox Verif.ProofGrad Verif.ProofMip Verif.ProofSat
  Verif.ProofConcat Verif.ProofBounds Verif.ProofNet Verif.ProofNetBounds Verif.ProofNetTotal
  Verif.ProofWarm Verif.ProofStep Verif.ProofNetStep Verif.ModelPattern Verif.ModelStrengthen
  Verif.ModelLyapunov Verif.SpecLyapunov Verif.ProofLyapunov Verif.ModelHybrid Verif.SpecHybrid
  Verif.ModelSystems Verif.SpecSystems Verif.ProofMilp Verif.ProofRoa Verif.ProofSystems
  Verif.ProofSatStep Verif.ProofSystems2 Verif.ProofFeedback Verif.ModelUniFeedback
  Verif.SpecUniFeedback Verif.ProofUniFeedback.
Import ListNotations.
Open Scope R_scope.

Lemma abs_range_spec : forall l u v, l <= v <= u ->
  fst (abs_range l u) <= Rabs v <= snd (abs_range l u).
Proof.
  intros l u v H. unfold abs_range, Rltb, Rleb, Rabs, Rmax.
  destruct (Rlt_dec l 0), (Rlt_dec 0 u), (Rle_dec 0 l), (Rle_dec u 0); cbn;
    repeat destruct Rle_dec; destruct (Rcase_abs v); lra.
Qed.

Lemma abs_ranges : forall ls us v, in_box ls us v ->
  vsum (map2 (fun l u => fst (abs_range l u)) ls us) <= norm_p1 v
    <= vsum (map2 (fun l u => snd (abs_range l u)) ls us).
Proof.
  unfold norm_p1. induction ls as [|l ls IH]; intros [|u us] [|a v] [H1 H2];
    try solve [inversion H1 | inversion H2]; [cbn; lra|].
  assert (K : l <= a <= u /\ in_box ls us v).
  { inversion H1; inversion H2; subst. split; auto. split; auto. }
  destruct K as [K1 K2]. cbn [map2 map vsum].
  specialize (IH us v K2). assert (A := abs_range_spec _ _ _ K1). lra.
Qed.

Lemma uni_rows : forall lam k (p A c e s : vec), length p = 2%nat -> length A = 2%nat ->
  length c = 2%nat -> length e = 2%nat -> length s = k ->
  (vadd (mv (eyek 2 1) p) (vadd (vneg A) (vadd (mv (map (vscale (- lam)) [ones k; zeros k]) s) (zeros 2)))
     = vsub c e <-> p = vadd (vsub (vadd A c) e) [lam * vsum s; 0]).
Proof.
  intros lam k p A c e s L1 L2 L3 L4 L5.
  destruct (len2 _ L1) as (p0 & p1 & ->). destruct (len2 _ L2) as (a0 & a1 & ->).
  destruct (len2 _ L3) as (c0 & c1 & ->). destruct (len2 _ L4) as (e0 & e1 & ->).
  assert (D1 : dot (vscale (- lam) (ones k)) s = - lam * vsum s).
  { subst k. unfold vscale, ones. induction s; cbn; [ring|]. rewrite IHs. ring. }
  assert (D2 : dot (vscale (- lam) (zeros k)) s = 0).
  { subst k. clear D1. unfold vscale, zeros. induction s; cbn; [ring|]. rewrite IHs. ring. }
  cbn [map mv]. unfold mv. cbn [map]. rewrite D1, D2. unfold vadd, vsub, vneg, zeros. cbn.
  rewrite !cons_eq_iff. split; intros (H1 & H2 & _); (split; [lra|split; [lra|auto]]).
Qed.

Lemma firstn_box : forall k lo up x, in_box lo up x -> in_box (firstn k lo) (firstn k up) (firstn k x).
Proof.
  assert (G : forall k a b, vle a b -> vle (firstn k a) (firstn k b)).
  { induction k; intros a b H; cbn; [constructor|]. destruct H; [constructor|]. constructor; auto.
    apply IHk; auto. }
  intros k lo up x [H1 H2]. split; apply G; auto.
Qed.

Section Solver.
Variable solve : mip -> gresult.
Hypothesis Hsolve : solver_ok solve.

Lemma uni_network_step : forall U N st vt m m' xv uv ulo uup rc, uni_built U ->
  fb_ctl (uf_fb U) = CtlNet N -> vt <> VCont ->
  history st m -> below (nvars m) xv -> below (nvars m) uv -> length xv = 3%nat -> length uv = 2%nat ->
  vle (f_lo (fb_fwd (uf_fb U))) (f_up (fb_fwd (uf_fb U))) ->
  add_uni_network solve U N xv uv vt m = Some (m', (ulo, uup), rc) ->
  let box := in_box (f_lo (fb_fwd (uf_fb U))) (f_up (fb_fwd (uf_fb U))) in
  (forall x u, box x -> uni_u U x = Some u -> in_box ulo uup u) /\
  length ulo = 2%nat /\ length uup = 2%nat /\
  step vt st m m'
    (fun sg => box (map sg xv) /\ uni_u U (map sg xv) = Some (map sg uv))
    (fun sg => box (map sg xv) /\ uni_u U (map sg xv) = Some (map sg uv)).
Proof.
  intros U N st vt m m' xv uv ulo uup rc HB Ek Vt H Bx Bu Lx Lu Hv E box.
  destruct (uni_facts U HB) as (Nx & Nu & Ex & Eu & Hlam & [rest Elo] & FB).
  assert (WR : wfm (length (uf_R U)) 2 (uf_R U)) by apply HB.
  destruct FB as (Cw & Ll & Lp & Hl & Bt).
  set (F := uf_fb U) in *.
  destruct (feedback_facts F Bt) as (Fx & Fu & Flo & Fup).
  assert (CU := uni_u_eq U HB). assert (CL := uni_ctl_length U HB). fold F in CU, CL.
  rewrite Nx in Ll, Lp. rewrite Nu in Flo, Fup.
  unfold add_uni_network in E. fold F in E. rewrite Nu in E.
  rewrite Ek in Cw, CL. destruct Cw as [W On]. rewrite Nx in W. rewrite Nu in On.
  destruct (compute_layer_bound solve (fb_meth F) N (f_lo (fb_fwd F)) (f_up (fb_fwd F))) as [B|] eqn:E1;
    [|discriminate].
  destruct (compute_network_output_bounds solve (fb_meth F) N (b_pre_lo B) (b_pre_up B)
     (f_lo (fb_fwd F)) (f_up (fb_fwd F))) as [[olo oup]|] eqn:E2; [|discriminate].
  destruct (output_constraint_given_bounds N (b_pre_lo B) (b_pre_up B) (f_lo (fb_fwd F))
     (f_up (fb_fwd F))) as [c|] eqn:E3; [|discriminate].
  assert (Eo : output_constraint solve (fb_meth F) N (f_lo (fb_fwd F)) (f_up (fb_fwd F))
               = Some (c, B, (olo, oup))).
  { unfold output_constraint. apply vleb_spec in Hv. rewrite Hv. cbn [negb]. rewrite E1, E2, E3. auto. }
  assert (M := output_constraint_mic solve Hsolve _ _ _ _ _ _ _ _ W Ll Lp Eo).
  destruct (network_bounds solve Hsolve _ _ _ _ _ _ _ _ _ W Ll Lp Eo) as [Nb _].
  destruct (net_affine _ _ _ _ _ M) as (A & EA & WA & EC & LC & FA).
  destruct (nm_aout _ _ _ _ _ M) as [Ei Eb]. rewrite Ei, Eb, EA, EC in E.
  destruct (add_mic c xv None NewBinary vt m) as [[m1 z] be] eqn:Em.
  destruct (compute_range_by_IA 2 (uf_R U) (zeros (length (uf_R U))) (firstn 2 (f_lo (fb_fwd F)))
     (firstn 2 (f_up (fb_fwd F)))) as [[rlo rup]|] eqn:Er; [|discriminate].
  destruct (uni_abs_loop (uf_R U) rlo rup (firstn 2 xv) m1) as [[[m2 s] [sl su]]|] eqn:Es; [|discriminate].
  destruct (addVars (repeat (NInf, PInf) 2) VCont m2) as [m3 pv] eqn:Ef.
  set (eqv := forward N (zeros 3)) in *. cbv zeta in E.
  match type of E with match ?X with _ => _ end = _ => destruct X as [[m5 b]|] eqn:Ea; [|discriminate] end.
  apply Some_inj in E. apply pair_equal_spec in E. destruct E as [E _].
  apply pair_equal_spec in E. destruct E as [-> ->].
  destruct (net_step st _ _ _ _ _ xv vt m m1 z be M H Bx Lx Vt Em) as (Z1 & Z2 & Nv1 & S1).
  assert (Up : forall a b l, (a <= b)%nat -> below a l -> below b l).
  { unfold below. intros a b0 l Hab Hl'. eapply Forall_impl; [|exact Hl']. cbv beta. intros. lia. }
  assert (N01 : (nvars m <= nvars m1)%nat) by apply S1.
  assert (H1 : history st m1) by apply S1.
  assert (Bx1 : below (nvars m1) (firstn 2 xv)) by (apply below_firstn; eapply Up; eauto).
  assert (Lf : length (firstn 2 xv) = 2%nat) by (rewrite firstn_length; lia).
  destruct (uni_loop_step vt (firstn 2 xv) Lf _ _ _ st _ _ _ _ _ Es H1 Bx1 ltac:(apply WR))
    as ([_ Fs] & Ls & Esl & Esu & S2).
  assert (N12 : (nvars m1 <= nvars m2)%nat) by apply S2.
  assert (RB : forall x, in_box (f_lo (fb_fwd F)) (f_up (fb_fwd F)) x ->
     in_box rlo rup (mv (uf_R U) (firstn 2 x))).
  { intros x Hx. assert (K := range_sound _ _ _ _ _ _ _ _ Er ltac:(apply WR) (firstn_box 2 _ _ _ Hx)).
    rewrite vadd_zeros_r in K by apply mv_length. exact K. }
  set (Q1 := fun sg : assignment => in_box (f_lo (fb_fwd F)) (f_up (fb_fwd F)) (map sg xv) /\
     map sg z = concat (post_acts (hidden N) (map sg xv)) /\
     map sg s = map Rabs (mv (uf_R U) (firstn 2 (map sg xv)))).
  assert (S12 : step vt st m m2 (fun sg => in_box (f_lo (fb_fwd F)) (f_up (fb_fwd F)) (map sg xv)) Q1).
  { eapply step_trans; [exact S1|exact S2| | | |].
    - apply (local_map m xv (fun x => in_box (f_lo (fb_fwd F)) (f_up (fb_fwd F)) x) Bx).
    - intros sg _ D. exact D.
    - intros sg _ D _. cbv beta. rewrite <- firstn_map. apply RB. exact D.
    - intros sg _ (K1 & _ & _ & K2) K3. unfold Q1. split; auto. split; auto.
      rewrite K3, firstn_map. auto. }
  destruct (step_free vt st _ m2 m3 pv Ef ltac:(apply S2)) as (Ep & Nv2 & H2 & _ & _).
  assert (Leq : length eqv = 2%nat).
  { apply (CL (zeros 3)). apply zeros_length. }
  set (rhs := vsub (bias_of (last_layer N)) eqv) in *.
  assert (LCb : length (bias_of (last_layer N)) = 2%nat) by congruence.
  assert (Lr : length rhs = 2%nat).
  { unfold rhs. rewrite vsub_length; congruence. }
  set (k := length (uf_R U)) in *.
  destruct (step_addM vt st [eyek 2 1; map vneg A; map (vscale (- uf_lambda U)) [ones k; zeros k]]
     [pv; z; s] SEq rhs m3) as (H3 & N3 & F3); auto.
  { discriminate. }
  { rewrite Lr. cbn [combine]. constructor; [|constructor; [|constructor; [|constructor]]]; cbn [fst snd].
    - subst pv. rewrite seq_length. apply (wfm_eyek 2).
    - subst z. rewrite seq_length. destruct WA as [WA1 WA2]. rewrite On in WA1. split; [rewrite map_length; auto|].
      apply Forall_forall. intros r Hr. apply in_map_iff in Hr. destruct Hr as (r0 & <- & Hr).
      rewrite Forall_forall in WA2. rewrite vneg_length. apply WA2. auto.
    - rewrite Ls. split; [reflexivity|]. cbn [map]. unfold vscale.
      constructor; [|constructor; [|constructor]]; rewrite map_length; apply repeat_length. }
  { cbn [concat]. rewrite app_nil_r. apply below_app. split; [|apply below_app; split].
    - subst pv. unfold below. apply Forall_forall; intros i Hi; apply in_seq in Hi; lia.
    - subst z. unfold below. apply Forall_forall; intros i Hi; apply in_seq in Hi; lia.
    - unfold below. eapply Forall_impl; [|exact Fs]. cbv beta. intros. lia. }
  assert (Lolo : length olo = 2%nat /\ length oup = 2%nat).
  { assert (Ip : in_box (f_lo (fb_fwd F)) (f_up (fb_fwd F)) (f_lo (fb_fwd F)))
      by (split; [apply (box_refl (f_lo (fb_fwd F)))|exact Hv]).
    destruct (Nb _ Ip) as (_ & _ & K). apply in_box_lengths in K.
    rewrite (net_eval_length _ _ _ W Ll), On in K. exact K. }
  destruct Lolo as [Lo1 Lo2].
  assert (T : (forall x, box x -> in_box ulo uup (saturates (fb_lower F) (fb_upper F) (uni_pre U x))) /\
    length ulo = 2%nat /\ length uup = 2%nat /\
    step vt st m m'
      (fun sg => box (map sg xv) /\ map sg uv = saturates (fb_lower F) (fb_upper F) (uni_pre U (map sg xv)))
      (fun sg => Q1 sg /\ (box (map sg xv) ->
         map sg uv = saturates (fb_lower F) (fb_upper F) (uni_pre U (map sg xv))))).
  { eapply (controller_tail vt st _ _ _ xv uv m m2 m3 _ m' pv (uni_pre U) _ _ _ _ _ _ _ _
      Vt S12 Bx Bu Lu Ef H3 N3 F3); [| | |exact Flo| | |exact Hl|exact Ea].
    + intros sg (_ & Hz & Hs) Lpv. cbn [combine bsum sense_ok]. rewrite Lr, Hz, mv_map_vneg.
      assert (Lxs : length (map sg xv) = 3%nat) by (rewrite map_length; auto).
      assert (LA : length (mv A (concat (post_acts (hidden N) (map sg xv)))) = 2%nat).
      { rewrite mv_length. destruct WA. congruence. }
      unfold rhs. rewrite uni_rows by (auto; rewrite map_length; auto). rewrite (FA _ Lxs).
      rewrite Hs. unfold uni_pre. fold F. rewrite Ek. cbn [controller_forward]. fold eqv.
      rewrite (forward_eval _ _ _ W Lxs). unfold norm_p1. tauto.
    + intros x Hx. assert (Lxs : length x = 3%nat).
      { apply in_box_lengths in Hx. unfold vec in *; lia. }
      destruct (Nb x Hx) as (_ & _ & K). unfold uni_pre. fold F. rewrite Ek. cbn [controller_forward].
      fold eqv. rewrite (forward_eval _ _ _ W Lxs).
      apply vadd_box; [apply vsub_box; auto|].
      assert (AR := abs_ranges _ _ _ (RB x Hx)). rewrite <- Esl, <- Esu in AR.
      split; constructor; try (constructor; [lra|constructor]); apply Rmult_le_compat_l; lra.
    + intros s1 s2 Ag (K1 & K2 & K3).
      assert (X : forall l, below (nvars m2) l -> map s2 l = map s1 l).
      { intros l Hb. symmetry. apply map_agree with (n := nvars m2); auto. }
      unfold Q1. rewrite (X xv) by (eapply (Up (nvars m)); [lia|auto]).
      rewrite (X z), (X s); auto.
      * unfold below. eapply Forall_impl; [|exact Fs]. cbv beta. intros. lia.
      * subst z. unfold below. apply Forall_forall; intros i Hi; apply in_seq in Hi; lia.
    + rewrite vadd_length; rewrite vsub_length; auto; congruence.
    + rewrite vadd_length; rewrite vsub_length; auto; congruence. }
  destruct T as (A1 & A2 & A3 & A4). split; [|split; [exact A2|split; [exact A3|]]].
  - intros x u Hx Hu. assert (L : length x = 3%nat).
    { apply in_box_lengths in Hx. unfold vec in *; lia. }
    rewrite (CU x L) in Hu. apply Some_inj in Hu. subst u. auto.
  - eapply step_weaken; [exact A4| |].
    + intros sg _ [D1 D2]. split; auto. rewrite CU in D2 by (rewrite map_length; auto).
      apply Some_inj in D2. auto.
    + intros sg _ [(D0 & _) D2]. split; [exact D0|].
      rewrite CU by (rewrite map_length; auto). rewrite <- D2; auto.
Qed.


Lemma uni_network_total : solver_total solve -> forall U N st vt m xv uv, uni_built U ->
  fb_ctl (uf_fb U) = CtlNet N -> vt <> VCont ->
  history st m -> below (nvars m) xv -> below (nvars m) uv -> length xv = 3%nat -> length uv = 2%nat ->
  vle (f_lo (fb_fwd (uf_fb U))) (f_up (fb_fwd (uf_fb U))) ->
  add_uni_network solve U N xv uv vt m <> None.
Proof.
  intros St U N st vt m xv uv HB Ek Vt H Bx Bu Lx Lu Hv.
  destruct (uni_facts U HB) as (Nx & Nu & Ex & Eu & Hlam & [rest Elo] & FB).
  assert (WR : wfm (length (uf_R U)) 2 (uf_R U)) by apply HB.
  destruct FB as (Cw & Ll & Lp & Hl & Bt).
  set (F := uf_fb U) in *.
  destruct (feedback_facts F Bt) as (Fx & Fu & Flo & Fup).
  assert (CL := uni_ctl_length U HB). fold F in CL.
  rewrite Nx in Ll, Lp. rewrite Nu in Flo, Fup.
  unfold add_uni_network. fold F. rewrite Nu.
  rewrite Ek in Cw, CL. destruct Cw as [W On]. rewrite Nx in W. rewrite Nu in On.
  assert (Ip : in_box (f_lo (fb_fwd F)) (f_up (fb_fwd F)) (f_lo (fb_fwd F)))
    by (split; [apply (box_refl (f_lo (fb_fwd F)))|exact Hv]).
  destruct (output_constraint solve (fb_meth F) N (f_lo (fb_fwd F)) (f_up (fb_fwd F)))
    as [[[c B] [olo oup]]|] eqn:Eo.
  2:{ apply (output_constraint_total solve Hsolve St _ _ _ _ _ W Ll Lp) in Eo. tauto. }
  assert (M := output_constraint_mic solve Hsolve _ _ _ _ _ _ _ _ W Ll Lp Eo).
  destruct (network_bounds solve Hsolve _ _ _ _ _ _ _ _ _ W Ll Lp Eo) as [Nb _].
  destruct (net_affine _ _ _ _ _ M) as (A & EA & WA & EC & LC & FA).
  destruct (nm_aout _ _ _ _ _ M) as [Ei Eb].
  unfold output_constraint in Eo.
  destruct (vleb (f_lo (fb_fwd F)) (f_up (fb_fwd F))); [|discriminate]. cbn [negb] in Eo.
  destruct (compute_layer_bound solve (fb_meth F) N (f_lo (fb_fwd F)) (f_up (fb_fwd F))) as [B'|] eqn:E1;
    [|discriminate].
  destruct (compute_network_output_bounds solve (fb_meth F) N (b_pre_lo B') (b_pre_up B')
     (f_lo (fb_fwd F)) (f_up (fb_fwd F))) as [out|] eqn:E2; [|discriminate].
  destruct (output_constraint_given_bounds N (b_pre_lo B') (b_pre_up B') (f_lo (fb_fwd F))
     (f_up (fb_fwd F))) as [c'|] eqn:E3; [|discriminate].
  apply Some_inj in Eo. apply pair_equal_spec in Eo. destruct Eo as [Eo ->].
  apply pair_equal_spec in Eo. destruct Eo as [-> ->].
  rewrite Ei, Eb, EA, EC.
  destruct (add_mic c xv None NewBinary vt m) as [[m1 z] be] eqn:Em.
  destruct (net_step st _ _ _ _ _ xv vt m m1 z be M H Bx Lx Vt Em) as (Z1 & Z2 & Nv1 & S1).
  assert (Up : forall a b l, (a <= b)%nat -> below a l -> below b l).
  { unfold below. intros a b0 l Hab Hl'. eapply Forall_impl; [|exact Hl']. cbv beta. intros. lia. }
  assert (N01 : (nvars m <= nvars m1)%nat) by apply S1.
  assert (H1 : history st m1) by apply S1.
  assert (Bx1 : below (nvars m1) (firstn 2 xv)) by (apply below_firstn; eapply Up; eauto).
  assert (Lf : length (firstn 2 xv) = 2%nat) by (rewrite firstn_length; lia).
  assert (Fb := firstn_box 2 _ _ _ Ip).
  destruct (range_prop 2 (uf_R U) (zeros (length (uf_R U))) (firstn 2 (f_lo (fb_fwd F)))
     (firstn 2 (f_up (fb_fwd F)))) as (rlo & rup & Er & Rb & _).
  { rewrite zeros_length. exact WR. }
  { rewrite firstn_length. unfold vec in *. lia. }
  { apply Fb. }
  rewrite Er. specialize (Rb _ Fb). rewrite vadd_zeros_r in Rb by apply mv_length.
  assert (Lrl : length rlo = length (uf_R U)).
  { destruct Rb as [Rb _]. rewrite (vle_length _ _ Rb). apply mv_length. }
  destruct (uni_abs_loop (uf_R U) rlo rup (firstn 2 xv) m1) as [[[m2 s] [sl su]]|] eqn:Es.
  2:{ exfalso. revert Es. apply (uni_loop_total (firstn 2 xv)) with (st := st); auto; [|apply WR].
      destruct Rb. eapply vle_trans; eauto. }
  destruct (uni_loop_step vt (firstn 2 xv) Lf _ _ _ st _ _ _ _ _ Es H1 Bx1 ltac:(apply WR))
    as ([_ Fs] & Ls & Esl & Esu & S2).
  assert (N12 : (nvars m1 <= nvars m2)%nat) by apply S2.
  destruct (addVars (repeat (NInf, PInf) 2) VCont m2) as [m3 pv] eqn:Ef.
  destruct (step_free vt st _ m2 m3 pv Ef ltac:(apply S2)) as (Ep & Nv2 & H2 & _ & _).
  cbv zeta. set (eqv := forward N (zeros 3)) in *.
  assert (Leq : length eqv = 2%nat).
  { apply (CL (zeros 3)). apply zeros_length. }
  set (rhs := vsub (bias_of (last_layer N)) eqv) in *.
  assert (LCb : length (bias_of (last_layer N)) = 2%nat) by congruence.
  assert (Lr : length rhs = 2%nat).
  { unfold rhs. rewrite vsub_length; congruence. }
  set (k := length (uf_R U)) in *.
  destruct (step_addM vt st [eyek 2 1; map vneg A; map (vscale (- uf_lambda U)) [ones k; zeros k]]
     [pv; z; s] SEq rhs m3) as (H3 & N3 & F3); auto.
  { discriminate. }
  { rewrite Lr. cbn [combine]. constructor; [|constructor; [|constructor; [|constructor]]]; cbn [fst snd].
    - subst pv. rewrite seq_length. apply (wfm_eyek 2).
    - subst z. rewrite seq_length. destruct WA as [WA1 WA2]. rewrite On in WA1. split; [rewrite map_length; auto|].
      apply Forall_forall. intros r Hr. apply in_map_iff in Hr. destruct Hr as (r0 & <- & Hr).
      rewrite Forall_forall in WA2. rewrite vneg_length. apply WA2. auto.
    - rewrite Ls. split; [reflexivity|]. cbn [map]. unfold vscale.
      constructor; [|constructor; [|constructor]]; rewrite map_length; apply repeat_length. }
  { cbn [concat]. rewrite app_nil_r. apply below_app. split; [|apply below_app; split].
    - subst pv. unfold below. apply Forall_forall; intros i Hi; apply in_seq in Hi; lia.
    - subst z. unfold below. apply Forall_forall; intros i Hi; apply in_seq in Hi; lia.
    - unfold below. eapply Forall_impl; [|exact Fs]. cbv beta. intros. lia. }
  destruct (Nb _ Ip) as (_ & _ & K). assert (K' := in_box_lengths _ _ _ K).
  rewrite (net_eval_length _ _ _ W Ll), On in K'. destruct K' as [Lo1 Lo2].
  match goal with |- match ?X with _ => _ end <> _ => destruct X as [[m4 b]|] eqn:Ea; [discriminate|] end.
  exfalso. revert Ea. apply (add_input_saturation_total st); auto.
  + apply (Up (nvars m)); [|auto]. rewrite N3. lia.
  + rewrite N3. subst pv. unfold below. apply Forall_forall. intros i Hi. apply in_seq in Hi. lia.
  + subst pv. rewrite seq_length. auto.
  + congruence.
  + rewrite vadd_length; rewrite vsub_length; auto; congruence.
  + rewrite vadd_length; rewrite vsub_length; auto; congruence.
  + assert (AR := abs_ranges _ _ _ Rb). rewrite <- Esl, <- Esu in AR.
    assert (Ib : in_box [uf_lambda U * vsum sl; 0] [uf_lambda U * vsum su; 0]
       [uf_lambda U * norm_p1 (mv (uf_R U) (firstn 2 (f_lo (fb_fwd F)))); 0]).
    { split; constructor; try (constructor; [lra|constructor]); apply Rmult_le_compat_l; lra. }
    destruct (vadd_box _ _ _ _ _ _ (vsub_box _ _ _ eqv K) Ib) as [V1 V2].
    eapply vle_trans; eauto.
  + intros u Hu Hp. subst pv. apply in_seq in Hp. unfold below in Bu. rewrite Forall_forall in Bu.
    specialize (Bu u Hu). lia.
Qed.

Lemma uni_loop_contract : forall U Tf st N, uni_built U -> fb_ctl (uf_fb U) = CtlNet N ->
  forward_contract st (fb_fwd (uf_fb U)) Tf ->
  vle (f_lo (fb_fwd (uf_fb U))) (f_up (fb_fwd (uf_fb U))) ->
  system_contract 3 st (uni_add solve U) (uni_next U Tf).
Proof.
  intros U Tf st N HB Ek Hf Hv vt m m' xv xn Vt H Bx Bn Lx Ln _ E. unfold uni_add, uni_add_ret in E.
  destruct (uni_facts U HB) as (Nx & Nu & _).
  unfold add_uni_controller in E. rewrite Ek, Nu in E.
  destruct (addVars (repeat (NInf, PInf) 2) VCont m) as [m1 uv] eqn:Ef.
  destruct (add_uni_network solve U N xv uv vt m1) as [[[m2 [ulo uup]] rc]|] eqn:Ec; [|discriminate].
  destruct (f_add (fb_fwd (uf_fb U)) xv xn uv (Some ulo) (Some uup) vt m2) as [[m3 rf]|] eqn:Ea; [|discriminate].
  apply Some_inj in E. subst m3.
  destruct (step_free vt st _ m m1 uv Ef H) as (Eu & Nv1 & H1 & Fr1 & Fr2).
  assert (Up : forall a b l, (a <= b)%nat -> below a l -> below b l).
  { unfold below. intros a b l Hab Hl. eapply Forall_impl; [|exact Hl]. cbv beta. intros. lia. }
  assert (Bu : below (nvars m1) uv).
  { subst uv. unfold below. apply Forall_forall. intros i Hi. apply in_seq in Hi. lia. }
  assert (Lu : length uv = 2%nat) by (subst uv; apply seq_length).
  destruct (uni_network_step U N st vt m1 m2 xv uv ulo uup rc) as (Cb & L1 & L2 & C1 & C2 & C3 & C4); auto.
  { apply (Up (nvars m)); auto; lia. }
  destruct (Hf vt m2 m' xv xn uv ulo uup rf Vt C2) as (D1 & D2 & D3 & D4); auto; try congruence.
  { apply (Up (nvars m)); auto; lia. }
  { apply (Up (nvars m)); auto; lia. }
  { apply (Up (nvars m1)); auto. }
  split; [lia|]. split; auto. split.
  - intros sg G. destruct (D3 sg G) as [G2 K1]. destruct (C3 sg G2) as [G1 [K2 K3]].
    split; [auto|]. split; auto. exists (map sg uv). split; auto.
  - intros sg G (Ib & u & Ecu & Ht).
    assert (Lus : length u = 2%nat).
    { assert (K := Cb _ _ Ib Ecu). apply in_box_lengths in K. unfold vec in *; lia. }
    destruct (Fr2 sg u G Lus) as (s1 & G1 & A1 & Eu1).
    assert (X1 : map s1 xv = map sg xv) by (symmetry; apply map_agree with (n := nvars m); auto).
    destruct (C4 s1 G1) as (s2 & G2 & A2).
    { rewrite X1, Eu1. split; auto. }
    assert (X2 : map s2 xv = map sg xv).
    { rewrite <- X1. symmetry. apply map_agree with (n := nvars m1); auto.
      apply (Up (nvars m)); auto; lia. }
    assert (N2 : map s2 xn = map sg xn).
    { symmetry. apply map_agree with (n := nvars m); auto. intros i Hi.
      rewrite (A1 i), (A2 i); auto; lia. }
    assert (U2 : map s2 uv = u).
    { rewrite <- Eu1. symmetry. apply map_agree with (n := nvars m1); auto. }
    destruct (D4 s2 G2) as (s3 & G3 & A3).
    { rewrite X2, N2, U2. split; auto. eapply Cb; eauto. }
    exists s3. split; auto. intros i Hi. rewrite (A1 i), (A2 i), (A3 i); auto; lia.
Qed.

Lemma uni_linear_base : forall U l xv xn vt m, fb_ctl (uf_fb U) = CtlLinear l ->
  uni_add solve U xv xn vt m = fb_add solve (uf_fb U) xv xn vt m.
Proof.
  intros U l xv xn vt m Ek. unfold uni_add, fb_add, uni_add_ret, fb_add_ret, add_uni_controller.
  rewrite Ek. reflexivity.
Qed.

Lemma uni_total : solver_total solve -> forall U st P x0 u0, uni_built U ->
  forward_total P (fb_fwd (uf_fb U)) -> vle (f_lo (fb_fwd (uf_fb U))) (f_up (fb_fwd (uf_fb U))) ->
  in_box (f_lo (fb_fwd (uf_fb U))) (f_up (fb_fwd (uf_fb U))) x0 -> uni_u U x0 = Some u0 -> P u0 ->
  is_net (fb_ctl (uf_fb U)) -> system_total 3 st (uni_add solve U).
Proof.
  intros St U st P x0 u0 HB Hf Hv Ib Ecu HU Hn vt m xv xn Vt H Bx Bn Lx Ln _.
  destruct (uni_facts U HB) as (Nx & Nu & _).
  unfold uni_add, uni_add_ret, add_uni_controller. rewrite Nu.
  destruct (fb_ctl (uf_fb U)) as [N|l] eqn:Ek; [|destruct Hn].
  destruct (addVars (repeat (NInf, PInf) 2) VCont m) as [m1 uv] eqn:Ef.
  destruct (step_free vt st _ m m1 uv Ef H) as (Eu & Nv1 & H1 & Fr1 & Fr2).
  assert (Bx1 : below (nvars m1) xv).
  { unfold below. eapply Forall_impl; [|exact Bx]. cbv beta. intros. lia. }
  assert (Bu : below (nvars m1) uv).
  { subst uv. unfold below. apply Forall_forall. intros i Hi. apply in_seq in Hi. lia. }
  assert (Lu : length uv = 2%nat) by (subst uv; apply seq_length).
  destruct (add_uni_network solve U N xv uv vt m1) as [[[m2 [ulo uup]] rc]|] eqn:Ec.
  - destruct (uni_network_step U N st vt m1 m2 xv uv ulo uup rc) as (Cb & L1 & L2 & _); auto.
    destruct (f_add (fb_fwd (uf_fb U)) xv xn uv (Some ulo) (Some uup) vt m2) as [[m3 rf]|] eqn:Ea; [discriminate|].
    exfalso. revert Ea. apply (Hf vt m2 xv xn uv ulo uup u0); auto; try congruence. eapply Cb; eauto.
  - exfalso. revert Ec. eapply uni_network_total; eauto.
Qed.

End Solver.

(** Two exact descriptions of the same constraints agree. *)
Lemma contracts_agree : forall n st add (T1 T2 : vec -> vec -> Prop), system_contract n st add T1 ->
  system_contract n st add T2 -> system_total n st add ->
  forall x x', length x = n -> length x' = n -> T1 x x' -> T2 x x'.
Proof.
  intros n st add T1 T2 C1 C2 Tt x x' Lx Ln HT.
  destruct (addVars (repeat (NInf, PInf) n) VCont init_mip) as [m1 xv] eqn:E1.
  destruct (step_free VBin st _ _ m1 xv E1 (h_init st)) as (Ex & Nv1 & H1 & _ & Fr1).
  destruct (addVars (repeat (NInf, PInf) n) VCont m1) as [m2 xn] eqn:E2.
  destruct (step_free VBin st _ _ m2 xn E2 H1) as (En & Nv2 & H2 & _ & Fr2).
  assert (Bx : below (nvars m1) xv).
  { subst xv. unfold below. apply Forall_forall. intros i Hi. apply in_seq in Hi. lia. }
  assert (Bx2 : below (nvars m2) xv).
  { unfold below. eapply Forall_impl; [|exact Bx]. cbv beta. intros. lia. }
  assert (Bn : below (nvars m2) xn).
  { subst xn. unfold below. apply Forall_forall. intros i Hi. apply in_seq in Hi. lia. }
  assert (L1 : length xv = n) by (subst xv; apply seq_length).
  assert (L2 : length xn = n) by (subst xn; apply seq_length).
  assert (Nd : NoDup (xv ++ xn)).
  { subst xv xn. rewrite Nv1. rewrite <- seq_app. apply seq_NoDup. }
  destruct (add xv xn VBin m2) as [m3|] eqn:Ea.
  2:{ exfalso. revert Ea. apply Tt; auto. discriminate. }
  destruct (C1 VBin m2 m3 xv xn) as (_ & _ & _ & D1); auto; [discriminate|].
  destruct (C2 VBin m2 m3 xv xn) as (_ & _ & D2 & _); auto; [discriminate|].
  assert (G0 : feas VBin init_mip (fun _ => 0)).
  { split; [|discriminate]. split; [intros i v Hi; destruct i; discriminate|constructor]. }
  destruct (Fr1 _ x G0 Lx) as (s1 & G1 & A1 & X1).
  destruct (Fr2 s1 x' G1 Ln) as (s2 & G2 & A2 & X2).
  assert (X3 : map s2 xv = x).
  { rewrite <- X1. symmetry. apply map_agree with (n := nvars m1); auto. }
  destruct (D1 s2 G2) as (s3 & G3 & A3).
  { rewrite X3, X2. exact HT. }
  destruct (D2 s3 G3) as [_ K].
  rewrite <- (map_agree (nvars m2) s2 s3 xv Bx2 A3), <- (map_agree (nvars m2) s2 s3 xn Bn A3), X3, X2 in K.
  exact K.
Qed.
