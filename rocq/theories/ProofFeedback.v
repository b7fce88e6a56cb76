(** Feedback systems: the saturated input and the constraints of the closed loop. *)

Require Import Reals List Lia Lra Bool Arith.
Require Import Verif.Vec Verif.VecFacts Verif.ModelMip Verif.SpecMip Verif.SpecCore
  Verif.ModelUtils Verif.SpecUtils Verif.ModelNet Verif.SpecNet Verif.SpecStep
  Verif.ProofUtils Verif.ProofMaxBox Verif.ProofGrad Verif.ProofMip Verif.ProofSat
  Verif.ProofConcat Verif.ProofBounds Verif.ProofNet Verif.ProofNetBounds Verif.ProofNetTotal
  Verif.ProofWarm Verif.ProofStep Verif.ProofNetStep Verif.ModelPattern Verif.ModelStrengthen
  Verif.ModelLyapunov Verif.SpecLyapunov Verif.ProofLyapunov Verif.ModelHybrid Verif.SpecHybrid
  Verif.ModelSystems Verif.SpecSystems Verif.ProofMilp Verif.ProofRoa Verif.ProofSystems
  Verif.ProofSatStep Verif.ProofSystems2.
Import ListNotations.
Open Scope R_scope.

(** ** compute_u *)

Lemma saturates_length : forall lower upper p, length lower = length p -> length upper = length p ->
  length (saturates lower upper p) = length p.
Proof.
  induction lower; intros [|u upper] [|q p] L1 L2; simpl in *; try discriminate; auto.
Qed.

Lemma limit_ok_any : forall lower upper, Forall2 limit_ok lower upper -> Forall2 limit_any lower upper.
Proof.
  intros lower upper H. induction H; constructor; auto. unfold limit_ok, limit_any in *.
  destruct x, y; tauto.
Qed.

Lemma sat_eq : forall lo up p, limit_any lo up ->
  fin (ext_max (ext_min (Fin p) up) lo) = Some (saturate lo up p).
Proof.
  intros [|a|] [|b|] p H; cbn in *; try tauto; auto. f_equal. unfold clamp, Rmax, Rmin.
  repeat destruct Rle_dec; lra.
Qed.

Lemma saturates_eq : forall lower upper p, Forall2 limit_any lower upper -> length lower = length p ->
  all_some (map fin (map2 ext_max (map2 ext_min (map Fin p) upper) lower))
  = Some (saturates lower upper p).
Proof.
  intros lower upper p H. revert p. induction H as [|lo up lower upper H1 H2 IH]; intros [|q p] L;
    try discriminate; auto.
  cbn [map map2 all_some saturates]. rewrite sat_eq by auto. rewrite IH by (simpl in L; lia). auto.
Qed.

Lemma saturate_within : forall lo up p, limit_any lo up ->
  ext_le_r lo (saturate lo up p) /\ r_le_ext (saturate lo up p) up /\
  (ext_le_r lo p -> r_le_ext p up -> saturate lo up p = p) /\
  (forall w, ext_le_r lo w -> r_le_ext w up -> Rabs (saturate lo up p - p) <= Rabs (w - p)).
Proof.
  intros [|a|] [|b|] p H; cbn in *; try tauto; unfold clamp, Rmax, Rmin;
    (split; [|split; [|split]]); auto; repeat destruct Rle_dec; intros; auto; try lra;
    unfold Rabs; repeat destruct Rcase_abs; lra.
Qed.

Lemma saturates_within : forall lower upper p, Forall2 limit_any lower upper -> length lower = length p ->
  within_limits lower upper (saturates lower upper p) /\
  (within_limits lower upper p -> saturates lower upper p = p) /\
  (forall w i, within_limits lower upper w -> 
     Rabs (nth i (saturates lower upper p) 0 - nth i p 0) <= Rabs (nth i w 0 - nth i p 0)).
Proof.
  intros lower upper p H. unfold within_limits. revert p.
  induction H as [|lo up lower upper H1 H2 IH]; intros [|q p] L; try discriminate.
  - simpl. split; [split; constructor|]. split; auto. intros w i [Hw _]. inversion Hw; subst.
    destruct i; apply Rle_refl.
  - destruct (IH p ltac:(simpl in L; lia)) as ((A1 & A2) & A3 & A4).
    destruct (saturate_within lo up q H1) as (B1 & B2 & B3 & B4).
    cbn [saturates]. split; [split; constructor; auto|]. split.
    + rewrite !F2_cons. intros [[K1 K2] [K3 K4]]. rewrite B3, A3; auto.
    + intros [|w0 w] i; rewrite ?F2_cons; intros [K1 K2]; [inversion K1|].
      destruct i as [|i]; cbn [nth]; [apply B4; tauto|].
      apply A4. tauto.
Qed.

Section F.
Variable F : feedback.
Hypothesis Cw : controller_wf (f_nx (fb_fwd F)) (f_nu (fb_fwd F)) (fb_ctl F).
Hypothesis Bt : new_feedback (fb_fwd F) (fb_ctl F) (fb_xeq F) (fb_ueq F) (fb_lower F) (fb_upper F)
  (fb_meth F) = Some F.

Lemma feedback_facts : length (fb_xeq F) = f_nx (fb_fwd F) /\ length (fb_ueq F) = f_nu (fb_fwd F) /\
  length (fb_lower F) = f_nu (fb_fwd F) /\ length (fb_upper F) = f_nu (fb_fwd F).
Proof.
  unfold new_feedback in Bt.
  match type of Bt with (if ?b then _ else _) = _ => destruct b eqn:E; [|discriminate] end.
  repeat (apply andb_prop in E; destruct E as [E ?]).
  repeat match goal with H : Nat.eqb _ _ = true |- _ => apply Nat.eqb_eq in H end. auto.
Qed.

Lemma controller_length : forall x, length x = f_nx (fb_fwd F) ->
  length (controller_forward (fb_ctl F) x) = f_nu (fb_fwd F).
Proof.
  intros x L. destruct (fb_ctl F) as [N|l]; cbn [controller_forward] in *.
  - destruct Cw as [W E]. rewrite (forward_eval _ _ _ W L), (net_eval_length _ _ _ W L). auto.
  - destruct Cw as [W E]. destruct W as (W1 & W2 & W3). unfold linear_forward.
    assert (Lb : length (bias_of l) = out_features l).
    { unfold bias_of. destruct (bias l); auto. apply zeros_length. }
    rewrite vadd_length; rewrite mv_length; destruct W2; congruence.
Qed.

Lemma pre_saturation_length : forall x, length x = f_nx (fb_fwd F) ->
  length (pre_saturation F x) = f_nu (fb_fwd F).
Proof.
  intros x L. destruct feedback_facts as (A & B & _). unfold pre_saturation.
  assert (L1 := controller_length _ L). assert (L2 := controller_length _ A).
  rewrite vadd_length; rewrite vsub_length; congruence.
Qed.

Lemma compute_u_eq : Forall2 limit_any (fb_lower F) (fb_upper F) -> forall x,
  length x = f_nx (fb_fwd F) ->
  compute_u F x = Some (saturates (fb_lower F) (fb_upper F) (pre_saturation F x)).
Proof.
  intros Hl x L. destruct feedback_facts as (_ & _ & A & _). unfold compute_u.
  apply saturates_eq; auto. rewrite (pre_saturation_length x L). auto.
Qed.

Lemma pre_saturation_eq : pre_saturation F (fb_xeq F) = fb_ueq F.
Proof.
  destruct feedback_facts as (A & B & _). unfold pre_saturation. rewrite vsub_self.
  rewrite (controller_length _ A). apply vadd_zeros_l. auto.
Qed.

End F.

Lemma compute_u_spec : forall F x, controller_wf (f_nx (fb_fwd F)) (f_nu (fb_fwd F)) (fb_ctl F) ->
  new_feedback (fb_fwd F) (fb_ctl F) (fb_xeq F) (fb_ueq F) (fb_lower F) (fb_upper F) (fb_meth F)
    = Some F ->
  Forall2 limit_any (fb_lower F) (fb_upper F) -> length x = f_nx (fb_fwd F) ->
  exists u, compute_u F x = Some u /\ length u = f_nu (fb_fwd F) /\
    within_limits (fb_lower F) (fb_upper F) u /\
    (within_limits (fb_lower F) (fb_upper F) (pre_saturation F x) -> u = pre_saturation F x) /\
    (forall w i, within_limits (fb_lower F) (fb_upper F) w ->
       Rabs (nth i u 0 - nth i (pre_saturation F x) 0) <= Rabs (nth i w 0 - nth i (pre_saturation F x) 0)) /\
    (x = fb_xeq F -> within_limits (fb_lower F) (fb_upper F) (fb_ueq F) -> u = fb_ueq F).
Proof.
  intros F x Cw Bt Hl L. destruct (feedback_facts F Bt) as (A & B & C & D).
  assert (Lp := pre_saturation_length F Cw Bt x L).
  destruct (saturates_within _ _ (pre_saturation F x) Hl ltac:(congruence)) as (S1 & S2 & S3).
  exists (saturates (fb_lower F) (fb_upper F) (pre_saturation F x)).
  split; [apply compute_u_eq; auto|]. split; [rewrite saturates_length; congruence|].
  split; auto. split; auto. split; auto.
  intros -> Hw. rewrite S2; rewrite pre_saturation_eq; auto.
Qed.

(** ** The saturation block *)

Lemma saturates_bounds : forall lower upper plo pup p ulo uup, Forall2 limit_any lower upper ->
  length lower = length p -> in_box plo pup p ->
  all_some (map fin (map2 ext_min (map2 ext_max lower (map Fin plo)) upper)) = Some ulo ->
  all_some (map fin (map2 ext_max (map2 ext_min upper (map Fin pup)) lower)) = Some uup ->
  in_box ulo uup (saturates lower upper p).
Proof.
  intros lower upper plo pup p ulo uup H. revert plo pup p ulo uup.
  induction H as [|lo up lower upper H1 H2 IH]; intros plo pup [|q p] ulo uup L [B1 B2] E1 E2;
    try discriminate.
  - simpl in *. apply Some_inj in E1. apply Some_inj in E2. subst. split; constructor.
  - inversion B1 as [|l0 q' plo' p' Ha Hb]; subst. inversion B2 as [|q' u0 p' pup' Hc Hd]; subst.
    cbn [map map2 all_some] in E1, E2.
    destruct (fin (ext_min (ext_max lo (Fin l0)) up)) as [a|] eqn:Ea; [|discriminate].
    destruct (all_some (map fin (map2 ext_min (map2 ext_max lower (map Fin plo')) upper)))
      as [ra|] eqn:Ra; [|discriminate].
    destruct (fin (ext_max (ext_min up (Fin u0)) lo)) as [b|] eqn:Eb; [|discriminate].
    destruct (all_some (map fin (map2 ext_max (map2 ext_min upper (map Fin pup')) lower)))
      as [rb|] eqn:Rb; [|discriminate].
    apply Some_inj in E1. apply Some_inj in E2. subst.
    destruct (IH plo' pup' p ra rb) as [I1 I2]; [simpl in L; lia|split; auto|exact Ra|exact Rb|].
    cbn [saturates].
    assert (a <= saturate lo up q <= b).
    { destruct lo as [|x|], up as [|y|]; cbn in *; try tauto; try discriminate;
        apply Some_inj in Ea; apply Some_inj in Eb; subst; unfold clamp, Rmax, Rmin;
        repeat destruct Rle_dec; lra. }
    split; constructor; tauto.
Qed.

Section Vt.
Variable vt : vtype.
Hypothesis Hvt : vt <> VCont.

Lemma in_box_cons : forall a b x lo up v, in_box (a :: lo) (b :: up) (x :: v) <->
  a <= x <= b /\ in_box lo up v.
Proof. intros. unfold in_box, vle. rewrite !F2_cons. tauto. Qed.

Lemma saturation_loop_step : forall st uv pv lower upper plo pup m m',
  saturation_loop uv pv lower upper plo pup vt m = Some m' -> history st m ->
  below (nvars m) uv -> below (nvars m) pv -> Forall2 limit_ok lower upper ->
  length pv = length uv -> length lower = length uv -> length plo = length uv -> length pup = length uv ->
  step vt st m m'
    (fun sg => in_box plo pup (map sg pv) /\ map sg uv = saturates lower upper (map sg pv))
    (fun sg => in_box plo pup (map sg pv) -> map sg uv = saturates lower upper (map sg pv)).
Proof.
  intros st. induction uv as [|u uv IH]; intros pv lower upper plo pup m m' E H Bu Bp Hl L1 L2 L3 L4.
  - destruct pv; [|discriminate]. destruct lower; [|discriminate]. destruct plo; [|discriminate].
    destruct pup; [|discriminate].
    cbn [saturation_loop] in E. apply Some_inj in E. subst m'.
    eapply step_weaken; [apply step_refl; auto| |]; cbn; auto.
  - destruct pv as [|p pv]; [discriminate|]. destruct lower as [|lo lower]; [discriminate|].
    destruct plo as [|pl plo]; [discriminate|]. destruct pup as [|pu pup]; [discriminate|].
    inversion Hl as [|a up b upper' H1 H2]; subst. rename upper' into upper.
    cbn [saturation_loop] in E.
    unfold below in Bu, Bp. inversion Bu as [|? ? Bu1 Bu2]; subst. inversion Bp as [|? ? Bp1 Bp2]; subst.
    match type of E with match ?X with _ => _ end = _ => destruct X as [m1|] eqn:E1; [|discriminate] end.
    assert (S1 : step vt st m m1
      (fun sg => pl <= sg p <= pu /\ sg u = saturate lo up (sg p))
      (fun sg => pl <= sg p <= pu -> sg u = saturate lo up (sg p))).
    { destruct lo as [|a|], up as [|b|]; cbn in H1; try tauto; try discriminate.
      - apply (one_row_step vt st _ _ _ _ _ _ _ _ E1 H eq_refl); intros sg; cbn.
        + intros [_ K]. f_equal. rewrite K. ring.
        + intros K _. injection K as K. lra.
      - destruct (add_saturation p u a b pl pu vt m) as [[m2 bs]|] eqn:Ea; [|discriminate].
        apply Some_inj in E1. subst m2. cbn [saturate].
        eapply saturation_step; eauto. }
    assert (H' : history st m1) by apply S1.
    assert (Nv : (nvars m <= nvars m1)%nat) by apply S1.
    assert (Up : forall l, below (nvars m) l -> below (nvars m1) l).
    { unfold below. intros l Hl'. eapply Forall_impl; [|exact Hl']. cbv beta. intros. lia. }
    specialize (IH pv lower upper plo pup m1 m' E H' (Up _ Bu2) (Up _ Bp2) H2
                  ltac:(simpl in *; lia) ltac:(simpl in *; lia) ltac:(simpl in *; lia) ltac:(simpl in *; lia)).
    cbn [map saturates].
    eapply step_trans; [exact S1|exact IH| | | |].
    + assert (LL := local_map2 m (p :: pv) (u :: uv)
        (fun a b => in_box (pl :: plo) (pu :: pup) a /\ b = saturates (lo :: lower) (up :: upper) a)).
      apply LL; auto.
    + intros sg _ [D1 D2]. apply in_box_cons in D1. apply cons_eq_iff in D2.
      destruct D1 as [D1 D3], D2 as [D2 D4]. split; [exact D1|exact D2].
    + intros sg _ [D1 D2] _. apply in_box_cons in D1. apply cons_eq_iff in D2.
      destruct D1 as [D1 D3], D2 as [D2 D4]. split; [exact D3|exact D4].
    + intros sg _ Q1 Q2 D. apply in_box_cons in D. destruct D as [D1 D2].
      apply cons_eq_iff. split; [apply Q1; exact D1|apply Q2; exact D2].
Qed.

Lemma saturation_block : forall st uv pv lower upper plo pup m m' ulo uup,
  add_input_saturation uv pv lower upper plo pup vt m = Some (m', (ulo, uup)) -> history st m ->
  below (nvars m) uv -> below (nvars m) pv -> Forall2 limit_ok lower upper ->
  length pv = length uv -> length lower = length uv -> length plo = length uv -> length pup = length uv ->
  (forall p, in_box plo pup p -> in_box ulo uup (saturates lower upper p)) /\
  length ulo = length uv /\ length uup = length uv /\
  step vt st m m'
    (fun sg => in_box plo pup (map sg pv) /\ map sg uv = saturates lower upper (map sg pv))
    (fun sg => in_box plo pup (map sg pv) -> map sg uv = saturates lower upper (map sg pv)).
Proof.
  intros st uv pv lower upper plo pup m m' ulo uup E H Bu Bp Hl L1 L2 L3 L4.
  unfold add_input_saturation in E.
  destruct (forallb (fun b => b) (map2 ext_leb lower upper)) eqn:Eb; [|discriminate].
  destruct (vleb plo pup) eqn:Ev; [|discriminate]. cbn [andb] in E.
  destruct (all_some (map fin (map2 ext_min (map2 ext_max lower (map Fin plo)) upper)))
    as [ul|] eqn:E1; [|discriminate].
  destruct (all_some (map fin (map2 ext_max (map2 ext_min upper (map Fin pup)) lower)))
    as [uu|] eqn:E2; [|discriminate].
  destruct (saturation_loop uv pv lower upper plo pup vt m) as [m1|] eqn:E3; [|discriminate].
  destruct (vleb ul uu); [|discriminate].
  apply Some_inj in E. apply pair_equal_spec in E. destruct E as [-> E].
  apply pair_equal_spec in E. destruct E as [-> ->].
  assert (Ll := Forall2_len _ _ _ Hl).
  apply vleb_spec in Ev.
  split; [|split; [|split]].
  - intros p Ip. eapply saturates_bounds; eauto; [apply limit_ok_any; auto|].
    apply in_box_lengths in Ip. unfold vec in *. lia.
  - assert (Ip : in_box plo pup plo) by (split; [apply (box_refl plo)|exact Ev]).
    apply saturates_bounds with (lower := lower) (upper := upper) (ulo := ulo) (uup := uup) in Ip; auto.
    + apply in_box_lengths in Ip. rewrite saturates_length in Ip; unfold vec in *; lia.
    + apply limit_ok_any; auto.
    + unfold vec in *; lia.
  - assert (Ip : in_box plo pup plo) by (split; [apply (box_refl plo)|exact Ev]).
    apply saturates_bounds with (lower := lower) (upper := upper) (ulo := ulo) (uup := uup) in Ip; auto.
    + apply in_box_lengths in Ip. rewrite saturates_length in Ip; unfold vec in *; lia.
    + apply limit_ok_any; auto.
    + unfold vec in *; lia.
  - apply saturation_loop_step; auto.
Qed.

End Vt.

Lemma controller_tail : forall vt st lo up nu xv uv m m1 m2 m3 m4 pv pre lower upper plo pup ulo uup
    (Q1 Rw : assignment -> Prop), vt <> VCont ->
  step vt st m m1 (fun sg => in_box lo up (map sg xv)) Q1 ->
  below (nvars m) xv -> below (nvars m) uv -> length uv = nu ->
  addVars (repeat (NInf, PInf) nu) VCont m1 = (m2, pv) ->
  history st m3 -> nvars m3 = nvars m2 -> (forall sg, feas vt m3 sg <-> feas vt m2 sg /\ Rw sg) ->
  (forall sg, Q1 sg -> length (map sg pv) = nu -> (Rw sg <-> map sg pv = pre (map sg xv))) ->
  (forall x, in_box lo up x -> in_box plo pup (pre x)) ->
  (forall s1 s2, agree m1 s1 s2 -> Q1 s1 -> Q1 s2) ->
  length lower = nu -> length plo = nu -> length pup = nu -> Forall2 limit_ok lower upper ->
  add_input_saturation uv pv lower upper plo pup vt m3 = Some (m4, (ulo, uup)) ->
  (forall x, in_box lo up x -> in_box ulo uup (saturates lower upper (pre x))) /\
  length ulo = nu /\ length uup = nu /\
  step vt st m m4
    (fun sg => in_box lo up (map sg xv) /\ map sg uv = saturates lower upper (pre (map sg xv)))
    (fun sg => Q1 sg /\ (in_box lo up (map sg xv) -> map sg uv = saturates lower upper (pre (map sg xv)))).
Proof.
  intros vt st lo up nu xv uv m m1 m2 m3 m4 pv pre lower upper plo pup ulo uup Q1 Rw
    Vt (S11 & S12 & S13 & S14) Bx Bu Lu Ef H3 N3 F3 HR HP LQ Ll L1 L2 Hl Es.
  destruct (step_free vt st nu m1 m2 pv Ef S12) as (Ep & Nv2 & H2 & Fr1 & Fr2).
  assert (Lp : length pv = nu) by (subst pv; apply seq_length).
  assert (Up : forall n, (nvars m1 <= n)%nat -> forall l, below (nvars m) l -> below n l).
  { unfold below. intros n Hn l Hl'. eapply Forall_impl; [|exact Hl']. cbv beta. intros. lia. }
  assert (Bp : below (nvars m3) pv).
  { subst pv. unfold below. apply Forall_forall. intros i Hi. apply in_seq in Hi. lia. }
  destruct (saturation_block vt Vt st uv pv lower upper plo pup m3 m4 ulo uup Es H3)
    as (Sb & Lb1 & Lb2 & T1 & T2 & T3 & T4); auto; try congruence.
  { apply Up; [lia|auto]. }
  split; [intros x Hx; apply Sb; auto|]. split; [congruence|]. split; [congruence|].
  split; [lia|]. split; auto. split.
  - intros sg G. destruct (T3 sg G) as [G3 K]. apply F3 in G3. destruct G3 as [G2 R].
    assert (G1 := Fr1 sg G2). destruct (S13 sg G1) as [G0 Hq]. split; auto. split; auto.
    intros Hx. assert (E : map sg pv = pre (map sg xv)).
    { apply HR; auto. rewrite map_length; auto. }
    rewrite K; rewrite E; auto.
  - intros sg G [Hx Hu]. destruct (S14 sg G Hx) as (s1 & G1 & A1).
    destruct (S13 s1 G1) as [_ Hq1].
    assert (Ex1 : map s1 xv = map sg xv) by (symmetry; apply map_agree with (n := nvars m); auto).
    assert (Lpre : length (pre (map sg xv)) = nu).
    { assert (I := in_box_lengths _ _ _ (HP _ Hx)). unfold vec in *. lia. }
    destruct (Fr2 s1 (pre (map sg xv)) G1 Lpre) as (s2 & G2 & A2 & Epv).
    assert (Ex2 : map s2 xv = map sg xv).
    { rewrite <- Ex1. symmetry. apply map_agree with (n := nvars m1); auto. }
    assert (Eu2 : map s2 uv = map sg uv).
    { rewrite (map_agree (nvars m) _ _ uv Bu A1). symmetry. apply map_agree with (n := nvars m1); auto. }
    assert (G3 : feas vt m3 s2).
    { apply F3. split; auto. apply HR; [apply (LQ s1 s2 A2 Hq1)|rewrite map_length; auto|].
      rewrite Epv, Ex2. auto. }
    destruct (T4 s2 G3) as (s4 & G4 & A4).
    { rewrite Epv, Eu2. auto. }
    exists s4. split; auto.
    intros i Hi. rewrite (A1 i), (A2 i), (A4 i); auto; lia.
Qed.

Lemma row_pre_net : forall k (A c e u p : vec), length A = k -> length c = k -> length e = k ->
  length u = k -> length p = k ->
  (vadd A (vadd (vneg p) (zeros k)) = vsub (vsub e u) c <-> p = vadd (vsub (vadd A c) e) u).
Proof.
  unfold vadd, vneg, vsub, zeros.
  induction k; intros [|a0 A] [|c0 c] [|e0 e] [|u0 u] [|p0 p] L1 L2 L3 L4 L5; try discriminate;
    simpl in *; [tauto|].
  rewrite !cons_eq_iff, IHk by lia. split; intros [H1 H2]; (split; [lra|exact H2]).
Qed.
Lemma row_pre_lin : forall k (A c e u p : vec), length A = k -> length c = k -> length e = k ->
  length u = k -> length p = k ->
  (vadd (vneg p) (vadd A (zeros k)) = vsub (vadd (vneg u) e) c <-> p = vadd (vsub (vadd A c) e) u).
Proof.
  unfold vadd, vneg, vsub, zeros.
  induction k; intros [|a0 A] [|c0 c] [|e0 e] [|u0 u] [|p0 p] L1 L2 L3 L4 L5; try discriminate;
    simpl in *; [tauto|].
  rewrite !cons_eq_iff, IHk by lia. split; intros [H1 H2]; (split; [lra|exact H2]).
Qed.

Section Solver.
Variable solve : mip -> gresult.
Hypothesis Hsolve : solver_ok solve.

Lemma controller_step : forall F st vt m m' xv uv ulo uup rc, feedback_built F -> vt <> VCont ->
  history st m -> below (nvars m) xv -> below (nvars m) uv ->
  length xv = f_nx (fb_fwd F) -> length uv = f_nu (fb_fwd F) ->
  vle (f_lo (fb_fwd F)) (f_up (fb_fwd F)) ->
  add_controller solve F xv uv vt m = Some (m', (ulo, uup), rc) ->
  let box := in_box (f_lo (fb_fwd F)) (f_up (fb_fwd F)) in
  (forall x u, box x -> compute_u F x = Some u -> in_box ulo uup u) /\
  length ulo = f_nu (fb_fwd F) /\ length uup = f_nu (fb_fwd F) /\
  step vt st m m'
    (fun sg => box (map sg xv) /\ compute_u F (map sg xv) = Some (map sg uv))
    (fun sg => (is_net (fb_ctl F) -> box (map sg xv)) /\
               (box (map sg xv) -> compute_u F (map sg xv) = Some (map sg uv))).
Proof.
  intros F st vt m m' xv uv ulo uup rc (Cw & Ll & Lp & Hl & Bt) Vt H Bx Bu Lx Lu Hv E box.
  destruct (feedback_facts F Bt) as (Fx & Fu & Flo & Fup).
  assert (Ha := limit_ok_any _ _ Hl).
  assert (CU := compute_u_eq F Cw Bt Ha).
  assert (CL := controller_length F Cw Bt).
  assert (Goal0 : forall Q1 : assignment -> Prop,
    ((forall x, box x -> in_box ulo uup (saturates (fb_lower F) (fb_upper F) (pre_saturation F x))) /\
     length ulo = f_nu (fb_fwd F) /\ length uup = f_nu (fb_fwd F) /\
     step vt st m m'
      (fun sg => box (map sg xv) /\
         map sg uv = saturates (fb_lower F) (fb_upper F) (pre_saturation F (map sg xv)))
      (fun sg => Q1 sg /\ (box (map sg xv) ->
         map sg uv = saturates (fb_lower F) (fb_upper F) (pre_saturation F (map sg xv))))) ->
    (forall sg, Q1 sg -> is_net (fb_ctl F) -> box (map sg xv)) ->
    (forall x u, box x -> compute_u F x = Some u -> in_box ulo uup u) /\
    length ulo = f_nu (fb_fwd F) /\ length uup = f_nu (fb_fwd F) /\
    step vt st m m'
      (fun sg => box (map sg xv) /\ compute_u F (map sg xv) = Some (map sg uv))
      (fun sg => (is_net (fb_ctl F) -> box (map sg xv)) /\
                 (box (map sg xv) -> compute_u F (map sg xv) = Some (map sg uv)))).
  { intros Q1 (A1 & A2 & A3 & A4) HQ. split; [|split; [auto|split; [auto|]]].
    - intros x u Hx Hu. assert (L : length x = f_nx (fb_fwd F)).
      { apply in_box_lengths in Hx. unfold vec in *; lia. }
      rewrite (CU x L) in Hu. apply Some_inj in Hu. subst u. auto.
    - eapply step_weaken; [exact A4| |].
      + intros sg _ [D1 D2]. split; auto. rewrite CU in D2 by (rewrite map_length; auto).
        apply Some_inj in D2. auto.
      + intros sg _ [D1 D2]. split; [apply HQ; auto|]. intros Hx.
        rewrite CU by (rewrite map_length; auto). rewrite <- D2; auto. }
  unfold add_controller in E.
  destruct (fb_ctl F) as [N|l] eqn:Ek.
  - destruct Cw as [W On].
    destruct (compute_layer_bound solve (fb_meth F) N (f_lo (fb_fwd F)) (f_up (fb_fwd F))) as [B|] eqn:E1;
      [|discriminate].
    destruct (compute_network_output_bounds solve (fb_meth F) N (b_pre_lo B) (b_pre_up B)
       (f_lo (fb_fwd F)) (f_up (fb_fwd F))) as [[olo oup]|] eqn:E2; [|discriminate].
    destruct (output_constraint_given_bounds N (b_pre_lo B) (b_pre_up B) (f_lo (fb_fwd F))
       (f_up (fb_fwd F))) as [c|] eqn:E3; [|discriminate].
    assert (Eo : output_constraint solve (fb_meth F) N (f_lo (fb_fwd F)) (f_up (fb_fwd F))
                 = Some (c, B, (olo, oup))).
    { unfold output_constraint. apply vleb_spec in Hv. rewrite Hv. cbn [negb]. rewrite E1, E2, E3. auto. }
    assert (M := output_constraint_mic solve Hsolve _ _ _ _ _ _ _ _ W Ll Lp Eo).
    destruct (network_bounds solve Hsolve _ _ _ _ _ _ _ _ _ W Ll Lp Eo) as [Nb _].
    destruct (net_affine _ _ _ _ _ M) as (A & EA & WA & EC & LC & FA).
    destruct (nm_aout _ _ _ _ _ M) as [Ei Eb]. rewrite Ei, Eb, EA, EC in E.
    destruct (add_mic c xv None NewBinary vt m) as [[m1 z] be] eqn:Em.
    destruct (addVars (repeat (NInf, PInf) (f_nu (fb_fwd F))) VCont m1) as [m2 pv] eqn:Ef.
    set (eqv := forward N (fb_xeq F)) in *. cbv zeta in E.
    match type of E with match ?X with _ => _ end = _ => destruct X as [[m4 b]|] eqn:Es; [|discriminate] end.
    apply Some_inj in E. apply pair_equal_spec in E. destruct E as [E Er].
    apply pair_equal_spec in E. destruct E as [-> ->].
    destruct (net_step st _ _ _ _ _ xv vt m m1 z be M H Bx Lx Vt Em) as (Z1 & Z2 & Nv1 & S1).
    destruct (step_free vt st _ m1 m2 pv Ef ltac:(apply S1)) as (Ep & Nv2 & H2 & _ & _).
    assert (Leq : length eqv = f_nu (fb_fwd F)) by (apply (CL _ Fx)).
    set (rhs := vsub (vsub eqv (fb_ueq F)) (bias_of (last_layer N))) in *.
    assert (Lr : length rhs = f_nu (fb_fwd F)).
    { unfold rhs. rewrite vsub_length; rewrite vsub_length; congruence. }
    destruct (step_addM vt st [A; eyek (f_nu (fb_fwd F)) (-1)] [z; pv] SEq rhs m2) as (H3 & N3 & F3); auto.
    { discriminate. }
    { rewrite Lr. cbn [combine]. constructor; [|constructor; [|constructor]]; cbn [fst snd].
      - subst z. rewrite seq_length, <- On. exact WA.
      - subst pv. rewrite seq_length. apply wfm_eyek. }
    { cbn. rewrite app_nil_r. apply below_app. subst z pv. unfold below.
      split; apply Forall_forall; intros i Hi; apply in_seq in Hi; lia. }
    assert (Lolo : length olo = f_nu (fb_fwd F) /\ length oup = f_nu (fb_fwd F)).
    { assert (Ip : in_box (f_lo (fb_fwd F)) (f_up (fb_fwd F)) (f_lo (fb_fwd F)))
        by (split; [apply (box_refl (f_lo (fb_fwd F)))|exact Hv]).
      destruct (Nb _ Ip) as (_ & _ & K). apply in_box_lengths in K.
      rewrite (net_eval_length _ _ _ W Ll), On in K. exact K. }
    destruct Lolo as [Lo1 Lo2].
    apply (Goal0 (fun sg => in_box (f_lo (fb_fwd F)) (f_up (fb_fwd F)) (map sg xv) /\ bins (map sg be) /\
               mic_sat c (map sg xv) (map sg z) (map sg be) /\
               map sg z = concat (post_acts (hidden N) (map sg xv)))); [|intros sg (K & _) _; exact K].
    eapply (controller_tail vt st _ _ _ xv uv m m1 m2 _ m' pv (pre_saturation F) _ _ _ _ _ _ _ _
      Vt S1 Bx Bu Lu Ef H3 N3 F3); [| | |exact Flo| | |exact Hl|exact Es].
    + intros sg (_ & _ & _ & Hz) Lpv. cbn [combine bsum sense_ok]. rewrite Lr, Hz.
      assert (Lxs : length (map sg xv) = f_nx (fb_fwd F)) by (rewrite map_length; auto).
      rewrite mv_eyek_neg by auto.
      assert (LA : length (mv A (concat (post_acts (hidden N) (map sg xv)))) = f_nu (fb_fwd F)).
      { rewrite mv_length. destruct WA. congruence. }
      unfold rhs. rewrite row_pre_net by congruence. rewrite (FA _ Lxs).
      unfold pre_saturation. rewrite Ek. cbn [controller_forward]. fold eqv.
      rewrite (forward_eval _ _ _ W Lxs). tauto.
    + intros x Hx. assert (Lxs : length x = f_nx (fb_fwd F)).
      { apply in_box_lengths in Hx. unfold vec in *; lia. }
      destruct (Nb x Hx) as (_ & _ & K). unfold pre_saturation. rewrite Ek. cbn [controller_forward].
      fold eqv. rewrite (forward_eval _ _ _ W Lxs).
      apply vadd_box; [apply vsub_box; auto|apply box_refl].
    + intros s1 s2 Ag (K1 & K2 & K3 & K4).
      assert (X : forall l, below (nvars m1) l -> map s2 l = map s1 l).
      { intros l Hb. symmetry. apply map_agree with (n := nvars m1); auto. }
      rewrite !X; auto; subst; unfold below; apply Forall_forall; intros i Hi.
      * apply in_seq in Hi; lia.
      * apply in_seq in Hi; lia.
      * unfold below in Bx. rewrite Forall_forall in Bx. specialize (Bx i Hi). lia.
    + rewrite vadd_length; rewrite vsub_length; congruence.
    + rewrite vadd_length; rewrite vsub_length; congruence.
  - destruct Cw as [W On].
    destruct (addVars (repeat (NInf, PInf) (f_nu (fb_fwd F))) VCont m) as [m1 pv] eqn:Ef.
    set (eqv := linear_forward l (fb_xeq F)) in *. cbv zeta in E.
    destruct (linear_prop _ _ _ _ W Ll Hv) as (olo & oup & Ep & Pb & _). rewrite Ep in E.
    match type of E with match ?X with _ => _ end = _ => destruct X as [[m4 b]|] eqn:Es; [|discriminate] end.
    apply Some_inj in E. apply pair_equal_spec in E. destruct E as [E Er].
    apply pair_equal_spec in E. destruct E as [-> ->].
    destruct (step_free vt st _ m m1 pv Ef H) as (Epv & Nv2 & H2 & _ & _).
    assert (Leq : length eqv = f_nu (fb_fwd F)) by (apply (CL _ Fx)).
    assert (Lb : length (bias_of l) = f_nu (fb_fwd F)).
    { destruct W as (W1 & W2 & W3). unfold bias_of. destruct (bias l); [congruence|].
      rewrite zeros_length. auto. }
    set (rhs := vsub (vadd (vneg (fb_ueq F)) eqv) (bias_of l)) in *.
    assert (Lr : length rhs = f_nu (fb_fwd F)).
    { unfold rhs. rewrite vsub_length; rewrite vadd_length; rewrite vneg_length; congruence. }
    destruct (step_addM vt st [eyek (f_nu (fb_fwd F)) (-1); weight l] [pv; xv] SEq rhs m1)
      as (H3 & N3 & F3); auto.
    { discriminate. }
    { rewrite Lr. cbn [combine]. constructor; [|constructor; [|constructor]]; cbn [fst snd].
      - subst pv. rewrite seq_length. apply wfm_eyek.
      - rewrite Lx, <- On. apply W. }
    { cbn. rewrite app_nil_r. apply below_app. split.
      - subst pv. unfold below. apply Forall_forall; intros i Hi; apply in_seq in Hi; lia.
      - unfold below. eapply Forall_impl; [|exact Bx]. cbv beta. intros. lia. }
    assert (Lf : forall x, length x = f_nx (fb_fwd F) -> lin_eval l x = linear_forward l x).
    { intros x L. apply lin_eval_bias. rewrite L. apply W. }
    assert (Lolo : length olo = f_nu (fb_fwd F) /\ length oup = f_nu (fb_fwd F)).
    { assert (Ip : in_box (f_lo (fb_fwd F)) (f_up (fb_fwd F)) (f_lo (fb_fwd F)))
        by (split; [apply (box_refl (f_lo (fb_fwd F)))|exact Hv]).
      assert (K := Pb _ Ip). apply in_box_lengths in K. rewrite (Lf _ Ll) in K.
      assert (K2 := CL _ Ll). cbn [controller_forward] in K2. unfold vec in *; lia. }
    destruct Lolo as [Lo1 Lo2].
    apply (Goal0 (fun sg => True)); [|intros sg _ K; destruct K].
    assert (S1 : step vt st m m (fun sg => in_box (f_lo (fb_fwd F)) (f_up (fb_fwd F)) (map sg xv))
                   (fun _ => True)).
    { eapply step_weaken; [apply step_refl; exact H| |]; intros; exact I. }
    eapply (controller_tail vt st _ _ _ xv uv m m m1 _ m' pv (pre_saturation F) _ _ _ _ _ _ _ _
      Vt S1 Bx Bu Lu Ef H3 N3 F3); [| |auto|exact Flo| | |exact Hl|exact Es].
    + intros sg _ Lpv. cbn [combine bsum sense_ok]. rewrite Lr.
      assert (Lxs : length (map sg xv) = f_nx (fb_fwd F)) by (rewrite map_length; auto).
      rewrite mv_eyek_neg by auto.
      assert (LA : length (mv (weight l) (map sg xv)) = f_nu (fb_fwd F)).
      { rewrite mv_length. destruct W as (_ & [W2 _] & _). congruence. }
      unfold rhs. rewrite row_pre_lin by congruence.
      unfold pre_saturation. rewrite Ek. cbn [controller_forward]. fold eqv. unfold linear_forward. tauto.
    + intros x Hx. assert (Lxs : length x = f_nx (fb_fwd F)).
      { apply in_box_lengths in Hx. unfold vec in *; lia. }
      assert (K := Pb x Hx). unfold pre_saturation. rewrite Ek. cbn [controller_forward].
      fold eqv. rewrite <- (Lf _ Lxs).
      apply vadd_box; [apply vsub_box; auto|apply box_refl].
    + rewrite vadd_length; rewrite vsub_length; congruence.
    + rewrite vadd_length; rewrite vsub_length; congruence.
Qed.

Lemma closed_loop_step : forall F Tf st vt m m' xv xn r, feedback_built F -> vt <> VCont ->
  forward_contract st (fb_fwd F) Tf -> vle (f_lo (fb_fwd F)) (f_up (fb_fwd F)) ->
  history st m -> below (nvars m) xv -> below (nvars m) xn ->
  length xv = f_nx (fb_fwd F) -> length xn = f_nx (fb_fwd F) ->
  fb_add_ret solve F xv xn vt m = Some (m', r) ->
  step vt st m m' (fun sg => fb_next F Tf (map sg xv) (map sg xn))
    (fun sg => Tf (map sg xv) (map sg (fr_u r)) (map sg xn) /\
       (is_net (fb_ctl F) -> in_box (f_lo (fb_fwd F)) (f_up (fb_fwd F)) (map sg xv)) /\
       (in_box (f_lo (fb_fwd F)) (f_up (fb_fwd F)) (map sg xv) ->
        compute_u F (map sg xv) = Some (map sg (fr_u r)))).
Proof.
  intros F Tf st vt m m' xv xn r Bt Vt Hf Hv H Bx Bn Lx Ln E. unfold fb_add_ret in E.
  destruct (addVars (repeat (NInf, PInf) (f_nu (fb_fwd F))) VCont m) as [m1 uv] eqn:Ef.
  destruct (add_controller solve F xv uv vt m1) as [[[m2 [ulo uup]] rc]|] eqn:Ec; [|discriminate].
  destruct (f_add (fb_fwd F) xv xn uv (Some ulo) (Some uup) vt m2) as [[m3 rf]|] eqn:Ea; [|discriminate].
  apply Some_inj in E. apply pair_equal_spec in E. destruct E as [-> <-]. cbn [fr_u].
  destruct (step_free vt st _ m m1 uv Ef H) as (Eu & Nv1 & H1 & Fr1 & Fr2).
  assert (Up : forall a b l, (a <= b)%nat -> below a l -> below b l).
  { unfold below. intros a b l Hab Hl. eapply Forall_impl; [|exact Hl]. cbv beta. intros. lia. }
  assert (Bu : below (nvars m1) uv).
  { subst uv. unfold below. apply Forall_forall. intros i Hi. apply in_seq in Hi. lia. }
  assert (Lu : length uv = f_nu (fb_fwd F)) by (subst uv; apply seq_length).
  destruct (controller_step F st vt m1 m2 xv uv ulo uup rc) as (Cb & L1 & L2 & C1 & C2 & C3 & C4); auto.
  { apply (Up (nvars m)); auto; lia. }
  destruct (Hf vt m2 m' xv xn uv ulo uup rf Vt C2) as (D1 & D2 & D3 & D4); auto.
  { apply (Up (nvars m)); auto; lia. }
  { apply (Up (nvars m)); auto; lia. }
  { apply (Up (nvars m1)); auto. }
  split; [lia|]. split; auto. split.
  - intros sg G. destruct (D3 sg G) as [G2 K1]. destruct (C3 sg G2) as [G1 [K2 K3]].
    split; [auto|]. split; auto.
  - intros sg G (Ib & u & Ecu & Ht).
    assert (Lus : length u = f_nu (fb_fwd F)).
    { apply in_box_lengths with (lo := ulo) (up := uup) in Ecu || idtac.
      assert (K := Cb _ _ Ib Ecu). apply in_box_lengths in K. unfold vec in *; lia. }
    destruct (Fr2 sg u G Lus) as (s1 & G1 & A1 & Eu1).
    assert (X1 : map s1 xv = map sg xv) by (symmetry; apply map_agree with (n := nvars m); auto).
    destruct (C4 s1 G1) as (s2 & G2 & A2).
    { rewrite X1, Eu1. split; auto. }
    assert (X2 : map s2 xv = map sg xv).
    { rewrite <- X1. symmetry. apply map_agree with (n := nvars m1); auto.
      apply (Up (nvars m)); auto; lia. }
    assert (N2 : map s2 xn = map sg xn).
    { symmetry. apply map_agree with (n := nvars m); auto. intros i Hi.
      rewrite (A1 i), (A2 i); auto; lia. }
    assert (U2 : map s2 uv = u).
    { rewrite <- Eu1. symmetry. apply map_agree with (n := nvars m1); auto. }
    destruct (D4 s2 G2) as (s3 & G3 & A3).
    { rewrite X2, N2, U2. split; auto. eapply Cb; eauto. }
    exists s3. split; auto. intros i Hi. rewrite (A1 i), (A2 i), (A3 i); auto; lia.
Qed.

Lemma fr_u_length : forall F xv xn vt m m' r, fb_add_ret solve F xv xn vt m = Some (m', r) ->
  length (fr_u r) = f_nu (fb_fwd F).
Proof.
  intros F xv xn vt m m' r E. unfold fb_add_ret in E.
  destruct (addVars (repeat (NInf, PInf) (f_nu (fb_fwd F))) VCont m) as [m1 uv] eqn:Ef.
  destruct (add_controller solve F xv uv vt m1) as [[[m2 [ulo uup]] rc]|] eqn:Ec; [|discriminate].
  destruct (f_add (fb_fwd F) xv xn uv (Some ulo) (Some uup) vt m2) as [[m3 rf]|] eqn:Ea; [|discriminate].
  apply Some_inj in E. apply pair_equal_spec in E. destruct E as [_ <-]. cbn [fr_u].
  destruct (addVars_fields _ _ _ _ _ Ef) as (_ & _ & E & _). rewrite E, seq_length, repeat_length. auto.
Qed.

Lemma feedback_contract : forall F Tf st, feedback_built F -> forward_contract st (fb_fwd F) Tf ->
  vle (f_lo (fb_fwd F)) (f_up (fb_fwd F)) ->
  (is_net (fb_ctl F) \/ confines (fb_fwd F) Tf) ->
  system_contract (f_nx (fb_fwd F)) st (fb_add solve F) (fb_next F Tf).
Proof.
  intros F Tf st Bt Hf Hv Hc vt m m' xv xn Vt H Bx Bn Lx Ln _ E. unfold fb_add in E.
  destruct (fb_add_ret solve F xv xn vt m) as [[m1 r]|] eqn:Ea; [|discriminate].
  apply Some_inj in E. subst m1.
  eapply step_weaken; [exact (closed_loop_step F Tf st vt m m' xv xn r Bt Vt Hf Hv H Bx Bn Lx Ln Ea)| |].
  - intros sg _ D. exact D.
  - intros sg _ (K1 & K2 & K3).
    assert (Ib : in_box (f_lo (fb_fwd F)) (f_up (fb_fwd F)) (map sg xv)).
    { destruct Hc as [Hn|Hc]; [apply K2; auto|].
      apply (Hc _ (map sg (fr_u r)) (map sg xn)); auto; [rewrite map_length; auto|].
      rewrite map_length. eapply fr_u_length; eauto. }
    split; auto. exists (map sg (fr_u r)). split; auto.
Qed.

(** ** The closed loop can be built *)

Lemma all_some_fin : forall l, (forall e, In e l -> exists r, e = Fin r) ->
  exists v, all_some (map fin l) = Some v.
Proof.
  induction l as [|e l IH]; intros H; cbn; [eauto|].
  destruct (H e (or_introl eq_refl)) as [r ->]. cbn.
  destruct IH as [v ->]; [intros; apply H; right; auto|]. eauto.
Qed.

Lemma saturation_loop_total : forall st vt uv pv lower upper plo pup m, vt <> VCont -> history st m ->
  below (nvars m) uv -> below (nvars m) pv -> Forall2 limit_ok lower upper ->
  length pv = length uv -> length lower = length uv -> length plo = length uv -> length pup = length uv ->
  vle plo pup -> (forall u, In u uv -> ~ In u pv) ->
  saturation_loop uv pv lower upper plo pup vt m <> None.
Proof.
  intros st vt. induction uv as [|u uv IH]; intros pv lower upper plo pup m Vt H Bu Bp Hl L1 L2 L3 L4 Hv Hn;
    [discriminate|].
  destruct pv as [|p pv]; [discriminate|]. destruct lower as [|lo lower]; [discriminate|].
  destruct plo as [|pl plo]; [discriminate|]. destruct pup as [|pu pup]; [discriminate|].
  inversion Hl as [|a up b upper' H1 H2]; subst. rename upper' into upper.
  cbn [saturation_loop].
  unfold below in Bu, Bp. inversion Bu as [|? ? Bu1 Bu2]; subst. inversion Bp as [|? ? Bp1 Bp2]; subst.
  inversion Hv as [|? ? ? ? Hv1 Hv2]; subst.
  match goal with |- match ?X with _ => _ end <> _ => destruct X as [m1|] eqn:E1 end.
  - assert (S1 : step vt st m m1
      (fun sg => pl <= sg p <= pu /\ sg u = saturate lo up (sg p))
      (fun sg => pl <= sg p <= pu -> sg u = saturate lo up (sg p))).
    { destruct lo as [|a|], up as [|b|]; cbn in H1; try tauto; try discriminate.
      - apply (one_row_step vt st _ _ _ _ _ _ _ _ E1 H eq_refl); intros sg; cbn.
        + intros [_ K]. f_equal. rewrite K. ring.
        + intros K _. injection K as K. lra.
      - destruct (add_saturation p u a b pl pu vt m) as [[m2 bs]|] eqn:Ea; [|discriminate].
        apply Some_inj in E1. subst m2. cbn [saturate].
        eapply saturation_step; eauto. }
    destruct S1 as (Nv & H' & _). apply IH; auto; try (simpl in *; lia).
    + unfold below. eapply Forall_impl; [|exact Bu2]. cbv beta. intros. lia.
    + unfold below. eapply Forall_impl; [|exact Bp2]. cbv beta. intros. lia.
    + intros v Hu Hp. apply (Hn v); right; auto.
  - exfalso. assert (Hne : u <> p) by (intros ->; apply (Hn p); left; auto).
    destruct lo as [|a|], up as [|b|]; cbn in H1; try tauto; try discriminate.
    + destruct (step_addLConstr vt st [[1; -1]] [[u; p]] SEq 0 m H) as (m2 & K & _); auto.
      * unfold below. cbn. auto.
      * cbn. constructor; [intros [K|[]]; congruence|]. constructor; [intros []|constructor].
      * congruence.
    + destruct (add_saturation p u a b pl pu vt m) as [[m2 bs]|] eqn:Ea; [discriminate|].
      revert Ea. apply saturation_total; auto; apply (known_history st); auto.
Qed.

Lemma add_input_saturation_total : forall st vt uv pv lower upper plo pup m, vt <> VCont -> history st m ->
  below (nvars m) uv -> below (nvars m) pv -> Forall2 limit_ok lower upper ->
  length pv = length uv -> length lower = length uv -> length plo = length uv -> length pup = length uv ->
  vle plo pup -> (forall u, In u uv -> ~ In u pv) ->
  add_input_saturation uv pv lower upper plo pup vt m <> None.
Proof.
  intros st vt uv pv lower upper plo pup m Vt H Bu Bp Hl L1 L2 L3 L4 Hv Hn. unfold add_input_saturation.
  assert (E1 : forallb (fun b => b) (map2 ext_leb lower upper) = true).
  { clear - Hl. induction Hl as [|lo up lower upper H1 H2 IH]; auto. cbn. rewrite IH, andb_true_r.
    destruct lo, up; cbn in *; try tauto; auto. apply Rleb_true; auto. }
  assert (Ev := proj2 (vleb_spec plo pup) Hv). rewrite E1, Ev. cbn [andb].
  assert (A1 : exists v, all_some (map fin (map2 ext_min (map2 ext_max lower (map Fin plo)) upper)) = Some v).
  { clear - Hl L2 L3. rewrite <- L2 in L3. clear L2. revert plo L3.
    induction Hl as [|lo up lower upper H1 H2 IH]; intros [|a plo] L; try discriminate; cbn; eauto.
    destruct (IH plo) as [v Ev]; [simpl in L; lia|]. rewrite Ev.
    destruct lo, up; cbn in *; try tauto; eauto. }
  assert (A2 : exists v, all_some (map fin (map2 ext_max (map2 ext_min upper (map Fin pup)) lower)) = Some v).
  { clear - Hl L2 L4. rewrite <- L2 in L4. clear L2. revert pup L4.
    induction Hl as [|lo up lower upper H1 H2 IH]; intros [|a pup] L; try discriminate; cbn; eauto.
    destruct (IH pup) as [v Ev]; [simpl in L; lia|]. rewrite Ev.
    destruct lo, up; cbn in *; try tauto; eauto. }
  destruct A1 as [ulo A1]. destruct A2 as [uup A2]. rewrite A1, A2.
  assert (Ip : in_box plo pup plo) by (split; [apply (box_refl plo)|exact Hv]).
  apply saturates_bounds with (lower := lower) (upper := upper) (ulo := ulo) (uup := uup) in Ip; auto.
  2:{ apply limit_ok_any; auto. }
  2:{ unfold vec in *; congruence. }
  assert (Eu : vleb ulo uup = true).
  { apply vleb_spec. destruct Ip. eapply vle_trans; eauto. }
  rewrite Eu.
  destruct (saturation_loop uv pv lower upper plo pup vt m) eqn:El; [discriminate|].
  exfalso. revert El. eapply saturation_loop_total; eauto.
Qed.

Lemma add_controller_total : solver_total solve -> forall F st vt m xv uv, feedback_built F ->
  vt <> VCont -> history st m -> below (nvars m) xv -> below (nvars m) uv ->
  length xv = f_nx (fb_fwd F) -> length uv = f_nu (fb_fwd F) ->
  vle (f_lo (fb_fwd F)) (f_up (fb_fwd F)) ->
  add_controller solve F xv uv vt m <> None.
Proof.
  intros St F st vt m xv uv (Cw & Ll & Lp & Hl & Bt) Vt H Bx Bu Lx Lu Hv.
  destruct (feedback_facts F Bt) as (Fx & Fu & Flo & Fup).
  assert (CL := controller_length F Cw Bt).
  assert (Ip : in_box (f_lo (fb_fwd F)) (f_up (fb_fwd F)) (f_lo (fb_fwd F)))
    by (split; [apply (box_refl (f_lo (fb_fwd F)))|exact Hv]).
  unfold add_controller. destruct (fb_ctl F) as [N|l] eqn:Ek.
  - destruct Cw as [W On].
    destruct (output_constraint solve (fb_meth F) N (f_lo (fb_fwd F)) (f_up (fb_fwd F)))
      as [[[c B] [olo oup]]|] eqn:Eo.
    2:{ apply (output_constraint_total solve Hsolve St _ _ _ _ _ W Ll Lp) in Eo. tauto. }
    assert (M := output_constraint_mic solve Hsolve _ _ _ _ _ _ _ _ W Ll Lp Eo).
    destruct (network_bounds solve Hsolve _ _ _ _ _ _ _ _ _ W Ll Lp Eo) as [Nb _].
    destruct (net_affine _ _ _ _ _ M) as (A & EA & WA & EC & LC & FA).
    destruct (nm_aout _ _ _ _ _ M) as [Ei Eb].
    unfold output_constraint in Eo.
    destruct (vleb (f_lo (fb_fwd F)) (f_up (fb_fwd F))); [|discriminate]. cbn [negb] in Eo.
    destruct (compute_layer_bound solve (fb_meth F) N (f_lo (fb_fwd F)) (f_up (fb_fwd F))) as [B'|] eqn:E1;
      [|discriminate].
    destruct (compute_network_output_bounds solve (fb_meth F) N (b_pre_lo B') (b_pre_up B')
       (f_lo (fb_fwd F)) (f_up (fb_fwd F))) as [out|] eqn:E2; [|discriminate].
    destruct (output_constraint_given_bounds N (b_pre_lo B') (b_pre_up B') (f_lo (fb_fwd F))
       (f_up (fb_fwd F))) as [c'|] eqn:E3; [|discriminate].
    apply Some_inj in Eo. apply pair_equal_spec in Eo. destruct Eo as [Eo ->].
    apply pair_equal_spec in Eo. destruct Eo as [-> ->].
    rewrite Ei, Eb, EA, EC.
    destruct (add_mic c xv None NewBinary vt m) as [[m1 z] be] eqn:Em.
    destruct (addVars (repeat (NInf, PInf) (f_nu (fb_fwd F))) VCont m1) as [m2 pv] eqn:Ef.
    destruct (net_step st _ _ _ _ _ xv vt m m1 z be M H Bx Lx Vt Em) as (Z1 & Z2 & Nv1 & S1).
    destruct (step_free vt st _ m1 m2 pv Ef ltac:(apply S1)) as (Ep & Nv2 & H2 & _ & _).
    assert (Leq : length (forward N (fb_xeq F)) = f_nu (fb_fwd F)) by (apply (CL _ Fx)).
    cbv zeta. set (eqv := forward N (fb_xeq F)) in *.
    set (rhs := vsub (vsub eqv (fb_ueq F)) (bias_of (last_layer N))) in *.
    assert (Lr : length rhs = f_nu (fb_fwd F)).
    { unfold rhs. rewrite vsub_length; rewrite vsub_length; congruence. }
    destruct (step_addM vt st [A; eyek (f_nu (fb_fwd F)) (-1)] [z; pv] SEq rhs m2) as (H3 & N3 & F3); auto.
    { discriminate. }
    { rewrite Lr. cbn [combine]. constructor; [|constructor; [|constructor]]; cbn [fst snd].
      - subst z. rewrite seq_length, <- On. exact WA.
      - subst pv. rewrite seq_length. apply wfm_eyek. }
    { cbn. rewrite app_nil_r. apply below_app. subst z pv. unfold below.
      split; apply Forall_forall; intros i Hi; apply in_seq in Hi; lia. }
    destruct (Nb _ Ip) as (_ & _ & K). assert (K' := in_box_lengths _ _ _ K).
    rewrite (net_eval_length _ _ _ W Ll), On in K'. destruct K' as [Lo1 Lo2].
    match goal with |- match ?X with _ => _ end <> _ => destruct X as [[m4 b]|] eqn:Es; [discriminate|] end.
    exfalso. revert Es. apply (add_input_saturation_total st); auto.
    + rewrite N3. unfold below. eapply Forall_impl; [|exact Bu]. cbv beta. intros. lia.
    + rewrite N3. subst pv. unfold below. apply Forall_forall. intros i Hi. apply in_seq in Hi. lia.
    + subst pv. rewrite seq_length. auto.
    + congruence.
    + rewrite vadd_length; rewrite vsub_length; congruence.
    + rewrite vadd_length; rewrite vsub_length; congruence.
    + destruct (vadd_box _ _ _ _ _ _ (vsub_box _ _ _ eqv K) (box_refl (fb_ueq F))) as [V1 V2].
      eapply vle_trans; eauto.
    + intros u Hu Hp. subst pv. apply in_seq in Hp. unfold below in Bu. rewrite Forall_forall in Bu.
      specialize (Bu u Hu). lia.
  - destruct Cw as [W On].
    destruct (addVars (repeat (NInf, PInf) (f_nu (fb_fwd F))) VCont m) as [m1 pv] eqn:Ef.
    destruct (linear_prop _ _ _ _ W Ll Hv) as (olo & oup & Ep & Pb & _). rewrite Ep.
    destruct (step_free vt st _ m m1 pv Ef H) as (Epv & Nv2 & H2 & _ & _).
    assert (Leq : length (linear_forward l (fb_xeq F)) = f_nu (fb_fwd F)) by (apply (CL _ Fx)).
    cbv zeta. set (eqv := linear_forward l (fb_xeq F)) in *.
    assert (Lb : length (bias_of l) = f_nu (fb_fwd F)).
    { destruct W as (W1 & W2 & W3). unfold bias_of. destruct (bias l); [congruence|].
      rewrite zeros_length. auto. }
    set (rhs := vsub (vadd (vneg (fb_ueq F)) eqv) (bias_of l)) in *.
    assert (Lr : length rhs = f_nu (fb_fwd F)).
    { unfold rhs. rewrite vsub_length; rewrite vadd_length; rewrite vneg_length; congruence. }
    destruct (step_addM vt st [eyek (f_nu (fb_fwd F)) (-1); weight l] [pv; xv] SEq rhs m1)
      as (H3 & N3 & F3); auto.
    { discriminate. }
    { rewrite Lr. cbn [combine]. constructor; [|constructor; [|constructor]]; cbn [fst snd].
      - subst pv. rewrite seq_length. apply wfm_eyek.
      - rewrite Lx, <- On. apply W. }
    { cbn. rewrite app_nil_r. apply below_app. split.
      - subst pv. unfold below. apply Forall_forall; intros i Hi; apply in_seq in Hi; lia.
      - unfold below. eapply Forall_impl; [|exact Bx]. cbv beta. intros. lia. }
    assert (K := Pb _ Ip). assert (K' := in_box_lengths _ _ _ K).
    rewrite (lin_eval_length _ _ _ W Ll), On in K'. destruct K' as [Lo1 Lo2].
    match goal with |- match ?X with _ => _ end <> _ => destruct X as [[m4 b]|] eqn:Es; [discriminate|] end.
    exfalso. revert Es. apply (add_input_saturation_total st); auto.
    + rewrite N3. unfold below. eapply Forall_impl; [|exact Bu]. cbv beta. intros. lia.
    + rewrite N3. subst pv. unfold below. apply Forall_forall. intros i Hi. apply in_seq in Hi. lia.
    + subst pv. rewrite seq_length. auto.
    + congruence.
    + rewrite vadd_length; rewrite vsub_length; congruence.
    + rewrite vadd_length; rewrite vsub_length; congruence.
    + destruct (vadd_box _ _ _ _ _ _ (vsub_box _ _ _ eqv K) (box_refl (fb_ueq F))) as [V1 V2].
      eapply vle_trans; eauto.
    + intros u Hu Hp. subst pv. apply in_seq in Hp. unfold below in Bu. rewrite Forall_forall in Bu.
      specialize (Bu u Hu). lia.
Qed.

(** It is enough that some state of the box gets an input that the forward
    system accepts. *)
Lemma feedback_total : solver_total solve -> forall F st U x0 u0, feedback_built F ->
  forward_total U (fb_fwd F) -> vle (f_lo (fb_fwd F)) (f_up (fb_fwd F)) ->
  in_box (f_lo (fb_fwd F)) (f_up (fb_fwd F)) x0 -> compute_u F x0 = Some u0 -> U u0 ->
  system_total (f_nx (fb_fwd F)) st (fb_add solve F).
Proof.
  intros St F st U x0 u0 Bt Hf Hv Ib Ecu HU vt m xv xn Vt H Bx Bn Lx Ln _.
  unfold fb_add, fb_add_ret.
  destruct (addVars (repeat (NInf, PInf) (f_nu (fb_fwd F))) VCont m) as [m1 uv] eqn:Ef.
  destruct (step_free vt st _ m m1 uv Ef H) as (Eu & Nv1 & H1 & Fr1 & Fr2).
  assert (Bx1 : below (nvars m1) xv).
  { unfold below. eapply Forall_impl; [|exact Bx]. cbv beta. intros. lia. }
  assert (Bu : below (nvars m1) uv).
  { subst uv. unfold below. apply Forall_forall. intros i Hi. apply in_seq in Hi. lia. }
  assert (Lu : length uv = f_nu (fb_fwd F)) by (subst uv; apply seq_length).
  destruct (add_controller solve F xv uv vt m1) as [[[m2 [ulo uup]] rc]|] eqn:Ec.
  - destruct (controller_step F st vt m1 m2 xv uv ulo uup rc) as (Cb & L1 & L2 & _); auto.
    destruct (f_add (fb_fwd F) xv xn uv (Some ulo) (Some uup) vt m2) as [[m3 rf]|] eqn:Ea; [discriminate|].
    exfalso. revert Ea. eapply Hf; eauto.
  - exfalso. revert Ec. eapply add_controller_total; eauto.
Qed.

Lemma ctl_forward_total : solver_total solve -> forall C, ctl_built C -> ctl_usable C ->
  forward_total (in_box (ct_ulo C) (ct_uup C)) (ctl_fwd solve C).
Proof.
  intros St C Bt Us vt m xv xn uv alo aup u L1 L2 L3 L4 L5 Hb HU.
  cbn [ctl_fwd f_nx f_nu f_add] in *.
  destruct (ctl_built_facts _ Bt) as (_ & Lu & _).
  assert (Lb := in_box_lengths _ _ _ HU).
  destruct (ctl_add_ret solve C xv xn uv (Some alo) (Some aup) vt m) as [[m1 r]|] eqn:E; [discriminate|].
  exfalso. revert E. apply ctl_add_total; auto.
  - intros a Ea. congruence.
  - intros a Ea. congruence.
  - assert (K : in_box (tight_lo (ct_ulo C) (Some alo)) (tight_up (ct_uup C) (Some aup)) u).
    { apply tight_box; try tauto.
      - intros a Ea. assert (a = alo) by congruence. subst a. unfold ct_nu, vec in *. lia.
      - intros a Ea. assert (a = aup) by congruence. subst a. unfold ct_nu, vec in *. lia.
      - split; [exact HU|]. destruct Hb. split; intros l El; congruence. }
    destruct K. eapply vle_trans; eauto.
Qed.

End Solver.
