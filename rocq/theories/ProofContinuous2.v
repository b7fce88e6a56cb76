(** The signs of the 1-norm and the two products in the program. *)

Require Import Reals List Lia Lra Bool Arith.
Require Import Verif.Vec Verif.VecFacts Verif.ModelMip Verif.SpecMip Verif.SpecCore
  Verif.ModelUtils Verif.SpecUtils Verif.ModelNet Verif.SpecNet Verif.SpecStep
  Verif.ModelPattern Verif.SpecPattern
  Verif.ModelGrad Verif.ModelLyapunov Verif.SpecLyapunov Verif.ModelContinuous Verif.SpecContinuous
  Verif.ProofUtils Verif.ProofMip Verif.ProofSat Verif.ProofConcat Verif.ProofTorch
  Verif.ProofBounds Verif.ProofNet Verif.ProofNetBounds Verif.ProofNetTotal Verif.ProofWarm
  Verif.ProofStep Verif.ProofNetStep Verif.ProofPattern Verif.ProofGradVec Verif.ProofLyapunov
  Verif.ProofLyapCert Verif.ProofContinuous.
Import ListNotations.
Open Scope R_scope.

Lemma abs_flag : forall lo up c v b, abs_mic lo up false = Some c -> lo <= v <= up ->
  (mic_sat c [v] [Rabs v] [bit b] <-> flag_ok b v /\ forced lo up b).
Proof.
  intros lo up c v b H Hv.
  destruct (abs_dims lo up false c H) as [L [N1 [N2 [N3 _]]]].
  assert (N0 : nbin c <> 0%nat) by (rewrite N3; discriminate).
  assert (Av : (v <= 0 /\ Rabs v = - v) \/ (0 <= v /\ Rabs v = v)).
  { destruct (Rle_dec v 0); [left|right]; split; try lra; [apply Rabs_neg'|apply Rabs_pos']; lra. }
  split.
  - intros [S _]. destruct (abs_sound _ _ _ _ _ _ _ H (bits_bins [b]) S) as (w & E & _ & _ & _ & Sg).
    injection E as <-. split.
    + unfold abs_sign in Sg. cbn [map] in Sg.
      destruct Sg as [[E Hw]|[E Hw]]; apply cons_eq_iff in E; destruct E as [E _];
        destruct b; unfold bit in E; try lra; exact Hw.
    + destruct S as (_ & _ & _ & Si & Se). clear N1 N2 N3 L.
      unfold forced, sat_in, sat_eq, lhs, term in *.
      abs_open H; cbn in Si, Se; rewrite ?cons_eq_iff in Se;
        destruct b; cbn [bit] in *; (split; [intros|intros]); try reflexivity; exfalso; lra.
  - intros [F K]. unfold flag_ok, forced in *. clear N1 N2 N3 L.
    abs_open H;
      destruct b; cbn [bit];
      try (exfalso; destruct K as [K1 K2];
           first [ discriminate (K1 ltac:(lra)) | discriminate (K2 ltac:(lra) ltac:(lra)) ]);
      unfold mic_sat, rows_sat, sat_in, sat_eq, lhs, term, bounds_ok; cbn;
      rewrite ?vle_cons, ?cons_eq_iff, ?vle_nil;
      repeat match goal with |- _ /\ _ => split end;
      try reflexivity; try exact I; auto;
      try (constructor; [cbn; lra|constructor]);
      destruct Av as [[V1 V2]|[V1 V2]]; rewrite V2; try lra.
Qed.

Section Norm.
Variable n : nat.

Lemma l1_flags : forall xeq xv, length xv = n ->
  forall M ls us st m m' s al,
  l1_loop n false xeq M ls us xv VBin m = Some (m', s, al) ->
  history st m -> below (nvars m) xv -> Forall (fun r => length r = n) M ->
  length (concat al) = length M /\ fresh (nvars m) (nvars m') (concat al) /\
  (forall sg, feas VBin m' sg -> exists sgs, map sg (concat al) = map bit sgs /\
     signs_ok sgs (vadd (mv M (map sg xv)) (vneg (mv M xeq))) /\ forced_all ls us sgs) /\
  (forall sg sgs, feas VBin m sg ->
     in_box ls us (vadd (mv M (map sg xv)) (vneg (mv M xeq))) ->
     signs_ok sgs (vadd (mv M (map sg xv)) (vneg (mv M xeq))) -> forced_all ls us sgs ->
     exists sg', feas VBin m' sg' /\ agree m sg sg' /\ map sg' (concat al) = map bit sgs).
Proof.
  intros xeq xv L M.
  induction M as [|r M IH]; intros ls us st m m' s al H Hi B F; cbn [l1_loop] in H.
  - destruct ls, us; try discriminate. injection H as <- <- <-.
    split; auto. split; [apply fresh_nil|]. split.
    + intros sg G. exists []. split; auto. split; [constructor|exact I].
    + intros sg sgs G _ S _. exists sg. split; auto. split; [intros i _; auto|].
      inversion S; auto.
  - destruct ls as [|l ls]; [discriminate|]. destruct us as [|u us]; [discriminate|].
    destruct (abs_mic l u false) as [c|] eqn:Ec; [|discriminate].
    destruct (transform_input n [r] [- dot r xeq] c) as [c'|] eqn:Et; [|discriminate].
    destruct (add_mic c' xv None NewBinary VBin m) as [[m1 s_i] al_i] eqn:Em.
    destruct s_i as [|s0 [|]]; try discriminate.
    destruct (l1_loop n false xeq M ls us xv VBin m1) as [[[m2 s'] al']|] eqn:El; [|discriminate].
    injection H as <- <- <-.
    destruct (abs_fields _ _ _ _ Ec) as (A1 & A2 & A3 & A4 & A5 & A6 & A7).
    destruct (abs_dims _ _ _ _ Ec) as (_ & _ & _ & A8 & _).
    inversion F as [|r0 M0 Lr F' E0]; subst r0 M0.
    assert (Wr : wfm (nin c) n [r]) by (rewrite A2; split; auto).
    destruct (transform_ok _ _ _ _ _ Et A1 Wr ltac:(rewrite A2; auto) A4 A5)
      as (T1 & T2 & T3 & T4 & T5 & T6 & T7 & T8 & T9).
    destruct (step_mic VBin st _ _ _ _ _ _ _ Em T1 Hi B) as (S1 & S2 & S3 & S4 & S5);
      [congruence|exact I|discriminate|intros; repeat match goal with |- _ /\ _ => split end; congruence|].
    assert (N1 : (nvars m <= nvars m1)%nat) by lia.
    assert (Hi1 : history st m1) by apply S4.
    assert (B1 : below (nvars m1) xv).
    { eapply Forall_impl; try exact B. simpl; intros; lia. }
    destruct (IH _ _ _ _ _ _ _ El Hi1 B1 F') as (I1 & I2 & I3 & I4).
    assert (TS : forall (sg : assignment) sl bi, mic_sat c' (map sg xv) sl bi <->
       mic_sat c [dot r (map sg xv) + - dot r xeq] sl bi).
    { intros sg sl bi.
      destruct (transform_sat n [r] [- dot r xeq] c c' (map sg xv) sl bi Et (proj1 A1) Wr
        (eq_sym A2) (eq_trans (map_length _ _) L) A4 A5) as [K _]. exact K. }
    rewrite T4, A8 in S2. cbn [seq] in S2. subst al_i. cbn [concat app].
    set (a0 := (nvars m + nsl c')%nat) in *.
    assert (E1 : forall x, vadd (mv (r :: M) x) (vneg (mv (r :: M) xeq))
       = (dot r x + - dot r xeq) :: vadd (mv M x) (vneg (mv M xeq))) by reflexivity.
    assert (F3 : forall sg, feas VBin m2 sg -> feas VBin m1 sg).
    { destruct (l1_loop_step n (zeros n) (zeros n) (repeat_length _ _) (repeat_length _ _) false xeq VBin xv L ltac:(discriminate) M ls us st m1 m2 s' al' El Hi1 B1 F')
        as (_ & _ & K). intros sg G. apply K. auto. }
    assert (N2 : (nvars m1 <= nvars m2)%nat).
    { destruct (l1_loop_step n (zeros n) (zeros n) (repeat_length _ _) (repeat_length _ _) false xeq VBin xv L ltac:(discriminate) M ls us st m1 m2 s' al' El Hi1 B1 F')
        as (_ & _ & K). apply K. }
    split; [cbn [length]; f_equal; exact I1|]. split; [|split].
    + change (a0 :: concat al') with ([a0] ++ concat al').
      apply (fresh_app _ (nvars m1) (nvars m1)); auto.
      split; [repeat constructor; simpl; tauto|]. constructor; [|constructor].
      rewrite T4, A8 in S3. unfold a0. lia.
    + intros sg G. destruct (I3 sg G) as (sgs & K1 & K2 & K3).
      destruct S4 as (_ & _ & S4 & _). destruct (S4 sg (F3 sg G)) as (_ & J1 & J2 & _).
      destruct (bins_bits _ J1) as (fl & Ef). cbn [map] in Ef.
      destruct fl as [|b [|]]; try discriminate.
      apply TS in J2.
      destruct (abs_sound _ _ _ _ _ _ _ Ec J1 (proj1 J2)) as (v & V1 & V2 & V3 & _).
      injection V1 as V1. rewrite V3 in J2. cbn [map] in J2. cbn [map] in Ef.
      apply cons_eq_iff in Ef. destruct Ef as [Ef _]. rewrite Ef, V1 in J2.
      apply (abs_flag l u c v b Ec V2) in J2.
      exists (b :: sgs). rewrite E1. split; [cbn [map]; rewrite Ef, K1; auto|].
      split; [constructor; [rewrite V1; apply J2|exact K2]|]. split; [apply J2|exact K3].
    + intros sg sgs G D S K. rewrite E1 in D, S. destruct D as [D1 D2].
      inversion D1 as [|? ? ? ? Da D1']; subst. inversion D2 as [|? ? ? ? Db D2']; subst.
      inversion S as [|b ? sgs' ? Sb S']; subst. cbn [forced_all] in K. destruct K as [Kb K'].
      destruct (S5 sg [Rabs (dot r (map sg xv) + - dot r xeq)] [bit b] G (bits_bins [b]))
        as (sg1 & G1 & Ag1 & _ & Eb).
      { apply TS. apply (abs_flag l u c _ b Ec); auto. }
      { exact I. }
      assert (Ex : map sg xv = map sg1 xv) by (apply (map_agree (nvars m)); auto).
      rewrite Ex in D1', D2', S'.
      destruct (I4 sg1 sgs' G1 (conj D1' D2') S' K') as (sg2 & G2 & Ag2 & E2).
      exists sg2. split; auto. split; [eapply agree_trans; eauto|].
      cbn [map]. rewrite E2. f_equal. cbn [map] in Eb. injection Eb as Eb. rewrite <- Eb.
      symmetry. apply Ag2. rewrite T4, A8 in S3. unfold a0. lia.
Qed.

Lemma state_error_flags : forall st x_lo x_up xeq M xv m m' s al,
  add_state_error n x_lo x_up false xeq (Some M) xv VBin m = Some (m', s, al) ->
  wfm (length M) n M -> length x_lo = n -> length x_up = n ->
  history st m -> below (nvars m) xv -> length xv = n ->
  length (concat al) = length M /\ fresh (nvars m) (nvars m') (concat al) /\
  exists ls us, compute_range_by_IA n M (vneg (mv M xeq)) x_lo x_up = Some (ls, us) /\
  length ls = length M /\ length us = length M /\
  (forall y, in_box x_lo x_up y -> in_box ls us (mv M (vsub y xeq))) /\
  (forall sg, feas VBin m' sg -> exists sgs, map sg (concat al) = map bit sgs /\
     signs_ok sgs (mv M (vsub (map sg xv) xeq)) /\ forced_all ls us sgs) /\
  (forall sg sgs, feas VBin m sg -> in_box x_lo x_up (map sg xv) ->
     signs_ok sgs (mv M (vsub (map sg xv) xeq)) -> forced_all ls us sgs ->
     exists sg', feas VBin m' sg' /\ agree m sg sg' /\ map sg' (concat al) = map bit sgs).
Proof.
  intros st x_lo x_up xeq M xv m m' s al E W L1 L2 Hi B L. unfold add_state_error in E.
  destruct (vleb x_lo xeq) eqn:E1; [|discriminate].
  destruct (vleb xeq x_up) eqn:E2; [|discriminate]. cbn [negb andb] in E.
  apply vleb_spec in E1. apply vleb_spec in E2.
  rewrite (get_R_ok n (Some M) W) in E. cbn [R_of] in E.
  destruct (Nat.leb n (length M)) eqn:E3; [|discriminate]. cbn [negb] in E.
  destruct (compute_range_by_IA n M (vneg (mv M xeq)) x_lo x_up) as [[lb ub]|] eqn:E4; [|discriminate].
  destruct (l1_flags xeq xv L M lb ub st m m' s al E Hi B (proj2 W)) as (S1 & S2 & S3 & S4).
  split; auto. split; auto.
  assert (Le : length xeq = n) by (rewrite <- L1; symmetry; eapply vle_length; eauto).
  assert (Ev : forall y, length y = n -> vadd (mv M y) (vneg (mv M xeq)) = mv M (vsub y xeq)).
  { intros y Ly. apply (error_vec n); auto. apply W. }
  assert (Rs : forall y, in_box x_lo x_up y -> in_box lb ub (mv M (vsub y xeq))).
  { intros y By. rewrite <- Ev by (eapply in_box_length; eauto).
    eapply range_sound; eauto. apply W. }
  destruct (range_inv _ _ _ _ _ _ _ E4) as (R1 & R2 & R3 & R4 & R5).
  exists lb, ub. split; [reflexivity|].
  assert (Lm : length (vneg (mv M xeq)) = length M) by (unfold vneg; rewrite map_length; apply mv_length).
  split. { rewrite R4. rewrite map2_length. unfold mat, vec in *. rewrite Lm. apply Nat.min_id. }
  split. { rewrite R5. rewrite map2_length. unfold mat, vec in *. rewrite Lm. apply Nat.min_id. }
  split; auto. split.
  - intros sg G. destruct (S3 sg G) as (sgs & K1 & K2 & K3). exists sgs. split; auto. split; auto.
    rewrite Ev in K2 by (rewrite map_length; auto). exact K2.
  - intros sg sgs G By Sg Fo. apply S4; auto; rewrite Ev by (rewrite map_length; auto); auto.
Qed.

End Norm.
