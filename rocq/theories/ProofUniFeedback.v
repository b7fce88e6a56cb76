(** The unicycle closed loop: the input it computes and the constraints it adds. *)

Require Import Reals List Lia Lra Bool Arith.
Require Import Verif.Vec Verif.VecFacts Verif.ModelMip Verif.SpecMip Verif.SpecCore
  Verif.ModelUtils Verif.SpecUtils Verif.ModelNet Verif.SpecNet Verif.SpecStep
  Verif.ProofUtils Verif.ProofMaxBox Verif.ProofGrad Verif.ProofMip Verif.ProofSat
  Verif.ProofConcat Verif.ProofBounds Verif.ProofNet Verif.ProofNetBounds Verif.ProofNetTotal
  Verif.ProofWarm Verif.ProofStep Verif.ProofNetStep Verif.ModelPattern Verif.ModelStrengthen
  Verif.ModelLyapunov Verif.SpecLyapunov Verif.ProofLyapunov Verif.ModelHybrid Verif.SpecHybrid
  Verif.ModelSystems Verif.SpecSystems Verif.ProofMilp Verif.ProofRoa Verif.ProofSystems
  Verif.ProofSatStep Verif.ProofSystems2 Verif.ProofFeedback Verif.ModelUniFeedback
  Verif.SpecUniFeedback.
Import ListNotations.
Open Scope R_scope.

(** A step that only adds true binaries is a step of any kind. *)
Lemma step_bin_any : forall vt st m m' D Q, history st m -> step VBin st m m' D Q ->
  (exists ids, zeta_ m' = zeta_ m ++ ids /\ forall sg, gfeas m' sg -> bins (map sg ids)) ->
  step vt st m m' D Q.
Proof.
  intros vt st m m' D Q H (S1 & S2 & S3 & S4) (ids & Z & Hb). split; [exact S1|].
  split; [exact S2|]. split.
  - intros sg [G1 G2]. destruct (S3 sg) as [[K1 K2] K3].
    { split; auto. discriminate. }
    split; [|exact K3]. split; [exact K1|]. intros E. specialize (G2 E). rewrite Z, map_app in G2.
    apply Forall_app in G2. apply G2.
  - intros sg [G1 G2] HD. destruct (S4 sg) as (sg' & [K1 K2] & K3); auto.
    { split; auto. discriminate. }
    exists sg'. split; [|exact K3]. split; [exact K1|]. intros E. rewrite Z, map_app. apply Forall_app.
    split; [|apply Hb; auto].
    rewrite <- (map_agree (nvars m) sg sg' (zeta_ m) (history_zeta _ _ H) K3). exact (G2 E).
Qed.

Lemma mv_cons : forall r M x, mv (r :: M) x = dot r x :: mv M x.
Proof. reflexivity. Qed.

Lemma uni_loop_step : forall vt xv, length xv = 2%nat ->
  forall M ls us st m m' s sl su,
  uni_abs_loop M ls us xv m = Some (m', s, (sl, su)) ->
  history st m -> below (nvars m) xv -> Forall (fun r => length r = 2%nat) M ->
  fresh (nvars m) (nvars m') s /\ length s = length M /\
  sl = map2 (fun l u => fst (abs_range l u)) ls us /\
  su = map2 (fun l u => snd (abs_range l u)) ls us /\
  step vt st m m'
    (fun sg => in_box ls us (mv M (map sg xv)))
    (fun sg => map sg s = map Rabs (mv M (map sg xv))).
Proof.
  intros vt xv L M.
  induction M as [|r M IH]; intros ls us st m m' s sl su H Hi B F; cbn [uni_abs_loop] in H.
  - destruct ls, us; try discriminate. injection H as <- <- <- <-.
    split; [apply fresh_nil|]. split; auto. split; auto. split; auto.
    eapply step_weaken; [apply step_refl; auto|intros; exact I|intros; reflexivity].
  - destruct ls as [|l ls]; [discriminate|]. destruct us as [|u us]; [discriminate|].
    destruct (abs_mic l u false) as [c|] eqn:Ec; [|discriminate].
    destruct (transform_input 2 [r] [0] c) as [c'|] eqn:Et; [|discriminate].
    destruct (add_mic c' xv None NewBinary VBin m) as [[m1 s_i] al_i] eqn:Em.
    destruct s_i as [|s0 [|]]; try discriminate. destruct al_i as [|a0 [|]]; try discriminate.
    destruct (uni_abs_loop M ls us xv m1) as [[[m2 s'] [sl' su']]|] eqn:El; [|discriminate].
    injection H as <- <- <- <-.
    destruct (abs_fields _ _ _ _ Ec) as (A1 & A2 & A3 & A4 & A5 & A6 & A7).
    inversion F as [|r0 M0 Lr F' E0]; subst r0 M0.
    assert (Wr : wfm (nin c) 2 [r]) by (rewrite A2; split; auto).
    destruct (transform_ok _ _ _ _ _ Et A1 Wr ltac:(rewrite A2; auto) A4 A5)
      as (T1 & T2 & T3 & T4 & T5 & T6 & T7 & T8 & T9).
    destruct (step_mic VBin st _ _ _ _ _ _ _ Em T1 Hi B) as (S1 & S2 & S3 & S4 & _);
      [congruence|exact I|discriminate|intros; repeat match goal with |- _ /\ _ => split end; congruence|].
    assert (Z := zeta_add_mic VBin _ _ _ _ _ _ _ ltac:(discriminate) Em).
    assert (S5 := step_bin_any vt st m m1 _ _ Hi S4
      (ex_intro _ [a0] (conj Z (fun sg G => proj1 (proj2 (proj1 (proj2 (proj2 S4)) sg
         (conj G (fun E : VBin = VBinRelax => ltac:(discriminate E))))))))).
    rewrite T3, A3 in S1. cbn [seq] in S1. injection S1 as S1.
    assert (N1 : (nvars m <= nvars m1)%nat) by lia.
    assert (Hi1 : history st m1) by apply S4.
    assert (B1 : below (nvars m1) xv).
    { eapply Forall_impl; try exact B. simpl; intros; lia. }
    destruct (IH _ _ _ _ _ _ _ _ El Hi1 B1 F') as (I1 & I2 & I4 & I5 & I3).
    assert (N2 : (nvars m1 <= nvars m2)%nat) by apply I3.
    assert (TS : forall (sg : assignment) sl bi, mic_sat c' (map sg xv) sl bi <->
       mic_sat c [dot r (map sg xv) + 0] sl bi).
    { intros sg sl bi.
      destruct (transform_sat 2 [r] [0] c c' (map sg xv) sl bi Et (proj1 A1) Wr
        (eq_sym A2) (eq_trans (map_length _ _) L) A4 A5) as [K _]. exact K. }
    split; [|split; [|split; [|split]]].
    + change (s0 :: s') with ([s0] ++ s'). apply (fresh_app _ (nvars m1) (nvars m1)); auto; try lia.
      rewrite S1. split; [repeat constructor; simpl; tauto|]. constructor; auto. rewrite T3, A3 in S3. lia.
    + simpl. congruence.
    + simpl. rewrite I4. auto.
    + simpl. rewrite I5. auto.
    + eapply step_trans; [exact S5|exact I3| | | |].
      * apply (local_map m xv (fun x => in_box (l :: ls) (u :: us) (mv (r :: M) x)) B).
      * intros sg G D. rewrite mv_cons in D. apply in_box_cons in D. destruct D as [D1 D2].
        destruct (abs_complete _ _ _ _ (dot r (map sg xv) + 0) Ec) as [K1 K2]; [lra|].
        eexists. eexists. split; [exact K1|]. split; [|exact I].
        apply TS. exact K2.
      * intros sg G D _. rewrite mv_cons in D. apply in_box_cons in D. apply D.
      * intros sg G (K1 & K2 & _) K3.
        apply TS in K2. destruct K2 as [K2 _].
        destruct (abs_sound _ _ _ _ _ _ _ Ec K1 K2) as (v & V1 & _ & V3 & _).
        cbn [map] in V3 |- *. injection V1 as V1. injection V3 as V3.
        rewrite K3. rewrite mv_cons. cbn [map]. rewrite V3, <- V1. f_equal. f_equal. ring.
Qed.

Lemma uni_loop_total : forall xv M ls us, length xv = 2%nat ->
  vle ls us -> length ls = length M -> Forall (fun r => length r = 2%nat) M ->
  forall m st, history st m -> below (nvars m) xv ->
  uni_abs_loop M ls us xv m <> None.
Proof.
  intros xv M. induction M as [|r M IH]; intros ls us L H Ll F m st Hi B.
  - destruct ls; [|discriminate]. destruct us; [|inversion H]. simpl. discriminate.
  - destruct ls as [|l ls]; [discriminate|]. destruct us as [|u us']; [inversion H|].
    assert (Hl : l <= u /\ vle ls us') by (inversion H; auto). clear H. destruct Hl as [Hl H'].
    cbn [uni_abs_loop].
    destruct (abs_total l u false Hl) as [c Ec]. rewrite Ec.
    destruct (abs_fields _ _ _ _ Ec) as (A1 & A2 & A3 & A4 & A5 & A6 & A7).
    assert (A8 : nbin c = 1%nat).
    { clear - Ec. unfold abs_mic in Ec.
      repeat match type of Ec with
        (if ?b then _ else _) = _ => let E := fresh "E" in destruct b eqn:E
      end; try discriminate; try (injection Ec as <-; reflexivity);
      exfalso; cbn [negb] in *; rewrite ?andb_false_r, ?andb_true_r in *; try discriminate.
      unfold Rleb, Rltb in *.
      destruct (Rle_dec 0 l), (Rle_dec u 0), (Rlt_dec l 0), (Rlt_dec 0 u); cbn in *; try discriminate; lra. }
    destruct (transform_total 2 [r] [0] c ltac:(apply A1)) as [c' Et]. rewrite Et.
    inversion F as [|r0 M0 Lr F' E0]; subst r0 M0.
    assert (Wr : wfm (nin c) 2 [r]) by (rewrite A2; split; auto).
    destruct (transform_ok _ _ _ _ _ Et A1 Wr ltac:(rewrite A2; auto) A4 A5)
      as (T1 & T2 & T3 & T4 & T5 & T6 & T7 & T8 & T9).
    destruct (add_mic c' xv None NewBinary VBin m) as [[m1 s_i] al_i] eqn:Em.
    destruct (step_mic VBin st _ _ _ _ _ _ _ Em T1 Hi B) as (S1 & S2 & S3 & S4 & _);
      [congruence|exact I|discriminate|intros; repeat match goal with |- _ /\ _ => split end; congruence|].
    rewrite T3, A3 in S1. cbn [seq] in S1. rewrite T4, A8 in S2. cbn [seq] in S2. subst s_i al_i.
    assert (B1 : below (nvars m1) xv).
    { eapply Forall_impl; try exact B. simpl; intros; lia. }
    assert (K := IH ls us' L H' ltac:(simpl in Ll; lia) F' m1 st ltac:(apply S4) B1).
    destruct (uni_abs_loop M ls us' xv m1) as [[[m2 s] [sl su]]|]; [discriminate|congruence].
Qed.

(** ** The data of a built loop *)

Lemma uni_facts : forall U, uni_built U ->
  f_nx (fb_fwd (uf_fb U)) = 3%nat /\ f_nu (fb_fwd (uf_fb U)) = 2%nat /\
  fb_xeq (uf_fb U) = zeros 3 /\ fb_ueq (uf_fb U) = zeros 2 /\ 0 < uf_lambda U /\
  (exists rest, fb_lower (uf_fb U) = Fin 0 :: rest) /\ feedback_built (uf_fb U).
Proof.
  intros U (Cw & L1 & L2 & Hl & WR & E). unfold new_uni in E.
  destruct (new_feedback (fb_fwd (uf_fb U)) (fb_ctl (uf_fb U)) (zeros 3) (zeros 2) (fb_lower (uf_fb U))
     (fb_upper (uf_fb U)) (fb_meth (uf_fb U))) as [F|] eqn:En; [|discriminate].
  assert (En' := En). unfold new_feedback in En'.
  match type of En' with (if ?b then _ else _) = _ => destruct b eqn:Eb; [|discriminate] end.
  apply Some_inj in En'.
  repeat (apply andb_prop in Eb; destruct Eb as [Eb ?]).
  repeat match goal with H : Nat.eqb _ _ = true |- _ => apply Nat.eqb_eq in H end.
  rewrite zeros_length in *.
  destruct (fb_lower (uf_fb U)) as [|[|l0|] lower] eqn:El; try discriminate.
  destruct (Reqb l0 0) eqn:E0; [|discriminate]. destruct (Rltb 0 (uf_lambda U)) eqn:E1; [|discriminate].
  cbn [andb] in E. apply Some_inj in E.
  unfold Reqb in E0. destruct (Req_EM_T l0 0); [|discriminate]. subst l0.
  unfold Rltb in E1. destruct (Rlt_dec 0 (uf_lambda U)); [|discriminate].
  assert (EF : F = uf_fb U) by (rewrite <- E; reflexivity).
  assert (Ex : fb_xeq (uf_fb U) = zeros 3) by (rewrite <- EF, <- En'; reflexivity).
  assert (Eu : fb_ueq (uf_fb U) = zeros 2) by (rewrite <- EF, <- En'; reflexivity).
  split; [auto|]. split; [auto|]. split; [exact Ex|]. split; [exact Eu|]. split; [auto|].
  split; [exists lower; auto|].
  split; [auto|]. split; [auto|]. split; [auto|]. split; [rewrite El; auto|].
  rewrite Ex, Eu, El, En, EF. auto.
Qed.

Lemma len2 : forall v : vec, length v = 2%nat -> exists a b, v = [a; b].
Proof. intros [|a [|b [|]]] L; try discriminate. eauto. Qed.

Section U.
Variable U : uni_feedback.
Hypothesis HB : uni_built U.
Let F := uf_fb U.

Lemma uni_ctl_length : forall x, length x = 3%nat -> length (controller_forward (fb_ctl F) x) = 2%nat.
Proof.
  intros x L. destruct (uni_facts U HB) as (Nx & Nu & Ex & Eu & Hl & Lo & FB).
  destruct FB as (Cw & _ & _ & _ & Bt). rewrite <- Nu. apply (controller_length F Cw Bt).
  rewrite L. auto.
Qed.

Lemma uni_pre_length : forall x, length x = 3%nat -> length (uni_pre U x) = 2%nat.
Proof.
  intros x L. unfold uni_pre.
  assert (A := uni_ctl_length x L). assert (B := uni_ctl_length (zeros 3) (zeros_length 3)).
  unfold F in *. rewrite vadd_length; rewrite vsub_length; auto; congruence.
Qed.

Lemma uni_u_eq : forall x, length x = 3%nat ->
  uni_u U x = Some (saturates (fb_lower F) (fb_upper F) (uni_pre U x)).
Proof.
  intros x L. destruct (uni_facts U HB) as (Nx & Nu & Ex & Eu & Hl & Lo & FB).
  destruct FB as (Cw & _ & _ & Lim & Bt). destruct (feedback_facts _ Bt) as (_ & _ & A & _).
  unfold uni_u. apply saturates_eq; [apply limit_ok_any; exact Lim|].
  rewrite (uni_pre_length x L). exact (eq_trans A Nu).
Qed.

Lemma uni_pre_command : forall px py th,
  uni_pre U [px; py; th] = [fst (uni_command U px py th); snd (uni_command U px py th)].
Proof.
  intros px py th. unfold uni_pre, uni_command.
  destruct (len2 _ (uni_ctl_length [px; py; th] eq_refl)) as (a & b & Ea).
  destruct (len2 _ (uni_ctl_length [0; 0; 0] eq_refl)) as (c & d & Ec).
  unfold F in *. change (zeros 3) with [0; 0; 0]. rewrite Ea, Ec. cbn [nth fst snd].
  unfold vsub, vadd. cbn [map2].
  assert (Es : norm_p1 (mv (uf_R U) (firstn 2 [px; py; th])) =
     fold_right Rplus 0 (map (fun r => Rabs (nth 0 r 0 * px + nth 1 r 0 * py)) (uf_R U))).
  { destruct HB as (_ & _ & _ & _ & [_ WR] & _). cbn [firstn]. unfold norm_p1.
    induction WR as [|r M Lr WR IH]; [reflexivity|].
    rewrite mv_cons. cbn [map fold_right].
    destruct (len2 _ Lr) as (r0 & r1 & ->). cbn [nth].
    unfold vsum in *. cbn [fold_right]. rewrite IH. f_equal. f_equal. cbn. ring. }
  rewrite Es. f_equal. f_equal. ring.
Qed.

End U.

Lemma uni_input : forall U px py th, uni_built U ->
  exists v w, uni_u U [px; py; th] = Some [v; w] /\
    within_limits (fb_lower (uf_fb U)) (fb_upper (uf_fb U)) [v; w] /\ 0 <= v /\
    (forall v' w', within_limits (fb_lower (uf_fb U)) (fb_upper (uf_fb U)) [v'; w'] ->
       Rabs (v - fst (uni_command U px py th)) <= Rabs (v' - fst (uni_command U px py th)) /\
       Rabs (w - snd (uni_command U px py th)) <= Rabs (w' - snd (uni_command U px py th))) /\
    (0 < fst (uni_command U px py th) -> (forall b r, fb_upper (uf_fb U) = Fin b :: r -> 0 < b) -> 0 < v).
Proof.
  intros U px py th HB. destruct (uni_facts U HB) as (Nx & Nu & Ex & Eu & Hl & [rest Lo] & FB).
  destruct FB as (Cw & _ & _ & Lim & Bt). destruct (feedback_facts _ Bt) as (_ & _ & A & _).
  rewrite (uni_u_eq U HB) by reflexivity. rewrite (uni_pre_command U HB).
  generalize (fst (uni_command U px py th)) as a. generalize (snd (uni_command U px py th)) as b. intros b a.
  assert (La : length (fb_lower (uf_fb U)) = length [a; b]) by (rewrite A, Nu; reflexivity).
  destruct (saturates_within _ _ [a; b] (limit_ok_any _ _ Lim) La) as (S1 & S2 & S3).
  assert (Ls : length (saturates (fb_lower (uf_fb U)) (fb_upper (uf_fb U)) [a; b]) = 2%nat).
  { apply saturates_length; [auto|]. rewrite <- (Forall2_len _ _ _ Lim). auto. }
  destruct (len2 _ Ls) as (v & w & Es). rewrite Es in *. exists v, w.
  split; auto. split; auto.
  split.
  { destruct S1 as [S1 _]. rewrite Lo in S1. inversion S1; subst. auto. }
  split.
  { intros v' w' W. split; [apply (S3 [v'; w'] 0%nat W)|apply (S3 [v'; w'] 1%nat W)]. }
  intros Ha Hb. rewrite Lo in *. inversion Lim as [|x1 y1 l1 l2 K1 K2 E1 E2]; subst.
  destruct y1 as [|y1|]; cbn in K1; try tauto. rewrite <- E2 in Es. cbn in Es.
  apply (f_equal (fun l => nth 0 l 0)) in Es. cbn in Es. subst v.
  symmetry in E2. specialize (Hb y1 l2 E2). clear - Ha Hb.
  unfold clamp, Rmax, Rmin. repeat destruct Rle_dec; lra.
Qed.

Lemma uni_origin : forall U, uni_built U -> exists w, uni_u U [0; 0; 0] = Some [0; w] /\
  (within_limits (fb_lower (uf_fb U)) (fb_upper (uf_fb U)) [0; 0] -> w = 0).
Proof.
  intros U HB. destruct (uni_input U 0 0 0 HB) as (v & w & E & W & P & K & _).
  assert (C : uni_command U 0 0 0 = (0, 0)).
  { unfold uni_command.
    assert (Z : fold_right Rplus 0 (map (fun r : list R => Rabs (nth 0 r 0 * 0 + nth 1 r 0 * 0)) (uf_R U)) = 0).
    { induction (uf_R U) as [|r M IH]; [reflexivity|]. cbn [map fold_right]. rewrite IH.
      replace (nth 0 r 0 * 0 + nth 1 r 0 * 0) with 0 by ring. rewrite Rabs_R0. ring. }
    rewrite Z. f_equal; ring. }
  rewrite C in K. cbn [fst snd] in K.
  destruct (uni_facts U HB) as (_ & _ & _ & _ & _ & [rest Lo] & (_ & _ & _ & Lim & _)).
  assert (W0 : within_limits (fb_lower (uf_fb U)) (fb_upper (uf_fb U)) [0; w]).
  { destruct W as [W1 W2]. rewrite Lo in *. inversion Lim as [|x1 y1 l1 l2 K1 K2 E1 E2]; subst.
    rewrite <- E2 in *. inversion W1; inversion W2; subst.
    destruct y1 as [|y1|]; cbn in K1; try tauto. split; constructor; auto; cbn; lra. }
  assert (v = 0).
  { destruct (K _ _ W0) as [K0 _]. replace (0 - 0) with 0 in K0 by ring. rewrite Rabs_R0 in K0.
    unfold Rabs in K0. destruct (Rcase_abs (v - 0)); lra. }
  subst v. exists w. split; auto. intros W1. destruct (K _ _ W1) as [_ K0].
  replace (0 - 0) with 0 in K0 by ring. rewrite Rabs_R0 in K0.
  unfold Rabs in K0. destruct (Rcase_abs (w - 0)); lra.
Qed.
