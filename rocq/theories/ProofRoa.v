(** The programs for the region of attraction. *)

Require Import Reals List Lia Lra Bool Arith.
Require Import Verif.Vec Verif.VecFacts Verif.ModelMip Verif.SpecMip Verif.SpecCore
  Verif.ModelUtils Verif.SpecUtils Verif.ModelNet Verif.SpecNet Verif.SpecStep
  Verif.ModelGrad Verif.ModelLyapunov Verif.SpecLyapunov Verif.SpecRoa
  Verif.ProofUtils Verif.ProofMaxBox Verif.ProofMip Verif.ProofSat Verif.ProofConcat
  Verif.ProofBounds Verif.ProofNet Verif.ProofNetBounds Verif.ProofNetTotal Verif.ProofWarm
  Verif.ProofStep Verif.ProofNetStep Verif.ProofLyapunov Verif.ProofLyapCert Verif.ProofHybrid.
Import ListNotations.
Open Scope R_scope.

Lemma step_addM : forall vt st As xs s b m, history st m -> As <> [] ->
  length As = length xs -> blocks_wf (length b) (combine As xs) -> below (nvars m) (concat xs) ->
  history st (addMConstr As xs s b m) /\ nvars (addMConstr As xs s b m) = nvars m /\
  (forall sg, feas vt (addMConstr As xs s b m) sg <->
     feas vt m sg /\ sense_ok s (bsum (length b) (combine As xs) sg) b).
Proof.
  intros vt st As xs s b m H Hn L W B. split; [|split].
  - apply h_mconstr; auto. apply (history_allk st m _ H). exact B.
  - apply nvars_addMConstr.
  - intros sg. unfold feas. rewrite zeta_addMConstr, gfeas_addMConstr by auto. tauto.
Qed.

Lemma vars_ok_binfree : forall k x, vars_ok VBin (repeat (NInf, PInf) k) x <-> length x = k /\ bins x.
Proof.
  unfold vars_ok. induction k; intros x; simpl repeat.
  - split.
    + intros H. inversion H. split; auto. constructor.
    + intros [H _]. destruct x; [constructor|discriminate].
  - destruct x as [|v x]; [split; [intros H; inversion H|intros [H _]; discriminate]|].
    rewrite F2_cons, IHk. unfold bins.
    assert (E : var_ok (new_gvar VBin (NInf, PInf)) v <-> is_bin v).
    { unfold var_ok. simpl. split.
      - intros H. repeat match goal with H : _ /\ _ |- _ => destruct H end; auto.
      - intros H. unfold is_bin in *. 
        repeat match goal with |- _ /\ _ => split end; auto; destruct H; lra. }
    rewrite E, Forall_cons_iff. simpl. intuition lia.
Qed.

Lemma nth_splice1 : forall i v (row : vec) j, (i < length row)%nat ->
  nth j (splice i [v] row) 0 = if Nat.eqb j i then v else nth j row 0.
Proof.
  intros i v row j Hi. unfold splice.
  destruct (Nat.eqb_spec j i) as [->|N].
  - rewrite app_nth2; rewrite firstn_length_le by lia; [|lia]. rewrite Nat.sub_diag. auto.
  - destruct (Nat.lt_ge_cases j i) as [H|H].
    + rewrite app_nth1 by (rewrite firstn_length_le; lia). apply nth_firstn. auto.
    + rewrite app_nth2; rewrite firstn_length_le by lia; [|lia].
      rewrite app_nth2 by (simpl; lia). cbn [length]. rewrite nth_skipn. f_equal. lia.
Qed.

Section Box.
Variable n : nat.
Variables x_lo x_up lol upl : vec.
Hypothesis L1 : length x_lo = n.
Hypothesis L2 : length x_up = n.

Lemma splice1_length : forall i v (row : vec), (i < length row)%nat ->
  length (splice i [v] row) = length row.
Proof. intros. apply splice_length. simpl. lia. Qed.

Lemma roa_box_length : forall i, (i < 2 * n)%nat ->
  length (fst (roa_box n x_lo x_up lol upl i)) = n /\
  length (snd (roa_box n x_lo x_up lol upl i)) = n.
Proof.
  intros i Hi. unfold roa_box. destruct (Nat.ltb_spec i n); cbn [fst snd];
    rewrite !splice1_length; lia.
Qed.

Lemma roa_box_beside : forall i y, (i < 2 * n)%nat ->
  vle (fst (roa_box n x_lo x_up lol upl i)) y -> vle y (snd (roa_box n x_lo x_up lol upl i)) ->
  leaves_by_side n x_lo x_up lol upl y.
Proof.
  intros i y Hi H1 H2. destruct (roa_box_length i Hi) as [A1 A2].
  apply vle_nth in H1. apply vle_nth in H2. destruct H1 as [B1 H1], H2 as [B2 H2].
  rewrite A1 in *. rewrite <- B1 in *.
  unfold roa_box in *. destruct (Nat.ltb_spec i n); cbn [fst snd] in *.
  - exists i. split; auto. split; auto. split.
    + intros j Hj N. specialize (H1 j Hj). specialize (H2 j Hj).
      rewrite nth_splice1 in H1, H2 by lia. apply Nat.eqb_neq in N. rewrite N in *. auto.
    + specialize (H1 i ltac:(lia)). specialize (H2 i ltac:(lia)).
      rewrite nth_splice1 in H1, H2 by lia. rewrite Nat.eqb_refl in *. auto.
  - exists (i - n)%nat. split; [lia|]. split; auto. split.
    + intros j Hj N. specialize (H1 j Hj). specialize (H2 j Hj).
      rewrite nth_splice1 in H1, H2 by lia. apply Nat.eqb_neq in N. rewrite N in *. auto.
    + specialize (H1 (i - n)%nat ltac:(lia)). specialize (H2 (i - n)%nat ltac:(lia)).
      rewrite nth_splice1 in H1, H2 by lia. rewrite Nat.eqb_refl in *. auto.
Qed.

Lemma beside_roa_box : forall y, leaves_by_side n x_lo x_up lol upl y ->
  exists i, (i < 2 * n)%nat /\
  vle (fst (roa_box n x_lo x_up lol upl i)) y /\ vle y (snd (roa_box n x_lo x_up lol upl i)).
Proof.
  intros y (i & Hi & Ly & Ho & [Hs|Hs]).
  - exists i. assert (Hi2 : (i < 2 * n)%nat) by lia. split; [exact Hi2|].
    destruct (roa_box_length i Hi2) as [A1 A2]. unfold roa_box in *.
    destruct (Nat.ltb_spec i n); [|lia]. cbn [fst snd] in *.
    split; apply vle_nth; (split; [lia|]); intros j Hj; rewrite nth_splice1 by lia;
      destruct (Nat.eqb_spec j i) as [->|N]; try tauto; apply Ho; lia.
  - exists (n + i)%nat. assert (Hi2 : (n + i < 2 * n)%nat) by lia. split; [exact Hi2|].
    destruct (roa_box_length (n + i) Hi2) as [A1 A2]. unfold roa_box in *.
    destruct (Nat.ltb_spec (n + i) n); [lia|]. cbn [fst snd] in *.
    replace (n + i - n)%nat with i in * by lia.
    split; apply vle_nth; (split; [lia|]); intros j Hj; rewrite nth_splice1 by lia;
      destruct (Nat.eqb_spec j i) as [->|N]; try tauto; apply Ho; lia.
Qed.

(** t lies in the box scaled by the binary. *)
Definition scaled (i : nat) (z : R) (t : vec) : Prop :=
  vle (vscale z (fst (roa_box n x_lo x_up lol upl i))) t /\
  vle t (vscale z (snd (roa_box n x_lo x_up lol upl i))).
Fixpoint all_scaled (i : nat) (zs : vec) (ts : list vec) : Prop :=
  match zs, ts with
  | [], [] => True
  | z :: zs', t :: ts' => scaled i z t /\ all_scaled (S i) zs' ts'
  | _, _ => False
  end.

Lemma le_rows : forall (a t : vec), length a = length t ->
  (vle (vadd a (vadd (vneg t) (zeros (length t)))) (zeros (length t)) <-> vle a t).
Proof.
  intros a t L. rewrite !vle_nth. rewrite vadd_zeros_r by apply map_length.
  rewrite vadd_length by (unfold vneg; rewrite map_length; auto). rewrite zeros_length.
  split; intros [A B]; (split; [auto|]); intros i Hi; specialize (B i Hi);
    rewrite nth_vadd, nth_vneg, nth_zeros in * by (unfold vneg; rewrite map_length; auto); lra.
Qed.

Lemma roa_loop_spec : forall vt st zs i m m' ts, (i + length zs <= 2 * n)%nat ->
  roa_loop n x_lo x_up lol upl i zs m = (m', ts) -> history st m -> below (nvars m) zs ->
  history st m' /\ (nvars m <= nvars m')%nat /\ length ts = length zs /\
  Forall (fun t => length t = n) ts /\ Forall (below (nvars m')) ts /\
  (forall sg, feas vt m' sg ->
     feas vt m sg /\ all_scaled i (map sg zs) (map (map sg) ts)) /\
  (forall sg vs, feas vt m sg -> all_scaled i (map sg zs) vs ->
     exists sg', feas vt m' sg' /\ agree m sg sg' /\ map (map sg') ts = vs).
Proof.
  intros vt st zs. induction zs as [|z zs IH]; intros i m m' ts Hi E H B.
  - cbn [roa_loop] in E. injection E as <- <-. split; auto. split; auto. split; auto.
    split; [constructor|]. split; [constructor|]. split; [cbn; auto|].
    intros sg vs G A. exists sg. split; auto. split; [intros k _; auto|].
    destruct vs; [auto|destruct A].
  - cbn [roa_loop] in E.
    destruct (addVars (repeat (NInf, PInf) n) VCont m) as [m1 t] eqn:E1.
    destruct (step_free vt st n _ _ _ E1 H) as (F1 & F2 & F3 & F4 & F5).
    destruct (roa_box n x_lo x_up lol upl i) as [blo bup] eqn:Eb.
    assert (Lb : length blo = n /\ length bup = n).
    { destruct (roa_box_length i) as [X Y]; [simpl in Hi; lia|]. rewrite Eb in X, Y. auto. }
    destruct Lb as [Lb1 Lb2].
    assert (Lt : length t = n) by (rewrite F1; apply seq_length).
    assert (Bt : below (nvars m1) t) by (rewrite F1; apply below_seq; lia).
    assert (Bz : below (nvars m1) [z]).
    { inversion B; subst. constructor; [lia|constructor]. }
    assert (Bzs : below (nvars m) zs) by (inversion B; auto).
    destruct (step_addM vt st [col blo; eyek n (-1)] [[z]; t] SLe (zeros n) m1) as (G1 & G2 & G3);
      auto; [discriminate| | |].
    { rewrite zeros_length. constructor; [apply wfm_col; auto|]. constructor; [|constructor].
      cbn [fst snd]. rewrite Lt. apply wfm_eyek. }
    { cbn [concat]. rewrite app_nil_r. apply Forall_app. auto. }
    remember (addMConstr [col blo; eyek n (-1)] [[z]; t] SLe (zeros n) m1) as m2 eqn:Em2.
    destruct (step_addM vt st [eye n; col (vneg bup)] [t; [z]] SLe (zeros n) m2) as (K1 & K2 & K3);
      auto; [discriminate| | |].
    { rewrite zeros_length. constructor; [cbn [fst snd]; rewrite Lt; apply wfm_eyek|].
      constructor; [|constructor]. apply wfm_col. unfold vneg. rewrite map_length. auto. }
    { cbn [concat]. rewrite app_nil_r. rewrite G2. apply Forall_app. auto. }
    remember (addMConstr [eye n; col (vneg bup)] [t; [z]] SLe (zeros n) m2) as m3 eqn:Em3.
    assert (S3 : forall sg, feas vt m3 sg <-> feas vt m1 sg /\ scaled i (sg z) (map sg t)).
    { intros sg. rewrite K3, G3. unfold sense_ok. rewrite zeros_length. cbn [combine bsum map].
      assert (Lm : length (map sg t) = n) by (rewrite map_length; auto).
      rewrite !mv_col, mv_eye, mv_eyek_neg by auto. unfold scaled. rewrite Eb. cbn [fst snd].
      rewrite <- Lm. rewrite le_rows by (rewrite vscale_length; lia).
      assert (X : vle (vadd (map sg t) (vadd (vscale (sg z) (vneg bup)) (zeros (length (map sg t)))))
        (zeros (length (map sg t))) <-> vle (map sg t) (vscale (sg z) bup)).
      { assert (Ln : length (vscale (sg z) (vneg bup)) = length (map sg t))
          by (unfold vneg; rewrite vscale_length, map_length, Lm; exact Lb2).
        rewrite !vle_nth. rewrite vadd_zeros_r by exact Ln.
        rewrite vadd_length by (symmetry; exact Ln).
        rewrite zeros_length, vscale_length.
        split; intros [X1 X2]; (split; [congruence|]); intros k Hk; specialize (X2 k Hk);
          rewrite nth_vadd in * by (symmetry; exact Ln);
          rewrite !nth_vscale, ?nth_vneg, ?nth_zeros in *; lra. }
      rewrite X. tauto. }
    destruct (roa_loop n x_lo x_up lol upl (S i) zs m3) as [m4 ts'] eqn:E4.
    assert (N3 : nvars m3 = nvars m1) by congruence.
    destruct (IH (S i) m3 m4 ts') as (I1 & I2 & I3 & I4 & I5 & I6 & I7); auto.
    { simpl in Hi. lia. }
    { apply (below_weaken (nvars m)); auto. lia. }
    apply pair_equal_spec in E. destruct E as [<- <-].
    split; auto. split; [lia|]. split; [simpl; auto|]. split; [constructor; auto|].
    split; [constructor; auto; apply (below_weaken _ _ _ Bt); lia|]. split.
    + intros sg G. destruct (I6 sg G) as [A1 A2]. apply S3 in A1. destruct A1 as [A1 A3].
      split; [apply F4; auto|]. cbn [map all_scaled]. auto.
    + intros sg vs G A. destruct vs as [|v vs]; [destruct A|]. cbn [map all_scaled] in A.
      destruct A as [A1 A2].
      destruct (F5 sg v G) as (s1 & C1 & C2 & C3).
      { destruct A1 as [A1 _]. rewrite Eb in A1. cbn [fst] in A1. apply vle_length in A1.
        rewrite vscale_length in A1. lia. }
      assert (C4 : feas vt m3 s1).
      { apply S3. split; auto. rewrite C3.
        replace (s1 z) with (sg z); auto. apply C2. inversion B; auto. }
      destruct (I7 s1 vs C4) as (s2 & D1 & D2 & D3).
      { rewrite <- (map_agree (nvars m) sg s1 zs); auto. }
      exists s2. split; auto. split.
      * intros k Hk. rewrite (C2 k Hk). apply D2. rewrite N3, F2. lia.
      * cbn [map]. f_equal; auto. rewrite <- C3. symmetry.
        apply (map_agree (nvars m3)); auto. rewrite N3. auto.
Qed.

(** The sum of the scaled points when exactly one binary is one. *)
Lemma scaled_zero : forall i t, (i < 2 * n)%nat -> scaled i 0 t -> t = zeros n.
Proof.
  intros i t Hi [A B]. destruct (roa_box_length i Hi) as [A1 A2].
  apply vle_nth in A. apply vle_nth in B. rewrite vscale_length in *.
  apply vec_ext; [rewrite zeros_length; lia|]. intros k Hk. rewrite nth_zeros.
  destruct A as [A A']. destruct B as [B B']. specialize (A' k ltac:(lia)). specialize (B' k Hk).
  rewrite nth_vscale in *. lra.
Qed.
Lemma scaled_one : forall i t, scaled i 1 t <->
  vle (fst (roa_box n x_lo x_up lol upl i)) t /\ vle t (snd (roa_box n x_lo x_up lol upl i)).
Proof. intros. unfold scaled. rewrite !vscale_1. tauto. Qed.

Lemma scaled_sum : forall zs i ts, (i + length zs <= 2 * n)%nat -> bins zs ->
  all_scaled i zs ts ->
  (vsum zs = 0 -> vsums n ts = zeros n) /\
  (vsum zs = 1 -> exists k, (k < 2 * n)%nat /\ scaled k 1 (vsums n ts)).
Proof.
  induction zs as [|z zs IH]; intros i ts Hi B A; destruct ts as [|t ts]; try destruct A.
  - split; [auto|cbn; lra].
  - apply Forall_cons_iff in B. destruct B as [Bz B]. simpl in Hi.
    destruct (IH (S i) ts) as [I1 I2]; auto; [lia|].
    assert (P : 0 <= vsum zs).
    { clear - B. induction B as [|v l Hv _ IHb]; cbn [vsum]; [lra|]. destruct Hv; subst; lra. }
    cbn [vsum vsums]. destruct Bz as [ -> | -> ].
    + assert (Et := scaled_zero i t ltac:(lia) H). subst t. split.
      * intros Hs. rewrite I1 by lra. apply vadd_zeros_l. apply zeros_length.
      * intros Hs. destruct (I2 ltac:(lra)) as (k & K1 & K2). exists k. split; auto.
        rewrite vadd_zeros_l; auto. destruct K2 as [K2 _]. apply vle_length in K2.
        rewrite vscale_length in K2. destruct (roa_box_length k K1). lia.
    + split; [intros; lra|]. intros Hs. exists i. split; [lia|]. rewrite I1 by lra.
      rewrite vadd_zeros_r; auto. destruct H as [H _]. apply vle_length in H.
      rewrite vscale_length in H. destruct (roa_box_length i ltac:(lia)). lia.
Qed.

Lemma zero_scaled : forall i, (i < 2 * n)%nat -> scaled i 0 (zeros n).
Proof.
  intros i Hi. destruct (roa_box_length i Hi) as [A1 A2]. 
  split; rewrite vscale_0; [rewrite A1|rewrite A2]; apply vle_nth;
    (split; [auto|]); intros; lra.
Qed.

(** y in slot [k], zero elsewhere. *)
Lemma scaled_witness : forall k y, length y = n -> scaled k 1 y -> (k < 2 * n)%nat ->
  forall c i, (i + c <= 2 * n)%nat ->
  exists ts, all_scaled i (map (fun j => if Nat.eqb j k then 1 else 0) (seq i c)) ts /\
    length ts = c /\
    vsums n ts = if (Nat.leb i k && Nat.ltb k (i + c))%bool then y else zeros n.
Proof.
  intros k y Ly Hy Hk c. induction c as [|c IH]; intros i Hi.
  - exists []. split; [cbn; auto|]. split; auto. cbn [vsums].
    destruct (Nat.leb_spec i k), (Nat.ltb_spec k (i + 0)); cbn; auto; lia.
  - destruct (IH (S i)) as (ts & T1 & T2 & T3); [lia|].
    exists ((if Nat.eqb i k then y else zeros n) :: ts). split.
    { cbn [seq map all_scaled]. split; auto. destruct (Nat.eqb_spec i k) as [->|N]; auto.
      apply zero_scaled. lia. }
    split; [simpl; auto|]. cbn [vsums]. rewrite T3.
    destruct (Nat.eqb_spec i k) as [->|N].
    + destruct (Nat.leb_spec (S k) k); [lia|]. cbn [andb].
      destruct (Nat.leb_spec k k); [|lia]. destruct (Nat.ltb_spec k (k + S c)); [|lia]. cbn [andb].
      apply vadd_zeros_r. auto.
    + assert (Eq : (Nat.leb (S i) k && Nat.ltb k (S i + c) = Nat.leb i k && Nat.ltb k (i + S c))%bool).
      { destruct (Nat.leb_spec (S i) k), (Nat.leb_spec i k), (Nat.ltb_spec k (S i + c)),
          (Nat.ltb_spec k (i + S c)); cbn; auto; lia. }
      rewrite Eq. destruct (Nat.leb i k && Nat.ltb k (i + S c))%bool; apply vadd_zeros_l; [exact Ly|apply zeros_length].
Qed.

Lemma bsum_neg : forall (ts : list (list nat)) (sg : assignment),
  Forall (fun t => length t = n) ts ->
  bsum n (combine (repeat (eyek n (-1)) (length ts)) ts) sg
  = vneg (vsums n (map (map sg) ts)).
Proof.
  intros ts sg H. induction H as [|t ts Ht H IH]; cbn [length repeat combine bsum map vsums].
  - unfold zeros. clear. induction n; simpl; auto. f_equal; [lra|auto].
  - rewrite IH, mv_eyek_neg by (rewrite map_length; auto).
    assert (Lt : length (map sg t) = n) by (rewrite map_length; auto).
    assert (Ls : length (vsums n (map (map sg) ts)) = n).
    { apply vsums_length. apply Forall_map. eapply Forall_impl; [|exact H]. 
      intros a Ha. rewrite map_length. auto. }
    apply vec_ext.
    + unfold vneg. rewrite map_length, !vadd_length; rewrite ?map_length; lia.
    + intros i _. rewrite nth_vadd by (unfold vneg; rewrite !map_length; lia).
      rewrite !nth_vneg, nth_vadd by lia. lra.
Qed.

(** The constraint "y is outside of the box". *)
Lemma outside_step : forall vt st outv m m1 m2 m3 zs ts, history st m ->
  below (nvars m) outv -> length outv = n -> vt <> VCont ->
  addVars (repeat (NInf, PInf) (2 * n)) VBin m = (m1, zs) ->
  addLConstr [ones (2 * n)] [zs] SEq 1 m1 = Some m2 ->
  roa_loop n x_lo x_up lol upl 0 zs m2 = (m3, ts) ->
  step vt st m (addMConstr (eye n :: repeat (eyek n (-1)) (2 * n)) (outv :: ts) SEq (zeros n) m3)
    (fun sg => leaves_by_side n x_lo x_up lol upl (map sg outv))
    (fun sg => leaves_by_side n x_lo x_up lol upl (map sg outv)).
Proof.
  intros vt st outv m m1 m2 m3 zs ts H B L Hvt E1 E2 E3.
  set (z0 := repeat 0 (2 * n)).
  assert (Bz0 : bins z0).
  { unfold z0. apply Forall_forall. intros v Hv. apply repeat_spec in Hv. left. auto. }
  destruct (step_addVars vt st _ _ _ _ _ E1 H) with (x := z0) as (S1 & S2 & S3 & S4).
  { intros _ Hd. discriminate. }
  { apply vars_ok_binfree. split; auto. unfold z0. apply repeat_length. }
  { auto. }
  rewrite repeat_length in *.
  assert (Lz : length zs = (2 * n)%nat) by (rewrite S2; apply seq_length).
  assert (Bz : below (nvars m1) zs) by (rewrite S2; apply below_seq; lia).
  assert (H1 : history st m1) by apply S1.
  destruct (step_addLConstr vt st [ones (2 * n)] [zs] SEq 1 m1) as (m2' & K1 & K2 & K3 & K4 & _); auto.
  { constructor; [|constructor]. unfold ones. rewrite repeat_length. auto. }
  { cbn [concat]. rewrite app_nil_r. auto. }
  { cbn [concat]. rewrite app_nil_r. rewrite S2. apply seq_NoDup. }
  rewrite E2 in K1. assert (m2' = m2) by congruence. subst m2'. clear K1.
  destruct (roa_loop_spec vt st zs 0 m2 m3 ts) as (R1 & R2 & R3 & R4 & R5 & R6 & R7); auto.
  { lia. }
  { rewrite K2. auto. }
  destruct (step_addM vt st (eye n :: repeat (eyek n (-1)) (2 * n)) (outv :: ts) SEq (zeros n) m3)
    as (M1 & M2 & M3); auto.
  { discriminate. }
  { simpl. rewrite repeat_length. lia. }
  { rewrite zeros_length. cbn [combine]. constructor; [cbn [fst snd]; rewrite L; apply wfm_eyek|].
    apply Forall_forall. intros [A t] Ht. assert (Ht' := Ht).
    apply in_combine_l in Ht. apply in_combine_r in Ht'.
    apply repeat_spec in Ht. subst A. rewrite Forall_forall in R4. cbn [fst snd].
    rewrite (R4 _ Ht'). apply wfm_eyek. }
  { cbn [concat]. apply Forall_app. split.
    - apply (below_weaken (nvars m)); auto. lia.
    - clear - R5. induction R5; simpl; [constructor|]. apply Forall_app. auto. }
  assert (RowS : forall sg : assignment, dot (concat [ones (2 * n)]) (map sg (concat [zs])) = vsum (map sg zs)).
  { intros sg. cbn [concat]. rewrite !app_nil_r. apply dot_ones_l. rewrite map_length. auto. }
  assert (RowO : forall sg : assignment,
     sense_ok SEq (bsum (length (zeros n)) (combine (eye n :: repeat (eyek n (-1)) (2 * n)) (outv :: ts)) sg)
       (zeros n) <-> map sg outv = vsums n (map (map sg) ts)).
  { intros sg. cbn [sense_ok combine bsum]. rewrite zeros_length.
    replace (2 * n)%nat with (length ts) by lia.
    rewrite bsum_neg, mv_eye by (auto; rewrite map_length; auto).
    assert (Lo : length (map sg outv) = n) by (rewrite map_length; auto).
    assert (Ls : length (vsums n (map (map sg) ts)) = n).
    { apply vsums_length. apply Forall_map. eapply Forall_impl; [|exact R4].
      intros a Ha. rewrite map_length. auto. }
    assert (Ln : length (map sg outv) = length (vneg (vsums n (map (map sg) ts))))
      by (unfold vneg; rewrite (map_length Ropp); rewrite Lo; symmetry; exact Ls).
    split; intros X.
    - apply vec_ext; [rewrite Lo; symmetry; exact Ls|]. intros i Hi. assert (Y := f_equal (fun v => nth i v 0) X).
      cbn beta in Y. rewrite nth_vadd in Y by exact Ln.
      rewrite nth_vneg, nth_zeros in Y. lra.
    - apply vec_ext.
      + rewrite zeros_length, vadd_length by exact Ln. exact Lo.
      + intros i _. rewrite nth_vadd by exact Ln. rewrite X at 1.
        rewrite nth_vneg, nth_zeros. lra. }
  assert (Nv : (nvars m <= nvars m1)%nat) by lia.
  split; [lia|]. split; auto. split.
  - intros sg G. apply M3 in G. destruct G as [G Go]. apply RowO in Go.
    destruct (R6 sg G) as [G2 A]. apply K3 in G2. destruct G2 as [G1 Gs].
    rewrite RowS in Gs. cbn [sense_ok] in Gs. injection Gs as Gs.
    destruct (proj1 (proj2 (proj2 S1)) sg G1) as [G0 [Vz _]]. apply vars_ok_binfree in Vz.
    split; auto. rewrite Go.
    destruct (scaled_sum (map sg zs) 0 (map (map sg) ts)) as [_ X]; auto.
    { rewrite map_length. lia. }
    { apply Vz. }
    destruct (X Gs) as (k & Hk & Hs). apply scaled_one in Hs. destruct Hs.
    eapply roa_box_beside; eauto.
  - intros sg G D. destruct (beside_roa_box _ D) as (k & Hk & D1 & D2).
    assert (Ly : length (map sg outv) = n) by (rewrite map_length; auto).
    destruct (scaled_witness k (map sg outv) Ly ltac:(apply scaled_one; auto) Hk (2 * n) 0 ltac:(lia))
      as (vs & W1 & W2 & W3).
    destruct (S4 sg (one_hot (2 * n) k) G) as (s1 & C1 & C2 & C3).
    { apply vars_ok_binfree. split; [apply one_hot_length|apply bins_one_hot]. }
    { intros _. apply bins_one_hot. }
    assert (C4 : feas vt m2 s1).
    { apply K3. split; auto. rewrite RowS, C3. cbn [sense_ok]. rewrite vsum_one_hot; auto. }
    assert (Ez : one_hot (2 * n) k = map (fun j => if Nat.eqb j k then 1 else 0) (seq 0 (2 * n))).
    { apply vec_ext; [rewrite one_hot_length, map_length, seq_length; auto|].
      rewrite one_hot_length. intros i Hi. rewrite nth_one_hot by auto.
      rewrite (nth_indep _ 0 ((fun j => if Nat.eqb j k then 1 else 0) 0%nat))
        by (rewrite map_length, seq_length; auto).
      rewrite (map_nth (fun j => if Nat.eqb j k then 1 else 0)), seq_nth by auto. auto. }
    destruct (R7 s1 vs C4) as (s2 & F1 & F2 & F3).
    { rewrite C3, Ez. exact W1. }
    assert (Ag : agree m sg s2).
    { eapply agree_trans; [exact Nv|exact C2|]. intros i Hi. apply F2. lia. }
    exists s2. split; auto. apply M3. split; auto. apply RowO. rewrite F3, W3.
    destruct (Nat.leb_spec 0 k); [|lia]. destruct (Nat.ltb_spec k (0 + 2 * n)); [|lia]. cbn [andb].
    symmetry. apply (map_agree (nvars m)); auto.
Qed.
End Box.

Section Roa.
Variable solve : mip -> gresult.
Hypothesis Hsolve : solver_ok solve.
Variable meth : method.
Variable N : network.
Variable n : nat.
Variables x_lo x_up : vec.
Variable R0 : option mat.
Variable xeq : vec.
Hypothesis Args : lyap_args n N x_lo x_up R0 xeq.
Variable lam : R.
Variables lol upl : vec.

Let M := R_of n R0.
Let W := la_net _ _ _ _ _ _ Args.
Let Ho := la_out _ _ _ _ _ _ Args.
Let L1 := la_lo _ _ _ _ _ _ Args.
Let L2 := la_up _ _ _ _ _ _ Args.
Let WR := la_R _ _ _ _ _ _ Args.
Let Leq : length xeq = n := in_box_length n _ _ _ (la_eq _ _ _ _ _ _ Args) L1.

Variable st : bool.
Variable add_system : list nat -> list nat -> vtype -> mip -> option mip.
Variable T : vec -> vec -> Prop.
Hypothesis Hsys : system_contract n st add_system T.

Definition roa_cond (flag : bool) (x x' : vec) : Prop :=
  if flag then leaves_by_side n x_lo x_up lol upl x'
  else in_box x_lo x_up x' /\ leaves_by_side n x_lo x_up lol upl x.

Lemma vle_neg : forall a b, vle (vneg a) (vneg b) <-> vle b a.
Proof.
  intros a b. rewrite !vle_nth. unfold vneg. rewrite !map_length. fold (vneg a) (vneg b).
  split; intros [X Y]; (split; [auto|]); intros i Hi; specialize (Y i);
    rewrite ?nth_vneg in *; specialize (Y ltac:(congruence)); lra.
Qed.

Lemma next_in_box_step : forall vt xn m, history st m -> below (nvars m) xn -> length xn = n ->
  let m' := addMConstr [eyek n (-1)] [xn] SLe (vneg x_lo) (addMConstr [eye n] [xn] SLe x_up m) in
  history st m' /\ nvars m' = nvars m /\
  forall sg, feas vt m' sg <-> feas vt m sg /\ in_box x_lo x_up (map sg xn).
Proof.
  intros vt xn m H B L m'.
  destruct (step_addM vt st [eye n] [xn] SLe x_up m) as (A1 & A2 & A3); auto; [discriminate| | |].
  { rewrite L2. constructor; [cbn [fst snd]; rewrite L; apply wfm_eyek|constructor]. }
  { cbn [concat]. rewrite app_nil_r. auto. }
  destruct (step_addM vt st [eyek n (-1)] [xn] SLe (vneg x_lo) (addMConstr [eye n] [xn] SLe x_up m))
    as (B1 & B2 & B3); auto; [discriminate| | |].
  { unfold vneg. rewrite map_length, L1. constructor; [cbn [fst snd]; rewrite L; apply wfm_eyek|constructor]. }
  { cbn [concat]. rewrite app_nil_r, A2. auto. }
  split; auto. split; [unfold m'; congruence|]. intros sg. unfold m'. rewrite B3, A3.
  cbn [sense_ok combine bsum].
  assert (Lm : length (map sg xn) = n) by (rewrite map_length; auto).
  rewrite mv_eye, mv_eyek_neg by auto.
  rewrite !vadd_zeros_r; [|unfold vneg; rewrite !map_length; congruence|congruence].
  rewrite vle_neg. unfold in_box. tauto.
Qed.

Lemma roa_program : forall flag m xv xn,
  roa_milp solve meth N n x_lo x_up add_system xeq lam R0 lol upl flag = Some (m, xv, xn) ->
  obj_max m = false /\ length xv = n /\ length xn = n /\
  (forall sg, gfeas m sg -> in_box x_lo x_up (map sg xv) /\ T (map sg xv) (map sg xn) /\
     roa_cond flag (map sg xv) (map sg xn) /\ objective m sg = V N M lam xeq (map sg xv)) /\
  (forall x x', length x' = n -> in_box x_lo x_up x -> T x x' -> roa_cond flag x x' ->
     exists sg, gfeas m sg /\ map sg xv = x /\ map sg xn = x').
Proof.
  intros flag m xv0 xn0 E. unfold roa_milp in E.
  destruct (addVars (repeat (NInf, PInf) n) VCont init_mip) as [m0 xv] eqn:E0.
  destruct (addVars (repeat (NInf, PInf) n) VCont m0) as [m1 xn] eqn:E1.
  destruct (step_free VBin st n _ _ _ E0 (h_init st)) as (A1 & A2 & A3 & A4 & A5).
  destruct (step_free VBin st n _ _ _ E1 A3) as (B1 & B2 & B3 & B4 & B5).
  assert (Bv : below (nvars m1) xv) by (rewrite A1; apply below_seq; lia).
  assert (Bn : below (nvars m1) xn) by (rewrite B1; apply below_seq; lia).
  assert (Lv : length xv = n) by (rewrite A1; apply seq_length).
  assert (Ln : length xn = n) by (rewrite B1; apply seq_length).
  assert (ND : NoDup (xv ++ xn)).
  { apply (fresh_disj 0 n n (n + n)); auto.
    - rewrite A1. apply fresh_seq. simpl. lia.
    - rewrite B1, A2. apply fresh_seq. simpl. lia. }
  assert (Hvt : VBin <> VCont) by discriminate.
  destruct (add_system xv xn VBin m1) as [m2|] eqn:E2; [|discriminate].
  assert (S2 := Hsys VBin m1 m2 xv xn Hvt B3 Bv Bn Lv Ln ND E2).
  assert (V2 : (nvars m1 <= nvars m2)%nat) by apply S2.
  remember (if flag then m2 else addMConstr [eyek n (-1)] [xn] SLe (vneg x_lo)
              (addMConstr [eye n] [xn] SLe x_up m2)) as m3 eqn:Em3.
  assert (K3 : history st m3 /\ nvars m3 = nvars m2 /\
     forall sg, feas VBin m3 sg <-> feas VBin m2 sg /\ (flag = false -> in_box x_lo x_up (map sg xn))).
  { destruct flag.
    - subst m3. split; [apply S2|]. split; auto. intros sg. split; [|tauto].
      intros G. split; auto. discriminate.
    - destruct (next_in_box_step VBin xn m2) as (X1 & X2 & X3); auto.
      + apply S2.
      + apply (below_weaken _ _ _ Bn). auto.
      + subst m3. split; auto. split; auto. intros sg. rewrite X3. intuition. }
  destruct K3 as (H3 & N3 & G3).
  assert (S3 := step_iff VBin st m2 m3 _ H3 N3 G3).
  destruct (add_relu_output solve meth N x_lo x_up xv VBin m3) as [[m4 rr]|] eqn:E4; [|discriminate].
  assert (Bv3 : below (nvars m3) xv) by (apply (below_weaken _ _ _ Bv); lia).
  destruct (relu_output_step solve Hsolve meth N n x_lo x_up W Ho L1 L2 st xv VBin m3 m4 rr
    H3 Bv3 Lv Hvt E4) as (P1 & P2 & P3 & P4 & P5 & S4).
  assert (V4 : (nvars m3 <= nvars m4)%nat) by apply S4.
  destruct (addVars (repeat (NInf, PInf) (2 * n)) VBin m4) as [m5 zs] eqn:E5.
  destruct (addLConstr [ones (2 * n)] [zs] SEq 1 m5) as [m6|] eqn:E6; [|discriminate].
  destruct (roa_loop n x_lo x_up lol upl 0 zs m6) as [m7 ts] eqn:E7.
  remember (if flag then xn else xv) as outv eqn:Eo.
  assert (Bo : below (nvars m1) outv) by (rewrite Eo; destruct flag; auto).
  assert (Lo : length outv = n) by (destruct flag; subst outv; auto).
  assert (Bo4 : below (nvars m4) outv) by (apply (below_weaken _ _ _ Bo); lia).
  assert (S7 := outside_step n x_lo x_up lol upl L1 L2 VBin st outv m4 m5 m6 m7 zs ts
    (proj1 (proj2 S4)) Bo4 Lo Hvt E5 E6 E7).
  remember (addMConstr (eye n :: repeat (eyek n (-1)) (2 * n)) (outv :: ts) SEq (zeros n) m7) as m8 eqn:Em8.
  assert (V8 : (nvars m4 <= nvars m8)%nat) by apply S7.
  destruct (add_state_error n x_lo x_up false xeq R0 xv VBin m8) as [[[m9 s] al]|] eqn:E9; [|discriminate].
  assert (Bv8 : below (nvars m8) xv) by (apply (below_weaken _ _ _ Bv); lia).
  destruct (state_error_step n x_lo x_up L1 L2 R0 xeq WR st _ _ _ _ _ _ _ E9
    (proj1 (proj2 S7)) Bv8 Lv Hvt) as (K1 & K2 & _ & _ & S9).
  rewrite (scalar_phi n) in E by auto.
  assert (V9 : (nvars m8 <= nvars m9)%nat) by apply S9.
  assert (H9 : history st m9) by apply S9.
  destruct (setObjective_step VBin st [ret_a rr; repeat lam (length s)]
     [ret_z rr; s] (ret_b rr - phi N xeq) false m9 H9) as (m10 & E10 & O1 & O2 & O3 & O4 & O5).
  { constructor; [auto|]. constructor; [apply repeat_length|constructor]. }
  { cbn [concat]. rewrite app_nil_r. apply Forall_app. split.
    - apply fresh_below in P1. apply (below_weaken _ _ _ P1). lia.
    - apply fresh_below in K1. auto. }
  { cbn [concat]. rewrite app_nil_r. eapply fresh_disj; eauto. }
  rewrite E10 in E. injection E as <- <- <-.
  split; auto. split; auto. split; auto.
  set (D := fun sg : assignment => in_box x_lo x_up (map sg xv) /\ T (map sg xv) (map sg xn) /\
    roa_cond flag (map sg xv) (map sg xn)).
  assert (LD : local m1 D).
  { apply (local_map2 m1 xv xn (fun x x' => in_box x_lo x_up x /\ T x x' /\ roa_cond flag x x')); auto. }
  assert (T2 : step VBin st m1 m2 D (fun sg => T (map sg xv) (map sg xn))).
  { eapply step_weaken; [exact S2| |auto]. unfold D. tauto. }
  assert (T3 := step_seq VBin st _ _ _ _ _ _ _ T2 S3 LD).
  specialize (T3 ltac:(unfold D, roa_cond; intros sg _ (_ & _ & X) _ Ef; subst flag; tauto)).
  assert (T4 := step_seq VBin st _ _ _ _ _ _ _ T3 S4 LD ltac:(unfold D; tauto)).
  assert (T7 := step_seq VBin st _ _ _ _ _ _ _ T4 S7 LD).
  specialize (T7 ltac:(unfold D, roa_cond; intros sg _ (_ & _ & X) _; destruct flag; subst outv; tauto)).
  assert (T9 := step_seq VBin st _ _ _ _ _ _ _ T7 S9 LD ltac:(unfold D; tauto)).
  destruct T9 as (_ & _ & T1 & T9). split.
  - intros sg G. rewrite <- feas_bin, O4 in G.
    destruct (T1 sg G) as (_ & (((Q1 & Q2) & Q3 & Q4) & Q5) & Q6).
    split; auto. split; auto. split.
    { unfold roa_cond. destruct flag; subst outv; auto. }
    rewrite O5. cbn [map2 vsum].
    rewrite dot_repeat_l by apply map_length. rewrite Q6. unfold V.
    change (vsum (map Rabs (mv (R_of n R0) (vsub (map sg xv) xeq)))) with (error1 M xeq (map sg xv)).
    lra.
  - intros x x' Lx' B Tx C.
    destruct (A5 (fun _ => 0) x (init_feas _ _)) as (s0 & G0 & _ & Ex).
    { eapply in_box_length; eauto. }
    destruct (B5 s0 x' G0 Lx') as (s1 & G1 & Ag1 & Ex').
    assert (Ex1 : map s1 xv = x).
    { rewrite <- Ex. symmetry. apply (map_agree (nvars m0)); auto. rewrite A1. apply below_seq. lia. }
    destruct (T9 s1 G1) as (s2 & G2 & Ag2).
    { unfold D. rewrite Ex1, Ex'. auto. }
    exists s2. split; [apply feas_bin, O4; auto|]. split.
    + rewrite <- Ex1. symmetry. apply (map_agree (nvars m1)); auto.
    + rewrite <- Ex'. symmetry. apply (map_agree (nvars m1)); auto.
Qed.

Lemma below_min : forall v a b, below_level v (ext_min a b) <-> below_level v a /\ below_level v b.
Proof.
  intros v a b. destruct a, b; cbn; try tauto.
  unfold Rmin. destruct (Rle_dec r r0); split; try tauto; intros; try split; lra.
Qed.

Lemma roa_invariant : forall upper rho,
  region_of_attraction solve meth N n x_lo x_up add_system xeq lam R0 upper lol upl = Some rho ->
  (forall m xv xn, roa_milp solve meth N n x_lo x_up add_system xeq lam R0 lol upl true
                   = Some (m, xv, xn) -> solve m = GInfeasible \/ exists v, solve m = GOptimal v) ->
  forall x x', in_box x_lo x_up x -> below_level (V N M lam xeq x) rho -> T x x' ->
  in_box x_lo x_up x' \/ leaves_by_side n x_lo x_up lol upl x' -> in_box x_lo x_up x'.
Proof.
  intros upper rho E Hd x x' B Lv Tx [C|C]; auto. exfalso.
  unfold region_of_attraction in E.
  destruct (roa_milp solve meth N n x_lo x_up add_system xeq lam R0 lol upl true)
    as [[[m1 xv] xn]|] eqn:E1; [|discriminate].
  destruct (roa_milp solve meth N n x_lo x_up add_system xeq lam R0 lol upl false)
    as [[[m2 xv2] xn2]|] eqn:E2; [|discriminate].
  injection E as <-. apply below_min in Lv. destruct Lv as [Lv _].
  destruct (roa_program _ _ _ _ E1) as (P1 & P2 & P3 & P4 & P5).
  destruct (P5 x x') as (sg & G & Ex & Ex'); auto.
  { destruct C as (i & _ & Ly & _). auto. }
  destruct (P4 sg G) as (_ & _ & _ & Eo). rewrite Ex in Eo.
  specialize (Hsolve m1). destruct (Hd _ _ _ eq_refl) as [Hi|[v Hv]].
  - rewrite Hi in Hsolve. apply (Hsolve sg G).
  - rewrite Hv in *. rewrite P1 in Hsolve. destruct Hsolve as [_ Mn]. specialize (Mn sg G).
    cbn in Lv. lra.
Qed.
Lemma roa_total : system_total n st add_system ->
  (exists c B out, output_constraint solve meth N x_lo x_up = Some (c, B, out)) ->
  forall flag, exists m xv xn,
  roa_milp solve meth N n x_lo x_up add_system xeq lam R0 lol upl flag = Some (m, xv, xn).
Proof.
  intros Tot Oc flag. unfold roa_milp.
  destruct (addVars (repeat (NInf, PInf) n) VCont init_mip) as [m0 xv] eqn:E0.
  destruct (addVars (repeat (NInf, PInf) n) VCont m0) as [m1 xn] eqn:E1.
  destruct (step_free VBin st n _ _ _ E0 (h_init st)) as (A1 & A2 & A3 & A4 & A5).
  destruct (step_free VBin st n _ _ _ E1 A3) as (B1 & B2 & B3 & B4 & B5).
  assert (Bv : below (nvars m1) xv) by (rewrite A1; apply below_seq; lia).
  assert (Bn : below (nvars m1) xn) by (rewrite B1; apply below_seq; lia).
  assert (Lv : length xv = n) by (rewrite A1; apply seq_length).
  assert (Ln : length xn = n) by (rewrite B1; apply seq_length).
  assert (ND : NoDup (xv ++ xn)).
  { apply (fresh_disj 0 n n (n + n)); auto.
    - rewrite A1. apply fresh_seq. simpl. lia.
    - rewrite B1, A2. apply fresh_seq. simpl. lia. }
  assert (Hvt : VBin <> VCont) by discriminate.
  destruct (add_system xv xn VBin m1) as [m2|] eqn:E2;
    [|exfalso; apply (Tot VBin m1 xv xn Hvt B3 Bv Bn Lv Ln ND E2)].
  assert (S2 := Hsys VBin m1 m2 xv xn Hvt B3 Bv Bn Lv Ln ND E2).
  assert (V2 : (nvars m1 <= nvars m2)%nat) by apply S2.
  remember (if flag then m2 else addMConstr [eyek n (-1)] [xn] SLe (vneg x_lo)
              (addMConstr [eye n] [xn] SLe x_up m2)) as m3 eqn:Em3.
  assert (K3 : history st m3 /\ nvars m3 = nvars m2).
  { destruct flag.
    - subst m3. split; [apply S2|]. auto.
    - destruct (next_in_box_step VBin xn m2) as (X1 & X2 & X3); auto.
      + apply S2.
      + apply (below_weaken _ _ _ Bn). auto.
      + subst m3. split; auto. }
  destruct K3 as (H3 & N3).
  destruct (relu_output_total solve Hsolve meth N n x_lo x_up W Ho L1 L2 xv VBin m3
    (la_units _ _ _ _ _ _ Args) Oc) as (m4 & rr & E4). rewrite E4.
  assert (Bv3 : below (nvars m3) xv) by (apply (below_weaken _ _ _ Bv); lia).
  destruct (relu_output_step solve Hsolve meth N n x_lo x_up W Ho L1 L2 st xv VBin m3 m4 rr
    H3 Bv3 Lv Hvt E4) as (P1 & P2 & P3 & P4 & P5 & S4).
  assert (V4 : (nvars m3 <= nvars m4)%nat) by apply S4.
  destruct (addVars (repeat (NInf, PInf) (2 * n)) VBin m4) as [m5 zs] eqn:E5.
  assert (Z5 : zs = seq (nvars m4) (2 * n) /\ nvars m5 = (nvars m4 + 2 * n)%nat /\ history st m5).
  { destruct (step_addVars VBin st _ _ _ _ _ E5 (proj1 (proj2 S4))) with (x := repeat 0 (2 * n))
      as (X1 & X2 & X3 & X4).
    - intros _ Hd. discriminate.
    - apply vars_ok_binfree. split; [apply repeat_length|]. apply Forall_forall.
      intros v Hv. apply repeat_spec in Hv. left. auto.
    - intros _. apply Forall_forall. intros v Hv. apply repeat_spec in Hv. left. auto.
    - rewrite repeat_length in *. split; auto. split; auto. apply X1. }
  destruct Z5 as (Z1 & Z2 & H5).
  assert (Lz : length zs = (2 * n)%nat) by (rewrite Z1; apply seq_length).
  destruct (step_addLConstr VBin st [ones (2 * n)] [zs] SEq 1 m5) as (m6 & E6 & _); auto.
  { constructor; [|constructor]. unfold ones. rewrite repeat_length. auto. }
  { cbn [concat]. rewrite app_nil_r. rewrite Z1. apply below_seq. lia. }
  { cbn [concat]. rewrite app_nil_r. rewrite Z1. apply seq_NoDup. }
  rewrite E6.
  destruct (roa_loop n x_lo x_up lol upl 0 zs m6) as [m7 ts] eqn:E7.
  remember (if flag then xn else xv) as outv eqn:Eo.
  assert (Bo : below (nvars m1) outv) by (rewrite Eo; destruct flag; auto).
  assert (Lo : length outv = n) by (destruct flag; subst outv; auto).
  assert (Bo4 : below (nvars m4) outv) by (apply (below_weaken _ _ _ Bo); lia).
  assert (S7 := outside_step n x_lo x_up lol upl L1 L2 VBin st outv m4 m5 m6 m7 zs ts
    (proj1 (proj2 S4)) Bo4 Lo Hvt E5 E6 E7).
  remember (addMConstr (eye n :: repeat (eyek n (-1)) (2 * n)) (outv :: ts) SEq (zeros n) m7) as m8 eqn:Em8.
  assert (V8 : (nvars m4 <= nvars m8)%nat) by apply S7.
  assert (Bv8 : below (nvars m8) xv) by (apply (below_weaken _ _ _ Bv); lia).
  destruct (state_error_total n x_lo x_up L1 L2 R0 xeq WR st false xv VBin m8
    (la_eq _ _ _ _ _ _ Args) (la_rows _ _ _ _ _ _ Args) (proj1 (proj2 S7)) Bv8 Lv Hvt)
    as (m9 & s & al & E9). rewrite E9.
  destruct (state_error_step n x_lo x_up L1 L2 R0 xeq WR st _ _ _ _ _ _ _ E9
    (proj1 (proj2 S7)) Bv8 Lv Hvt) as (K1 & K2 & _ & _ & S9).
  rewrite (scalar_phi n) by auto.
  assert (V9 : (nvars m8 <= nvars m9)%nat) by apply S9.
  assert (H9 : history st m9) by apply S9.
  destruct (setObjective_step VBin st [ret_a rr; repeat lam (length s)]
     [ret_z rr; s] (ret_b rr - phi N xeq) false m9 H9) as (m10 & E10 & _).
  { constructor; [auto|]. constructor; [apply repeat_length|constructor]. }
  { cbn [concat]. rewrite app_nil_r. apply Forall_app. split.
    - apply fresh_below in P1. apply (below_weaken _ _ _ P1). lia.
    - apply fresh_below in K1. auto. }
  { cbn [concat]. rewrite app_nil_r. eapply fresh_disj; eauto. }
  rewrite E10. eauto.
Qed.
End Roa.
