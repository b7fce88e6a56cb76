(** Losses of rollouts in latent space, agreement of the two modes, and witnesses. *)

Require Import Reals List Bool Arith ZArith Lra Lia.
Require Import Verif.Vec Verif.VecFacts Verif.SpecCore Verif.ModelGrad Verif.ModelNet Verif.SpecNet Verif.ModelLyapunov
  Verif.SpecLyapunov Verif.ModelSystems Verif.SpecSystems Verif.ModelExamples Verif.ModelDynLearn Verif.SpecDynLearn
  Verif.ModelLatent Verif.SpecLatent Verif.ProofLyapunov Verif.ProofLyapCert Verif.ProofSystems Verif.ProofExamples
  Verif.ProofDynamics Verif.ProofDynLearn Verif.ProofDynLearn2 Verif.ProofDynLearnEx Verif.ProofLatent Verif.ProofLatent2.
Import ListNotations.
Open Scope R_scope.

Lemma all_some_images : forall (f : image -> image -> option R) g es xs,
  Forall2 (fun e x => f e x = Some (g e x)) es xs -> all_some (map2 f es xs) = Some (map2 g es xs).
Proof. induction 1 as [|e x es xs H F IH]; cbn; auto. rewrite H, IH. reflexivity. Qed.
Lemma map2_images : forall (g : image -> image -> R) (P : image -> image -> Prop) es xs, Forall2 P es xs ->
  length (map2 g es xs) = length es /\
  forall k, (k < length es)%nat -> nth k (map2 g es xs) 0 = g (nth k es []) (nth k xs []) /\ P (nth k es []) (nth k xs []).
Proof.
  induction 1 as [|e x es xs H F [I1 I2]]; cbn [map2 length]; [split; [auto|intros; lia]|].
  split; [auto|]. intros [|k] Hk; cbn [nth]; auto. apply I2. lia.
Qed.

Definition same_size (e f : image) : Prop := concat e <> [] /\ length (concat f) = length (concat e).

Lemma ms_pairs : forall es fs, Forall2 same_size es fs ->
  Forall2 (fun e p => mean (squares (concat e) (concat p)) = Some (mean_square (concat e) (concat p))) es fs.
Proof. induction 1 as [|e f es fs [A B] F IH]; constructor; auto. apply mean_ms; auto. Qed.
Lemma bce_pairs : forall es fs, Forall2 same_size es fs -> Forall (fun e : image => Forall (fun a => 0 <= a <= 1) (concat e)) es ->
  Forall2 (fun e p => bce_loss (concat e) (concat p) = Some (average (map2 bval (concat e) (concat p)))) es fs.
Proof.
  induction 1 as [|e f es fs [A B] F IH]; intros Fe; constructor; [|apply IH; inversion Fe; auto].
  inversion Fe; subst. unfold bce_loss. rewrite bces_val by auto. apply mean_some.
  intros Z. apply (f_equal (@length R)) in Z. rewrite map2_length_R in Z by auto.
  apply A. apply length_zero_iff_nil. exact Z.
Qed.

Section Loss.
Variables (enc : image -> vec * vec) (dec : vec -> image).
Variable L : learner.
Variable T : lat_opt.
Variables (e0 e1 : image) (rest : list image) (decode : bool) (noise : nat -> vec).
Let es := e0 :: e1 :: rest.
Variables (fs : list image) (vs : vec) (zs : list vec).
Hypothesis Hr : latent_rollout enc dec L T (e0 ++ e1) (length rest) decode noise = Some (fs, vs, zs).
Hypothesis Hsz : Forall2 same_size es fs.

Lemma loss_unfold : latent_rollout_loss enc dec L T es decode noise =
  all_some (map2 (fun e p : image => if t_bce T then bce_loss (concat e) (concat p)
              else mean (squares (concat e) (concat p))) es fs).
Proof.
  unfold latent_rollout_loss, es. replace (length (e0 :: e1 :: rest) - 2)%nat with (length rest) by (cbn; lia).
  rewrite Hr. reflexivity.
Qed.
Lemma loss_l2 : t_bce T = false -> exists ls, latent_rollout_loss enc dec L T es decode noise = Some ls /\
  length ls = length es /\ forall k, (k < length es)%nat ->
    nth k ls 0 = mean_square (concat (nth k es [])) (concat (nth k fs [])) /\ 0 <= nth k ls 0 /\
    (nth k ls 0 = 0 <-> concat (nth k es []) = concat (nth k fs [])).
Proof.
  intros Tb. rewrite loss_unfold, Tb.
  rewrite (all_some_images _ (fun e p => mean_square (concat e) (concat p))).
  2: { apply ms_pairs; auto. }
  destruct (map2_images (fun e p => mean_square (concat e) (concat p)) _ _ _ Hsz) as [A B].
  eexists. split; [reflexivity|]. split; [exact A|]. intros k Hk. destruct (B k Hk) as [-> [C D]].
  split; [reflexivity|]. apply ms_zero; auto.
Qed.
(** Cross entropy: the expected pixels are treated as the prediction. *)
Lemma loss_bce : t_bce T = true -> Forall (fun e => Forall (fun a => 0 <= a <= 1) (concat e)) es ->
  exists ls, latent_rollout_loss enc dec L T es decode noise = Some ls /\
  length ls = length es /\ forall k, (k < length es)%nat ->
    nth k ls 0 = average (map2 (fun e p => - (p * clamped_log e + (1 - p) * clamped_log (1 - e)))
                            (concat (nth k es [])) (concat (nth k fs []))).
Proof.
  intros Tb Fe. rewrite loss_unfold, Tb.
  rewrite (all_some_images _ (fun e p => average (map2 bval (concat e) (concat p)))).
  2: { apply bce_pairs; auto. }
  destruct (map2_images (fun e p => average (map2 bval (concat e) (concat p))) _ _ _ Hsz) as [A B].
  eexists. split; [reflexivity|]. split; [exact A|]. intros k Hk. destruct (B k Hk) as [-> _]. reflexivity.
Qed.
End Loss.

(** ** Agreement of the two modes *)
Section Agree.
Variable L : learner.
Variable xeq : vec.
Hypothesis HL : learner_ok L xeq.
Let n := l_dim L.
Variables (enc : image -> vec * vec) (dec : vec -> image).
Variable T : lat_opt.
Variable c : nat.
Hypothesis Fit : coder_fits n c enc dec.
Hypothesis N1 : n <> 1%nat.
Hypothesis Nv : t_var T = false.

Lemma modes_agree : forall x N noise fs vs zs, length x = (2 * c)%nat -> (forall k, length (noise k) = n) ->
  latent_rollout enc dec L T x N false noise = Some (fs, vs, zs) ->
  (forall k, (k < N)%nat -> fst (enc (nth k fs [] ++ nth (S k) fs [])) = nth k zs []) ->
  latent_rollout enc dec L T x N true noise = Some (fs, vs, zs).
Proof.
  intros x N noise fs vs zs Hx Hn E Hc.
  destruct (latent_rollout_spec L xeq HL enc dec T c Fit x N noise N1 Hx)
    as (fs' & vs' & zs' & E' & Lf & Lv & Lz & F0 & F1 & Z & F).
  rewrite E in E'. injection E' as <- <- <-.
  destruct (image_rollout_spec L xeq HL enc dec T c Fit x N noise N1 Hx Hn)
    as (gs & ws & ys & G & Lg & Lw & Ly & P & Y0 & Y & W).
  assert (Lat : forall e im, latent enc T e im = fst (enc im)).
  { intros e im. unfold latent. rewrite Nv. destruct (enc im). reflexivity. }
  assert (St : forall k z, l_state L (S k) z = l_step L (l_state L k z)).
  { induction k as [|k IH]; intros z; [reflexivity|]. cbn [l_state] in *. rewrite <- IH. reflexivity. }
  assert (Pf : forall k, (k <= N)%nat -> (nth k fs [], nth (S k) fs []) = frame_at enc dec L T noise c k (firstn c x) (skipn c x)).
  { induction k as [|k IH]; intros Hk; [rewrite F0, F1; reflexivity|].
    cbn [frame_at]. rewrite <- IH by lia. rewrite Lat, Hc by lia.
    destruct (Z k) as [-> _]; [lia|]. rewrite F by lia. rewrite St. reflexivity. }
  assert (Ef : fs = gs).
  { apply (nth_ext _ _ [] []); [exact (eq_trans Lf (eq_sym Lg))|]. intros k Hk. unfold image, vec in *. rewrite Lf in Hk.
    destruct (Nat.eq_dec k (S N)) as [->|Nk].
    - assert (Q := eq_trans (Pf N (le_n _)) (eq_sym (P N (le_n _)))). apply (f_equal snd) in Q. exact Q.
    - assert (H : (k <= N)%nat) by lia. assert (Q := eq_trans (Pf k H) (eq_sym (P k H))). apply (f_equal fst) in Q. exact Q. }
  subst gs.
  assert (Ez : zs = ys).
  { apply (nth_ext _ _ [] []); [exact (eq_trans Lz (eq_sym Ly))|]. intros k Hk. unfold image, vec in *. rewrite Lz in Hk.
    destruct k as [|k]; [rewrite Y0; apply (Z 0%nat); lia|].
    rewrite Y, Lat, Hc by lia. destruct (Z (S k)) as [-> _]; [lia|]. destruct (Z k) as [-> _]; [lia|]. apply St. }
  subst ys.
  assert (Ev : vs = ws).
  { apply (nth_ext _ _ 0 0); [rewrite Lv, Lw; reflexivity|]. intros k Hk. rewrite Lv in Hk. rewrite W by lia.
    destruct (Z k) as [-> ->]; [lia|reflexivity]. }
  subst ws. exact G.
Qed.
End Agree.

(** ** The loss of a rollout from its first two frames *)
Section Frames.
Variable L : learner.
Variable xeq : vec.
Hypothesis HL : learner_ok L xeq.
Let n := l_dim L.
Variables (enc : image -> vec * vec) (dec : vec -> image).
Variable T : lat_opt.
Variables c p : nat.
Hypothesis Fit : coder_fits n c enc dec.
Hypothesis N1 : n <> 1%nat.
Hypothesis Pp : (0 < p)%nat.
Hypothesis Dp : forall z, length z = n -> length (concat (skipn c (dec z))) = p.

Lemma frames_sized : forall e0 e1 N decode noise fs vs zs, length e0 = c -> length e1 = c ->
  length (concat e0) = p -> length (concat e1) = p -> (forall k, length (noise k) = n) ->
  latent_rollout enc dec L T (e0 ++ e1) N decode noise = Some (fs, vs, zs) ->
  length fs = S (S N) /\ nth 0 fs [] = e0 /\ nth 1 fs [] = e1 /\
  forall k, (k < S (S N))%nat -> length (concat (nth k fs [])) = p.
Proof.
  intros e0 e1 N decode noise fs vs zs C0 C1 P0 P1 Hn E.
  assert (Hx : length (e0 ++ e1) = (2 * c)%nat) by (rewrite app_length; lia).
  assert (A0 : firstn c (e0 ++ e1) = e0) by (rewrite <- C0, firstn_app, Nat.sub_diag, firstn_all, firstn_O; apply app_nil_r).
  assert (A1 : skipn c (e0 ++ e1) = e1) by (rewrite <- C0, skipn_app, Nat.sub_diag, skipn_all; reflexivity).
  change (@firstn vec c (e0 ++ e1) = e0) in A0. change (@skipn vec c (e0 ++ e1) = e1) in A1.
  destruct decode.
  - destruct (image_rollout_spec L xeq HL enc dec T c Fit _ N noise N1 Hx Hn)
      as (fs' & vs' & zs' & E' & Lf & Lv & Lz & P & Y0 & Y & W).
    rewrite E in E'. injection E' as <- <- <-. rewrite A0, A1 in P.
    assert (P' := P 0%nat (Nat.le_0_l _)). cbn [frame_at] in P'.
    assert (Q0 : nth 0 fs [] = e0) by (apply (f_equal fst) in P'; exact P').
    assert (Q1 : nth 1 fs [] = e1) by (apply (f_equal snd) in P'; exact P').
    split; [exact Lf|]. split; [exact Q0|]. split; [exact Q1|].
    intros [|[|k]] Hk; [rewrite Q0; auto|rewrite Q1; auto|].
    assert (Hk' : (S k <= N)%nat) by lia. assert (R := P (S k) Hk'). cbn [frame_at] in R.
    assert (FL := frame_at_lengths L xeq HL enc dec T c Fit noise e0 e1 Hn C0 C1 k).
    destruct (frame_at enc dec L T noise c k e0 e1) as [a b]. cbn [fst snd] in FL. apply (f_equal snd) in R. cbn [snd] in R.
    rewrite R. apply Dp. apply (step_length L xeq HL). destruct FL. eapply latent_length; eauto.
    rewrite app_length. unfold image, vec in *. lia.
  - destruct (latent_rollout_spec L xeq HL enc dec T c Fit _ N noise N1 Hx)
      as (fs' & vs' & zs' & E' & Lf & Lv & Lz & F0 & F1 & Z & F).
    rewrite E in E'. injection E' as <- <- <-. rewrite A0 in F0. rewrite A1 in F1.
    split; [exact Lf|]. split; [exact F0|]. split; [exact F1|].
    intros [|[|k]] Hk; [rewrite F0; auto|rewrite F1; auto|].
    rewrite F by lia. apply Dp. apply (state_length L xeq HL). apply Fit. exact Hx.
Qed.
Lemma rollout_total : forall x N decode noise, length x = (2 * c)%nat -> (forall k, length (noise k) = n) ->
  exists fs vs zs, latent_rollout enc dec L T x N decode noise = Some (fs, vs, zs).
Proof.
  intros x N decode noise Hx Hn. destruct decode.
  - destruct (image_rollout_spec L xeq HL enc dec T c Fit _ N noise N1 Hx Hn) as (fs' & vs' & zs' & E' & _). eauto.
  - destruct (latent_rollout_spec L xeq HL enc dec T c Fit _ N noise N1 Hx) as (fs' & vs' & zs' & E' & _). eauto.
Qed.
Lemma nth_Forall2 : forall (P : image -> image -> Prop) (l m : list image), length l = length m ->
  (forall k, (k < length l)%nat -> P (nth k l []) (nth k m [])) -> Forall2 P l m.
Proof.
  induction l as [|a l IH]; intros [|b m] E H; try discriminate; constructor.
  - apply (H 0%nat). cbn. lia.
  - apply IH; [injection E; auto|]. intros k Hk. apply (H (S k)). cbn. lia.
Qed.
Lemma nth_In_P : forall (P : image -> Prop) l k, Forall P l -> (k < length l)%nat -> P (nth k l []).
Proof. intros P l k F Hk. rewrite Forall_forall in F. apply F. apply nth_In. exact Hk. Qed.

Lemma whole_loss : forall e0 e1 rest decode noise, (forall k, length (noise k) = n) ->
  Forall (fun e : image => length e = c /\ length (concat e) = p) (e0 :: e1 :: rest) ->
  (t_bce T = true -> Forall (fun e : image => Forall (fun a => 0 <= a <= 1) (concat e)) (e0 :: e1 :: rest)) ->
  exists fs vs zs ls, latent_rollout enc dec L T (e0 ++ e1) (length rest) decode noise = Some (fs, vs, zs) /\
    latent_rollout_loss enc dec L T (e0 :: e1 :: rest) decode noise = Some ls /\
    length ls = S (S (length rest)) /\
    forall k, (k < S (S (length rest)))%nat ->
      if t_bce T
      then nth k ls 0 = average (map2 (fun e p => - (p * clamped_log e + (1 - p) * clamped_log (1 - e)))
                            (concat (nth k (e0 :: e1 :: rest) [])) (concat (nth k fs [])))
      else nth k ls 0 = mean_square (concat (nth k (e0 :: e1 :: rest) [])) (concat (nth k fs [])) /\ 0 <= nth k ls 0 /\
           (nth k ls 0 = 0 <-> concat (nth k (e0 :: e1 :: rest) []) = concat (nth k fs [])) /\
           ((k < 2)%nat -> nth k ls 0 = 0).
Proof.
  intros e0 e1 rest decode noise Hn F Fu.
  assert (G0 := nth_In_P _ _ 0 F ltac:(cbn; lia)). assert (G1 := nth_In_P _ _ 1 F ltac:(cbn; lia)). cbn [nth] in G0, G1.
  destruct G0 as [C0 P0], G1 as [C1 P1].
  destruct (rollout_total (e0 ++ e1) (length rest) decode noise) as (fs & vs & zs & E); auto.
  { rewrite app_length. unfold image, vec in *. lia. }
  destruct (frames_sized e0 e1 _ decode noise fs vs zs C0 C1 P0 P1 Hn E) as (Lf & Q0 & Q1 & Sz).
  assert (S2 : Forall2 same_size (e0 :: e1 :: rest) fs).
  { apply nth_Forall2; [symmetry; exact Lf|]. intros k Hk. assert (Hk' := nth_In_P _ _ k F Hk). destruct Hk' as [_ Ek].
    split; [|rewrite Ek; apply Sz; exact Hk]. intros Z. rewrite Z in Ek. cbn in Ek. lia. }
  exists fs, vs, zs. destruct (t_bce T) eqn:Tb.
  - destruct (loss_bce enc dec L T e0 e1 rest decode noise fs vs zs E S2 Tb (Fu eq_refl)) as (ls & M & Ll & P).
    exists ls. split; [exact E|]. split; [exact M|]. split; [exact Ll|]. intros k Hk. apply P. exact Hk.
  - destruct (loss_l2 enc dec L T e0 e1 rest decode noise fs vs zs E S2 Tb) as (ls & M & Ll & P).
    exists ls. split; [exact E|]. split; [exact M|]. split; [exact Ll|]. intros k Hk. destruct (P k Hk) as (A & B & D).
    split; [exact A|]. split; [exact B|]. split; [exact D|]. intros K2. apply D.
    destruct k as [|[|k]]; [rewrite Q0; reflexivity|rewrite Q1; reflexivity|lia].
Qed.
End Frames.

(** ** Examples *)
Lemma net_two_wf : net_wf 2 net_two.
Proof.
  unfold net_wf, net_two. cbn [hidden last_layer hidden_wf lin_wf in_features weight bias].
  split; [discriminate|]. unfold lin_wf, wfm, out_features. cbn. repeat split; repeat constructor.
Qed.
Lemma two_ok : learner_ok learner_two [0; 0].
Proof.
  split; [|split; [left; reflexivity|exact abs2_args]].
  split; [exact net_two_wf|]. split; [reflexivity|].
  unfold new_auto. cbn [learner_two l_sys au_net au_lo au_up au_meth au_kind].
  match goal with |- (if ?b then _ else _) = _ => assert (E : b = true) end.
  { ok_bools. }
  rewrite E. reflexivity.
Qed.
Lemma two_fits : coder_fits 2 1 enc_two dec_two.
Proof. split; intros; cbn; auto. Qed.
Lemma const_fits : forall im : image, length im = 2%nat -> coder_fits 2 1 enc_two (fun _ => im).
Proof. intros im H. split; intros; cbn; auto. Qed.

(** The constant decoder. *)
Lemma const_rollout : forall a T noise, exists vs zs,
  latent_rollout enc_two (fun _ => [[a]; [a]]) learner_two T ([[4/5]] ++ [[4/5]]) 1 false noise
  = Some ([[[4/5]]; [[4/5]]; [[a]]], vs, zs).
Proof.
  intros a T noise.
  destruct (latent_rollout_spec learner_two [0; 0] two_ok enc_two (fun _ => [[a]; [a]]) T 1 (const_fits [[a]; [a]] eq_refl)
    ([[4/5]] ++ [[4/5]]) 1 noise) as (fs & vs & zs & E & Lf & Lv & Lz & F0 & F1 & Z & F); [cbn; lia|reflexivity|].
  exists vs, zs. rewrite E. do 3 f_equal. destruct fs as [|f0 [|f1 [|f2 [|? ?]]]]; try discriminate.
  cbn in F0, F1. specialize (F 0%nat ltac:(lia)). cbn [nth skipn] in F. unfold image, vec in *. rewrite F0, F1, F. reflexivity.
Qed.
Definition expected_ex : list image := [[[4/5]]; [[4/5]]; [[4/5]]].
Lemma ln_gap : ln (1/5) < ln (4/5).
Proof. apply ln_increasing; lra. Qed.
Lemma clamped_fifth : clamped_log (4/5) = ln (4/5) /\ clamped_log (1 - 4/5) = ln (1/5).
Proof.
  destruct exp_small as [A B]. assert (C : exp (-99) < 1/5).
  { destruct (exp_ge 99) as [D _]. replace (-99) with (- (99)) by lra. rewrite exp_Ropp.
    replace (1/5) with (/ 5) by lra. apply Rinv_lt_contravar; lra. }
  split; [apply clamped_eq; lra|]. replace (1 - 4/5) with (1/5) by lra. apply clamped_eq. lra.
Qed.
Lemma swapped_refuted : ~ (forall enc dec dec' L xeq T expected decode noise ls ls' vs zs,
  learner_ok L xeq -> t_bce T = true -> Forall (fun e => Forall fair_target (concat e)) expected ->
  latent_rollout enc dec L T (nth 0 expected [] ++ nth 1 expected []) (length expected - 2) decode noise
    = Some (expected, vs, zs) ->
  latent_rollout_loss enc dec L T expected decode noise = Some ls ->
  latent_rollout_loss enc dec' L T expected decode noise = Some ls' ->
  forall k, nth k ls 0 <= nth k ls' 0).
Proof.
  intros H. set (T := lat_ex false true). set (noise := fun _ : nat => [0; 0]).
  destruct (const_rollout (4/5) T noise) as (vs & zs & E1). destruct (const_rollout 1 T noise) as (vs' & zs' & E2).
  assert (U : Forall (fun e : image => Forall (fun a => 0 <= a <= 1) (concat e)) expected_ex).
  { unfold expected_ex. repeat constructor; lra. }
  destruct (loss_bce enc_two (fun _ => [[4/5]; [4/5]]) learner_two T [[4/5]] [[4/5]] [[[4/5]]] false noise _ _ _ E1)
    as (ls & M1 & _ & P1); [repeat constructor; discriminate|reflexivity|exact U|].
  destruct (loss_bce enc_two (fun _ => [[1]; [1]]) learner_two T [[4/5]] [[4/5]] [[[4/5]]] false noise _ _ _ E2)
    as (ls' & M2 & _ & P2); [repeat constructor; discriminate|reflexivity|exact U|].
  assert (F : Forall (fun e : image => Forall fair_target (concat e)) expected_ex).
  { assert (Q : fair_target (4/5)).
    { right. right. destruct (exp_ge 99) as [D _]. assert (exp (-99) < / 5).
      { replace (-99) with (- (99)) by lra. rewrite exp_Ropp. apply Rinv_lt_contravar; lra. }
      split; lra. }
    assert (S : Forall fair_target (concat [[4/5]])) by (cbn; constructor; [exact Q|constructor]).
    unfold expected_ex. constructor; [exact S|]. constructor; [exact S|]. constructor; [exact S|constructor]. }
  assert (K := H enc_two (fun _ => [[4/5]; [4/5]]) (fun _ => [[1]; [1]]) learner_two [0; 0] T expected_ex false noise ls ls' vs zs
    two_ok eq_refl F E1 M1 M2 2%nat).
  rewrite P1, P2 in K by (cbn; lia). cbn [nth concat app map2] in K. unfold average in K. cbn in K.
  destruct clamped_fifth as [C1 C2]. rewrite C1, C2 in K. assert (G := ln_gap). lra.
Qed.

(** Only the first image of a batch counts. *)
Lemma batch_refuted : ~ (forall T xs ds, t_bce T = false -> length xs = length ds ->
  reconstruction_loss T xs ds = Some 0 -> xs = ds).
Proof.
  intros H. assert (E := H (lat_ex false false) [[[0]]; [[0]]] [[[0]]; [[1]]] eq_refl eq_refl).
  assert (K : reconstruction_loss (lat_ex false false) [[[0]]; [[0]]] [[[0]]; [[1]]] = Some 0).
  { rewrite reconstruction_l2 by (try reflexivity; discriminate). f_equal. unfold mean_square. cbn. lra. }
  specialize (E K). injection E as E. lra.
Qed.
Lemma half_fits : coder_fits 1 1 (fun x => ([pixel 0 x], [0])) (fun z => [z; z]).
Proof. split; intros; cbn; auto. Qed.
Lemma one_dimension_refuted : ~ (forall L xeq enc dec T c x N noise, learner_ok L xeq -> coder_fits (l_dim L) c enc dec ->
  length x = (2 * c)%nat -> latent_rollout enc dec L T x N false noise <> None).
Proof.
  intros H. apply (H (learner_half true) [0] _ _ (lat_ex false false) 1%nat [[1]; [1]] 0%nat (fun _ => []) (half_ok true)
    half_fits eq_refl).
  apply (latent_rollout_one (learner_half true) [0] (half_ok true) _ _ _ 1 half_fits); reflexivity.
Qed.

(** A rollout of one step in which the frames and the latent states agree. *)
Lemma agree_case : exists fs vs zs,
  latent_rollout enc_two dec_two learner_two (lat_ex false false) [[1/2]; [1/4]] 1 false (fun _ => [0; 0]) = Some (fs, vs, zs) /\
  length fs = 3%nat /\ forall k, (k < 1)%nat -> fst (enc_two (nth k fs [] ++ nth (S k) fs [])) = nth k zs [].
Proof.
  destruct (latent_rollout_spec learner_two [0; 0] two_ok enc_two dec_two (lat_ex false false) 1 two_fits
    [[1/2]; [1/4]] 1 (fun _ => [0; 0])) as (fs & vs & zs & E & Lf & Lv & Lz & F0 & F1 & Z & F); [cbn; lia|reflexivity|].
  exists fs, vs, zs. split; [exact E|]. split; [exact Lf|]. intros k Hk. assert (k = 0%nat) by lia. subst k.
  rewrite F0, F1. destruct (Z 0%nat) as [-> _]; [lia|]. reflexivity.
Qed.
