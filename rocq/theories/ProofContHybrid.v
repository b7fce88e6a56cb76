(** Continuous-time hybrid programs: the modes in the program, and blocks of
    rows that determine their new variables. *)

Require Import Reals List Lia Lra Bool Arith.
Require Import Verif.Vec Verif.VecFacts Verif.ModelMip Verif.SpecMip Verif.SpecCore
  Verif.ModelUtils Verif.SpecUtils Verif.ModelNet Verif.SpecNet Verif.SpecStep
  Verif.ModelPattern Verif.SpecPattern
  Verif.ModelGrad Verif.ModelLyapunov Verif.SpecLyapunov Verif.ModelContinuous Verif.SpecContinuous
  Verif.ModelHybrid Verif.SpecHybrid Verif.ModelContHybrid Verif.SpecContHybrid
  Verif.ProofUtils Verif.ProofMip Verif.ProofSat Verif.ProofConcat Verif.ProofTorch
  Verif.ProofBounds Verif.ProofNet Verif.ProofMaxBox Verif.ProofGrad
  Verif.ProofStep Verif.ProofLyapunov Verif.ProofLyapCert Verif.ProofHybrid Verif.ProofHybrid2.
Import ListNotations.
Open Scope R_scope.

(** s_i = gamma_i x for every mode. *)
Definition slack_x (K : nat) (b x : vec) : vec :=
  concat (map (fun i => vscale (nth i b 0) x) (seq 0 K)).

Lemma concat_nils : forall {A B} (l : list A), concat (map (fun _ => @nil B) l) = [].
Proof. intros A B l. induction l; auto. Qed.
Lemma slack_for_nil : forall K b x, slack_for K b x [] = slack_x K b x.
Proof.
  intros K b x. unfold slack_for, slack_x.
  assert (E : concat (map (fun i => vscale (nth i b 0) []) (seq 0 K)) = []).
  { apply (concat_nils (seq 0 K)). }
  rewrite E. apply app_nil_r.
Qed.

Section Fine.
Variables (h : hybrid) (nx : nat).
Hypothesis Enx : h_nx h = nx.
Hypothesis Enu : h_nu h = 0%nat.
Hypothesis W : Forall (mode_wf nx 0) (h_modes h).
Hypothesis Va : Forall (mode_valid nx 0) (h_modes h).
Let K := length (h_modes h).

Lemma image_nil : forall md x, mode_wf nx 0 md -> image md x [] = vadd (mv (md_A md) x) (md_c md).
Proof.
  intros md x ((WA & _) & (WB & FB) & Wc & _). unfold image. f_equal.
  assert (E : mv (md_B md) [] = zeros nx).
  { rewrite <- WB. clear. induction (md_B md) as [|r B IH]; auto. cbn. rewrite dot_nil_r.
    unfold zeros. cbn. f_equal. exact IH. }
  rewrite E. apply (vadd_zeros_r nx). rewrite mv_length. exact WA.
Qed.

Lemma fine_output : forall c x s b i0 m0, hybrid_mic h None None None None = Some c ->
  length x = nx -> length s = (K * nx)%nat -> length b = K ->
  nth_error (h_modes h) i0 = Some m0 -> nth i0 b 0 = 1 ->
  (forall i, (i < K)%nat -> i <> i0 -> nth i b 0 = 0) ->
  (forall i, (i < K)%nat -> part nx 0 K i s = vscale (nth i b 0) x) ->
  output c x s b = vadd (mv (md_A m0) x) (md_c m0).
Proof.
  intros c x s b i0 m0 H Lx Ls Lb Hm O Z P.
  destruct (hybrid_inv h nx 0 Enx Enu W Va _ _ _ _ _ H) as (lo & up & pr & ineq & HK & G1 & G2 & G3 & G4 & E1 & E2 & E3 & E4 & Ec).
  assert (Wm : mode_wf nx 0 m0)
    by (rewrite Forall_forall in W; apply W; eapply nth_error_In; eauto).
  destruct (hybrid_output h nx 0 Enx Enu W x [] s b i0 m0 HK Lx eq_refl) as (O1 & O2 & O3 & O4); auto.
  { unfold K in *. lia. }
  { intros i Hi. rewrite app_nil_r. apply P. exact Hi. }
  rewrite <- (image_nil m0 x Wm).
  destruct Wm as ((WA & _) & (WB & _) & Wc & _).
  unfold output, image. rewrite Ec.
  unfold num_out. cbn [Aout_input Aout_slack Aout_binary Cout olen].
  unfold lhs, term. rewrite O3, O4. unfold mat, vec in *. rewrite O1.
  assert (LA : length (vadd (mv (md_A m0) x) (mv (md_B m0) [])) = nx).
  { rewrite vadd_length; rewrite !mv_length; [exact WA|]. transitivity nx; auto. }
  rewrite (vadd_zeros_l nx) by exact LA.
  rewrite (vadd_zeros_r nx); auto. rewrite vadd_length; [exact LA|].
  transitivity nx; auto.
Qed.

Lemma bins_one_hot_inv : forall b i0, length b = K -> (i0 < K)%nat -> nth i0 b 0 = 1 ->
  (forall i, (i < K)%nat -> i <> i0 -> nth i b 0 = 0) -> b = one_hot K i0.
Proof.
  intros b i0 Lb Hi O Z. apply vec_ext; [rewrite one_hot_length; auto|].
  intros i Hi'. rewrite nth_one_hot by lia. destruct (Nat.eqb_spec i i0) as [->|Ne]; auto.
  apply Z; auto. lia.
Qed.

Lemma hybrid_fine : forall st c xv ov m m' sv gv,
  hybrid_mic h None None None None = Some c ->
  add_mic c xv ov NewBinary VBin m = (m', sv, gv) ->
  history st m -> below (nvars m) xv -> length xv = nx -> ov_wf (nvars m) nx ov ->
  sv = seq (nvars m) (K * nx) /\ gv = seq (nvars m + K * nx) K /\
  nvars m' = (nvars m + K * nx + K)%nat /\ history st m' /\
  (forall sg, feas VBin m' sg -> feas VBin m sg) /\
  (forall sg, feas VBin m' sg -> exists k md, nth_error (h_modes h) k = Some md /\
     vle (mv (md_P md) (map sg xv)) (md_q md) /\
     map sg gv = one_hot K k /\ map sg sv = slack_x K (one_hot K k) (map sg xv) /\
     forall xn, ov = Some xn -> map sg xn = vadd (mv (md_A md) (map sg xv)) (md_c md)) /\
  (forall sg k md, feas VBin m sg -> nth_error (h_modes h) k = Some md ->
     vle (mv (md_P md) (map sg xv)) (md_q md) ->
     (forall xn, ov = Some xn -> map sg xn = vadd (mv (md_A md) (map sg xv)) (md_c md)) ->
     exists sg', feas VBin m' sg' /\ agree m sg sg' /\ map sg' gv = one_hot K k /\
       map sg' sv = slack_x K (one_hot K k) (map sg xv)).
Proof.
  intros st c xv ov m m' sv gv H Em Hi Bx Lx Ov.
  destruct (hybrid_mic_ok h nx 0 Enx Enu W Va _ _ _ _ _ H) as (Ok & Ni & No & B1 & B2 & B3 & B4).
  destruct (hybrid_inv h nx 0 Enx Enu W Va _ _ _ _ _ H) as (lo & up & pr & ineq & HK & G1 & G2 & G3 & G4 & E1 & E2 & E3 & E4 & Ec).
  assert (Nn : nsl c = (K * nx)%nat /\ nbin c = K).
  { rewrite Ec. cbn [nsl nbin]. fold K. split; auto; f_equal; lia. }
  destruct Nn as [Ns Nb].
  destruct (step_mic VBin st c xv ov m m' sv gv Em Ok Hi Bx) as (S1 & S2 & S3 & S4 & S5); auto.
  { rewrite Ni. lia. }
  { rewrite No. auto. }
  { discriminate. }
  rewrite Ns in S1, S2, S3. rewrite Nb in S2, S3.
  split; auto. split; auto. split; auto. split; [apply S4|]. split; [intros sg G; apply S4; auto|].
  assert (Ll : length lo = (nx + 0)%nat).
  { eapply (tighten_lo h nx 0 Enx Enu W None None lo (zeros nx) []); auto. apply zeros_length. }
  assert (Lu : length up = (nx + 0)%nat).
  { eapply (tighten_up h nx 0 Enx Enu W None None up (zeros nx) []); auto. apply zeros_length. }
  split.
  - intros sg G. destruct S4 as (_ & _ & S4 & _). destruct (S4 sg G) as (_ & Bb & Sa & Oo).
    apply (hybrid_sat h nx 0 Enx Enu W Va _ _ _ _ _ _ _ _ H Bb lo up E1 E2) in Sa.
    destruct Sa as ((Lz & Ls & Lb) & P1 & P2 & P3). fold K in P1, Ls, Lb, P2.
    apply products_part in P1; auto. destruct P1 as [_ P1].
    destruct (bins_sum1_pos _ Bb P3) as (i0 & Hi0 & O1 & Z).
    rewrite Lb in Hi0, Z.
    destruct (nth_error (h_modes h) i0) as [md|] eqn:Emd;
      [|apply nth_error_None in Emd; unfold K in Hi0; lia].
    exists i0, md. split; auto. split.
    { specialize (P2 i0 md Emd). rewrite P1, O1, !vscale_1 in P2 by auto. auto. }
    assert (Eg := bins_one_hot_inv _ i0 Lb Hi0 O1 Z). split; auto.
    split.
    + assert (Ls' : length (map sg sv) = (K * nx)%nat) by (rewrite Ls; lia).
      rewrite (slack_split h nx 0 Enx Enu (map sg sv) Ls). fold K.
      assert (En : map (fun i => slice (K * nx + i * 0) 0 (map sg sv)) (seq 0 K) = map (fun _ => []) (seq 0 K)).
      { apply map_ext. intros i. unfold slice. reflexivity. }
      rewrite En, concat_app, concat_nils, app_nil_r. unfold slack_x. f_equal. apply map_ext_in. intros i Hi'.
      apply in_seq in Hi'. specialize (P1 i ltac:(lia)). unfold part in P1.
      replace (slice (K * nx + i * 0) 0 (map sg sv)) with (@nil R) in P1 by reflexivity.
      rewrite app_nil_r in P1. rewrite P1, Eg. reflexivity.
    + intros xn ->. cbn [out_ok] in Oo. rewrite Oo.
      apply (fine_output c _ _ _ i0 md H); auto.
      * rewrite map_length. auto.
      * rewrite Ls. lia.
  - intros sg k md G Emd I Hx.
    assert (Hk : (k < K)%nat) by (apply nth_error_Some; rewrite Emd; discriminate).
    set (x := map sg xv) in *.
    assert (Lxx : length x = nx) by (unfold x; rewrite map_length; auto).
    assert (Lz : length x = (nx + 0)%nat) by lia.
    assert (Ls : length (slack_x K (one_hot K k) x) = (K * (nx + 0))%nat).
    { rewrite <- slack_for_nil, slack_for_length, Lxx. reflexivity. }
    assert (Pt : forall i, (i < K)%nat -> part nx 0 K i (slack_x K (one_hot K k) x) = vscale (nth i (one_hot K k) 0) x).
    { intros i Hi'. rewrite <- slack_for_nil. rewrite <- Lxx.
      change 0%nat with (@length R []). rewrite slack_for_part by auto. rewrite app_nil_r. reflexivity. }
    destruct (S5 sg (slack_x K (one_hot K k) x) (one_hot K k) G (bins_one_hot K k)) as (sg' & G' & A & Q1 & Q2).
    + apply (hybrid_sat h nx 0 Enx Enu W Va _ _ _ _ _ _ _ _ H (bins_one_hot K k) lo up E1 E2).
      fold K. split; [split; [exact Lz|split; [exact Ls|apply one_hot_length]]|]. split.
      { apply products_part; auto. split; auto.
        destruct (tighten_lo h nx 0 Enx Enu W None None lo x [] G1 G3 E1 Lxx eq_refl) as [_ Tl].
        destruct (tighten_up h nx 0 Enx Enu W None None up x [] G2 G4 E2 Lxx eq_refl) as [_ Tu].
        rewrite app_nil_r in Tl, Tu.
        destruct (all_valid h nx 0 Enx Enu W Va md x (nth_error_In _ _ Emd)) as [V1 V2]; auto.
        split; [apply Tl|apply Tu]; (split; [auto|split; intros l X; discriminate X]). }
      split; [|apply vsum_one_hot; auto].
      intros i m1 Ei. assert (Hi' : (i < K)%nat) by (apply nth_error_Some; rewrite Ei; discriminate).
      rewrite Pt by auto. rewrite nth_one_hot by auto. destruct (Nat.eqb_spec i k) as [->|Ne].
      * rewrite Emd in Ei. injection Ei as <-. rewrite !vscale_1. auto.
      * rewrite mv_vscale. rewrite !vscale_0.
        assert (Wm : mode_wf nx 0 m1)
          by (rewrite Forall_forall in W; apply W; eapply nth_error_In; eauto).
        destruct Wm as (_ & _ & _ & _ & Lq & _). rewrite mv_length, Lq. apply vle_refl.
    + destruct ov as [xn|]; [|exact Logic.I]. cbn [out_ok]. rewrite (Hx xn eq_refl). symmetry.
      apply (fine_output c x _ _ k md H); auto.
      * rewrite Ls. lia.
      * apply one_hot_length.
      * rewrite nth_one_hot by auto. rewrite Nat.eqb_refl. auto.
      * intros i Hi' Ne. rewrite nth_one_hot by auto. apply Nat.eqb_neq in Ne. rewrite Ne. auto.
    + exists sg'. auto.
Qed.
End Fine.
