(** Bounds of the velocities and of the mode products; the directional
    derivative is additive. *)

Require Import Reals List Lia Lra Bool Arith.
Require Import Verif.Vec Verif.VecFacts Verif.ModelMip Verif.SpecMip Verif.SpecCore
  Verif.ModelUtils Verif.SpecUtils Verif.ModelNet Verif.SpecNet
  Verif.ModelPattern Verif.SpecPattern
  Verif.ModelContinuous Verif.SpecContinuous
  Verif.ModelHybrid Verif.SpecHybrid Verif.ModelContHybrid Verif.SpecContHybrid
  Verif.ProofUtils Verif.ProofMip Verif.ProofSat Verif.ProofConcat
  Verif.ProofBounds Verif.ProofNet Verif.ProofNetBounds Verif.ProofMaxBox Verif.ProofGrad Verif.ProofPattern Verif.ProofGradVec
  Verif.ProofHybrid Verif.ProofHybrid2.
Import ListNotations.
Open Scope R_scope.

(** ** The directional derivative is linear *)

Lemma last_cons : forall {A} (l : list A) a d, last (a :: l) d = last l a.
Proof.
  intros A l. induction l as [|b l IH]; intros a d; auto.
  transitivity (last (b :: l) d); [reflexivity|]. rewrite IH. symmetry. apply IH.
Qed.
Lemma map2_scale_add : forall (f : bool -> R) pat (u v : vec), length u = length v ->
  map2 (fun b t => f b * t) pat (vadd u v)
  = vadd (map2 (fun b t => f b * t) pat u) (map2 (fun b t => f b * t) pat v).
Proof.
  intros f. induction pat as [|b pat IH]; intros [|x u] [|y v] L; try discriminate; auto.
  cbn. f_equal; [ring|]. apply IH. injection L; auto.
Qed.
Lemma map2_scale_zeros : forall (f : bool -> R) pat k, length pat = k ->
  map2 (fun b t => f b * t) pat (zeros k) = zeros k.
Proof.
  intros f. induction pat as [|b pat IH]; intros [|k] L; try discriminate; auto.
  cbn. unfold zeros in *. cbn. f_equal; [ring|]. apply IH. injection L; auto.
Qed.
Lemma mv_zeros_r : forall (M : mat) k, mv M (zeros k) = zeros (length M).
Proof.
  induction M as [|r M IH]; intros k; auto. cbn. unfold zeros at 2. cbn. f_equal; [apply dot_zeros_r|apply IH].
Qed.
Lemma last_tangents_add : forall hs pats (a b : vec), length a = length b ->
  last (tangents hs pats (vadd a b)) (vadd a b)
  = vadd (last (tangents hs pats a) a) (last (tangents hs pats b) b) /\
  length (last (tangents hs pats a) a) = length (last (tangents hs pats b) b).
Proof.
  induction hs as [|[l ac] hs IH]; intros [|pat pats] a b L; try (cbn; auto; fail).
  cbn [tangents]. rewrite !last_cons.
  rewrite mv_vadd by auto. rewrite (map2_scale_add (act_slope ac)) by (rewrite !mv_length; auto).
  apply IH. rewrite !map2_length, !mv_length. reflexivity.
Qed.
Lemma jvp_add : forall N pats (a b : vec), length a = length b ->
  jvp N pats (vadd a b) = vadd (jvp N pats a) (jvp N pats b).
Proof.
  intros N pats a b L. unfold jvp. destruct (last_tangents_add (hidden N) pats a b L) as [E E2].
  rewrite E. apply mv_vadd. exact E2.
Qed.
Lemma last_tangents_zero : forall hs pats k, pattern_shape hs pats ->
  Forall (fun la => length (weight (fst la)) = out_features (fst la)) hs ->
  exists k', last (tangents hs pats (zeros k)) (zeros k) = zeros k'.
Proof.
  induction hs as [|[l ac] hs IH]; intros [|pat pats] k Sh F; try (cbn; eauto; fail).
  inversion Sh as [|? ? ? ? H1 H2]; subst. inversion F as [|? ? G1 G2]; subst. cbn [fst] in *.
  cbn [tangents]. rewrite !last_cons. rewrite mv_zeros_r.
  rewrite (map2_scale_zeros (act_slope ac)); [|unfold mat, vec in *; congruence]. apply IH; auto.
Qed.
Lemma hidden_rows : forall hs n out, hidden_wf n hs out ->
  Forall (fun la => length (weight (fst la)) = out_features (fst la)) hs.
Proof.
  induction hs as [|[l a] hs IH]; intros n out H; constructor.
  - destruct H as [(_ & [H _] & _) _]. exact H.
  - destruct H as [_ H]. eapply IH; eauto.
Qed.
Lemma jvp_zeros : forall n N pats k, net_wf n N -> pattern_shape (hidden N) pats ->
  nth 0 (jvp N pats (zeros k)) 0 = 0.
Proof.
  intros n N pats k W Sh. unfold jvp.
  destruct (last_tangents_zero (hidden N) pats k Sh) as [k' E].
  { eapply hidden_rows. apply W. }
  rewrite E, mv_zeros_r. apply nth_zeros.
Qed.

(** ** Bounds *)

Section Bounds.
Variables (h : hybrid) (nx : nat).
Hypothesis Enx : h_nx h = nx.
Hypothesis W : Forall (mode_wf nx 0) (h_modes h).
Variable axb : mat -> vec -> vec -> option (Vec.ext * Vec.ext).
Hypothesis Hax : row_bounds_valid axb.

Lemma Aix_valid : forall md ax x, mode_wf nx 0 md -> Ai_times_x axb md = Some ax -> length x = nx ->
  vle (mv (md_P md) x) (md_q md) ->
  length ax = nx /\ Forall2 ext_le_r (map fst ax) (mv (md_A md) x) /\
  Forall2 (fun e t => r_le_ext t e) (map snd ax) (mv (md_A md) x).
Proof.
  intros md ax x ((WA & FA) & _ & _ & WP & _) E Lx I. unfold Ai_times_x in E.
  destruct (all_some_map _ _ _ (NInf, PInf) (@nil R) E) as [L H].
  assert (L' : length ax = nx) by (unfold mat, vec in *; congruence).
  assert (Q : forall i, (i < nx)%nat -> ext_le_r (fst (nth i ax (NInf, PInf))) (nth i (mv (md_A md) x) 0) /\
     r_le_ext (nth i (mv (md_A md) x) 0) (snd (nth i ax (NInf, PInf)))).
  { intros i Hi. specialize (H i ltac:(unfold mat, vec in *; lia)).
    destruct (nth i ax (NInf, PInf)) as [lo up] eqn:En.
    rewrite (nth_mv (md_A md) x i) by (unfold mat, vec in *; lia). cbn [fst snd].
    apply (Hax _ _ _ _ _ _ H); auto.
    - eapply Forall_impl; [|exact WP]. cbn. intros r Hr. lia.
    - rewrite Forall_forall in FA. rewrite Lx. apply FA. apply nth_In. unfold mat, vec in *; lia. }
  split; auto. split.
  - apply (F2_nth _ _ _ NInf 0); [rewrite map_length, mv_length; unfold mat, vec in *; lia|].
    intros i Hi. rewrite mv_length in Hi. change NInf with (fst (NInf, PInf)). rewrite map_nth. apply Q.
    unfold mat, vec in *; lia.
  - apply (F2_nth _ _ _ PInf 0); [rewrite map_length, mv_length; unfold mat, vec in *; lia|].
    intros i Hi. rewrite mv_length in Hi. change PInf with (snd (NInf, PInf)). rewrite map_nth. apply Q.
    unfold mat, vec in *; lia.
Qed.

Lemma plus_le : forall l c x, Forall2 ext_le_r l x -> length c = length x ->
  Forall2 ext_le_r (map2 ext_plus l c) (vadd x c).
Proof.
  intros l c x H. revert c. induction H as [|e t l x H1 H2 IH]; intros [|r c] L; try discriminate; [constructor|].
  cbn. constructor; [destruct e; cbn in *; auto; lra|]. apply IH. injection L; auto.
Qed.
Lemma plus_ge : forall l c x, Forall2 (fun e t => r_le_ext t e) l x -> length c = length x ->
  Forall2 (fun e t => r_le_ext t e) (map2 ext_plus l c) (vadd x c).
Proof.
  intros l c x H. revert c. induction H as [|e t l x H1 H2 IH]; intros [|r c] L; try discriminate; [constructor|].
  cbn. constructor; [destruct e; cbn in *; auto; lra|]. apply IH. injection L; auto.
Qed.

Lemma fold_bound2 : forall {A} (P : Vec.ext -> R -> Prop) f (g : A -> list Vec.ext) z,
  (forall x y t, P x t -> P (f x y) t) -> (forall x y t, P y t -> P (f x y) t) ->
  forall ms acc, length acc = length z -> Forall (fun m => length (g m) = length z) ms ->
  (Forall2 P acc z \/ exists m, In m ms /\ Forall2 P (g m) z) ->
  Forall2 P (fold_left (fun acc m => map2 f acc (g m)) ms acc) z.
Proof.
  intros A P f g z H1 H2. induction ms as [|m ms IH]; intros acc L Wm H; simpl.
  - destruct H as [H|(m & [] & _)]. auto.
  - assert (Lm : length (g m) = length z) by (inversion Wm; auto).
    apply IH; [rewrite map2_length; lia|inversion Wm; auto|].
    destruct H as [H|(m' & [->|Hm] & H)].
    + left. apply F2_map2_l; auto.
    + left. apply F2_map2_r; auto.
    + right. exists m'. auto.
Qed.

Lemma Fin_le : forall lo x, Forall2 ext_le_r (map Fin lo) x <-> vle lo x.
Proof.
  induction lo as [|l lo IH]; intros [|t x]; split; intros H; inversion H; subst; constructor; auto; apply IH; auto.
Qed.
Lemma Fin_ge : forall up x, Forall2 (fun e t => r_le_ext t e) (map Fin up) x <-> vle x up.
Proof.
  induction up as [|l lo IH]; intros [|t x]; split; intros H; inversion H; subst; constructor; auto; apply IH; auto.
Qed.

Lemma dx_valid : forall dlo dup lo up k x v, dx_bounds axb h = Some (dlo, dup) ->
  all_some (map fin dlo) = Some lo -> all_some (map fin dup) = Some up ->
  length x = nx -> moves h k x v -> in_box lo up v.
Proof.
  intros dlo dup lo up k x v E Fl Fu Lx (md & Hk & I & ->). unfold dx_bounds in E.
  destruct (all_some (map (Ai_times_x axb) (h_modes h))) as [axs|] eqn:Ea; [|discriminate].
  apply Some_inj in E. apply pair_equal_spec in E. destruct E as [E1 E2].
  apply fin_some in Fl, Fu.
  assert (Hm := nth_error_In _ _ Hk).
  assert (Wm : mode_wf nx 0 md) by (rewrite Forall_forall in W; auto).
  assert (Hlt : (k < length (h_modes h))%nat) by (apply nth_error_Some; rewrite Hk; discriminate).
  destruct (all_some_map _ _ _ [] md Ea) as [La Hx].
  assert (Hp : In (nth k axs [], md) (combine axs (h_modes h))).
  { rewrite <- (nth_error_nth _ _ md Hk). rewrite <- (combine_nth axs (h_modes h) k [] md La).
    apply nth_In. rewrite combine_length. lia. }
  assert (Ek : Ai_times_x axb md = Some (nth k axs [])).
  { rewrite <- (nth_error_nth _ _ md Hk) at 1. apply Hx. lia. }
  destruct (Aix_valid md _ x Wm Ek Lx I) as (Lk & Q1 & Q2).
  assert (Wm' := Wm). destruct Wm' as ((WA & FA) & _ & Wc & WP & _).
  assert (Lv : length (vadd (mv (md_A md) x) (md_c md)) = nx).
  { rewrite vadd_length; rewrite mv_length; unfold mat, vec in *; congruence. }
  assert (Sh : Forall (fun p : list (Vec.ext * Vec.ext) * mode_data => length (fst p) = nx /\ length (md_c (snd p)) = nx)
                 (combine axs (h_modes h))).
  { rewrite Forall_forall. intros [ax md'] Hin. cbn [fst snd].
    apply In_nth with (d := ([], md)) in Hin. destruct Hin as (i & Hi & En).
    rewrite combine_length in Hi. rewrite combine_nth in En by auto.
    injection En as En1 En2. assert (Ei := Hx i ltac:(lia)). rewrite En1, En2 in Ei.
    assert (Wi : mode_wf nx 0 md').
    { rewrite Forall_forall in W. apply W. rewrite <- En2. apply nth_In. lia. }
    destruct Wi as ((WAi & _) & _ & Wci & _). split; auto. unfold Ai_times_x in Ei.
    destruct (all_some_map _ _ _ (NInf, PInf) (@nil R) Ei) as [L _]. unfold mat, vec in *. congruence. }
  split.
  - apply Fin_le. rewrite <- Fl, <- E1.
    apply (fold_bound2 ext_le_r ext_min (fun p => map2 ext_plus (map fst (fst p)) (md_c (snd p)))
             _ ext_min_l ext_min_r).
    + rewrite repeat_length. lia.
    + eapply Forall_impl; [|exact Sh]. intros p [S1 S2]. rewrite map2_length, map_length. lia.
    + right. exists (nth k axs [], md). split; auto. cbn [fst snd]. apply plus_le; auto.
      rewrite mv_length. unfold mat, vec in *. congruence.
  - apply Fin_ge. rewrite <- Fu, <- E2.
    apply (fold_bound2 (fun e t => r_le_ext t e) ext_max (fun p => map2 ext_plus (map snd (fst p)) (md_c (snd p)))
             _ ext_max_l ext_max_r).
    + rewrite repeat_length. lia.
    + eapply Forall_impl; [|exact Sh]. intros p [S1 S2]. rewrite map2_length, map_length. lia.
    + right. exists (nth k axs [], md). split; auto. cbn [fst snd]. apply plus_ge; auto.
      rewrite mv_length. unfold mat, vec in *. congruence.
Qed.

Lemma min0_some : forall (ax : list (Vec.ext * Vec.ext)) lo, all_some (map (fun b => fin (ext_min (fst b) (Fin 0))) ax) = Some lo ->
  length lo = length ax /\ vle lo (zeros (length ax)) /\
  forall x, Forall2 ext_le_r (map fst ax) x -> vle lo x.
Proof.
  induction ax as [|[l u] ax IH]; intros lo E; cbn in E.
  - injection E as <-. split; auto. split; [constructor|]. intros x H. inversion H. constructor.
  - destruct (fin (ext_min l (Fin 0))) as [r|] eqn:E1; [|discriminate].
    destruct (all_some (map (fun b => fin (ext_min (fst b) (Fin 0))) ax)) as [lo'|] eqn:E2; [|discriminate].
    apply Some_inj in E. subst lo. destruct (IH lo' eq_refl) as (I1 & I2 & I3).
    split; [cbn; auto|].
    destruct l as [|l|]; cbn in E1; try discriminate; apply Some_inj in E1; subst r.
    + split; [unfold zeros; cbn; constructor; [apply Rmin_r|exact I2]|].
      intros x H. cbn in H. inversion H as [|? t ? x' H1 H2]; subst. cbn in H1.
      constructor; [assert (Q := Rmin_l l 0); lra|apply I3; auto].
    + split; [unfold zeros; cbn; constructor; [lra|exact I2]|].
      intros x H. cbn in H. inversion H as [|? t ? x' H1 H2]; subst. destruct H1.
Qed.
Lemma max0_some : forall (ax : list (Vec.ext * Vec.ext)) up, all_some (map (fun b => fin (ext_max (snd b) (Fin 0))) ax) = Some up ->
  length up = length ax /\ vle (zeros (length ax)) up /\
  forall x, Forall2 (fun e t => r_le_ext t e) (map snd ax) x -> vle x up.
Proof.
  induction ax as [|[l u] ax IH]; intros lo E; cbn in E.
  - injection E as <-. split; auto. split; [constructor|]. intros x H. inversion H. constructor.
  - destruct (fin (ext_max u (Fin 0))) as [r|] eqn:E1; [|discriminate].
    destruct (all_some (map (fun b => fin (ext_max (snd b) (Fin 0))) ax)) as [lo'|] eqn:E2; [|discriminate].
    apply Some_inj in E. subst lo. destruct (IH lo' eq_refl) as (I1 & I2 & I3).
    split; [cbn; auto|].
    destruct u as [|u|]; cbn in E1; try discriminate; apply Some_inj in E1; subst r.
    + split; [unfold zeros; cbn; constructor; [lra|exact I2]|].
      intros x H. cbn in H. inversion H as [|? t ? x' H1 H2]; subst. destruct H1.
    + split; [unfold zeros; cbn; constructor; [apply Rmax_r|exact I2]|].
      intros x H. cbn in H. inversion H as [|? t ? x' H1 H2]; subst. cbn in H1.
      constructor; [assert (Q := Rmax_l u 0); lra|apply I3; auto].
Qed.

Lemma Aisi_valid : forall md lo up, mode_wf nx 0 md -> Aisi_bounds axb md = Some (lo, up) ->
  in_box lo up (zeros nx) /\
  forall x, length x = nx -> vle (mv (md_P md) x) (md_q md) -> in_box lo up (mv (md_A md) x).
Proof.
  intros md lo up Wm E. unfold Aisi_bounds in E.
  destruct (Ai_times_x axb md) as [ax|] eqn:Ea; [|discriminate].
  assert (L : length ax = nx).
  { unfold Ai_times_x in Ea. destruct (all_some_map _ _ _ (NInf, PInf) (@nil R) Ea) as [L _].
    destruct Wm as ((WA & _) & _). unfold mat, vec in *. congruence. }
  destruct (all_some (map (fun b => fin (ext_min (fst b) (Fin 0))) ax)) as [lo'|] eqn:E1; [|discriminate].
  destruct (all_some (map (fun b => fin (ext_max (snd b) (Fin 0))) ax)) as [up'|] eqn:E2; [|discriminate].
  apply Some_inj in E. apply pair_equal_spec in E. destruct E as [-> ->].
  destruct (min0_some _ _ E1) as (A1 & A2 & A3). destruct (max0_some _ _ E2) as (B1 & B2 & B3).
  rewrite L in A2, B2. split; [split; auto|].
  intros x Lx I. destruct (Aix_valid md ax x Wm Ea Lx I) as (_ & Q1 & Q2). split; auto.
Qed.

Lemma gi_valid : forall c : vec,
  in_box (map (Rmin 0) c) (map (Rmax 0) c) (zeros (length c)) /\
  in_box (map (Rmin 0) c) (map (Rmax 0) c) c.
Proof.
  induction c as [|r c [[I1 I2] [I3 I4]]]; [repeat split; constructor|].
  unfold zeros in *. cbn. repeat split; constructor; auto;
    auto using Rmin_l, Rmin_r, Rmax_l, Rmax_r.
Qed.

Variables x_lo x_up : vec.
Hypothesis Enu : h_nu h = 0%nat.
Hypothesis Va : Forall (mode_valid nx 0) (h_modes h).
Hypothesis Hbox : hybrid_box h x_lo x_up.
Lemma moves_box : forall k x v, length x = nx -> moves h k x v -> in_box x_lo x_up x.
Proof.
  intros k x v Lx (md & Hk & I & _).
  destruct (all_valid h nx 0 Enx Enu W Va md x (nth_error_In _ _ Hk)) as [V1 V2]; auto; [lia|].
  destruct Hbox as [B1 B2]. rewrite B1 in V1. rewrite B2 in V2. split; [apply Fin_le|apply Fin_ge]; auto.
Qed.
End Bounds.
