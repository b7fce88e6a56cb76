(** Lemmas for ModelDerivList.v: the sample losses. *)

Require Import Reals List Lra Lia Bool Arith.
Require Import Verif.Vec Verif.VecFacts Verif.ModelMip Verif.SpecMip Verif.SpecCore Verif.ModelUtils Verif.SpecUtils
  Verif.ModelGrad Verif.ModelNet Verif.SpecNet Verif.SpecStep Verif.ModelPattern Verif.SpecPattern Verif.ModelLyapunov
  Verif.SpecLyapunov Verif.ModelContinuous Verif.SpecContinuous Verif.ModelHybrid Verif.SpecHybrid Verif.ModelContHybrid
  Verif.SpecContHybrid Verif.ModelDerivList Verif.SpecDerivList
  Verif.ProofUtils Verif.ProofMip Verif.ProofNet Verif.ProofMaxBox Verif.ProofGrad Verif.ProofPattern Verif.ProofLyapunov Verif.ProofLyapCert Verif.ProofLoss Verif.ProofContinuous
  Verif.ProofContinuous5
  Verif.ProofContinuous6 Verif.ProofNetBounds Verif.ProofHybrid Verif.ProofHybrid2 Verif.ProofContHybrid4 Verif.ProofContHybrid6
  Verif.ProofDerivList Verif.ProofDerivList2 Verif.ProofDerivList3 Verif.ProofDerivList4.
Import ListNotations.
Open Scope R_scope.

Definition pos (v : R) : bool := if Rlt_dec 0 v then true else false.

Lemma mask_dot : forall s (p g w : vec), length g = length p -> length w = length p ->
  dot (map2 (fun v a => if Rltb 0 v then a else s * a) p g) w = dot g (scale_by s (map pos p) w) /\
  length (map2 (fun v a => if Rltb 0 v then a else s * a) p g) = length p.
Proof.
  intros s. unfold scale_by, pos, Rltb. induction p as [|v p IH]; intros [|a g] [|b w] L1 L2; try discriminate; auto.
  cbn [map map2 dot length]. destruct (IH g w) as [I1 I2]; auto. rewrite I1. split; auto.
  destruct (Rlt_dec 0 v); lra.
Qed.

Lemma backward_dot : forall hs n lst x d, hidden_wf n hs (in_features lst) -> lin_wf (in_features lst) lst ->
  out_features lst = 1%nat -> length x = n -> length d = n ->
  length (backward hs lst x) = n /\
  dot (backward hs lst x) d =
  nth 0 (mv (weight lst) (last (tangents hs (sample_flags (pre_acts hs x)) d) d)) 0.
Proof.
  induction hs as [|[l a] hs IH]; intros n lst x d W Wl Out Lx Ld; cbn [backward].
  - cbn in W. destruct Wl as (_ & [L F] & _). rewrite Out in L. destruct (weight lst) as [|r [|]]; try discriminate.
    cbn. inversion F; subst. split; auto. 
  - destruct W as [W1 W2]. assert (E := pre_bias n l x W1 Lx). cbn zeta. rewrite E, act_forward_map.
    set (p := lin_eval l x). assert (Lp : length p = out_features l) by (apply (lin_eval_length n); auto).
    cbn [pre_acts sample_flags map]. fold p. rewrite tangents_cons, last_cons.
    set (d' := scale_by (slope_of a) _ (mv (weight l) d)).
    destruct W1 as (In & (LW & FW) & _).
    assert (Ld' : length d' = out_features l).
    { unfold d', scale_by. rewrite map2_length, map_length, mv_length. unfold mat, vec in *. lia. }
    destruct (IH (out_features l) lst (map (act_fun a) p) d' W2 Wl Out) as [I1 I2];
      [rewrite map_length; auto|auto|].
    destruct (mask_dot (slope_of a) p (backward hs lst (map (act_fun a) p)) (mv (weight l) d)) as [Q1 Q2].
    { unfold vec in *; congruence. } { rewrite mv_length. unfold mat, vec in *; congruence. }
    rewrite In. split; [apply vm_length; auto|]. rewrite vm_dot by auto. rewrite Q1. exact I2.
Qed.

Lemma sgn_sign3 : forall v, sgn v = sign3 v.
Proof. intros. unfold sgn, sign3, Rltb. destruct (Rlt_dec 0 v); auto. destruct (Rlt_dec v 0); auto. Qed.

Lemma autograd_rate : forall n N M lam xeq x d, net_wf n N -> out_features (last_layer N) = 1%nat ->
  wfm (length M) n M -> length x = n -> length d = n ->
  dot (autograd_V N n M xeq lam x) d = sample_rate N M lam xeq x d.
Proof.
  intros n N M lam xeq x d (_ & W & Wl) Out [_ FM] Lx Ld. unfold autograd_V, sample_rate.
  destruct (backward_dot _ n _ x d W Wl Out Lx Ld) as [B1 B2].
  rewrite dot_vadd_l, B2, dot_vscale_l, vm_dot; auto.
  - unfold jvp. f_equal. f_equal. f_equal. apply map_ext. apply sgn_sign3.
  - rewrite vscale_length, vm_length; auto.
Qed.

Lemma flags_consistent : forall pres, consistent (sample_flags pres) pres.
Proof.
  induction pres as [|p pres IH]; constructor; auto. induction p as [|v p IHp]; constructor; auto.
  destruct (Rlt_dec 0 v); simpl; lra.
Qed.

Lemma signs_around : forall lam (e w : vec), length e = length w ->
  (exists sgs, signs_ok sgs e /\ lam * dot (map sign3 e) w <= lam * dot (map sign_of sgs) w) /\
  (exists sgs, signs_ok sgs e /\ lam * dot (map sign_of sgs) w <= lam * dot (map sign3 e) w).
Proof.
  intros lam. unfold signs_ok. induction e as [|a e IH]; intros [|b w] L; try discriminate.
  - split; exists []; split; auto; cbn; lra.
  - injection L as L. destruct (IH w L) as [(s1 & F1 & K1) (s2 & F2 & K2)].
    assert (D : exists t1 t2, flag_ok t1 a /\ flag_ok t2 a /\
      lam * (sign3 a * b) <= lam * (sign_of t1 * b) /\ lam * (sign_of t2 * b) <= lam * (sign3 a * b)).
    { unfold sign3. destruct (Rlt_dec 0 a); [exists true, true; simpl; lra|].
      destruct (Rlt_dec a 0); [exists false, false; simpl; lra|]. assert (a = 0) by lra. subst a.
      destruct (Rle_dec 0 (lam * b)); [exists true, false|exists false, true]; simpl; repeat split; lra. }
    destruct D as (t1 & t2 & D1 & D2 & D3 & D4). split.
    + exists (t1 :: s1). split; [constructor; auto|]. cbn [map dot]. lra.
    + exists (t2 :: s2). split; [constructor; auto|]. cbn [map dot]. lra.
Qed.

(** The reported derivative lies between two of the selected ones. *)
Lemma rate_between : forall n N M lam xeq x d, wfm (length M) n M -> 
  (exists pats sgs, selects N M xeq x pats sgs /\ sample_rate N M lam xeq x d <= Vdot N M lam pats sgs d) /\
  (exists pats sgs, selects N M xeq x pats sgs /\ Vdot N M lam pats sgs d <= sample_rate N M lam xeq x d).
Proof.
  intros n N M lam xeq x d [LM FM].
  destruct (signs_around lam (mv M (vsub x xeq)) (mv M d)) as [(s1 & F1 & K1) (s2 & F2 & K2)];
    [rewrite !mv_length; auto|].
  assert (C := flags_consistent (pre_acts (hidden N) x)). unfold sample_rate, Vdot.
  split; [exists (sample_flags (pre_acts (hidden N) x)), s1|exists (sample_flags (pre_acts (hidden N) x)), s2];
    (split; [split; auto|lra]).
Qed.

Section Loss.
Variable N : network.
Variable n : nat.
Variables x_lo x_up : vec.
Variable R0 : option mat.
Variable xeq : vec.
Hypothesis Args : lyap_args n N x_lo x_up R0 xeq.
Variables lam eps margin : R.
Let M := R_of n R0.

(** At a smooth state the reported derivative is the right derivative. *)
Lemma rate_smooth : forall y t d, leaves n y t d -> smooth_at N M xeq (y t) -> 
  rderiv (fun s => V N M lam xeq (y s)) t (sample_rate N M lam xeq (y t) d).
Proof.
  intros y t d Hy [S1 S2].
  destruct (V_directional n N M lam xeq y t d (la_net _ _ _ _ _ _ Args) (eq_length N n x_lo x_up R0 xeq Args) Hy)
    as (pats & sgs & [C1 C2] & K).
  replace (sample_rate N M lam xeq (y t) d) with (Vdot N M lam pats sgs d); auto.
  unfold Vdot, sample_rate. f_equal.
  - f_equal. f_equal. revert S1 C1. generalize (pre_acts (hidden N) (y t)). clear. intros pres S1 C1.
    induction C1 as [|b v pats pres Hb C1 IH]; auto. cbn [concat] in S1. apply Forall_app in S1. destruct S1 as [T1 T2].
    cbn [sample_flags map]. f_equal; [|apply IH; auto].
    induction Hb as [|b a bs v H Hb IHb]; auto. inversion T1; subst. cbn [map]. f_equal; [|apply IHb; auto].
    destruct (Rlt_dec 0 a), b; simpl in H; auto; lra.
  - f_equal. f_equal. revert S2 C2. generalize (mv M (vsub (y t) xeq)). clear. intros e S2 C2.
    induction C2 as [|b a bs v H C2 IH]; auto. inversion S2; subst. cbn [map]. f_equal; [|apply IH; auto].
    unfold sign3. destruct (Rlt_dec 0 a), (Rlt_dec a 0), b; simpl in *; auto; lra.
Qed.

Lemma map2_pair : forall {A B C} (f : A -> B -> C) l r, map2 f l r = map (fun p => f (fst p) (snd p)) (combine l r).
Proof. induction l; destruct r; simpl; auto. rewrite IHl. auto. Qed.
Lemma map2_nested : forall {A B C D} (f : C -> D -> R) (g : A -> B -> C) (k : A -> D) l r, length l = length r ->
  map2 f (map2 g l r) (map k l) = map (fun p => f (g (fst p) (snd p)) (k (fst p))) (combine l r).
Proof.
  induction l; destruct r; simpl; intros; try discriminate; auto. rewrite IHl by lia. auto.
Qed.
Lemma pairs_length : forall samples xdots, Forall (fun x : vec => length x = n) samples ->
  Forall (fun x : vec => length x = n) xdots ->
  forall p, In p (combine samples xdots) -> length (fst p) = n /\ length (snd p) = n.
Proof.
  intros samples xdots F1 F2 [x d] H. rewrite Forall_forall in *. split; [apply F1|apply F2].
  - eapply in_combine_l; eauto. - eapply in_combine_r; eauto.
Qed.
Lemma forall2_combine : forall (P : vec -> vec -> Prop) l r, length l = length r ->
  (Forall2 P l r <-> Forall (fun p => P (fst p) (snd p)) (combine l r)).
Proof.
  intros P. induction l; destruct r; intros L; try discriminate; simpl.
  - split; constructor.
  - injection L as L. split; intros H; inversion H; subst; constructor; auto; apply IHl; auto.
Qed.

Lemma ct_loss_eq : forall samples xdots red w tol, length samples = length xdots -> 0 <= tol ->
  Forall (fun x : vec => length x = n) samples -> Forall (fun x : vec => length x = n) xdots ->
  ct_loss N n xeq samples xdots lam eps ExpLower R0 margin red w tol
  = reduce red w (map (fun p => hinge margin (- (sample_rate N M lam xeq (fst p) (snd p) + eps * V N M lam xeq (fst p))))
      (combine samples xdots)).
Proof.
  intros samples xdots red w tol L T F1 F2. unfold ct_loss. rewrite L, Nat.eqb_refl.
  unfold Rleb. destruct (Rle_dec 0 tol); [|contradiction]. cbn [andb negb].
  rewrite get_R_ok by apply Args. rewrite (traverse_V N n x_lo x_up R0 xeq Args) by auto. f_equal.
  rewrite map2_nested by auto. apply map_ext_in. intros p Hp.
  destruct (pairs_length _ _ F1 F2 p Hp) as [P1 P2].
  rewrite (autograd_rate n) by (auto; destruct Args; auto). reflexivity.
Qed.

Lemma ct_loss_spec : forall samples xdots red w tol, samples <> [] -> length samples = length xdots -> 0 <= tol ->
  Forall (fun x : vec => length x = n) samples -> Forall (fun x : vec => length x = n) xdots ->
  weights_ok red w (length samples) ->
  exists v, ct_loss N n xeq samples xdots lam eps ExpLower R0 margin red w tol = Some v /\ 0 <= v /\
    (v = 0 <-> Forall2 (fun x d => sample_rate N M lam xeq x d + eps * V N M lam xeq x <= - margin) samples xdots).
Proof.
  intros samples xdots red w tol Hs L T F1 F2 Hw. rewrite ct_loss_eq by auto.
  destruct (reduce_spec red w (map (fun p => hinge margin (- (sample_rate N M lam xeq (fst p) (snd p) + eps * V N M lam xeq (fst p))))
      (combine samples xdots))) as (v & E & P & Z).
  - destruct samples, xdots; try contradiction; try discriminate.
  - rewrite map_length, combine_length, <- L, Nat.min_id. auto.
  - apply Forall_map. apply Forall_forall. intros. apply hinge_nonneg.
  - exists v. split; auto. split; auto. rewrite Z, forall2_combine, Forall_map by auto.
    split; apply Forall_impl; intros a K; [apply hinge_zero in K|apply hinge_zero]; lra.
Qed.

(** No alarm where every listed value decays. *)
Lemma ct_loss_sound : forall samples xdots red w tol, samples <> [] -> length samples = length xdots -> 0 <= tol ->
  Forall (fun x : vec => length x = n) samples -> Forall (fun x : vec => length x = n) xdots ->
  weights_ok red w (length samples) ->
  Forall2 (fun x d => forall pats sgs, selects N M xeq x pats sgs ->
    Vdot N M lam pats sgs d + eps * V N M lam xeq x <= - margin) samples xdots ->
  ct_loss N n xeq samples xdots lam eps ExpLower R0 margin red w tol = Some 0.
Proof.
  intros samples xdots red w tol Hs L T F1 F2 Hw H.
  destruct (ct_loss_spec samples xdots red w tol Hs L T F1 F2 Hw) as (v & E & _ & Z).
  rewrite E. f_equal. apply Z. eapply F2_impl; [|exact H]. intros x d K. cbn beta in K.
  destruct (rate_between n N M lam xeq x d (la_R _ _ _ _ _ _ Args)) as [(pats & sgs & S1 & S2) _].
  specialize (K pats sgs S1). lra.
Qed.
End Loss.

Section HybridLoss.
Variable N : network.
Variable n : nat.
Variables x_lo x_up xeq : vec.
Hypothesis Args : lyap_args n N x_lo x_up None xeq.
Variables lam eps margin : R.
Let M := eye n.

Lemma map2_first : forall {A B C} (f : C -> A -> R) (g : A -> B -> C) l r, length l = length r ->
  map2 f (map2 g l r) l = map (fun p => f (g (fst p) (snd p)) (fst p)) (combine l r).
Proof. induction l; destruct r; simpl; intros; try discriminate; auto. rewrite IHl by lia. auto. Qed.

Lemma traverse_id : forall R0 l, R_identity n R0 = true -> Forall (fun x : vec => length x = n) l ->
  traverse (lyapunov_value N n R0 xeq lam) l = Some (map (V N M lam xeq) l).
Proof.
  intros [m|] l HR F.
  - apply mat_eqb_eq in HR. subst m. apply (traverse_V N n x_lo x_up (Some M) xeq); auto.
    destruct Args. constructor; auto.
  - apply (traverse_V N n x_lo x_up None xeq Args); auto.
Qed.

Lemma hybrid_loss_spec : forall et R0 samples xdots w, R_identity n R0 = true -> samples <> [] ->
  length samples = length xdots ->
  Forall (fun x : vec => length x = n) samples -> Forall (fun x : vec => length x = n) xdots ->
  exists v, hybrid_ct_loss N n xeq samples xdots lam eps et R0 margin RMean w = Some v /\ 0 <= v /\
    (v = 0 <-> Forall2 (fun x d => rate_violation et N M lam eps xeq x d <= - margin) samples xdots).
Proof.
  intros et R0 samples xdots w HR Hs L F1 F2. unfold hybrid_ct_loss. rewrite HR, L, Nat.eqb_refl. cbn [andb negb].
  rewrite traverse_id by auto.
  set (l := match et with ExpLower => _ | ExpUpper => _ | Asymp => _ end).
  assert (El : l = map (fun p => rate_violation et N M lam eps xeq (fst p) (snd p)) (combine samples xdots)).
  { assert (A : forall p, In p (combine samples xdots) ->
      dot (autograd_V N n (eye n) xeq lam (fst p)) (snd p) = sample_rate N M lam xeq (fst p) (snd p)).
    { intros p Hp. destruct (pairs_length n _ _ F1 F2 p Hp) as [P1 P2].
      apply autograd_rate; auto; destruct Args; auto. }
    unfold l. destruct et.
    - rewrite map2_nested by auto. apply map_ext_in. intros p Hp. cbn [rate_violation]. rewrite A by auto. reflexivity.
    - rewrite map2_nested by auto. apply map_ext_in. intros p Hp. cbn [rate_violation]. rewrite A by auto. reflexivity.
    - rewrite map2_first by auto. apply map_ext_in. intros p Hp. cbn [rate_violation]. rewrite A by auto. reflexivity. }
  destruct (reduce_spec RMean None (map (fun v => hinge margin (- v)) l)) as (v & E & P & Z).
  - rewrite El. destruct samples, xdots; try contradiction; try discriminate.
  - exact I.
  - apply Forall_map. apply Forall_forall. intros. apply hinge_nonneg.
  - exists v. split; auto. split; auto. rewrite Z, forall2_combine, El, !Forall_map by auto.
    split; apply Forall_impl; intros a K; [apply hinge_zero in K|apply hinge_zero]; lra.
Qed.
End HybridLoss.

Section AtSamples.
Variable N : network.
Variable h : hybrid.
Variables x_lo x_up xeq : vec.
Variable axb : mat -> vec -> vec -> option (Vec.ext * Vec.ext).
Hypothesis Args : hybrid_args N h x_lo x_up xeq axb.
Variables lam eps margin : R.
Let n := h_nx h.
Let M := eye n.
Let La := ha_lyap _ _ _ _ _ _ Args.

Lemma mode_velocity : forall x, length x = n ->
  match (match find_mode h x [] with None => None | Some k => step_forward h x [] (Some k) end) with
  | Some d => first_velocity h x d /\ length d = n
  | None => forall m, In m (h_modes h) -> ~ inside m x
  end.
Proof.
  intros x Lx. destruct (ha_built _ _ _ _ _ _ Args) as (bounds & bounded & Vb & Bu).
  assert (F := find_mode_spec _ _ _ _ h x [] Vb Bu). rewrite app_nil_r in F.
  destruct (step_forward_spec _ _ _ _ h x [] Vb Bu) as (_ & _ & S & _).
  destruct (find_mode h x []) as [i|]; auto.
  destruct F as (m & E & I & K). rewrite (S i m E).
  assert (Ei : image m x [] = vadd (mv (md_A m) x) (md_c m)).
  { destruct (hybrid_facts N h x_lo x_up xeq axb Args) as (Enu & Wm & _). rewrite Forall_forall in Wm.
    destruct (Wm m (nth_error_In _ _ E)) as ((WA & _) & (WB & FB) & Wc & _). unfold image. f_equal.
    assert (Z : mv (md_B m) [] = zeros n).
    { unfold mv. apply vec_ext; [rewrite map_length, zeros_length; exact WB|]. intros j Hj.
      rewrite nth_zeros. rewrite map_length in Hj.
      rewrite (nth_indep _ 0 (dot [] [])) by (rewrite map_length; auto).
      rewrite (map_nth (fun r => dot r [])). apply dot_nil_r. }
    rewrite Z. apply vadd_zeros_r. rewrite mv_length. exact WA. }
  split.
  - exists i, m. auto.
  - apply (moves_length h (proj1 (proj2 (hybrid_facts N h x_lo x_up xeq axb Args))) i x).
    exists m. auto.
Qed.

Lemma velocities : forall samples, Forall (fun x : vec => length x = n) samples ->
  match all_some (map (fun x => match find_mode h x [] with
                                | None => None
                                | Some k => step_forward h x [] (Some k)
                                end) samples) with
  | Some ds => Forall2 (first_velocity h) samples ds /\ Forall (fun x : vec => length x = n) ds
  | None => Exists (fun x => forall m, In m (h_modes h) -> ~ inside m x) samples
  end.
Proof.
  intros samples F. induction F as [|x samples Lx F IH]; cbn [map all_some]; auto.
  assert (K := mode_velocity x Lx).
  destruct (match find_mode h x [] with None => None | Some k => step_forward h x [] (Some k) end) as [d|].
  - destruct (all_some _) as [ds|]; [destruct IH, K; split; constructor; auto|apply Exists_cons_tl; auto].
  - apply Exists_cons_hd. auto.
Qed.

Lemma hybrid_samples_spec : forall et R0 samples w, R_identity n R0 = true -> samples <> [] ->
  Forall (fun x : vec => length x = n) samples ->
  (Exists (fun x => forall m, In m (h_modes h) -> ~ inside m x) samples /\
   hybrid_ct_loss_at_samples N h xeq samples lam eps et R0 margin RMean w = None) \/
  exists ds v, Forall2 (first_velocity h) samples ds /\
    hybrid_ct_loss_at_samples N h xeq samples lam eps et R0 margin RMean w = Some v /\ 0 <= v /\
    (v = 0 <-> Forall2 (fun x d => rate_violation et N M lam eps xeq x d <= - margin) samples ds).
Proof.
  intros et R0 samples w HR Hs F. unfold hybrid_ct_loss_at_samples. fold n. rewrite HR.
  assert (K := velocities samples F). destruct (all_some _) as [ds|].
  - right. destruct K as [K1 K2]. assert (L : length samples = length ds) by (eapply Forall2_len; eauto).
    destruct (hybrid_loss_spec N n x_lo x_up xeq La lam eps margin et R0 samples ds w HR Hs L F K2) as (v & E & P & Z).
    exists ds, v. auto.
  - left. auto.
Qed.
End AtSamples.
