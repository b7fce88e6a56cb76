(** Lemmas for ModelDerivList.v: the list of a hybrid system. *)

Require Import Reals List Lra Lia Bool Arith.
Require Import Verif.Vec Verif.VecFacts Verif.ModelMip Verif.SpecMip Verif.SpecCore Verif.ModelUtils Verif.SpecUtils
  Verif.ModelGrad Verif.ModelNet Verif.SpecNet Verif.SpecStep Verif.ModelPattern Verif.SpecPattern Verif.ModelLyapunov
  Verif.SpecLyapunov Verif.ModelContinuous Verif.SpecContinuous Verif.ModelHybrid Verif.SpecHybrid Verif.ModelContHybrid
  Verif.SpecContHybrid Verif.ModelDerivList Verif.SpecDerivList
  Verif.ProofUtils Verif.ProofMip Verif.ProofMaxBox Verif.ProofGrad Verif.ProofPattern Verif.ProofLyapunov Verif.ProofLyapCert Verif.ProofLoss Verif.ProofContinuous
  Verif.ProofContinuous5
  Verif.ProofContinuous6 Verif.ProofNetBounds Verif.ProofHybrid Verif.ProofHybrid2 Verif.ProofContHybrid4 Verif.ProofContHybrid6
  Verif.ProofDerivList Verif.ProofDerivList2 Verif.ProofDerivList3.
Import ListNotations.
Open Scope R_scope.

(** ** The linearisation of a pattern as a vector *)

Lemma all_some_map_some : forall {A B} (f : A -> B) (l : list A), all_some (map (fun a => Some (f a)) l) = Some (map f l).
Proof. induction l; cbn [map all_some]; auto. rewrite IHl. auto. Qed.

Lemma pattern_gradient_spec : forall n N pats, net_wf n N -> out_features (last_layer N) = 1%nat ->
  pattern_shape (hidden N) pats ->
  exists g, pattern_gradient N n pats = Some g /\ length g = n /\
    forall d, length d = n -> dot g d = nth 0 (jvp N pats d) 0.
Proof.
  intros n N pats [_ [W Wl]] Out S. unfold pattern_gradient, relu_given_activation_pattern.
  destruct (pattern_loop_spec n (hidden N) n _ pats (eye n) (zeros n) [] [] W)
    as (A & b & P & q & E & WA & Lb & WP & H); auto.
  { apply wfm_eyek. } { apply zeros_length. }
  cbn [app] in E. rewrite E.
  destruct (affine_spec _ n (last_layer N) A b Wl WA Lb) as (WA1 & Lb1 & Ex).
  destruct (affine_linear n (last_layer N) A b) as [A1 b1]. cbn [fst snd] in *.
  rewrite Out in WA1. destruct WA1 as [L1 F1].
  destruct A1 as [|r [|]]; try discriminate. inversion F1 as [|? ? Lr _]; clear F1.
  exists r. assert (Et : all_some (map scalar (transpose n [r])) = Some r).
  { unfold transpose. rewrite map_map. cbn [map scalar]. rewrite all_some_map_some. f_equal.
    rewrite <- Lr. apply seq_nth_id. }
  split; auto. split; auto. intros d Ld.
  destruct (H d Ld) as [_ [_ H3]]. rewrite mv_eye in H3 by auto.
  destruct (Ex d Ld) as [X1 _]. cbn [mv map] in X1. unfold jvp. rewrite <- H3, <- X1. reflexivity.
Qed.

Lemma gradients_total : forall n N ps, net_wf n N -> out_features (last_layer N) = 1%nat ->
  Forall (pattern_shape (hidden N)) ps ->
  exists D, all_some (map (pattern_gradient N n) ps) = Some D /\
    Forall2 (fun pats g => length g = n /\ forall d, length d = n -> dot g d = nth 0 (jvp N pats d) 0) ps D.
Proof.
  intros n N ps W Out F. induction F as [|p ps Hp F IH].
  - exists []. split; auto.
  - destruct IH as (D & E & FD). destruct (pattern_gradient_spec n N p W Out Hp) as (g & Eg & Lg & Hg).
    exists (g :: D). cbn [map all_some]. rewrite Eg, E. split; auto.
Qed.

(** ** The queue of signs *)

Lemma extend_signs_in : forall c q s, In s (extend_signs c q) <-> exists f a, In f q /\ In a c /\ s = f ++ [a].
Proof.
  intros c q s. unfold extend_signs. rewrite in_flat_map. split.
  - intros (f & Hf & K). apply in_map_iff in K. destruct K as (a & <- & Ha). eauto.
  - intros (f & a & Hf & Ha & ->). exists f. split; auto. apply in_map_iff. eauto.
Qed.
Lemma fold_signs_in : forall cs q s,
  In s (fold_left (fun q c => extend_signs c q) cs q) <->
  exists f t, In f q /\ Forall2 (fun a c => In a c) t cs /\ s = f ++ t.
Proof.
  induction cs as [|c cs IH]; intros q s; cbn [fold_left].
  - split.
    + intros H. exists s, []. rewrite app_nil_r. auto.
    + intros (f & t & Hf & F & ->). inversion F. rewrite app_nil_r. auto.
  - rewrite IH. split.
    + intros (f & t & Hf & F & ->). apply extend_signs_in in Hf. destruct Hf as (f' & a & Hf & Ha & ->).
      exists f', (a :: t). rewrite <- app_assoc. split; auto.
    + intros (f & t & Hf & F & ->). inversion F as [|a ? t' ? Ha F']; subst.
      exists (f ++ [a]), t'. rewrite <- app_assoc. split; auto. apply extend_signs_in. eauto.
Qed.
Lemma sign_choice_in : forall a b s, In s (sign_choices a b) <-> exists g, flag_ok g (a - b) /\ s = sign_of g.
Proof.
  intros a b s. unfold sign_choices, Rltb.
  destruct (Rlt_dec b a) as [H|H]; [|destruct (Rlt_dec a b) as [K|K]].
  - split.
    + intros [<-|[]]. exists true. split; simpl; auto. lra.
    + intros ([] & F & ->); simpl in *; auto. lra.
  - split.
    + intros [<-|[]]. exists false. split; simpl; auto. lra.
    + intros ([] & F & ->); simpl in *; auto. lra.
  - split.
    + intros [<-|[<-|[]]]; [exists true|exists false]; split; simpl; auto; lra.
    + intros ([] & F & ->); simpl in *; auto.
Qed.
Lemma error_signs_in : forall x xeq s, length x = length xeq ->
  (In s (error_signs x xeq) <-> exists sgs, signs_ok sgs (vsub x xeq) /\ s = map sign_of sgs).
Proof.
  intros x xeq s L. unfold error_signs. rewrite fold_signs_in.
  assert (G : forall t, Forall2 (fun a c => In a c) t (map2 sign_choices x xeq) <->
    exists sgs, signs_ok sgs (vsub x xeq) /\ t = map sign_of sgs).
  { clear s. revert xeq L. induction x as [|a x IH]; intros [|b xeq] L t; try discriminate.
    - cbn. split.
      + intros F. inversion F. exists []. split; auto. constructor.
      + intros (sgs & F & ->). inversion F. constructor.
    - cbn [map2 vsub]. injection L as L. split.
      + intros F. inversion F as [|s ? t' ? Hs F']; subst. apply IH in F'; auto.
        destruct F' as (sgs & F' & ->). apply sign_choice_in in Hs. destruct Hs as (g & Hg & ->).
        exists (g :: sgs). split; auto. constructor; auto.
      + intros (sgs & F & ->). inversion F as [|g ? sgs' ? Hg F']; subst. cbn [map]. constructor.
        * apply sign_choice_in. eauto.
        * apply IH; auto. exists sgs'. auto. }
  split.
  - intros (f & t & [<-|[]] & F & ->). apply G. auto.
  - intros H. exists [], s. split; [left; auto|]. split; auto. apply G. auto.
Qed.

(** ** The list *)

Lemma all_pairs : forall {A} (f : A -> A -> bool), (forall a b, f a b = true -> a = b) ->
  forall u v : list A, length u = length v -> forallb (fun c => c) (map2 f u v) = true -> u = v.
Proof.
  intros A f Hf. induction u as [|a u IH]; intros [|b v] L H; try discriminate; auto. cbn in H.
  apply andb_prop in H. destruct H as [H1 H2]. f_equal; auto.
Qed.
Lemma vec_eqb_eq : forall a b, vec_eqb a b = true -> a = b.
Proof.
  intros a b H. apply andb_prop in H. destruct H as [H1 H2]. apply Nat.eqb_eq in H1.
  apply (all_pairs Reqb); auto. intros x y E. unfold Reqb in E. destruct (Req_EM_T x y); auto. discriminate.
Qed.
Lemma mat_eqb_eq : forall a b, mat_eqb a b = true -> a = b.
Proof.
  intros a b H. apply andb_prop in H. destruct H as [H1 H2]. apply Nat.eqb_eq in H1.
  apply (all_pairs vec_eqb); auto. apply vec_eqb_eq.
Qed.

Section Hybrid.
Variable N : network.
Variable h : hybrid.
Variables x_lo x_up xeq : vec.
Variable axb : mat -> vec -> vec -> option (Vec.ext * Vec.ext).
Hypothesis Args : hybrid_args N h x_lo x_up xeq axb.
Variables lam eps : R.
Let n := h_nx h.
Let M := eye n.
Let La := ha_lyap _ _ _ _ _ _ Args.

Lemma possible_moves : forall x w, length x = n -> (In w (possible_dx h x []) <-> exists k, moves h k x w).
Proof.
  intros x w Lx. destruct (ha_built _ _ _ _ _ _ Args) as (bounds & bounded & Vb & Bu).
  destruct (hybrid_facts N h x_lo x_up xeq axb Args) as (Enu & Wm & _). rewrite Forall_forall in Wm.
  assert (Ei : forall m, In m (h_modes h) -> image m x [] = vadd (mv (md_A m) x) (md_c m)).
  { intros m Hm. destruct (Wm m Hm) as ((WA & _) & (WB & FB) & Wc & _). unfold image. f_equal.
    assert (Z : mv (md_B m) [] = zeros n).
    { unfold mv. apply vec_ext; [rewrite map_length, zeros_length; exact WB|]. intros i Hi.
      rewrite nth_zeros. rewrite map_length in Hi.
      rewrite (nth_indep _ 0 (dot [] [])) by (rewrite map_length; auto).
      rewrite (map_nth (fun r => dot r [])). apply dot_nil_r. }
    rewrite Z. apply vadd_zeros_r. rewrite mv_length. exact WA. }
  rewrite (possible_dx_spec _ _ _ _ h x [] Vb Bu). unfold hybrid_next. rewrite app_nil_r. split.
  - intros (m & Hm & I & ->). destruct (In_nth_error _ _ Hm) as [k Hk]. exists k, m.
    split; auto.
  - intros (k & m & Hk & I & ->). assert (Hm := nth_error_In _ _ Hk). exists m. split; auto. split; auto.
    symmetry. auto.
Qed.

Lemma identity_R : forall R0, R_identity n R0 = true -> R_of n R0 = M.
Proof. intros [m|] H; [apply mat_eqb_eq in H; auto|reflexivity]. Qed.

Lemma hybrid_listed : forall R0 x, R_identity n R0 = true -> n <> 1%nat -> length x = n ->
  exists l, hybrid_ct_derivative N h xeq lam eps R0 x = Some l /\
    forall v, In v l <-> exists k w pats sgs, moves h k x w /\ selects N M xeq x pats sgs /\
      v = Vdot N M lam pats sgs w + eps * V N M lam xeq x.
Proof.
  intros R0 x HR Hn Lx. assert (W := la_net _ _ _ _ _ _ La). assert (Out := la_out _ _ _ _ _ _ La).
  assert (Lq : length xeq = n) by (exact (in_box_length _ _ _ _ (la_eq _ _ _ _ _ _ La) (la_lo _ _ _ _ _ _ La))).
  destruct (all_patterns_prop n N x W Lx) as [_ AP].
  destruct (gradients_total n N (compute_all_relu_activation_patterns N x) W Out) as (D & ED & FD).
  { apply Forall_forall. intros p Hp. apply AP in Hp. eapply shape_of_consistent; [apply W| |exact Hp]. auto. }
  unfold hybrid_ct_derivative. fold n. rewrite HR, ED.
  assert (Ev : lyapunov_value N n R0 xeq lam x = Some (V N M lam xeq x)).
  { destruct R0 as [m|].
    - apply mat_eqb_eq in HR. subst m. apply (value_V n N x_lo x_up (Some M) xeq lam x); auto.
      destruct La. constructor; auto.
    - apply (value_V n N x_lo x_up None xeq lam x); auto. }
  rewrite Ev. destruct (Nat.eqb_spec n 1) as [|_]; [contradiction|]. cbn [andb].
  eexists. split; [reflexivity|]. intros v. rewrite in_map_iff. split.
  - intros (vd & <- & H). apply in_flat_map in H. destruct H as (g & Hg & Hv).
    apply in_map_iff in Hv. destruct Hv as (w & <- & Hw). apply possible_moves in Hw; auto. destruct Hw as (k & Hw).
    apply in_flat_map in Hg. destruct Hg as (g0 & Hg0 & Hg). apply in_map_iff in Hg. destruct Hg as (s & <- & Hs).
    apply error_signs_in in Hs; [|congruence]. destruct Hs as (sgs & Hs & ->).
    assert (exists pats, In pats (compute_all_relu_activation_patterns N x) /\ length g0 = n /\
       forall d, length d = n -> dot g0 d = nth 0 (jvp N pats d) 0) as (pats & Hp & Lg & Hj).
    { clear - FD Hg0. induction FD as [|p g ps D K FD IH]; [contradiction|]. destruct Hg0 as [->|Hg0].
      - exists p. split; [left; auto|auto].
      - destruct (IH Hg0) as (p' & H1 & H2). exists p'. split; [right; auto|auto]. }
    apply AP in Hp.
    assert (Lw : length w = n) by (apply (moves_length h (proj1 (proj2 (hybrid_facts N h x_lo x_up xeq axb Args))) k x w Hw)).
    exists k, w, pats, sgs. split; auto. split.
    + split; auto. unfold M. rewrite mv_eye by (rewrite vsub_length; unfold vec in *; congruence). auto.
    + unfold Vdot. f_equal. unfold M. rewrite mv_eye by auto.
      rewrite dot_vadd_l, Hj, dot_vscale_l by (auto; rewrite vscale_length, map_length;
        apply Forall2_len in Hs; rewrite vsub_length in Hs; unfold vec in *; congruence). auto.
  - intros (k & w & pats & sgs & Hw & [S1 S2] & ->).
    assert (Lw : length w = n) by (apply (moves_length h (proj1 (proj2 (hybrid_facts N h x_lo x_up xeq axb Args))) k x w Hw)).
    unfold M in S2. rewrite mv_eye in S2 by (rewrite vsub_length; unfold vec in *; congruence).
    apply AP in S1.
    assert (exists g0, In g0 D /\ length g0 = n /\
       forall d, length d = n -> dot g0 d = nth 0 (jvp N pats d) 0) as (g0 & Hg0 & Lg & Hj).
    { clear - FD S1. induction FD as [|p g ps D K FD IH]; [contradiction|]. destruct S1 as [->|S1].
      - exists g. split; [left; auto|auto].
      - destruct (IH S1) as (p' & H1 & H2). exists p'. split; [right; auto|auto]. }
    exists (Vdot N M lam pats sgs w). split; auto. apply in_flat_map.
    exists (vadd g0 (vscale lam (map sign_of sgs))). split.
    + apply in_flat_map. exists g0. split; auto. apply in_map_iff. exists (map sign_of sgs). split; auto.
      apply error_signs_in; [congruence|]. eauto.
    + apply in_map_iff. exists w. split; [|apply possible_moves; eauto].
      unfold Vdot, M. rewrite mv_eye by auto.
      rewrite dot_vadd_l, Hj, dot_vscale_l by (auto; rewrite vscale_length, map_length;
        apply Forall2_len in S2; rewrite vsub_length in S2; unfold vec in *; congruence). auto.
Qed.

Lemma hybrid_right_derivative : forall R0 y t k w l, R_identity n R0 = true -> n <> 1%nat -> leaves n y t w ->
  moves h k (y t) w -> hybrid_ct_derivative N h xeq lam eps R0 (y t) = Some l ->
  (exists r, rderiv (fun s => V N M lam xeq (y s)) t r) /\
  forall r, rderiv (fun s => V N M lam xeq (y s)) t r -> In (r + eps * V N M lam xeq (y t)) l.
Proof.
  intros R0 y t k w l HR Hn Hy Mv El.
  destruct (V_directional n N M lam xeq y t w (la_net _ _ _ _ _ _ La)
    (in_box_length _ _ _ _ (la_eq _ _ _ _ _ _ La) (la_lo _ _ _ _ _ _ La)) Hy) as (pats & sgs & S1 & S2).
  destruct (hybrid_listed R0 (y t) HR Hn (proj1 Hy t)) as (l' & E & I).
  rewrite El in E. apply Some_inj in E. subst l'. split; [eauto|].
  intros r Hr. rewrite (rderiv_unique _ _ _ _ Hr S2). apply I. exists k, w, pats, sgs. auto.
Qed.

Lemma hybrid_one_dimension : forall R0 x k w, n = 1%nat -> length x = n -> moves h k x w ->
  hybrid_ct_derivative N h xeq lam eps R0 x = None.
Proof.
  intros R0 x k w Hn Lx Mv. unfold hybrid_ct_derivative. fold n.
  destruct (R_identity n R0); auto. destruct (lyapunov_value N n R0 xeq lam x); auto.
  assert (W := la_net _ _ _ _ _ _ La). assert (Out := la_out _ _ _ _ _ _ La).
  assert (Lq : length xeq = n) by (exact (in_box_length _ _ _ _ (la_eq _ _ _ _ _ _ La) (la_lo _ _ _ _ _ _ La))).
  destruct (all_patterns_prop n N x W Lx) as [_ AP].
  destruct (gradients_total n N (compute_all_relu_activation_patterns N x) W Out) as (D & ED & FD).
  { apply Forall_forall. intros p Hp. apply AP in Hp. eapply shape_of_consistent; [apply W| |exact Hp]. auto. }
  rewrite ED, Hn. cbn [Nat.eqb andb].
  assert (exists g, In g D) as (g & Hg).
  { destruct (own_pattern _ _ _ x (proj1 (proj2 W)) Lx) as [C _]. apply AP in C.
    destruct FD; [contradiction|]. eexists. left. reflexivity. }
  assert (exists s, In s (error_signs x xeq)) as (s & Hs).
  { exists (map sign_of (map (fun v => if Rle_dec 0 v then true else false) (vsub x xeq))).
    apply error_signs_in; [congruence|]. eexists. split; [|reflexivity].
    unfold signs_ok. induction (vsub x xeq) as [|a v IH]; constructor; auto.
    destruct (Rle_dec 0 a); simpl; lra. }
  assert (Hw : In w (possible_dx h x [])) by (apply possible_moves; eauto).
  set (gr := flat_map _ D).
  assert (Hr : In (vadd g (vscale lam s)) gr).
  { apply in_flat_map. exists g. split; auto. apply in_map_iff. eauto. }
  destruct gr; [contradiction|]. destruct (possible_dx h x []); [contradiction|]. reflexivity.
Qed.

Lemma hybrid_optimum : forall solve, solver_ok solve -> forall meth et R0 lower upper d v, n <> 1%nat ->
  hybrid_derivative solve axb meth N h x_lo x_up xeq lam eps et R0 lower upper d ->
  solve (hd_mip d) = GOptimal v ->
  exists x l, in_box x_lo x_up x /\ within lower upper (V N M lam xeq x) /\
    hybrid_ct_derivative N h xeq lam eps None x = Some l /\ In v l.
Proof.
  intros solve Hs meth et R0 lower upper d v Hn E Ev.
  destruct (hybrid_verdict solve Hs meth N h x_lo x_up xeq axb Args lam eps et R0 lower upper d E) as (_ & K & _).
  destruct (K v Ev) as (x & k & w & pats & sgs & Lx & Mv & Wi & Sel & Eo).
  destruct (hybrid_listed None x eq_refl Hn Lx) as (l & El & I).
  exists x, l. split; [eapply moves_in_box; eauto|]. split; auto. split; auto. apply I.
  exists k, w, pats, sgs. auto.
Qed.
End Hybrid.
