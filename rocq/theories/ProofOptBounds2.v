(** The bounds obtained by optimisation are right, and tight for the MIP method. *)

Require Import Reals List Bool Arith Lra Lia.
Require Import Verif.Vec Verif.VecFacts Verif.ModelMip Verif.SpecMip
  Verif.ModelUtils Verif.ModelNet Verif.SpecCore Verif.SpecUtils Verif.SpecNet Verif.SpecStep
  Verif.ModelPattern Verif.SpecPattern Verif.SpecLyapunov Verif.ModelContinuous Verif.SpecContinuous
  Verif.ModelOptBounds Verif.SpecOptBounds
  Verif.ProofUtils Verif.ProofMaxBox Verif.ProofMip Verif.ProofTorch Verif.ProofConcat Verif.ProofBounds
  Verif.ProofGrad Verif.ProofNet Verif.ProofNetBounds Verif.ProofNetTotal Verif.ProofPattern Verif.ProofGradVec
  Verif.ProofStep Verif.ProofNetStep Verif.ProofLyapCert Verif.ProofContinuous Verif.ProofOptBounds.
Import ListNotations.
Open Scope R_scope.

Lemma choose_flags : forall lo up p, in_box lo up p ->
  exists fl, Forall2 flag_ok fl p /\ forced_all lo up fl.
Proof.
  induction lo as [|l lo IH]; intros up p [B1 B2]; inversion B1; subst; inversion B2; subst.
  - exists []. split; constructor.
  - match goal with Q1 : Forall2 Rle lo ?l', Q2 : Forall2 Rle ?l' ?u' |- _ =>
      destruct (IH u' l' (conj Q1 Q2)) as (fl & F1 & F2) end.
    destruct (Rle_dec 0 l).
    + exists (true :: fl). split; [constructor; auto; cbn; lra|]. split; auto. split; auto. intros; lra.
    + match goal with |- context [forced_all (l :: lo) (?u :: _)] => destruct (Rle_dec u 0) end.
      * exists (false :: fl). split; [constructor; auto; cbn; lra|]. split; [split; intros; [lra|auto]; lra|auto].
      * match goal with |- context [Forall2 flag_ok _ (?v :: _)] => destruct (Rle_dec 0 v) end.
        -- exists (true :: fl). split; [constructor; auto|]. split; [split; intros; [lra|auto]; lra|auto].
        -- exists (false :: fl). split; [constructor; auto; cbn; lra|]. split; [split; intros; [lra|auto]; lra|auto].
Qed.
Lemma Forall2_concat_inv : forall {A B} (P : A -> B -> Prop) ps qs,
  Forall2 (fun (a : list A) (b : list B) => length a = length b) ps qs ->
  Forall2 P (concat ps) (concat qs) -> Forall2 (Forall2 P) ps qs.
Proof.
  intros A B P ps qs F. induction F as [|a b ps qs L F IH]; intros H; [constructor|].
  cbn [concat] in H. apply Forall2_app_inv_l in H. destruct H as (u & v & H1 & H2 & E).
  assert (Lu : length u = length a) by (apply Forall2_len in H1; auto).
  assert (u = b /\ v = concat qs) as [-> ->].
  { clear -E Lu L. assert (Lub : length u = length b) by lia. clear Lu L. revert b E Lub.
    induction u as [|x u IH]; intros [|y b] E L; try discriminate; auto.
    cbn [app] in E. injection E as -> E. destruct (IH b E) as [-> ->]; auto. }
  constructor; auto.
Qed.
Lemma choose_pats : forall hs n out x lo up, hidden_wf n hs out -> length x = n ->
  in_box lo up (concat (pre_acts hs x)) ->
  exists pats, consistent pats (pre_acts hs x) /\ forced_all lo up (concat pats).
Proof.
  intros hs n out x lo up W L B. destruct (choose_flags _ _ _ B) as (fl & F1 & F2).
  destruct (num_units_pre _ _ _ _ W L) as [Q1 Q2].
  destruct (split_flags hs fl) as (pats & Sp & Ep).
  { apply Forall2_len in F1. congruence. }
  exists pats. rewrite Ep. split; auto. apply Forall2_concat_inv; [|rewrite Ep; auto].
  clear -W L Sp. revert n x pats W L Sp. induction hs as [|[l a] hs IH]; intros n x pats W L Sp;
    inversion Sp as [|? pat ? pats' S1 S2]; subst; cbn [pre_acts]; [constructor|].
  destruct W as [W1 W2]. constructor.
  - cbn [fst] in S1. rewrite S1. symmetry. eapply lin_eval_length; eauto.
  - eapply (IH (out_features l)); eauto. rewrite map_length. eapply lin_eval_length; eauto.
Qed.

(** ** The constraint of the network *)

Section Net.
Variable solve : mip -> gresult.
Hypothesis Hsolve : solver_ok solve.
Variable meth : method.
Variable N : network.
Variable n : nat.
Variables x_lo x_up : vec.
Hypothesis W : net_wf n N.
Hypothesis L1 : length x_lo = n.
Hypothesis L2 : length x_up = n.

Lemma constraint_flags : forall c B out, output_constraint solve meth N x_lo x_up = Some (c, B, out) ->
  mic_ok c /\ nin c = n /\ nbin c = num_units (hidden N) /\
  (forall x pats, in_box x_lo x_up x -> consistent pats (pre_acts (hidden N) x) ->
     possible (b_pre_lo B) (b_pre_up B) (concat pats) ->
     exists s, mic_sat c x s (flat pats)) /\
  (no_slope_one (hidden N) -> forall x s b, length x = n -> bins b -> mic_sat c x s b ->
     in_box x_lo x_up x /\
     exists pats, b = flat pats /\ consistent pats (pre_acts (hidden N) x) /\
       possible (b_pre_lo B) (b_pre_up B) (concat pats)).
Proof.
  intros c B out Eo. destruct out as [olo oup].
  destruct (network_bounds solve Hsolve n _ _ _ _ _ _ _ _ W L1 L2 Eo) as [S _].
  assert (C := output_constraint_mic solve Hsolve n _ _ _ _ _ _ _ W L1 L2 Eo).
  destruct C as [C1 C2 C3 C4 C5 (C6 & C7 & C8 & C9) C10 C11 C12 C13 C14 C15 C16].
  unfold output_constraint in Eo.
  destruct (vleb x_lo x_up); [|discriminate]. cbn [negb] in Eo.
  destruct (compute_layer_bound solve meth N x_lo x_up) as [B'|] eqn:E1; [|discriminate].
  destruct (compute_network_output_bounds solve meth N (b_pre_lo B') (b_pre_up B') x_lo x_up)
    as [out'|] eqn:E2; [|discriminate].
  destruct (output_constraint_given_bounds N (b_pre_lo B') (b_pre_up B') x_lo x_up)
    as [c'|] eqn:E3; [|discriminate].
  injection Eo as -> -> _.
  destruct (layer_bound_spec solve Hsolve n _ _ _ _ _ W L1 L2 E1) as (z1 & z2 & I1 & I2 & _).
  destruct (encoding_given_bounds n N _ _ _ _ W L1 L2 I1 I2)
    as (c0 & Ec & M1 & M2 & M3 & M4 & M5 & M6 & M7).
  rewrite E3 in Ec. injection Ec as <-.
  assert (W' := W). destruct W' as (Hh & Wh & Wl).
  split; auto. split; [congruence|]. split; [congruence|]. split.
  - intros x pats By Cp Fp.
    assert (Lx : length x = n) by (eapply in_box_length; eauto).
    assert (Sp := shape_of_consistent _ _ _ _ _ Wh Lx Cp).
    destruct (num_units_pre _ _ _ _ Wh Lx) as [Q1 Q2].
    exists (concat (post_acts (hidden N) x)).
    apply M6. split; [congruence|]. split; [rewrite M4; apply flat_length; auto|].
    split; auto. eapply net_complete; eauto; [apply (S _ By)|].
    apply (net_flags _ _ _ _ _ _ _ Wh Lx Sp I1 I2). split; auto.
    assert (Lc : length (concat pats) = num_units (hidden N)).
    { rewrite <- (flat_length _ _ Sp). unfold flat. rewrite map_length. auto. }
    apply possible_forced; auto; congruence.
  - intros Hslope x s b Lx Hb Hm. apply M6 in Hm. destruct Hm as (K1 & K2 & K3 & K4).
    rewrite M3 in K1. rewrite M4 in K2. split; auto.
    destruct (net_sound _ _ _ _ _ _ _ _ Wh Lx K1 Hb K4) as [_ K5].
    destruct (K5 Hslope I1 I2) as [_ K6].
    destruct (bins_bits _ Hb) as (fl & Ef).
    destruct (split_flags (hidden N) fl) as (pats & Sp & Ep).
    { rewrite <- K2, Ef, map_length. auto. }
    exists pats. assert (Ef' : b = flat pats) by (rewrite flat_bits, Ep; auto).
    split; auto. rewrite Ef' in K6. apply (net_flags _ _ _ _ _ _ _ Wh Lx Sp I1 I2) in K6.
    split; [apply K6|]. apply forced_possible. apply K6.
Qed.

Lemma some_encodable : forall x, in_box x_lo x_up x ->
  exists pats, consistent pats (pre_acts (hidden N) x) /\ encodable solve meth N x_lo x_up pats.
Proof.
  intros x Bx. assert (Lx : length x = n) by (eapply in_box_length; eauto).
  assert (W' := W). destruct W' as (Hh & Wh & Wl).
  destruct (output_constraint solve meth N x_lo x_up) as [[[c B] [olo oup]]|] eqn:Eo.
  - destruct (network_bounds solve Hsolve n _ _ _ _ _ _ _ _ W L1 L2 Eo) as [S _].
    destruct (S x Bx) as (S1 & _).
    destruct (choose_pats _ _ _ x _ _ Wh Lx S1) as (pats & P1 & P2).
    exists pats. split; auto. intros c' B' out' E. rewrite Eo in E.
    injection E as <- <- <-. apply forced_possible. auto.
  - destruct (num_units_pre _ _ _ _ Wh Lx) as [Q1 Q2].
    destruct (choose_pats (hidden N) n _ x (concat (pre_acts (hidden N) x)) (concat (pre_acts (hidden N) x)) Wh Lx)
      as (pats & P1 & P2).
    { split; apply vle_refl. }
    exists pats. split; auto. intros c' B' out' E. rewrite Eo in E. discriminate.
Qed.

(** ** R xdot *)

Lemma setObjective_one : forall r xd mx m m', setObjective [r] [xd] 0 mx m = Some m' -> allk m xd ->
  obj_max m' = mx /\ r_ m' = r_ m /\ zeta_ m' = zeta_ m /\
  (forall sg, gfeas m' sg <-> gfeas m sg) /\ (forall sg, objective m' sg = dot r (map sg xd)).
Proof.
  intros r xd mx m m' E K. unfold setObjective in E. cbn [length Nat.eqb negb concat] in E.
  destruct (nodupb _); [|discriminate]. injection E as <-. cbn [obj_max r_ zeta_].
  split; auto. split; auto. split; auto. split; [intros; reflexivity|].
  intros sg. unfold objective. cbn [obj_terms obj_const]. rewrite app_nil_r.
  rewrite app_nil_r. rewrite filter_all.
  - rewrite eval_combine. ring.
  - apply Forall_forall. intros [c v] Hv. apply in_combine_r in Hv.
    unfold allk in K. rewrite Forall_forall in K. apply K; auto.
Qed.

Lemma allk_same : forall m m' l, r_ m' = r_ m -> zeta_ m' = zeta_ m -> allk m l -> allk m' l.
Proof.
  intros m m' l E1 E2 A. unfold allk, known in *. rewrite E1, E2. exact A.
Qed.

Lemma Rxdot_ok : forall M xd m ls us, Rxdot_extremes solve M xd m = Some (ls, us) -> allk m xd ->
  length ls = length M /\ length us = length M /\
  (forall sg, gfeas m sg -> in_box ls us (mv M (map sg xd))) /\
  (forall j, (j < length M)%nat ->
     (exists sg, gfeas m sg /\ nth j (mv M (map sg xd)) 0 = nth j ls 0) /\
     (exists sg, gfeas m sg /\ nth j (mv M (map sg xd)) 0 = nth j us 0)).
Proof.
  clear W L1 L2.
  induction M as [|r M IH]; intros xd m ls us E K; cbn [Rxdot_extremes] in E.
  - injection E as <- <-. split; auto. split; auto. split; [split; constructor|].
    intros j Hj. simpl in Hj. lia.
  - destruct (setObjective [r] [xd] 0 true m) as [m1|] eqn:E1; [|discriminate].
    destruct (setObjective_one _ _ _ _ _ E1 K) as (A1 & A2 & A3 & A4 & A5).
    assert (S1 := Hsolve m1). destruct (solve m1) as [u| | |]; try discriminate.
    destruct (setObjective [r] [xd] 0 false m1) as [m2|] eqn:E2; [|discriminate].
    assert (K1 : allk m1 xd) by (eapply allk_same; eauto).
    destruct (setObjective_one _ _ _ _ _ E2 K1) as (B1 & B2 & B3 & B4 & B5).
    assert (S2 := Hsolve m2). destruct (solve m2) as [l| | |]; try discriminate.
    destruct (Rxdot_extremes solve M xd m2) as [[ls' us']|] eqn:E3; [|discriminate].
    injection E as <- <-.
    destruct (IH xd m2 ls' us' E3) as (I1 & I2 & I3 & I4).
    { eapply (allk_same m1); eauto. }
    rewrite A1 in S1. rewrite B1 in S2.
    destruct S1 as [(s1 & G1 & O1) M1]. destruct S2 as [(s2 & G2 & O2) M2].
    assert (D2 : forall sg, gfeas m sg <-> gfeas m2 sg) by (intros sg; rewrite B4, A4; tauto).
    split; [simpl; auto|]. split; [simpl; auto|]. split.
    + intros sg G. destruct (I3 sg (proj1 (D2 sg) G)) as [J1 J2].
      assert (X1 := M1 sg (proj2 (A4 sg) G)). assert (X2 := M2 sg (proj1 (D2 sg) G)).
      rewrite A5 in X1. rewrite B5 in X2. cbn [mv map]. split; constructor; auto.
    + intros [|j] Hj; cbn [length] in Hj; cbn [mv map nth].
      * split; [exists s2|exists s1].
        -- split; [apply D2; auto|]. rewrite <- O2, B5. auto.
        -- split; [apply A4; auto|]. rewrite <- O1, A5. auto.
      * destruct (I4 j) as ((t1 & F1 & P1) & (t2 & F2 & P2)); [lia|].
        split; [exists t1|exists t2]; (split; [apply D2; auto|auto]).
Qed.

(** ** The whole computation *)

Variable M : mat.
Variable p : bound_prog.
Variable T : vec -> vec -> Prop.
Hypothesis Hp : covers n p x_lo x_up T.

Lemma optimisation_run : forall B r, optimisation_bounds solve meth N x_lo x_up (Some p) M = Some (B, r) ->
  exists c Bd out m sl beta lo up m',
    output_constraint solve meth N x_lo x_up = Some (c, Bd, out) /\
    add_mic c (bp_x p) None NewBinary (match meth with LP => VCont | _ => VBin end) (bp_mip p) = (m, sl, beta) /\
    wf_mip m /\ below (nvars m) (bp_next p) /\ below (nvars m) beta /\ length beta = num_units (hidden N) /\
    layer_loop solve (hidden N) (last_layer N) lo up (bp_next p) beta m = Some (m', B) /\
    Rxdot_extremes solve M (bp_next p) m' = Some r /\ allk m (bp_next p).
Proof.
  intros B r E. unfold optimisation_bounds in E.
  destruct (output_constraint solve meth N x_lo x_up) as [[[c Bd] out]|] eqn:Eo; [|discriminate].
  destruct (constraint_flags _ _ _ Eo) as (C1 & C2 & C3 & _).
  set (vt := match meth with LP => VCont | _ => VBin end) in *.
  destruct (add_mic c (bp_x p) None NewBinary vt (bp_mip p)) as [[m sl] beta] eqn:Em.
  unfold compute_Wz_bounds_optimization in E.
  destruct (var_extremes solve (bp_next p) m) as [[lo up]|]; [|discriminate].
  destruct (layer_loop solve (hidden N) (last_layer N) lo up (bp_next p) beta m) as [[m' B']|] eqn:El;
    [|discriminate].
  destruct (Rxdot_extremes solve M (bp_next p) m') as [r'|] eqn:Er; [|discriminate].
  injection E as <- <-.
  assert (H := cv_built _ _ _ _ _ Hp). destruct (cv_next _ _ _ _ _ Hp) as (N1 & N2 & N3).
  destruct (cv_x _ _ _ _ _ Hp) as (X1 & X2).
  destruct (add_mic_new _ _ _ _ _ _ _ _ Em C1 (history_wf _ _ H) X1 ltac:(congruence) I)
    as (Q1 & Q2 & Q3 & Q4 & Q5).
  assert (H' : history false m).
  { eapply history_mic; eauto.
    - apply (history_allk _ _ _ H). auto.
    - constructor.
    - constructor.
    - discriminate. }
  assert (Bn : below (nvars m) (bp_next p)) by (apply (below_weaken _ _ _ N1); lia).
  exists c, Bd, out, m, sl, beta, lo, up, m'. split; auto. split; auto. split; auto. split; auto.
  split. { rewrite Q2. apply below_seq. lia. }
  split. { rewrite Q2, seq_length. auto. }
  split; auto. split; auto. apply (history_allk _ _ _ H'). auto.
Qed.

Lemma optimisation_ok : forall B r,
  optimisation_bounds solve meth N x_lo x_up (Some p) M = Some (B, r) ->
  product_bounds_ok x_lo x_up N M T (encodable solve meth N x_lo x_up) B r.
Proof.
  intros B [ls us] E.
  destruct (optimisation_run B (ls, us) E)
    as (c & Bd & out & m & sl & beta & lo & up & m' & Eo & Em & Wm & Bn & Bb & Lb & El & Er & Ka).
  destruct (constraint_flags _ _ _ Eo) as (C1 & C2 & C3 & C4 & _).
  assert (H := cv_built _ _ _ _ _ Hp). destruct (cv_next _ _ _ _ _ Hp) as (N1 & N2 & N3).
  destruct (cv_x _ _ _ _ _ Hp) as (X1 & X2).
  assert (W' := W). destruct W' as (Hh & Wh & Wl).
  destruct (layer_loop_ok solve Hsolve _ _ _ _ _ _ _ _ _ _ _ El Wh N2 Wm Bn Bb Lb)
    as (J1 & J2 & J2r & J2z & J3 & J4 & J5 & J6 & J7 & J8).
  destruct (Rxdot_ok _ _ _ _ _ Er) as (_ & _ & R1 & _).
  { eapply allk_same; eauto. }
  split; [lia|]. split; auto. split; auto.
  intros x d Bx Td. destruct (cv_all _ _ _ _ _ Hp x d Bx Td) as (s0 & G0 & Ex & Ed).
  assert (Ext : forall pats, consistent pats (pre_acts (hidden N) x) -> encodable solve meth N x_lo x_up pats ->
    exists s1, gfeas m s1 /\ map s1 (bp_next p) = d /\ map s1 beta = flat pats).
  { intros pats Cp Ep. destruct (C4 x pats Bx Cp (Ep _ _ _ Eo)) as (s & Ms).
    destruct (add_mic_extend _ _ _ _ _ _ _ _ s0 s (flat pats) Em C1 (history_wf _ _ H) X1
      ltac:(congruence) I G0) as (s1 & G1 & A1 & _ & E1).
    - apply bins_dom. rewrite flat_bits. apply bits_bins.
    - rewrite Ex. auto.
    - exact I.
    - exists s1. split; auto. split; auto. rewrite <- Ed. symmetry. apply (map_agree (nvars (bp_mip p))); auto. }
  cbn [fst snd]. split.
  - assert (Lx : length x = n) by (eapply in_box_length; eauto).
    destruct (some_encodable x Bx) as (pats & Cp & Ep).
    destruct (Ext pats Cp Ep) as (s1 & G1 & Ed1 & Eb1).
    destruct (J7 s1 pats G1 Eb1 (shape_of_consistent _ _ _ _ _ Wh Lx Cp)) as (_ & s2 & G2 & A2).
    assert (K := R1 s2 G2). replace (map s2 (bp_next p)) with d in K; auto.
    rewrite <- Ed1. apply (map_agree (nvars m)); auto.
  - intros pats Cp Ep i Hi. destruct (Ext pats Cp Ep) as (s1 & G1 & Ed1 & Eb1).
    assert (Lx : length x = n) by (eapply in_box_length; eauto).
    destruct (J7 s1 pats G1 Eb1 (shape_of_consistent _ _ _ _ _ Wh Lx Cp)) as (K & _).
    rewrite Ed1 in K. apply K. auto.
Qed.
End Net.
