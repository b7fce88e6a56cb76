(** Verification programs of lyapunov.py. *)

Require Import Reals List Lia Lra Bool Arith.
Require Import Verif.Vec Verif.VecFacts Verif.ModelMip Verif.SpecMip Verif.SpecCore
  Verif.ModelUtils Verif.SpecUtils Verif.ModelNet Verif.SpecNet Verif.SpecStep
  Verif.ModelGrad Verif.ModelLyapunov Verif.SpecLyapunov
  Verif.ProofUtils Verif.ProofMip Verif.ProofSat Verif.ProofConcat
  Verif.ProofBounds Verif.ProofNet Verif.ProofNetBounds Verif.ProofNetTotal Verif.ProofWarm Verif.ProofStep
  Verif.ProofNetStep.
Import ListNotations.
Open Scope R_scope.

(** ** Values *)

Lemma forward_eval : forall n N x, net_wf n N -> length x = n -> forward N x = net_eval N x.
Proof.
  intros n N x (Hh & Wh & Wl) L. unfold forward, compute_relu_unit_outputs_and_activation.
  rewrite (unit_outputs_spec _ _ _ _ Wh L). cbn [snd]. unfold net_eval.
  rewrite (lin_eval_bias (last_layer N)); auto.
  rewrite (hidden_eval_length _ _ _ _ Wh L). apply Wl.
Qed.
Lemma net_eval_length : forall n N x, net_wf n N -> length x = n ->
  length (net_eval N x) = out_features (last_layer N).
Proof.
  intros n N x (Hh & Wh & Wl) L. unfold net_eval.
  eapply lin_eval_length; [exact Wl|]. apply (hidden_eval_length _ _ _ _ Wh L).
Qed.
Lemma scalar_phi : forall n N x, net_wf n N -> out_features (last_layer N) = 1%nat ->
  length x = n -> scalar (forward N x) = Some (phi N x).
Proof.
  intros n N x W O L. rewrite (forward_eval n) by auto.
  assert (K := net_eval_length n N x W L). rewrite O in K. unfold phi.
  destruct (net_eval N x) as [|a [|]]; try discriminate. auto.
Qed.
Lemma eval_phi : forall n N x, net_wf n N -> out_features (last_layer N) = 1%nat ->
  length x = n -> net_eval N x = [phi N x].
Proof.
  intros n N x W O L.
  assert (K := net_eval_length n N x W L). rewrite O in K. unfold phi.
  destruct (net_eval N x) as [|a [|]]; try discriminate. auto.
Qed.

Lemma get_R_ok : forall n R0, wfm (length (R_of n R0)) n (R_of n R0) ->
  get_R n R0 = Some (R_of n R0).
Proof.
  intros n [M|] W; auto. cbn [R_of] in *. unfold get_R.
  replace (forallb _ M) with true; auto. symmetry. apply forallb_forall. intros r Hr.
  destruct W as [_ F]. rewrite Forall_forall in F. apply Nat.eqb_eq. auto.
Qed.

Lemma value_V : forall n N x_lo x_up R0 xeq lam x, lyap_args n N x_lo x_up R0 xeq ->
  length x = n -> lyapunov_value N n R0 xeq lam x = Some (V N (R_of n R0) lam xeq x).
Proof.
  intros n N x_lo x_up R0 xeq lam x A L. destruct A.
  assert (Le : length xeq = n) by (apply in_box_lengths in la_eq; lia).
  unfold lyapunov_value. rewrite get_R_ok by auto. rewrite !(scalar_phi n) by auto. auto.
Qed.

Lemma vle_trans : forall a b c, vle a b -> vle b c -> vle a c.
Proof.
  intros a b c H. revert c. induction H; intros c K; inversion K; subst; constructor; auto.
  - lra.
  - apply IHForall2. auto.
Qed.
Lemma norm1_zeros : forall k, norm1 (zeros k) = 0.
Proof.
  unfold norm1, zeros. induction k; simpl; auto. rewrite Rabs_R0, IHk. ring.
Qed.
Lemma V_eq : forall n N M lam xeq, wfm (length M) n M -> length xeq = n ->
  V N M lam xeq xeq = 0.
Proof.
  intros n N M lam xeq W L. unfold V, error1.
  assert (E : mv M (vsub xeq xeq) = zeros (length M)).
  { assert (Z : vsub xeq xeq = zeros (length xeq)).
    { clear. unfold vsub, zeros. induction xeq; simpl; auto. rewrite IHxeq. f_equal. ring. }
    rewrite Z. unfold mv, zeros at 2. clear. induction M; simpl; auto.
    rewrite IHM. f_equal. apply dot_zeros_r. }
  rewrite E, norm1_zeros. ring.
Qed.

(** ** The network *)

Section Solver.
Variable solve : mip -> gresult.
Hypothesis Hsolve : solver_ok solve.
Variable meth : method.
Variable N : network.
Variable n : nat.
Variables x_lo x_up : vec.
Hypothesis W : net_wf n N.
Hypothesis Hout : out_features (last_layer N) = 1%nat.
Hypothesis L1 : length x_lo = n.
Hypothesis L2 : length x_up = n.

Lemma relu_output_step : forall st xv vt m m' rr, history st m -> below (nvars m) xv ->
  length xv = n -> vt <> VCont ->
  add_relu_output solve meth N x_lo x_up xv vt m = Some (m', rr) ->
  fresh (nvars m) (nvars m') (ret_z rr) /\ fresh (nvars m) (nvars m') (ret_beta rr) /\
  length (ret_a rr) = length (ret_z rr) /\ length (ret_z rr) = num_units (hidden N) /\
  (exists c B out, output_constraint solve meth N x_lo x_up = Some (c, B, out) /\
     add_mic c xv None NewBinary vt m = (m', ret_z rr, ret_beta rr) /\ ret_bounds rr = B) /\
  step vt st m m' (fun sg => in_box x_lo x_up (map sg xv))
    (fun sg => in_box x_lo x_up (map sg xv) /\
       dot (ret_a rr) (map sg (ret_z rr)) + ret_b rr = phi N (map sg xv)).
Proof.
  intros st xv vt m m' rr H B L V E. unfold add_relu_output in E.
  destruct (output_constraint solve meth N x_lo x_up) as [[[c B0] out]|] eqn:Eo; [|discriminate].
  assert (C := output_constraint_mic solve Hsolve n _ _ _ _ _ _ _ W L1 L2 Eo).
  destruct (add_mic c xv None NewBinary vt m) as [[m1 z] be] eqn:Em.
  destruct (squeeze_row (Aout_slack c)) as [a|] eqn:Ea; [|discriminate].
  destruct (squeeze_const (Cout c)) as [b|] eqn:Eb; [|discriminate].
  injection E as <- <-. cbn [ret_z ret_beta ret_a ret_b ret_bounds].
  destruct (net_step st n _ _ _ _ _ _ _ _ _ _ C H B L V Em) as (S1 & S2 & S3 & S4).
  destruct (nm_A _ _ _ _ _ C) as (A & EA & WA).
  assert (Aa : A = [a]).
  { rewrite EA in Ea. destruct A as [|[|? [|? ?]] [|]]; try discriminate; injection Ea as <-; auto. }
  subst A. destruct WA as [_ WA]. apply Forall_inv in WA.
  split; [subst z; apply fresh_seq; lia|].
  split. { subst be. apply (fresh_weaken (nvars m + num_units (hidden N)) (nvars m1)); [apply fresh_seq|..]; lia. }
  split; [rewrite WA; subst z; rewrite seq_length; auto|].
  split; [subst z; apply seq_length|].
  split; [exists c, B0, out; auto|].
  eapply step_weaken; [exact S4|auto|].
  intros sg G (Q1 & Q2 & Q3 & Q4). split; auto.
  assert (O := nm_output _ _ _ _ _ C (map sg xv) (map sg be) ltac:(rewrite map_length; auto)).
  rewrite (eval_phi n) in O by (auto; rewrite map_length; auto).
  rewrite <- Q4 in O. unfold output in O. rewrite (nm_out _ _ _ _ _ C), Hout in O.
  destruct (nm_aout _ _ _ _ _ C) as [O1 O2]. rewrite O1, O2, EA in O.
  destruct (nm_C _ _ _ _ _ C) as [O3 _]. rewrite O3 in O, Eb. simpl in Eb.
  destruct (bias_of (last_layer N)) as [|b' [|]]; try discriminate. injection Eb as ->.
  unfold lhs, term in O. cbn in O. injection O as O. rewrite <- O. ring.
Qed.

(** The step exists when there are at least two units. *)
Lemma relu_output_total : forall xv vt m, (2 <= num_units (hidden N))%nat ->
  (exists c B out, output_constraint solve meth N x_lo x_up = Some (c, B, out)) ->
  exists m' rr, add_relu_output solve meth N x_lo x_up xv vt m = Some (m', rr).
Proof.
  intros xv vt m U (c & B & out & E). unfold add_relu_output. rewrite E.
  assert (C := output_constraint_mic solve Hsolve n _ _ _ _ _ _ _ W L1 L2 E).
  destruct (add_mic c xv None NewBinary vt m) as [[m1 z] be].
  destruct (nm_A _ _ _ _ _ C) as (A & EA & WA & FA). rewrite EA. rewrite Hout in WA.
  destruct A as [|a [|]]; try discriminate. apply Forall_inv in FA.
  destruct (nm_C _ _ _ _ _ C) as [O3 O4]. rewrite O3. rewrite Hout in O4.
  destruct (bias_of (last_layer N)) as [|b' [|]]; try discriminate.
  destruct a as [|a0 [|a1 a]]; simpl in FA; try lia. simpl. eauto.
Qed.

End Solver.

(** ** The 1-norm *)

Section Norm.
Variable n : nat.
Variables x_lo x_up : vec.
Hypothesis L1 : length x_lo = n.
Hypothesis L2 : length x_up = n.

Lemma abs_fields : forall lo up bz c, abs_mic lo up bz = Some c ->
  mic_ok c /\ nin c = 1%nat /\ nsl c = 1%nat /\
  input_lo c = None /\ input_up c = None /\ slack_lo c = None /\ slack_up c = None.
Proof.
  intros lo up bz c H. unfold abs_mic in H.
  destruct (Rleb lo up) eqn:E0; [cbn [negb] in H|discriminate].
  repeat match type of H with
    (if ?b then _ else _) = _ => let E := fresh "E" in destruct b eqn:E
  end.
  all: try (injection H as <-;
    split; [|repeat match goal with |- _ /\ _ => split end; reflexivity];
    unfold mic_ok, mic_wf, slack_size, binary_size, some_of3, num_out, num_ineq, num_eq;
    cbn [owf olen olen_is none_if Aout_input Aout_slack Aout_binary Cout Ain_input Ain_slack
         Ain_binary rhs_in Aeq_input Aeq_slack Aeq_binary rhs_eq input_lo input_up slack_lo
         slack_up binary_lo binary_up nin nsl nbin length map];
    unfold wfm; repeat match goal with |- _ /\ _ => split end; auto;
    try (repeat (constructor; auto); fail); try (intros; left; discriminate);
    try (intros; discriminate)).
  exfalso. unfold Rleb, Rltb, Reqb in *.
  destruct bz; cbn [negb] in *;
  destruct (Rle_dec 0 lo), (Rle_dec up 0), (Rlt_dec lo 0), (Rlt_dec 0 up), (Rlt_dec 0 lo),
    (Rlt_dec up 0), (Req_EM_T lo 0), (Req_EM_T up 0), (Rle_dec lo up); cbn in *; try discriminate; lra.
Qed.
Lemma abs_total : forall lo up bz, lo <= up -> exists c, abs_mic lo up bz = Some c.
Proof.
  intros lo up bz H. unfold abs_mic. unfold Rleb at 1. destruct (Rle_dec lo up); [|lra].
  cbn [negb]. repeat match goal with
    |- context [if ?b then _ else _] => destruct b end; eexists; reflexivity.
Qed.

Lemma l1_loop_step : forall bz xeq vt xv, length xv = n -> vt <> VCont ->
  forall M ls us st m m' s al,
  l1_loop n bz xeq M ls us xv vt m = Some (m', s, al) ->
  history st m -> below (nvars m) xv -> Forall (fun r => length r = n) M ->
  fresh (nvars m) (nvars m') s /\ length s = length M /\
  step vt st m m'
    (fun sg => in_box ls us (vadd (mv M (map sg xv)) (vneg (mv M xeq))))
    (fun sg => map sg s = map Rabs (vadd (mv M (map sg xv)) (vneg (mv M xeq)))).
Proof.
  intros bz xeq vt xv L V M.
  induction M as [|r M IH]; intros ls us st m m' s al H Hi B F; cbn [l1_loop] in H.
  - destruct ls, us; try discriminate. injection H as <- <- <-.
    split; [apply fresh_nil|]. split; auto.
    eapply step_weaken; [apply step_refl; auto|intros; exact I|intros; reflexivity].
  - destruct ls as [|l ls]; [discriminate|]. destruct us as [|u us]; [discriminate|].
    destruct (abs_mic l u bz) as [c|] eqn:Ec; [|discriminate].
    destruct (transform_input n [r] [- dot r xeq] c) as [c'|] eqn:Et; [|discriminate].
    destruct (add_mic c' xv None NewBinary vt m) as [[m1 s_i] al_i] eqn:Em.
    destruct s_i as [|s0 [|]]; try discriminate.
    destruct (l1_loop n bz xeq M ls us xv vt m1) as [[[m2 s'] al']|] eqn:El; [|discriminate].
    injection H as <- <- <-.
    destruct (abs_fields _ _ _ _ Ec) as (A1 & A2 & A3 & A4 & A5 & A6 & A7).
    inversion F as [|r0 M0 Lr F' E0]; subst r0 M0.
    assert (Wr : wfm (nin c) n [r]) by (rewrite A2; split; auto).
    destruct (transform_ok _ _ _ _ _ Et A1 Wr ltac:(rewrite A2; auto) A4 A5)
      as (T1 & T2 & T3 & T4 & T5 & T6 & T7 & T8 & T9).
    destruct (step_mic vt st _ _ _ _ _ _ _ Em T1 Hi B) as (S1 & S2 & S3 & S4 & _);
      [congruence|exact I|exact V|intros; repeat match goal with |- _ /\ _ => split end; congruence|].
    rewrite T3, A3 in S1. cbn [seq] in S1. injection S1 as S1.
    assert (N1 : (nvars m <= nvars m1)%nat) by lia.
    assert (Hi1 : history st m1) by apply S4.
    assert (B1 : below (nvars m1) xv).
    { eapply Forall_impl; try exact B. simpl; intros; lia. }
    destruct (IH _ _ _ _ _ _ _ El Hi1 B1 F') as (I1 & I2 & I3).
    assert (N2 : (nvars m1 <= nvars m2)%nat) by apply I3.
    assert (TS : forall (sg : assignment) sl bi, mic_sat c' (map sg xv) sl bi <->
       mic_sat c [dot r (map sg xv) + - dot r xeq] sl bi).
    { intros sg sl bi.
      destruct (transform_sat n [r] [- dot r xeq] c c' (map sg xv) sl bi Et (proj1 A1) Wr
        (eq_sym A2) (eq_trans (map_length _ _) L) A4 A5) as [K _]. exact K. }
    split; [|split].
    + change (s0 :: s') with ([s0] ++ s'). apply (fresh_app _ (nvars m1) (nvars m1)); auto; try lia.
      rewrite S1. split; [repeat constructor; simpl; tauto|]. constructor; auto. rewrite T3, A3 in S3. lia.
    + simpl. congruence.
    + eapply step_trans; [exact S4|exact I3| | | |].
      * apply (local_map m xv (fun x => in_box (l :: ls) (u :: us)
                  (vadd (mv (r :: M) x) (vneg (mv (r :: M) xeq)))) B).
      * intros sg G [D1 D2]. cbn [mv map] in D1, D2. unfold vneg, vadd in D1, D2. simpl in D1, D2.
        inversion D1; inversion D2; subst.
        destruct (abs_complete _ _ _ _ (dot r (map sg xv) + - dot r xeq) Ec) as [K1 K2]; [lra|].
        eexists. eexists. split; [exact K1|]. split; [|exact I].
        apply TS. exact K2.
      * intros sg G [D1 D2] _. cbn [mv map] in D1, D2. unfold vneg, vadd in D1, D2. simpl in D1, D2.
        inversion D1; inversion D2; subst. split; auto.
      * intros sg G (K1 & K2 & _) K3.
        apply TS in K2. destruct K2 as [K2 _].
        destruct (abs_sound _ _ _ _ _ _ _ Ec K1 K2) as (v & V1 & _ & V3 & _).
        cbn [map] in V3 |- *. injection V1 as V1. injection V3 as V3.
        rewrite K3. cbn [mv map]. unfold vadd, vneg. simpl. rewrite V3, V1. auto.
Qed.

Lemma l1_loop_total : forall bz xeq vt xv M ls us, length xv = n ->
  vle ls us -> length ls = length M -> Forall (fun r => length r = n) M ->
  forall m st, history st m -> below (nvars m) xv -> vt <> VCont ->
  exists m' s al, l1_loop n bz xeq M ls us xv vt m = Some (m', s, al).
Proof.
  intros bz xeq vt xv M. induction M as [|r M IH]; intros ls us L H Ll F m st Hi B V.
  - destruct ls; [|discriminate]. destruct us; [|inversion H]. simpl. eauto.
  - destruct ls as [|l ls]; [discriminate|]. destruct us as [|u us']; [inversion H|].
    assert (Hl : l <= u /\ vle ls us') by (inversion H; auto). clear H. destruct Hl as [Hl H'].
    cbn [l1_loop].
    destruct (abs_total l u bz Hl) as [c Ec]. rewrite Ec.
    destruct (abs_fields _ _ _ _ Ec) as (A1 & A2 & A3 & A4 & A5 & A6 & A7).
    destruct (transform_total n [r] [- dot r xeq] c ltac:(apply A1)) as [c' Et]. rewrite Et.
    inversion F as [|r0 M0 Lr F' E0]; subst r0 M0.
    assert (Wr : wfm (nin c) n [r]) by (rewrite A2; split; auto).
    destruct (transform_ok _ _ _ _ _ Et A1 Wr ltac:(rewrite A2; auto) A4 A5)
      as (T1 & T2 & T3 & T4 & T5 & T6 & T7 & T8 & T9).
    destruct (add_mic c' xv None NewBinary vt m) as [[m1 s_i] al_i] eqn:Em.
    destruct (step_mic vt st _ _ _ _ _ _ _ Em T1 Hi B) as (S1 & S2 & S3 & S4 & _);
      [congruence|exact I|exact V|intros; repeat match goal with |- _ /\ _ => split end; congruence|].
    rewrite T3, A3 in S1. cbn [seq] in S1. subst s_i.
    assert (B1 : below (nvars m1) xv).
    { eapply Forall_impl; try exact B. simpl; intros; lia. }
    destruct (IH ls us' L H' ltac:(simpl in Ll; lia) F' m1 st ltac:(apply S4) B1 V)
      as (m2 & s & al & ->). eauto.
Qed.

Lemma error_vec : forall M x xeq, Forall (fun r => length r = n) M -> length x = n ->
  length xeq = n -> vadd (mv M x) (vneg (mv M xeq)) = mv M (vsub x xeq).
Proof.
  intros M x xeq F Lx Le. induction F as [|r M Hr F IH]; auto.
  cbn [mv map]. unfold vneg, vadd in *. simpl. unfold mv in IH. rewrite IH. f_equal.
  clear - Hr Lx Le. unfold vsub. revert n x xeq Hr Lx Le. induction r; intros; subst.
  - simpl. destruct x; simpl; ring.
  - destruct x as [|x0 x], xeq as [|e xeq]; try discriminate. simpl.
    rewrite <- (IHr _ x xeq eq_refl) by (simpl in *; lia). ring.
Qed.

Variable R0 : option mat.
Variable xeq : vec.
Hypothesis WR : wfm (length (R_of n R0)) n (R_of n R0).

Lemma state_error_step : forall st bz xv vt m m' s al,
  add_state_error n x_lo x_up bz xeq R0 xv vt m = Some (m', s, al) ->
  history st m -> below (nvars m) xv -> length xv = n -> vt <> VCont ->
  fresh (nvars m) (nvars m') s /\ length s = length (R_of n R0) /\
  in_box x_lo x_up xeq /\ (n <= length (R_of n R0))%nat /\
  step vt st m m' (fun sg => in_box x_lo x_up (map sg xv))
    (fun sg => map sg s = map Rabs (mv (R_of n R0) (vsub (map sg xv) xeq))).
Proof.
  intros st bz xv vt m m' s al E Hi B L V. unfold add_state_error in E.
  destruct (vleb x_lo xeq) eqn:E1; [|discriminate].
  destruct (vleb xeq x_up) eqn:E2; [|discriminate]. cbn [negb andb] in E.
  apply vleb_spec in E1. apply vleb_spec in E2.
  rewrite get_R_ok in E by exact WR. set (M := R_of n R0) in *.
  destruct (Nat.leb n (length M)) eqn:E3; [|discriminate]. cbn [negb] in E.
  apply Nat.leb_le in E3.
  destruct (compute_range_by_IA n M (vneg (mv M xeq)) x_lo x_up) as [[lb ub]|] eqn:E4; [|discriminate].
  destruct (l1_loop_step _ _ _ _ L V _ _ _ _ _ _ _ _ E Hi B ltac:(apply WR)) as (S1 & S2 & S3).
  split; auto. split; auto. split; [split; auto|]. split; auto.
  assert (Le : length xeq = n) by (rewrite <- L1; symmetry; eapply vle_length; eauto).
  eapply step_weaken; [exact S3| |].
  - intros sg G D. eapply range_sound; eauto. apply WR.
  - intros sg G Q. rewrite Q. rewrite error_vec; auto.
    + apply WR.
    + rewrite map_length; auto.
Qed.

Lemma state_error_total : forall st bz xv vt m, in_box x_lo x_up xeq ->
  (n <= length (R_of n R0))%nat -> history st m -> below (nvars m) xv -> length xv = n ->
  vt <> VCont ->
  exists m' s al, add_state_error n x_lo x_up bz xeq R0 xv vt m = Some (m', s, al).
Proof.
  intros st bz xv vt m [Bx1 Bx2] Hr Hi B L V. unfold add_state_error.
  apply vleb_spec in Bx1. apply vleb_spec in Bx2. rewrite Bx1, Bx2. cbn [negb andb].
  apply vleb_spec in Bx1. apply vleb_spec in Bx2.
  rewrite get_R_ok by exact WR. set (M := R_of n R0) in *.
  apply Nat.leb_le in Hr. rewrite Hr. cbn [negb].
  assert (Lb : length (vneg (mv M xeq)) = length M) by (unfold vneg; rewrite map_length; apply mv_length).
  assert (Bl : vle x_lo x_up) by (eapply vle_trans; eauto).
  destruct (range_prop n M (vneg (mv M xeq)) x_lo x_up) as (lb & ub & E & K & _); auto.
  { rewrite Lb. exact WR. }
  rewrite E. specialize (K xeq ltac:(split; auto)). destruct K as [K1 K2].
  eapply l1_loop_total; eauto.
  - eapply vle_trans; eauto.
  - rewrite (vle_length _ _ K1). rewrite vadd_length; rewrite ?mv_length; auto.
  - apply WR.
Qed.

(** It is rejected exactly when x_eq is outside of the box or R has too few rows. *)
Lemma state_error_reject : forall st bz xv vt m, length xeq = n ->
  history st m -> below (nvars m) xv -> length xv = n -> vt <> VCont ->
  (add_state_error n x_lo x_up bz xeq R0 xv vt m = None <->
   ~ in_box x_lo x_up xeq \/ (length (R_of n R0) < n)%nat).
Proof.
  intros st bz xv vt m Le Hi B L V.
  destruct (add_state_error n x_lo x_up bz xeq R0 xv vt m) as [[[m' s] al]|] eqn:E.
  - split; [discriminate|]. destruct (state_error_step st _ _ _ _ _ _ _ E) as (_ & _ & K1 & K2 & _); auto.
    intros [K|K]; [tauto|lia].
  - split; auto. intros _.
    destruct (vleb x_lo xeq && vleb xeq x_up)%bool eqn:E1.
    + right. destruct (Nat.lt_ge_cases (length (R_of n R0)) n); auto. exfalso.
      apply andb_prop in E1. destruct E1 as [E1 E2]. apply vleb_spec in E1. apply vleb_spec in E2.
      destruct (state_error_total st bz xv vt m) as (m' & s & al & K); auto; [split; auto|congruence].
    + left. intros [K1 K2]. apply vleb_spec in K1. apply vleb_spec in K2. rewrite K1, K2 in E1. discriminate.
Qed.
End Norm.
