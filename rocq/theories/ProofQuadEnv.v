(** The environment of the planar quadrotor. *)

Require Import Reals List Lia Lra Psatz Arith Bool.
Require Import Verif.Vec Verif.VecFacts Verif.ModelPlants Verif.ModelTd3 Verif.ModelQuadEnv Verif.SpecQuadEnv.
Import ListNotations.
Open Scope R_scope.

Section Env.
Variable next_pose : vec -> vec -> R -> vec.
Variable rand : nat -> vec.
Notation step := (env_step next_pose).
Notation reset := (env_reset rand).
Definition reward_of (a x : vec) : R :=
  let da := vsub a env_act_equ in
  let dx := vsub x env_obs_equ in - dot da (mv env_R da) - dot dx (mv env_Q dx).

Lemma reward_value : forall u0 u1 x z th xd zd thd,
  reward_of [u0; u1] [x; z; th; xd; zd; thd] = - penalty u0 u1 x z th xd zd thd.
Proof.
  intros. unfold reward_of, env_act_equ, env_obs_equ, env_R, env_Q, diag, penalty, hover. cbn. assert (H := PI_RGT_0). field. lra.
Qed.
Lemma coefficient_pos : 0 < 25 / 100 / 2 / PI.
Proof. assert (H := PI_RGT_0). apply Rmult_lt_0_compat; [lra|]. apply Rinv_0_lt_compat. auto. Qed.
Lemma penalty_zero : forall u0 u1 x z th xd zd thd, 0 <= penalty u0 u1 x z th xd zd thd /\
  (penalty u0 u1 x z th xd zd thd = 0 <-> u0 = hover /\ u1 = hover /\ [x; z; th; xd; zd; thd] = zeros 6).
Proof.
  intros. unfold penalty. set (a := u0 - hover). set (b := u1 - hover). assert (C := coefficient_pos). set (k := 25 / 100 / 2 / PI) in *.
  assert (Q : / 10 * a ^ 2 + / 10 * a * b + / 10 * b ^ 2 = / 20 * (a + b) ^ 2 + / 20 * a ^ 2 + / 20 * b ^ 2) by field.
  assert (S1 : forall w, 0 <= w ^ 2) by (intros; apply pow2_ge_0).
  assert (Hk : 0 <= k * thd ^ 2) by (apply Rmult_le_pos; [lra|auto]).
  assert (P1 := S1 (a + b)). assert (P2 := S1 a). assert (P3 := S1 b). assert (P4 := S1 x). assert (P5 := S1 z). assert (P6 := S1 th).
  assert (P7 := S1 xd). assert (P8 := S1 zd). split; [lra|]. split.
  - intros E. assert (Z : forall w, w ^ 2 = 0 -> w = 0) by (intros w Hw; apply Rsqr_0_uniq; unfold Rsqr; lra).
    assert (a = 0) by (apply Z; lra). assert (b = 0) by (apply Z; lra). assert (x = 0) by (apply Z; lra). assert (z = 0) by (apply Z; lra).
    assert (th = 0) by (apply Z; lra). assert (xd = 0) by (apply Z; lra). assert (zd = 0) by (apply Z; lra).
    assert (thd = 0).
    { apply Z. assert (K : k * thd ^ 2 = 0) by lra. apply Rmult_integral in K. destruct K; [lra|auto]. }
    subst. unfold a, b in *. split; [lra|]. split; [lra|]. reflexivity.
  - intros (E1 & E2 & E3). assert (a = 0) by (unfold a; lra). assert (b = 0) by (unfold b; lra).
    cbn in E3. inversion E3; subst. rewrite H, H0. ring.
Qed.
Lemma six : forall x : vec, length x = 6%nat -> exists a b c d e f, x = [a; b; c; d; e; f].
Proof. intros x L. do 6 (destruct x as [|? x]; [discriminate|]). destruct x; [|discriminate]. repeat eexists. Qed.
Lemma two : forall x : vec, length x = 2%nat -> exists a b, x = [a; b].
Proof. intros x L. do 2 (destruct x as [|? x]; [discriminate|]). destruct x; [|discriminate]. repeat eexists. Qed.
Lemma reward_best : forall a x, length a = 2%nat -> length x = 6%nat ->
  reward_of a x <= 0 /\ (reward_of a x = 0 <-> a = [hover; hover] /\ x = zeros 6).
Proof.
  intros a x La Lx. destruct (two a La) as (u0 & u1 & ->). destruct (six x Lx) as (x0 & z & th & xd & zd & thd & ->).
  rewrite reward_value. destruct (penalty_zero u0 u1 x0 z th xd zd thd) as [P Z]. split; [lra|].
  split.
  - intros E. destruct Z as [Z _]. destruct Z as (-> & -> & ->); [lra|]. auto.
  - intros [E1 E2]. destruct Z as [_ Z]. rewrite Z; [lra|]. assert (u0 = hover) by congruence. assert (u1 = hover) by congruence. auto.
Qed.
Lemma step_value : forall e a, step e a =
  (mkEnv (next_pose (ev_x e) a env_dt) (ev_t e + env_dt) (ev_draws e), next_pose (ev_x e) a env_dt,
   reward_of a (next_pose (ev_x e) a env_dt), false).
Proof. reflexivity. Qed.

Lemma step_reward : forall e u0 u1 x z th xd zd thd, next_pose (ev_x e) [u0; u1] (/ 100) = [x; z; th; xd; zd; thd] ->
  step e [u0; u1] = (mkEnv [x; z; th; xd; zd; thd] (ev_t e + / 100) (ev_draws e), [x; z; th; xd; zd; thd], - penalty u0 u1 x z th xd zd thd, false).
Proof. intros. rewrite step_value. unfold env_dt. rewrite H, reward_value. reflexivity. Qed.
Hypothesis pose6 : forall x a dt, length x = 6%nat -> length a = 2%nat -> length (next_pose x a dt) = 6%nat.
Notation states := (visited (fun x a => next_pose x a (/ 100))).
Lemma episode_best : forall actions e, length (ev_x e) = 6%nat -> Forall (fun a => length a = 2%nat) actions ->
  snd (episode next_pose e actions) <= 0 /\
  (snd (episode next_pose e actions) = 0 <->
   Forall (fun a => a = [hover; hover]) actions /\ Forall (fun x => x = zeros 6) (states (ev_x e) actions)).
Proof.
  induction actions as [|a actions IH]; intros e L F; [cbn; split; [lra|]; split; [intros; split; constructor|auto]|].
  inversion F as [|? ? F1 F2]; subst. cbn [episode visited]. rewrite step_value. change (/ 100) with env_dt.
  set (x := next_pose (ev_x e) a env_dt). assert (Lx : length x = 6%nat) by (apply pose6; auto).
  destruct (IH (mkEnv x (ev_t e + env_dt) (ev_draws e)) Lx F2) as [I1 I2].
  destruct (episode next_pose (mkEnv x (ev_t e + env_dt) (ev_draws e)) actions) as [e'' s]. cbn [snd ev_x] in *.
  destruct (reward_best a x F1 Lx) as [R1 R2]. change (/ 100) with env_dt in I2. split; [lra|]. split.
  - intros E. destruct R2 as [R2 _]. destruct I2 as [I2 _]. destruct R2; [lra|]. destruct I2; [lra|]. split; constructor; auto.
  - intros [G1 G2]. inversion G1; inversion G2; subst. destruct R2 as [_ R2]. destruct I2 as [_ I2]. rewrite R2, I2 by auto. lra.
Qed.
(** Hovering at the equilibrium is a best episode, if the integrator leaves states at rest alone. *)
Lemma hover_rest : quad2d_np quad2d_default (zeros 6) [hover; hover] = Some (zeros 6).
Proof.
  cbn. rewrite sin_0, cos_0. f_equal. unfold hover. cbn. repeat f_equal; field.
Qed.
Lemma hover_best : (forall x u dt, quad2d_np quad2d_default x u = Some (zeros 6) -> next_pose x u dt = x) ->
  forall k e, ev_x e = zeros 6 -> snd (episode next_pose e (repeat [hover; hover] k)) = 0.
Proof.
  intros Rest k. induction k as [|k IH]; intros e E; [reflexivity|]. cbn [repeat episode]. rewrite step_value, E.
  rewrite (Rest (zeros 6) [hover; hover] env_dt hover_rest).
  specialize (IH (mkEnv (zeros 6) (ev_t e + env_dt) (ev_draws e)) eq_refl).
  destruct (episode next_pose (mkEnv (zeros 6) (ev_t e + env_dt) (ev_draws e)) (repeat [hover; hover] k)) as [e'' s]. cbn [snd] in *. rewrite IH.
  assert (Z : reward_of [hover; hover] (zeros 6) = 0) by (apply reward_best; auto). rewrite Z. ring.
Qed.
Lemma hover_allowed : Forall2 Rle env_u_lo [hover; hover] /\ Forall2 Rle [hover; hover] env_u_up /\ env_act_equ = [hover; hover].
Proof. unfold env_u_lo, env_u_up, env_act_equ, hover. cbn. split; [|split]; [repeat constructor; lra|repeat constructor; lra|reflexivity]. Qed.
(** A reset is within the box, whatever numbers between 0 and 1 are drawn, and every point of the box can be drawn. *)
Lemma affine_in : forall up r, Forall (fun w => 0 <= w) up -> length r = length up -> Forall (fun w => 0 <= w <= 1) r ->
  Forall2 Rle (vneg up) (vadd (map2 Rmult r (vsub up (vneg up))) (vneg up)) /\ Forall2 Rle (vadd (map2 Rmult r (vsub up (vneg up))) (vneg up)) up.
Proof.
  induction up as [|w up IH]; intros [|q r] F L G; cbn in L; try lia; [split; constructor|].
  inversion F; inversion G; subst. destruct (IH r) as [I1 I2]; auto. cbn [vneg map vsub map2 vadd].
  split; constructor; auto; nra.
Qed.
Lemma up_nonneg : Forall (fun w => 0 <= w) env_x_up.
Proof. assert (H := PI_RGT_0). unfold env_x_up. repeat constructor; lra. Qed.
Lemma reset_in_box : forall e, length (rand (ev_draws e)) = 6%nat -> Forall (fun w => 0 <= w <= 1) (rand (ev_draws e)) ->
  Forall2 Rle env_x_lo (snd (reset e)) /\ Forall2 Rle (snd (reset e)) env_x_up /\ ev_x (fst (reset e)) = snd (reset e) /\ ev_t (fst (reset e)) = 0.
Proof.
  intros e L F. unfold env_reset. cbn [fst snd ev_x ev_t]. destruct (affine_in env_x_up (rand (ev_draws e)) up_nonneg L F) as [A B].
  split; [exact A|]. split; [exact B|]. auto.
Qed.
Lemma reset_reaches : forall x, Forall2 Rle env_x_lo x -> Forall2 Rle x env_x_up ->
  exists r, length r = 6%nat /\ Forall (fun w => 0 <= w <= 1) r /\ vadd (map2 Rmult r (vsub env_x_up env_x_lo)) env_x_lo = x.
Proof.
  assert (G : forall up x, Forall (fun w => 0 < w) up -> Forall2 Rle (vneg up) x -> Forall2 Rle x up ->
    exists r, length r = length up /\ Forall (fun w => 0 <= w <= 1) r /\ vadd (map2 Rmult r (vsub up (vneg up))) (vneg up) = x).
  { induction up as [|w up IH]; intros x F A B.
    - inversion B; subst. exists []. repeat split; constructor.
    - inversion F as [|? ? F1 F2]; subst. inversion B as [|c ? x' ? B1 B2]; subst. inversion A as [|? ? ? ? A1 A2]; subst.
      destruct (IH x' F2 A2 B2) as (r & Lr & Fr & Er). exists ((c + w) / (2 * w) :: r). split; [cbn; congruence|]. split.
      + constructor; [|auto]. split.
        * apply Rmult_le_pos; [lra|left; apply Rinv_0_lt_compat; lra].
        * apply Rmult_le_reg_r with (2 * w); [lra|]. unfold Rdiv. rewrite Rmult_assoc, Rinv_l by lra. lra.
      + cbn [vneg map vsub map2 vadd]. f_equal; [field; lra|exact Er]. }
  intros x A B. destruct (G env_x_up x) as (r & Lr & Fr & Er); auto; [|exists r; auto].
  assert (H := PI_RGT_0). unfold env_x_up. repeat constructor; lra.
Qed.

(** ** Training with this environment *)
Section Train.
Variable L : Type.
Variable policy : L -> vec -> vec.
Variable gradient_step : L -> replay -> nat -> nat -> option L.
Variable low high : vec.
Variable noise sample : nat -> vec.
Variable start_steps update_after update_every max_ep_len : nat.
Notation loop := (train_loop env reset step L policy gradient_step low high noise sample start_steps update_after update_every max_ep_len).
Notation run := (run_steps env reset step L policy gradient_step low high noise sample start_steps update_after update_every max_ep_len).
Definition good (s : loop_state env L) : Prop :=
  ev_x (lp_env _ _ s) = lp_obs _ _ s /\
  Forall (fun tr => tr_done tr = false /\ tr_obs2 tr = next_pose (tr_obs tr) (tr_act tr) env_dt /\ tr_rew tr = reward_of (tr_act tr) (tr_obs2 tr))
    (lp_trace _ _ s).
Definition counted (n : nat) (s : loop_state env L) : Prop :=
  lp_len _ _ s = (n mod max_ep_len)%nat /\ lp_resets _ _ s = filter (fun t => Nat.eqb (S t mod max_ep_len) 0) (seq 0 n).
Lemma run_good : forall n s0 s, (0 < max_ep_len)%nat -> good s0 -> lp_len _ _ s0 = 0%nat -> lp_resets _ _ s0 = [] ->
  run n s0 = Some s -> good s /\ counted n s.
Proof.
  intros n s0. induction n as [|n IH]; intros s M G L0 R0 E.
  - cbn [run_steps] in E. assert (s0 = s) by congruence. subst. split; [auto|]. split; [rewrite L0, Nat.mod_0_l by lia; auto|auto].
  - cbn [run_steps] in E. destruct (run n s0) as [s1|]; [|discriminate]. destruct (IH s1 M G L0 R0 eq_refl) as [[Gx Gt] [Cl Cr]]. clear IH.
    unfold body in E. set (a := if Nat.ltb start_steps n then _ else _) in E. rewrite step_value in E.
    set (x := next_pose (ev_x (lp_env env L s1)) a env_dt) in *.
    assert (D : (if Nat.eqb (lp_len env L s1 + 1) max_ep_len then false else false) = false) by (destruct (Nat.eqb _ _); auto).
    rewrite D in E. set (tr := mkTr (lp_obs env L s1) a (reward_of a x) x false) in *.
    destruct (store (lp_buf env L s1) tr) as [buf|]; [|discriminate]. cbn [orb] in E.
    assert (Tr : Forall (fun tr => tr_done tr = false /\ tr_obs2 tr = next_pose (tr_obs tr) (tr_act tr) env_dt /\ tr_rew tr = reward_of (tr_act tr) (tr_obs2 tr))
      (lp_trace _ _ s1 ++ [tr])).
    { apply Forall_app. split; [auto|]. constructor; [|constructor]. unfold tr. cbn. split; [auto|]. split; [|auto]. unfold x. rewrite Gx. auto. }
    assert (Md : ((n mod max_ep_len + 1) = max_ep_len -> S n mod max_ep_len = 0)%nat /\ ((n mod max_ep_len + 1) <> max_ep_len -> S n mod max_ep_len = n mod max_ep_len + 1)%nat).
    { assert (B := Nat.mod_upper_bound n max_ep_len ltac:(lia)). assert (Q := Nat.div_mod n max_ep_len ltac:(lia)).
      split; intros H.
      - symmetry. apply (Nat.mod_unique _ _ (S (n / max_ep_len))); [lia|]. nia.
      - symmetry. apply (Nat.mod_unique _ _ (n / max_ep_len)); lia. }
    destruct Md as [Md1 Md2].
    assert (Sq : seq 0 (S n) = seq 0 n ++ [n]) by (rewrite seq_S; reflexivity).
    destruct (Nat.eqb (lp_len env L s1 + 1) max_ep_len) eqn:Ov.
    + apply Nat.eqb_eq in Ov. rewrite Cl in Ov. specialize (Md1 Ov).
      unfold env_reset in E. cbn [ev_draws] in E.
      set (x0 := vadd (map2 Rmult (rand (ev_draws (lp_env env L s1))) (vsub env_x_up env_x_lo)) env_x_lo) in *.
      assert (K : good s /\ lp_len _ _ s = 0%nat /\ lp_resets _ _ s = lp_resets _ _ s1 ++ [n]).
      { destruct (Nat.leb update_after n); [destruct (Nat.eqb update_every 0); [discriminate|]; destruct (Nat.eqb (n mod update_every) 0); [destruct (updates _ _ _ _ _ _); [|discriminate]|]|];
        match type of E with Some ?u = Some ?v => assert (QQ : u = v) by congruence end; subst s; (split; [split; [reflexivity|exact Tr]|split; reflexivity]). }
      destruct K as (K1 & K2 & K3). split; [auto|]. split; [rewrite K2, Md1; auto|].
      rewrite K3, Cr, Sq, filter_app. cbn [filter]. rewrite Md1. reflexivity.
    + apply Nat.eqb_neq in Ov. rewrite Cl in Ov. specialize (Md2 Ov).
      assert (K : good s /\ lp_len _ _ s = (lp_len _ _ s1 + 1)%nat /\ lp_resets _ _ s = lp_resets _ _ s1).
      { destruct (Nat.leb update_after n); [destruct (Nat.eqb update_every 0); [discriminate|]; destruct (Nat.eqb (n mod update_every) 0); [destruct (updates _ _ _ _ _ _); [|discriminate]|]|];
        match type of E with Some ?u = Some ?v => assert (QQ : u = v) by congruence end; subst s; (split; [split; [reflexivity|exact Tr]|split; reflexivity]). }
      destruct K as (K1 & K2 & K3). split; [auto|]. split; [rewrite K2, Cl, Md2; auto|].
      rewrite K3, Cr, Sq, filter_app. cbn [filter]. rewrite Md2. destruct (Nat.eqb (n mod max_ep_len + 1) 0) eqn:Z; [apply Nat.eqb_eq in Z; lia|]. rewrite app_nil_r. reflexivity.
Qed.
Lemma trained0 : forall total e buf l s, (0 < max_ep_len)%nat -> loop total e buf l = Some s ->
  Forall (fun tr => tr_done tr = false /\ tr_obs2 tr = next_pose (tr_obs tr) (tr_act tr) env_dt /\ tr_rew tr = reward_of (tr_act tr) (tr_obs2 tr))
    (lp_trace _ _ s) /\
  lp_resets _ _ s = filter (fun t => Nat.eqb (S t mod max_ep_len) 0) (seq 0 total).
Proof.
  intros total e buf l s M E. unfold train_loop in E. destruct (reset e) as [e0 o] eqn:Er.
  assert (Q : ev_x e0 = o) by (unfold env_reset in Er; inversion Er; reflexivity).
  destruct (run_good total (mkLoop _ _ e0 o 0 buf l [] [] []) s) as [[_ G] [_ C]]; auto. split; [exact Q|constructor].
Qed.
Lemma trained : forall total e buf l s, (0 < max_ep_len)%nat -> loop total e buf l = Some s ->
  Forall (fun tr => tr_done tr = false /\ tr_obs2 tr = next_pose (tr_obs tr) (tr_act tr) (/ 100) /\
    forall u0 u1 x z th xd zd thd, tr_act tr = [u0; u1] -> tr_obs2 tr = [x; z; th; xd; zd; thd] -> tr_rew tr = - penalty u0 u1 x z th xd zd thd)
    (lp_trace _ _ s) /\
  lp_resets _ _ s = filter (fun t => Nat.eqb (S t mod max_ep_len) 0) (seq 0 total).
Proof.
  intros total e buf l s M E. destruct (trained0 total e buf l s M E) as [T C]. split; [|exact C].
  eapply Forall_impl; [|exact T]. intros tr (A & B & G). split; [auto|]. split; [auto|]. intros. rewrite G, H, H0. apply reward_value.
Qed.
End Train.
End Env.

(** ** Leaving the observation space *)
Definition fall (t : R) : vec := [0; - (3 / 10) - 15 / 10 * t - 981 / 100 / 2 * t ^ 2; 0; 0; - (15 / 10) - 981 / 100 * t; 0].
Lemma fall_motion : forall T, motion [0; 0] fall T.
Proof.
  intros T t _. split; [reflexivity|]. exists [0; - (15 / 10) - 981 / 100 * t; 0; 0; - (981 / 100); 0]. split.
  - cbn. rewrite sin_0, cos_0. cbn. f_equal. repeat f_equal; field.
  - intros j Hj. unfold fall. destruct j as [|[|[|[|[|[|j]]]]]]; cbn [nth]; [| | | | | |lia].
    1,3,4,6: apply derivable_pt_lim_const.
    + replace (- (15 / 10) - 981 / 100 * t) with (0 - 15 / 10 * 1 - 981 / 100 / 2 * (INR 2 * t ^ (pred 2))) by (cbn; field).
      apply (derivable_pt_lim_minus (fun s => - (3 / 10) - 15 / 10 * s) (fun s => 981 / 100 / 2 * s ^ 2)).
      * apply (derivable_pt_lim_minus (fun _ => - (3 / 10)) (fun s => 15 / 10 * s)); [apply derivable_pt_lim_const|].
        apply (derivable_pt_lim_scal id); apply derivable_pt_lim_id.
      * apply (derivable_pt_lim_scal (fun s => s ^ 2)). apply derivable_pt_lim_pow.
    + replace (- (981 / 100)) with (0 - 981 / 100 * 1) by ring.
      apply (derivable_pt_lim_minus (fun _ => - (15 / 10)) (fun s => 981 / 100 * s)); [apply derivable_pt_lim_const|].
      apply (derivable_pt_lim_scal id); apply derivable_pt_lim_id.
Qed.
Lemma leaves_box : exists next_pose rand y e a x,
  Forall (fun w => 0 <= w <= 1) (rand 0%nat) /\ length (rand 0%nat) = 6%nat /\
  motion a y env_dt /\ next_pose (y 0) a env_dt = y env_dt /\
  env_reset rand (mkEnv (zeros 6) 0 0) = (e, y 0) /\
  Forall2 Rle env_u_lo a /\ Forall2 Rle a env_u_up /\
  snd (fst (fst (env_step next_pose e a))) = x /\ ~ Forall2 Rle env_x_lo x /\ snd (env_step next_pose e a) = false.
Proof.
  assert (H := PI_RGT_0).
  assert (R : vadd (map2 Rmult [1 / 2; 0; 1 / 2; 1 / 2; 0; 1 / 2] (vsub env_x_up env_x_lo)) env_x_lo = fall 0).
  { unfold env_x_lo, env_x_up, fall. cbn. repeat (apply (f_equal2 (@cons R)); [field|]). reflexivity. }
  exists (fun _ _ _ => fall env_dt), (fun _ => [1 / 2; 0; 1 / 2; 1 / 2; 0; 1 / 2]), fall.
  exists (mkEnv (fall 0) 0 1), [0; 0], (fall env_dt).
  split; [repeat constructor; lra|]. split; [reflexivity|]. split; [apply fall_motion|]. split; [reflexivity|].
  split; [unfold env_reset; cbn [ev_draws]; rewrite R; reflexivity|].
  split; [unfold env_u_lo; repeat constructor; lra|]. split; [unfold env_u_up; repeat constructor; lra|]. split; [reflexivity|].
  split; [|reflexivity]. intros C. unfold env_x_lo, env_x_up, fall, env_dt in C. cbn in C.
  inversion C as [|? ? ? ? _ C1]; subst. inversion C1 as [|? ? ? ? C2 _]; subst. lra.
Qed.
(** The free fall is in the hypotheses of the theorems on episodes, too. *)
Lemma env_case : exists next_pose : vec -> vec -> R -> vec, (forall x a dt, length x = 6%nat -> length a = 2%nat -> length (next_pose x a dt) = 6%nat) /\
  (forall x u dt, quad2d_np quad2d_default x u = Some (zeros 6) -> next_pose x u dt = x).
Proof.
  exists (fun x u dt => match quad2d_np quad2d_default x u with Some d => vadd x (vscale dt d) | None => x end). split.
  - intros x a dt Lx La. destruct (six x Lx) as (? & ? & ? & ? & ? & ? & ->). destruct (two a La) as (? & ? & ->). reflexivity.
  - intros x u dt E. rewrite E. do 6 (destruct x as [|? x]; [discriminate|]). destruct x; [|discriminate]. cbn. repeat f_equal; ring.
Qed.
(** Three steps of training with episodes of two steps. *)
Lemma training_case : exists s, train_loop env (env_reset (fun _ => repeat (/ 2) 6)) (env_step (fun x _ _ => x)) unit (fun _ _ => [1; 1]) (fun _ _ _ _ => Some tt)
  [0; 0] [8; 8] (fun _ => [0; 0]) (fun _ => [hover; hover]) 5 5 5 2 3 (mkEnv (zeros 6) 0 0) (new_replay 6 2 10) tt = Some s /\
  length (lp_trace _ _ s) = 3%nat /\ lp_resets _ _ s = [1%nat].
Proof. eexists. split; [cbv -[env_step env_reset Rmult Rplus]; unfold env_step, env_reset; cbv beta iota zeta delta [ev_x ev_t ev_draws]; reflexivity|]. split; reflexivity. Qed.
