(** Lemmas for ModelDerivList.v: the right derivative of V is in the list; the
    optimum of the derivative program is in the list. *)

Require Import Reals List Lra Lia Bool Arith.
Require Import Verif.Vec Verif.VecFacts Verif.ModelMip Verif.SpecMip Verif.SpecCore Verif.ModelUtils Verif.SpecUtils
  Verif.ModelGrad Verif.ModelNet Verif.SpecNet Verif.SpecStep Verif.ModelPattern Verif.SpecPattern Verif.ModelLyapunov
  Verif.SpecLyapunov Verif.ModelContinuous Verif.SpecContinuous Verif.ModelHybrid Verif.SpecHybrid Verif.ModelContHybrid
  Verif.SpecContHybrid Verif.ModelDerivList Verif.SpecDerivList
  Verif.ProofGrad Verif.ProofPattern Verif.ProofLyapunov Verif.ProofLoss Verif.ProofContinuous Verif.ProofContinuous5
  Verif.ProofContinuous6 Verif.ProofNetBounds Verif.ProofHybrid2 Verif.ProofDerivList Verif.ProofDerivList2.
Import ListNotations.
Open Scope R_scope.

Lemma near_box : forall m y t d, (forall s, length (y s) = m) -> vrd y t d ->
  exists l u, length l = m /\ length u = m /\ in_box l u (y t) /\
    exists del, 0 < del /\ forall h, 0 < h < del -> in_box l u (y (t + h)).
Proof.
  intros m. induction m as [|m IH]; intros y t d Ly H.
  - assert (Ey : forall s, y s = []) by (intros s; specialize (Ly s); destruct (y s); auto; discriminate).
    exists [], []. split; auto. split; auto. rewrite Ey. split; [split; constructor|].
    exists 1. split; [lra|]. intros h _. rewrite Ey. split; constructor.
  - assert (Ey : forall s, y s = nth 0 (y s) 0 :: tl (y s)).
    { intros s. specialize (Ly s). destruct (y s); [discriminate|]. auto. }
    destruct (IH (fun s => tl (y s)) t (tl d)) as (l & u & L1 & L2 & B0 & del & Pd & B).
    { intros s. specialize (Ly s). rewrite Ey in Ly. simpl in Ly. lia. }
    { intros i. rewrite nth_tl. apply (rderiv_ext (fun s => nth (S i) (y s) 0)); [intros; symmetry; apply nth_tl|].
      apply (H (S i)). }
    destruct (rderiv_near _ _ _ (H 0%nat) 1) as (d1 & P1 & K); [lra|].
    set (v := nth 0 (y t) 0) in *.
    exists ((v - 1) :: l), ((v + 1) :: u). split; [simpl; auto|]. split; [simpl; auto|].
    split; [rewrite Ey; destruct B0; split; constructor; auto; fold v; lra|].
    exists (Rmin d1 del). split; [apply Rmin_glb_lt; auto|]. intros h Hh.
    assert (h < d1) by (eapply Rlt_le_trans; [apply Hh|apply Rmin_l]).
    assert (h < del) by (eapply Rlt_le_trans; [apply Hh|apply Rmin_r]).
    specialize (K h ltac:(lra)). destruct (B h) as [B1 B2]; [lra|].
    apply Rabs_def2 in K. rewrite Ey. split; constructor; auto; lra.
Qed.

Lemma pres_box : forall hs n out y t d, hidden_wf n hs out -> vrd y t d ->
  exists lo up, length lo = num_units hs /\ length up = num_units hs /\
    in_box lo up (concat (pre_acts hs (y t))) /\
    exists del, 0 < del /\ forall h, 0 < h < del -> in_box lo up (concat (pre_acts hs (y (t + h)))).
Proof.
  induction hs as [|[l a] hs IH]; intros n out y t d W H.
  - exists [], []. split; auto. split; auto. cbn. split; [split; constructor|].
    exists 1. split; [lra|]. intros. split; constructor.
  - destruct W as [W1 W2]. assert (Ll := fun x => lin_len _ _ x W1).
    assert (H1 := vrd_lin _ _ _ _ _ W1 H).
    destruct (near_box (out_features l) _ t _ (fun s => Ll (y s)) H1) as (lo1 & up1 & L1 & L2 & B0 & del1 & P1 & B1).
    destruct (vrd_kink (kslope a) (out_features l) _ t _ lo1 up1 H1) as (pat & F1 & F2 & F3); auto.
    { apply mv_length. }
    { exists del1. auto. }
    assert (F4 : vrd (fun s => map (act_fun a) (lin_eval l (y s))) t
       (map2 (fun b v => act_slope a b * v) pat (mv (weight l) d))).
    { intros i. apply (rderiv_ext (fun s => nth i (map (kink (kslope a)) (lin_eval l (y s))) 0)).
      - intros s. f_equal. apply map_ext. intros x. symmetry. apply act_kink.
      - exact (F3 i). }
    destruct (IH _ out _ t _ W2 F4) as (lo2 & up2 & L3 & L4 & C0 & del2 & P2 & C1).
    exists (lo1 ++ lo2), (up1 ++ up2). cbn [num_units pre_acts concat]. rewrite !app_length.
    unfold vec in *. rewrite L1, L2, L3, L4. split; auto. split; auto.
    split; [destruct B0, C0; split; apply vle_app; auto|].
    exists (Rmin del1 del2). split; [apply Rmin_glb_lt; auto|]. intros h Hh.
    assert (h < del1) by (eapply Rlt_le_trans; [apply Hh|apply Rmin_l]).
    assert (h < del2) by (eapply Rlt_le_trans; [apply Hh|apply Rmin_r]).
    destruct (B1 h); [lra|]. destruct (C1 h); [lra|]. split; apply vle_app; auto.
Qed.

(** Along every curve V has a right derivative, and it is the selected gradient
    times the velocity. *)
Lemma V_directional : forall n N M lam xeq y t d, net_wf n N -> length xeq = n -> leaves n y t d ->
  exists pats sgs, selects N M xeq (y t) pats sgs /\
    rderiv (fun s => V N M lam xeq (y s)) t (Vdot N M lam pats sgs d).
Proof.
  intros n N M lam xeq y t d W Le [Ly H]. assert (Wf := W). destruct W as (_ & Wh & Wl).
  destruct (pres_box _ _ _ y t d Wh H) as (blo & bup & L1 & L2 & B0 & d1 & P1 & B1).
  assert (H2 : vrd (fun s => vsub (y s) xeq) t d).
  { intros i. apply (rderiv_ext (fun s => - nth i xeq 0 + nth i (y s) 0)).
    - intros s. rewrite ProofContinuous5.nth_vsub by (rewrite Ly; auto). ring.
    - rewrite <- (Rplus_0_l (nth i d 0)). apply rderiv_plus; [apply rderiv_const|apply H]. }
  destruct (near_box (length M) (fun s => mv M (vsub (y s) xeq)) t _ (fun s => mv_length M _) (vrd_mv M _ t d H2))
    as (ls & us & _ & _ & C0 & d2 & P2 & C1).
  destruct (V_rderiv N n M lam xeq Wf Le y t d blo bup ls us Ly H L1 L2 B0 C0) as (pats & sgs & S1 & _ & _ & S2).
  { exists (Rmin d1 d2). split; [apply Rmin_glb_lt; auto|]. intros h Hh.
    assert (h < d1) by (eapply Rlt_le_trans; [apply Hh|apply Rmin_l]).
    assert (h < d2) by (eapply Rlt_le_trans; [apply Hh|apply Rmin_r]).
    split; [apply B1; lra|apply C1; lra]. }
  exists pats, sgs. auto.
Qed.

Lemma rderiv_unique : forall f t a b, rderiv f t a -> rderiv f t b -> a = b.
Proof.
  intros f t a b Ha Hb. destruct (Req_dec a b) as [|Hn]; auto. exfalso.
  assert (P : 0 < Rabs (a - b)) by (apply Rabs_pos_lt; lra).
  destruct (Ha (Rabs (a - b) / 3)) as (d1 & P1 & K1); [lra|].
  destruct (Hb (Rabs (a - b) / 3)) as (d2 & P2 & K2); [lra|].
  set (h := Rmin d1 d2 / 2). assert (0 < Rmin d1 d2) by (apply Rmin_glb_lt; auto).
  assert (Q1 := Rmin_l d1 d2). assert (Q2 := Rmin_r d1 d2).
  specialize (K1 h ltac:(unfold h; lra)). specialize (K2 h ltac:(unfold h; lra)).
  assert (Ph : 0 < h) by (unfold h; lra).
  assert (T := Rabs_triang (f (t + h) - f t - h * b) (- (f (t + h) - f t - h * a))).
  rewrite Rabs_Ropp in T.
  replace (f (t + h) - f t - h * b + - (f (t + h) - f t - h * a)) with (h * (a - b)) in T by ring.
  rewrite Rabs_mult, (Rabs_right h) in T by lra. nra.
Qed.

Section Values.
Variable N : network.
Variable n : nat.
Variables x_lo x_up : vec.
Variable R0 : option mat.
Variable xeq : vec.
Hypothesis Args : lyap_args n N x_lo x_up R0 xeq.
Variables lam eps : R.
Let M := R_of n R0.

Lemma eq_length : length xeq = n.
Proof. destruct Args. apply in_box_lengths in la_eq. lia. Qed.

Lemma ct_right_derivative : forall step y t d l, R0 <> None -> leaves n y t d ->
  step (y t) = Some d -> length d = n -> ct_derivative N n step xeq lam eps R0 0 (y t) = Some l ->
  (exists r, rderiv (fun s => V N M lam xeq (y s)) t r) /\
  forall r, rderiv (fun s => V N M lam xeq (y s)) t r -> In (r + eps * V N M lam xeq (y t)) l.
Proof.
  intros step y t d l HR Hy Es Ld El.
  destruct (V_directional n N M lam xeq y t d (la_net _ _ _ _ _ _ Args) eq_length Hy) as (pats & sgs & S1 & S2).
  destruct (ct_listed N n x_lo x_up R0 xeq Args lam eps step (y t) d HR (proj1 Hy t) Es Ld) as (l' & E & _ & I).
  rewrite El in E. apply Some_inj in E. subst l'. split; [eauto|].
  intros r Hr. rewrite (rderiv_unique _ _ _ _ Hr S2). apply I. eauto.
Qed.

Lemma ct_smooth : forall step x d, R0 <> None -> length x = n -> smooth_at N M xeq x ->
  step x = Some d -> length d = n -> exists v, ct_derivative N n step xeq lam eps R0 0 x = Some [v].
Proof.
  intros step x d HR L [S1 S2] Es Ld.
  destruct (ct_listed N n x_lo x_up R0 xeq Args lam eps step x d HR L Es Ld) as (l & E & C & _).
  assert (Z : forall v, Forall (fun a => a <> 0) v -> zero_count v = 0%nat).
  { intros v F. induction F; simpl; auto. destruct (Req_EM_T x0 0); [contradiction|auto]. }
  fold M in C. rewrite (Z _ S1), (Z _ S2) in C. destruct l as [|v [|]]; try discriminate. eauto.
Qed.

(** The optimum of the derivative program. *)
Lemma ct_optimum : forall solve, solver_ok solve ->
  forall meth st add_system (T : vec -> vec -> Prop) (step : vec -> option vec), R0 <> None ->
  flow_contract n st add_system x_lo x_up T ->
  (forall x d, in_box x_lo x_up x -> T x d -> step x = Some d /\ length d = n) ->
  forall opt_bounds, no_slope_one (hidden N) ->
  (meth = LP \/ meth = MIP -> forall B r, opt_bounds M = Some (B, r) ->
     product_bounds_ok x_lo x_up N M T (encodable solve meth N x_lo x_up) B r) ->
  forall et lower upper d v,
  continuous_milp solve meth N n x_lo x_up add_system opt_bounds xeq lam eps et R0 lower upper = Some d ->
  solve (cd_mip d) = GOptimal v ->
  exists x l, in_box x_lo x_up x /\ within lower upper (V N M lam xeq x) /\
    ct_derivative N n step xeq lam eps R0 0 x = Some l /\ In v l.
Proof.
  intros solve Hs meth st add T step HR Hc Ht ob Hns Hb et lower upper d v E Ev.
  destruct (continuous_verdict solve Hs meth N n x_lo x_up R0 xeq Args lam eps st add _ Hc ob Hns Hb
    et lower upper d E) as (_ & K & _).
  destruct (K v Ev) as (x & w & pats & sgs & Bx & Tx & Wx & S1 & S2).
  destruct (Ht x w Bx Tx) as [Hx Lw].
  assert (Lx : length x = n) by (destruct Args; apply in_box_lengths in Bx; lia).
  destruct (ct_listed N n x_lo x_up R0 xeq Args lam eps step x w HR Lx Hx Lw) as (l & El & _ & I).
  exists x, l. split; auto. split; auto. split; auto. apply I. exists pats, sgs. split; auto.
Qed.
End Values.
