(** The region of attraction of certified continuous-time systems. *)

Require Import Reals List Lia Lra Bool Arith.
Require Import Verif.Vec Verif.VecFacts Verif.ModelMip Verif.SpecMip Verif.SpecCore
  Verif.SpecUtils Verif.ModelUtils Verif.ModelNet Verif.SpecNet Verif.SpecStep Verif.ModelGrad Verif.ModelPattern Verif.SpecPattern
  Verif.ModelLyapunov Verif.SpecLyapunov
  Verif.ModelContinuous Verif.SpecContinuous Verif.ModelHybrid Verif.SpecHybrid
  Verif.ModelContHybrid Verif.SpecContHybrid Verif.SpecRoaFlow
  Verif.ModelExamples Verif.ModelContExamples
  Verif.ProofLyapunov Verif.ProofLyapCert Verif.ProofContinuous5 Verif.ProofContinuous6
  Verif.ProofContHybrid6 Verif.ProofContHybrid8 Verif.ProofExamples Verif.ProofContExamples
  Verif.ProofRoaBoundary Verif.ProofRoaFlow.
Import ListNotations.
Open Scope R_scope.

Lemma error1_nonneg : forall M xeq x, 0 <= error1 M xeq x.
Proof. intros. unfold error1. apply norm1_nonneg. Qed.

Section Region.
Variable solve : mip -> gresult.
Hypothesis Hsolve : solver_ok solve.
Variable meth : method.

Lemma region : forall N n x_lo x_up R0 xeq, lyap_args n N x_lo x_up R0 xeq ->
  forall lam eps upper (T : vec -> vec -> Prop) eps1 mp xp vp mb xb rho, 0 <= eps -> 0 <= eps1 ->
  positivity_milp solve meth N n x_lo x_up xeq lam eps1 R0 = Some (mp, xp) ->
  solve mp = GOptimal vp -> vp <= 0 ->
  roa_boundary_milp solve meth N n x_lo x_up xeq lam R0 = Some (mb, xb) -> solve mb = GOptimal rho ->
  (forall s x, flow x_lo x_up T s x ->
     (forall t, 0 <= t < s -> within None upper (V N (R_of n R0) lam xeq (x t))) ->
     forall t, 0 <= t <= s ->
       V N (R_of n R0) lam xeq (x t) <= exp (- eps * t) * V N (R_of n R0) lam xeq (x 0)) ->
  forall b x, motion n x_lo x_up T b x -> in_box x_lo x_up (x 0) ->
  V N (R_of n R0) lam xeq (x 0) < rho ->
  (forall u, upper = Some u -> V N (R_of n R0) lam xeq (x 0) < u) ->
  forall t, 0 <= t <= b -> in_box x_lo x_up (x t) /\
    eps1 * error1 (R_of n R0) xeq (x t) <= V N (R_of n R0) lam xeq (x t)
    <= exp (- eps * t) * V N (R_of n R0) lam xeq (x 0).
Proof.
  intros N n x_lo x_up R0 xeq Args lam eps upper T eps1 mp xp vp mb xb rho He He1 Ep Sp Hp Eb Sb Hd b x Mo B0 H0 U0 t Ht.
  assert (Pos : forall y, in_box x_lo x_up y -> eps1 * error1 (R_of n R0) xeq y <= V N (R_of n R0) lam xeq y).
  { intros y. apply (positivity_verdict solve Hsolve meth N n x_lo x_up R0 xeq Args lam eps1 mp xp vp Ep Sp); auto. }
  destruct (roa_boundary_value solve Hsolve meth N n x_lo x_up R0 xeq Args lam mb xb rho Eb Sb) as [_ Bd].
  destruct (stays n x_lo x_up (la_lo _ _ _ _ _ _ Args) (la_up _ _ _ _ _ _ Args) T
    (V N (R_of n R0) lam xeq) eps rho upper He) with (b := b) (x := x) (t := t) as [K1 K2]; auto.
  - intros y By. specialize (Pos y By). assert (Z := error1_nonneg (R_of n R0) xeq y).
    assert (0 <= eps1 * error1 (R_of n R0) xeq y) by (apply Rmult_le_pos; auto). lra.
  - intros b' y Ly Cy. apply (V_cont N n (R_of n R0) lam xeq (la_net _ _ _ _ _ _ Args)); auto.
    eapply in_box_length; [apply (la_eq _ _ _ _ _ _ Args)|apply (la_lo _ _ _ _ _ _ Args)].
Qed.

Lemma continuous_region : forall N n x_lo x_up R0 xeq, lyap_args n N x_lo x_up R0 xeq ->
  forall lam eps st add_system (T : vec -> vec -> Prop), flow_contract n st add_system x_lo x_up T ->
  forall opt_bounds, no_slope_one (hidden N) ->
  (meth = LP \/ meth = MIP -> forall B r, opt_bounds (R_of n R0) = Some (B, r) ->
     product_bounds_ok x_lo x_up N (R_of n R0) T (encodable solve meth N x_lo x_up) B r) ->
  forall et upper d v eps1 mp xp vp mb xb rho, 0 <= eps -> 0 <= eps1 ->
  positivity_milp solve meth N n x_lo x_up xeq lam eps1 R0 = Some (mp, xp) ->
  solve mp = GOptimal vp -> vp <= 0 ->
  continuous_milp solve meth N n x_lo x_up add_system opt_bounds xeq lam eps et R0 None upper = Some d ->
  solve (cd_mip d) = GOptimal v -> v <= 0 ->
  roa_boundary_milp solve meth N n x_lo x_up xeq lam R0 = Some (mb, xb) -> solve mb = GOptimal rho ->
  forall b x, motion n x_lo x_up T b x -> in_box x_lo x_up (x 0) ->
  V N (R_of n R0) lam xeq (x 0) < rho ->
  (forall u, upper = Some u -> V N (R_of n R0) lam xeq (x 0) < u) ->
  forall t, 0 <= t <= b -> in_box x_lo x_up (x t) /\
    eps1 * error1 (R_of n R0) xeq (x t) <= V N (R_of n R0) lam xeq (x t)
    <= exp (- eps * t) * V N (R_of n R0) lam xeq (x 0).
Proof.
  intros N n x_lo x_up R0 xeq Args lam eps st add_system T Hsys opt_bounds Hns Hopt et upper d v eps1 mp xp vp mb xb rho
    He He1 Ep Sp Hp E S Hv Eb Sb.
  eapply (region N n x_lo x_up R0 xeq Args lam eps upper T eps1); eauto.
  intros s x F Hw. eapply (continuous_decay solve Hsolve); eauto.
Qed.

Lemma hybrid_region : forall N h x_lo x_up xeq axb, hybrid_args N h x_lo x_up xeq axb ->
  forall lam eps et R0 upper d v eps1 mp xp vp mb xb rho, 0 <= eps -> 0 <= eps1 ->
  positivity_milp solve meth N (h_nx h) x_lo x_up xeq lam eps1 None = Some (mp, xp) ->
  solve mp = GOptimal vp -> vp <= 0 ->
  hybrid_derivative solve axb meth N h x_lo x_up xeq lam eps et R0 None upper d ->
  solve (hd_mip d) = GOptimal v -> v <= 0 ->
  roa_boundary_milp solve meth N (h_nx h) x_lo x_up xeq lam None = Some (mb, xb) -> solve mb = GOptimal rho ->
  forall b x, motion (h_nx h) x_lo x_up (fun y w => exists k, moves h k y w) b x -> in_box x_lo x_up (x 0) ->
  V N (eye (h_nx h)) lam xeq (x 0) < rho ->
  (forall u, upper = Some u -> V N (eye (h_nx h)) lam xeq (x 0) < u) ->
  forall t, 0 <= t <= b -> in_box x_lo x_up (x t) /\
    eps1 * error1 (eye (h_nx h)) xeq (x t) <= V N (eye (h_nx h)) lam xeq (x t)
    <= exp (- eps * t) * V N (eye (h_nx h)) lam xeq (x 0).
Proof.
  intros N h x_lo x_up xeq axb Args lam eps et R0 upper d v eps1 mp xp vp mb xb rho
    He He1 Ep Sp Hp E S Hv Eb Sb.
  eapply (region N (h_nx h) x_lo x_up None xeq (ha_lyap _ _ _ _ _ _ Args) lam eps upper
    (fun y w => exists k, moves h k y w) eps1); eauto.
  intros s x F Hw. eapply (hybrid_decay solve Hsolve); eauto.
Qed.
End Region.

(** V = 3/2 |x| on [-1, 1]. *)
Lemma boundary_case : exists m xv,
  roa_boundary_milp ideal_solve IA net_abs 1 [-1] [1] [0] (1/2) None = Some (m, xv) /\
  ideal_solve m = GOptimal (3/2).
Proof.
  destruct (roa_boundary_total ideal_solve ideal_ok IA net_abs 1 [-1] [1] None [0] abs_args (1/2)
    (abs_out _ ideal_ok)) as (m & xv & E).
  exists m, xv. split; auto. apply ideal_optimal.
  destruct (roa_boundary_program ideal_solve ideal_ok IA net_abs 1 [-1] [1] None [0] abs_args (1/2) m xv E)
    as (P1 & P2 & P3 & P4).
  split.
  - destruct (P4 [1]) as (sg & G & Ex).
    { split; [split; (constructor; [lra|constructor])|]. exists 0%nat. cbn. split; [lia|]. auto. }
    exists sg. split; auto. destruct (P3 sg G) as [_ ->]. rewrite Ex, abs_V, Rabs_right by lra. lra.
  - rewrite P1. intros sg G. destruct (P3 sg G) as [[B (i & Hi & K)] ->].
    destruct (box1_inv _ _ _ B) as (a & Ea & Ha). rewrite Ea in *. rewrite abs_V.
    destruct i as [|i]; [|cbn in Hi; lia]. cbn in K.
    destruct K as [ -> | -> ]; [rewrite Rabs_left by lra|rewrite Rabs_right by lra]; lra.
Qed.
Lemma motion_case : forall b, motion 1 [-1] [1] Tf b flow_ex /\
  motion 1 [-1] [1] Tf b (fun t => flow_ex (t + 1)).
Proof.
  intros b. assert (D : forall c t, derivable_pt_lim (fun s => exp (- 2 * (s + c))) t (- 2 * exp (- 2 * (t + c)))).
  { intros c t.
    replace (- 2 * exp (- 2 * (t + c))) with (exp (- 2 * (t + c)) * (- 2 * (1 + 0))) by ring.
    apply (derivable_pt_lim_comp (fun s => - 2 * (s + c)) exp); [|apply derivable_pt_lim_exp].
    apply (derivable_pt_lim_scal (fun s => s + c)). apply (derivable_pt_lim_plus (fun s => s) (fun _ => c)).
    apply derivable_pt_lim_id. apply derivable_pt_lim_const. }
  assert (G : forall c, 0 <= c -> motion 1 [-1] [1] Tf b (fun t => flow_ex (t + c))).
  { intros c Hc. constructor.
    - intros t. reflexivity.
    - intros i. destruct i as [|i].
      + apply cont_of_continuity. intros s. apply derivable_continuous_pt. eexists. apply D.
      + cbn. destruct i; apply cont_const.
    - intros t Ht B. exists [-2 * exp (- 2 * (t + c))]. split; [|split; auto].
      + apply sysf_next. right. split; auto. split; [left; apply exp_pos|]. rewrite <- exp_0.
        destruct (Req_dec (t + c) 0) as [ -> |]; [right; f_equal; ring|]. left. apply exp_increasing. lra.
      + intros i. destruct i as [|i]; cbn.
        * apply rderiv_derivable. apply D.
        * destruct i; apply rderiv_const. }
  split; [|apply G; lra].
  destruct (G 0 ltac:(lra)) as [G1 G2 G3].
  constructor; auto.
  - intros i. eapply cont_ext; [|apply (G2 i)]. intros s. cbn. rewrite Rplus_0_r. reflexivity.
  - intros t Ht B. destruct (G3 t Ht) as (d & K1 & K2 & K3); [rewrite Rplus_0_r; exact B|].
    rewrite Rplus_0_r in K1. exists d. split; auto. split; auto. intros i.
    eapply rderiv_ext; [|apply (K3 i)]. intros s. cbn. rewrite Rplus_0_r. reflexivity.
Qed.
Lemma motion_below : forall b, motion 1 [-1] [1] Tf b (fun t => flow_ex (t + 1)) /\
  V net_abs (R_of 1 None) (1/2) [0] (flow_ex (0 + 1)) < 3/2.
Proof.
  intros b. split; [apply motion_case|]. unfold flow_ex. rewrite abs_V.
  match goal with |- context [exp ?u] => assert (K : u < 0) by lra; assert (P := exp_pos u);
    assert (Q := exp_increasing u 0 K); rewrite exp_0 in Q; generalize dependent (exp u) end.
  intros e P Q. rewrite Rabs_right by lra. lra.
Qed.
