(** Facts about the concrete plants of ModelContSysEx. *)

Require Import Reals List Lia Lra Bool Arith.
Require Import Verif.Vec Verif.VecFacts Verif.ModelMip Verif.SpecMip Verif.SpecCore
  Verif.ModelUtils Verif.SpecUtils Verif.ModelNet Verif.SpecNet Verif.SpecStep
  Verif.ModelPattern Verif.SpecPattern Verif.ModelSystems Verif.SpecSystems
  Verif.ModelGrad Verif.ModelLyapunov Verif.SpecLyapunov
  Verif.ModelContinuous Verif.SpecContinuous Verif.ModelExamples Verif.ModelContExamples
  Verif.ModelContSys Verif.SpecContSys Verif.ModelContSysEx
  Verif.ProofUtils Verif.ProofGrad Verif.ProofMip Verif.ProofBounds Verif.ProofNetBounds Verif.ProofNetTotal Verif.ProofStep Verif.ProofLyapunov Verif.ProofLyapCert
  Verif.ProofLyapMore Verif.ProofStrengthen Verif.ProofExamples Verif.ProofFeedback Verif.ProofDynamics
  Verif.ProofContinuous Verif.ProofContinuous4 Verif.ProofContinuous5 Verif.ProofContinuous6
  Verif.ProofContExamples Verif.ProofContSys Verif.ProofContSys2.
Import ListNotations.
Open Scope R_scope.

Lemma net_brake_wf : net_wf 3 net_brake.
Proof.
  unfold net_wf, net_brake. cbn [hidden last_layer hidden_wf lin_wf in_features weight bias].
  split; [discriminate|]. unfold lin_wf, wfm, out_features. cbn. repeat split; repeat constructor.
Qed.
Lemma net_thrust_wf : net_wf 3 net_thrust.
Proof.
  unfold net_wf, net_thrust. cbn [hidden last_layer hidden_wf lin_wf in_features weight bias].
  split; [discriminate|]. unfold lin_wf, wfm, out_features. cbn. repeat split; repeat constructor.
Qed.
Lemma pend_ex_built : cp_built pend_ex.
Proof. split; [exact net_brake_wf|]. split; reflexivity. Qed.
Lemma quad_ex_built : cp_built quad_ex.
Proof. split; [exact net_thrust_wf|]. split; reflexivity. Qed.
Lemma pend_box : vle (cp_xlo pend_ex) (cp_xup pend_ex).
Proof. cbn [pend_ex cp_xlo cp_xup]. vle_simpl. lra. Qed.
Lemma quad_box : vle (cp_xlo quad_ex) (cp_xup quad_ex).
Proof. cbn [quad_ex cp_xlo cp_xup]. vle_simpl. lra. Qed.

Lemma pend_loop_built : forall solve, feedback_built (pend_loop solve).
Proof.
  intros solve. unfold feedback_built. cbn [pend_loop fb_fwd fb_ctl fb_lower fb_upper].
  split.
  { split; [|reflexivity]. unfold lin_wf, wfm, out_features. cbn. repeat split; repeat constructor. }
  split; [reflexivity|]. split; [reflexivity|].
  split; [|reflexivity]. constructor; [cbn; auto|constructor].
Qed.
Lemma quad_loop_built : forall solve, feedback_built (quad_loop solve).
Proof.
  intros solve. unfold feedback_built. cbn [quad_loop fb_fwd fb_ctl fb_lower fb_upper].
  split.
  { split; [|reflexivity]. unfold lin_wf, wfm, out_features. cbn. repeat split; repeat constructor. }
  split; [reflexivity|]. split; [reflexivity|].
  split; [|reflexivity]. repeat (constructor; [cbn; lra|]). constructor.
Qed.

Lemma brake_forward : forall a b c, forward net_brake [a; b; c] = [- a - 2 * b + c].
Proof.
  intros a b c. unfold forward, net_brake. cbn. unfold relu, Rmax.
  destruct (Rle_dec _ _); destruct (Rle_dec _ _); apply cons_eq_iff; (split; [lra|auto]).
Qed.
Lemma pend_step_ex : forall th w u, cp_step pend_ex [th; w] [u] = Some [w; - (th - PI) - 2 * w + u].
Proof.
  intros th w u. unfold cp_step, cp_at_eq.
  cbn [pend_ex cp_kind_ cp_net cp_xeq cp_ueq app]. rewrite !brake_forward.
  cbn [vsub map2 nth]. do 2 f_equal. apply cons_eq_iff. split; [lra|auto].
Qed.
Lemma pend_loop_u : forall solve th w, compute_u (pend_loop solve) [th; w] = Some [- (th - PI) - w].
Proof.
  intros solve th w. unfold compute_u, pre_saturation. cbn. f_equal. apply cons_eq_iff. split; [lra|auto].
Qed.
Lemma pend_loop_step : forall solve th w,
  fb_step (pend_loop solve) [th; w] = Some [w; -2 * (th - PI) - 3 * w].
Proof.
  intros solve th w. unfold fb_step. rewrite pend_loop_u.
  cbn [pend_loop fb_fwd cp_fwd f_step]. rewrite pend_step_ex. do 2 f_equal.
  apply cons_eq_iff. split; [lra|auto].
Qed.

(** ** The certified closed loop *)

Lemma const2_wf : net_wf 2 net_const2.
Proof.
  unfold net_wf, net_const2. cbn [hidden last_layer hidden_wf lin_wf in_features weight bias].
  split; [discriminate|]. unfold lin_wf, wfm, out_features. cbn. repeat split; repeat constructor.
Qed.
Lemma pend_args : lyap_args 2 net_const2 [PI - 1; -1] [PI + 1; 1] (Some pend_R) [PI; 0].
Proof.
  constructor; try reflexivity; try exact const2_wf.
  - unfold wfm. cbn. repeat constructor.
  - split; vle_simpl; lra.
Qed.
Lemma const2_ns : no_slope_one (hidden net_const2).
Proof. constructor; [cbn; discriminate|constructor]. Qed.
Lemma const2_slopes : slopes_nonneg (hidden net_const2).
Proof. constructor; [cbn; lra|constructor]. Qed.
Lemma const2_out : forall solve, solver_ok solve ->
  exists c B out, output_constraint solve IA net_const2 [PI - 1; -1] [PI + 1; 1] = Some (c, B, out).
Proof.
  intros solve H. apply (ia_total solve H 2); try reflexivity; [exact const2_wf|]. vle_simpl. lra.
Qed.
Lemma pend_error : forall a b,
  error1 (R_of 2 (Some pend_R)) [PI; 0] [a; b] = Rabs (2 * (a - PI) + b) + Rabs (a - PI + b).
Proof.
  intros a b. unfold error1, norm1. cbn. 
  replace (2 * (a - PI) + (1 * (b - 0) + 0)) with (2 * (a - PI) + b) by ring.
  replace (1 * (a - PI) + (1 * (b - 0) + 0)) with (a - PI + b) by ring. ring.
Qed.
Lemma pend_V : forall a b, V net_const2 (R_of 2 (Some pend_R)) 1 [PI; 0] [a; b]
  = Rabs (2 * (a - PI) + b) + Rabs (a - PI + b).
Proof.
  intros a b. unfold V. rewrite pend_error. unfold phi. cbn.
  replace (0 * a + (0 * b + 0) + 1) with 1 by ring.
  replace (0 * PI + (0 * 0 + 0) + 1) with 1 by ring. ring.
Qed.

Lemma box2_inv : forall a b c d x, in_box [a; c] [b; d] x ->
  exists y z, x = [y; z] /\ a <= y <= b /\ c <= z <= d.
Proof.
  intros a b c d x [H1 H2]. inversion H1 as [|? y ? l ? H3]; subst. inversion H3 as [|? z ? l' ? H4]; subst.
  inversion H4; subst. vle_simpl. exists y, z. repeat split; tauto.
Qed.

Lemma pend_contract : forall st,
  flow_contract 2 st (cp_loop_add ideal_solve pend_ex (pend_loop ideal_solve))
    [PI - 1; -1] [PI + 1; 1] (fb_next (pend_loop ideal_solve) (cp_moves pend_ex)).
Proof.
  intros st. exact (cp_flow_contract ideal_solve ideal_ok pend_ex (pend_loop ideal_solve) st
    pend_ex_built eq_refl (pend_loop_built _) pend_box).
Qed.
Lemma pend_next : forall a b d,
  fb_next (pend_loop ideal_solve) (cp_moves pend_ex) [a; b] d <->
  in_box [PI - 1; -1] [PI + 1; 1] [a; b] /\ d = [b; -2 * (a - PI) - 3 * b].
Proof.
  intros a b d. unfold fb_next, cp_moves. rewrite pend_loop_u.
  cbn [pend_loop fb_fwd cp_fwd f_lo f_up pend_ex cp_xlo cp_xup]. split.
  - intros (B & u & Eu & _ & Es). split; auto. apply Some_inj in Eu. rewrite <- Eu, pend_step_ex in Es.
    apply Some_inj in Es. rewrite <- Es. apply cons_eq_iff. split; auto. apply cons_eq_iff. split; [lra|auto].
  - intros (B & ->). split; auto. eexists. split; [reflexivity|]. split; auto.
    rewrite pend_step_ex. f_equal. apply cons_eq_iff. split; auto. apply cons_eq_iff. split; [lra|auto].
Qed.
Lemma pend_loop_total : forall m xv xn, history true m -> below (nvars m) xv -> below (nvars m) xn ->
  length xv = 2%nat -> length xn = 2%nat -> NoDup (xv ++ xn) ->
  exists m' a b, cp_loop_add ideal_solve pend_ex (pend_loop ideal_solve) xv xn VBin m = Some (m', Some (a, b)).
Proof.
  intros m xv xn H1 H2 H3 H4 H5 H6.
  destruct (cp_loop_total ideal_solve ideal_ok ideal_total pend_ex (pend_loop ideal_solve) true VBin m xv xn)
    as (m' & b & E & K); auto.
  - exact pend_ex_built.
  - apply pend_loop_built.
  - exact pend_box.
  - discriminate.
  - destruct (K eq_refl) as (lo & up & ->). eauto.
Qed.

Lemma pend_Vdot : forall a b pats sgs,
  selects net_const2 (R_of 2 (Some pend_R)) [PI; 0] [a; b] pats sgs ->
  Vdot net_const2 (R_of 2 (Some pend_R)) 1 pats sgs [b; -2 * (a - PI) - 3 * b]
  <= - Rabs (2 * (a - PI) + b) - Rabs (a - PI + b).
Proof.
  intros a b pats sgs [C S]. unfold Vdot.
  unfold consistent in C. cbn in C. unfold signs_ok in S. cbn in S.
  inversion C as [|p ? ps ? C1 C2]; subst. inversion C2; subst.
  inversion C1 as [|b1 ? p' ? D1 C3]; subst. inversion C3 as [|b2 ? p'' ? D2 C4]; subst. inversion C4; subst.
  inversion S as [|s ? ss ? D3 S']; subst. inversion S' as [|s2 ? ss2 ? D4 S'']; subst. inversion S''; subst.
  unfold flag_ok in *. cbn. unfold Rabs.
  destruct b1, b2, s, s2; cbn; unfold act_slope; destruct (Rcase_abs _); destruct (Rcase_abs _); lra.
Qed.

Lemma pend_decrease_case : exists d,
  continuous_milp ideal_solve IA net_const2 2 [PI - 1; -1] [PI + 1; 1]
    (cp_loop_add ideal_solve pend_ex (pend_loop ideal_solve)) no_opt [PI; 0] 1 1 ExpLower
    (Some pend_R) None None = Some d /\
  ideal_solve (cd_mip d) = GOptimal 0.
Proof.
  destruct (continuous_total ideal_solve ideal_ok IA net_const2 2 [PI - 1; -1] [PI + 1; 1] (Some pend_R)
    [PI; 0] pend_args 1 1 true _ _ (pend_contract true) no_opt const2_ns None None eq_refl const2_slopes
    pend_loop_total (const2_out _ ideal_ok))
    as (d & E).
  exists d. split; auto. apply ideal_optimal.
  destruct (continuous_program ideal_solve ideal_ok IA net_const2 2 [PI - 1; -1] [PI + 1; 1] (Some pend_R)
    [PI; 0] pend_args 1 1 true _ _ (pend_contract true) no_opt (no_opt_ok _ _ _ _ _ _) None None const2_ns
    ExpLower d E) as (_ & P1 & _ & _ & P2 & P3).
  assert (B0 : in_box [PI - 1; -1] [PI + 1; 1] [PI; 0]) by (split; vle_simpl; lra).
  split.
  - destruct (P3 [PI; 0] [0; -2 * (PI - PI) - 3 * 0] [[true; true]] [true; true])
      as (sg & G & _ & _ & _ & _ & Eo).
    + auto.
    + apply pend_next. auto.
    + reflexivity.
    + split; discriminate.
    + split.
      * repeat constructor; cbn; lra.
      * repeat constructor; cbn; lra.
    + split; intros i b E'.
      * destruct i as [|[|[|i]]]; cbn in E'; try discriminate; injection E' as <-;
          (exists [PI; 0]; split; [auto|cbn; lra]).
      * destruct i as [|[|[|i]]]; cbn in E'; try discriminate; injection E' as <-;
          (exists [PI + 1/2; 0]; split; [split; vle_simpl; lra|cbn; lra]).
    + exists sg. split; auto. rewrite Eo, pend_V. unfold Vdot. cbn. unfold act_slope.
      replace (2 * (PI - PI) + 0) with 0 by ring. replace (PI - PI + 0) with 0 by ring. rewrite Rabs_R0. lra.
  - rewrite P1. intros sg G. destruct (P2 sg G) as (B & Tx & _ & pats & sgs & Sel & _ & _ & ->).
    destruct (box2_inv _ _ _ _ _ B) as (a & b & Ea & Ha & Hb). rewrite Ea in *.
    apply pend_next in Tx. destruct Tx as [_ ->]. rewrite pend_V.
    pose proof (pend_Vdot a b pats sgs Sel). lra.
Qed.
Lemma pend_positive_case : exists m xv,
  positivity_milp ideal_solve IA net_const2 2 [PI - 1; -1] [PI + 1; 1] [PI; 0] 1 (1/2) (Some pend_R)
    = Some (m, xv) /\ ideal_solve m = GOptimal 0.
Proof.
  destruct (positivity_total ideal_solve ideal_ok IA net_const2 2 [PI - 1; -1] [PI + 1; 1] (Some pend_R)
    [PI; 0] pend_args 1 (1/2) (const2_out _ ideal_ok)) as (m & xv & E).
  exists m, xv. split; auto. apply ideal_optimal.
  destruct (positivity_program ideal_solve ideal_ok IA net_const2 2 [PI - 1; -1] [PI + 1; 1] (Some pend_R)
    [PI; 0] pend_args 1 (1/2) m xv E) as (P1 & P2 & _ & P3 & P4).
  split.
  - destruct (P4 [PI; 0]) as (sg & G & Ex); [split; vle_simpl; lra|].
    exists sg. split; auto. destruct (P3 sg G) as [_ ->]. rewrite Ex, pend_error, pend_V.
    replace (2 * (PI - PI) + 0) with 0 by ring. replace (PI - PI + 0) with 0 by ring. rewrite Rabs_R0. lra.
  - rewrite P1. intros sg G. destruct (P3 sg G) as [B ->].
    destruct (box2_inv _ _ _ _ _ B) as (a & b & -> & _ & _). rewrite pend_error, pend_V.
    pose proof (Rabs_pos (2 * (a - PI) + b)). pose proof (Rabs_pos (a - PI + b)). lra.
Qed.

Lemma pend_path_flow : forall solve b,
  flow [PI - 1; -1] [PI + 1; 1] (fun y w => fb_step (pend_loop solve) y = Some w) b pend_path.
Proof.
  intros solve b.
  assert (D : forall t, derivable_pt_lim (fun s => exp (- 1 * s)) t (- 1 * exp (- 1 * t))).
  { intros t. apply exp_derivable. }
  assert (D1 : forall t, derivable_pt_lim (fun s => PI + 1/2 * exp (- 1 * s)) t (- (1/2) * exp (- 1 * t))).
  { intros t. replace (- (1/2) * exp (- 1 * t)) with (0 + 1/2 * (- 1 * exp (- 1 * t))) by field.
    apply (derivable_pt_lim_plus (fun _ => PI) (fun s => 1/2 * exp (- 1 * s))).
    - apply derivable_pt_lim_const.
    - apply (derivable_pt_lim_scal (fun s => exp (- 1 * s))). apply D. }
  assert (D2 : forall t, derivable_pt_lim (fun s => - (1/2) * exp (- 1 * s)) t (1/2 * exp (- 1 * t))).
  { intros t. replace (1/2 * exp (- 1 * t)) with (- (1/2) * (- 1 * exp (- 1 * t))) by field.
    apply (derivable_pt_lim_scal (fun s => exp (- 1 * s))). apply D. }
  assert (Pe : forall t, 0 <= t -> 0 <= exp (- 1 * t) <= 1).
  { intros t Ht. split; [left; apply exp_pos|]. rewrite <- exp_0.
    destruct (Req_dec t 0) as [->|]; [right; f_equal; ring|]. left. apply exp_increasing. lra. }
  constructor.
  - intros t Ht. specialize (Pe t ltac:(lra)). unfold pend_path. split; vle_simpl; lra.
  - intros i. destruct i as [|[|i]].
    + apply cont_of_continuity. intros s. apply derivable_continuous_pt. eexists. apply D1.
    + apply cont_of_continuity. intros s. apply derivable_continuous_pt. eexists. apply D2.
    + cbn. destruct i; apply cont_const.
  - intros t Ht. exists [- (1/2) * exp (- 1 * t); 1/2 * exp (- 1 * t)]. split; [|split; auto].
    + unfold pend_path. rewrite pend_loop_step. f_equal. apply cons_eq_iff. split; auto.
      apply cons_eq_iff. split; [lra|auto].
    + intros i. destruct i as [|[|i]]; cbn.
      * apply rderiv_derivable. apply D1.
      * apply rderiv_derivable. apply D2.
      * destruct i; apply rderiv_const.
Qed.

(** ** Input limits of the plant that the closed loop does not keep *)

Lemma pend_limits_missing : forall solve, solver_ok solve -> solver_total solve ->
  exists m xv xn m' b s u,
    cp_loop_add solve pend_ex (pend_loop solve) xv xn VBin m = Some (m', b) /\ gfeas m' s /\
    cp_step pend_ex (map s xv) u = Some (map s xn) /\
    compute_u (pend_loop solve) (map s xv) = Some u /\
    ~ in_box (cp_ulo pend_ex) (cp_uup pend_ex) u.
Proof.
  intros solve Hs St.
  destruct (addVars (repeat (NInf, PInf) 4) VCont init_mip) as [m ids] eqn:Ea.
  destruct (step_free VBin true _ _ _ _ Ea (h_init true)) as (Ei & Nv & H & _ & F).
  cbn [init_mip nvars gvars length Nat.add seq] in Ei, Nv.
  destruct (F (fun _ => 0) [PI + 1; 1; 1; -5]) as (sg & G & _ & M).
  { split; [|discriminate]. split; [|constructor]. intros i g Hg. destruct i; discriminate. }
  { reflexivity. }
  set (xv := [0; 1]%nat) in *. set (xn := [2; 3]%nat) in *.
  assert (Ids : ids = xv ++ xn) by exact Ei.
  rewrite Ids, !map_app in M.
  assert (M1 : map sg xv = [PI + 1; 1]) by exact (f_equal (firstn 2) M).
  assert (M2 : map sg xn = [1; -5]) by exact (f_equal (skipn 2) M).
  assert (Bx : below (nvars m) xv) by (rewrite Nv; repeat constructor).
  assert (Bn : below (nvars m) xn) by (rewrite Nv; repeat constructor).
  assert (Nd : NoDup (xv ++ xn)) by exact (seq_NoDup 4 0).
  assert (Vt : VBin <> VCont) by discriminate.
  destruct (cp_loop_total solve Hs St pend_ex (pend_loop solve) true VBin m xv xn
    pend_ex_built eq_refl (pend_loop_built _) pend_box Vt H Bx Bn eq_refl eq_refl Nd) as (m' & b & E & _).
  destruct (cp_loop_exact solve Hs pend_ex (pend_loop solve) true VBin m m' xv xn b
    pend_ex_built eq_refl (pend_loop_built _) pend_box Vt H Bx Bn eq_refl eq_refl Nd E) as (_ & X).
  destruct (proj2 (X sg G)) as (s' & G' & Ag).
  { rewrite M1, M2. split.
    - cbn [pend_ex cp_xlo cp_xup]. split; vle_simpl; lra.
    - rewrite pend_loop_step. f_equal. apply cons_eq_iff. split; auto. apply cons_eq_iff. split; [lra|auto]. }
  assert (Mv : forall l, below (nvars m) l -> map s' l = map sg l).
  { intros l Hl. apply map_ext_in. intros i Hi. unfold below in Hl. rewrite Forall_forall in Hl.
    symmetry. apply Ag. apply Hl. auto. }
  exists m, xv, xn, m', b, s', [-2]. split; auto. split; [apply G'|].
  rewrite !Mv, M1, M2 by auto. split; [|split].
  - rewrite pend_step_ex. f_equal. apply cons_eq_iff. split; auto. apply cons_eq_iff. split; [lra|auto].
  - rewrite pend_loop_u. f_equal. apply cons_eq_iff. split; [lra|auto].
  - cbn [pend_ex cp_ulo cp_uup]. intros [K _]. inversion K; subst. lra.
Qed.
