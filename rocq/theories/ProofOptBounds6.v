(** The continuous-time program with bounds found by optimisation. *)

Require Import Reals List Bool Arith Lra Lia.
Require Import Verif.Vec Verif.VecFacts Verif.ModelMip Verif.SpecMip
  Verif.ModelUtils Verif.ModelNet Verif.SpecCore Verif.SpecUtils Verif.SpecNet Verif.SpecStep
  Verif.ModelPattern Verif.SpecPattern Verif.ModelLyapunov Verif.SpecLyapunov Verif.ModelContinuous Verif.SpecContinuous
  Verif.ModelHybrid Verif.SpecHybrid Verif.ModelSystems Verif.SpecSystems Verif.ModelContSys Verif.SpecContSys
  Verif.ModelOptBounds Verif.SpecOptBounds
  Verif.ModelExamples Verif.ModelContExamples Verif.ModelContSysEx Verif.ModelOptBoundsEx
  Verif.ProofUtils Verif.ProofMaxBox Verif.ProofMip Verif.ProofTorch Verif.ProofConcat Verif.ProofBounds
  Verif.ProofGrad Verif.ProofNet Verif.ProofNetBounds Verif.ProofNetTotal Verif.ProofRelaxed Verif.ProofPattern
  Verif.ProofStep Verif.ProofNetStep Verif.ProofLyapunov Verif.ProofLyapCert Verif.ProofLyapMore Verif.ProofStrengthen
  Verif.ProofSystems Verif.ProofSystems2
  Verif.ProofFeedback Verif.ProofDynamics Verif.ProofContinuous Verif.ProofContinuous4 Verif.ProofContinuous5
  Verif.ProofContinuous6 Verif.ProofExamples Verif.ProofContExamples
  Verif.ProofContSys Verif.ProofContSys2 Verif.ProofContSys3
  Verif.ProofOptBounds2 Verif.ProofOptBounds3 Verif.ProofOptBounds4 Verif.ProofOptBounds5.
Import ListNotations.
Open Scope R_scope.

Section Solver.
Variable solve : mip -> gresult.
Hypothesis Hsolve : solver_ok solve.

(** The system of the program and its separate program describe the same motion. *)
Lemma opt_bounds_ok : forall meth N n x_lo x_up R0 xeq, lyap_args n N x_lo x_up R0 xeq ->
  forall p T, (forall q, p = Some q -> covers n q x_lo x_up T) ->
  meth = LP \/ meth = MIP -> forall B r, optimisation_bounds solve meth N x_lo x_up p (R_of n R0) = Some (B, r) ->
  product_bounds_ok x_lo x_up N (R_of n R0) T (encodable solve meth N x_lo x_up) B r.
Proof.
  intros meth N n x_lo x_up R0 xeq Ar p T Hp _ B r E. destruct p as [q|]; [|discriminate].
  apply (optimisation_ok solve Hsolve meth N n x_lo x_up (la_net _ _ _ _ _ _ Ar) (la_lo _ _ _ _ _ _ Ar)
    (la_up _ _ _ _ _ _ Ar) (R_of n R0) q T); auto.
Qed.

Lemma encoding_total : solver_total solve -> forall meth n N x_lo x_up R0 xeq, lyap_args n N x_lo x_up R0 xeq ->
  exists c B out, output_constraint solve meth N x_lo x_up = Some (c, B, out).
Proof.
  intros St meth n N x_lo x_up R0 xeq Ar.
  assert (K := proj1 (output_constraint_total solve Hsolve St n meth N x_lo x_up (la_net _ _ _ _ _ _ Ar)
    (la_lo _ _ _ _ _ _ Ar) (la_up _ _ _ _ _ _ Ar))).
  destruct (output_constraint solve meth N x_lo x_up) as [[[c B] out]|]; [eauto|].
  exfalso. apply (K eq_refl). eapply in_box_ordered. apply Ar.
Qed.

Lemma opt_certified : forall meth N n x_lo x_up R0 xeq, lyap_args n N x_lo x_up R0 xeq ->
  no_slope_one (hidden N) ->
  forall lam eps st add T p, flow_contract n st add x_lo x_up T ->
  (forall q, p = Some q -> covers n q x_lo x_up T) ->
  forall et d v eps1 mp xp vp,
  positivity_milp solve meth N n x_lo x_up xeq lam eps1 R0 = Some (mp, xp) ->
  solve mp = GOptimal vp -> vp <= 0 ->
  continuous_milp solve meth N n x_lo x_up add (optimisation_bounds solve meth N x_lo x_up p)
    xeq lam eps et R0 None None = Some d ->
  solve (cd_mip d) = GOptimal v -> v <= 0 ->
  forall b x, flow x_lo x_up T b x ->
    forall t, 0 <= t <= b ->
      eps1 * error1 (R_of n R0) xeq (x t) <= V N (R_of n R0) lam xeq (x t)
      <= exp (- eps * t) * V N (R_of n R0) lam xeq (x 0).
Proof.
  intros meth N n x_lo x_up R0 xeq Ar Ns lam eps st add T p Hc Hp.
  apply (continuous_certified solve Hsolve meth N n x_lo x_up R0 xeq Ar lam eps st add T Hc); auto.
  eapply opt_bounds_ok; eauto.
Qed.

Lemma opt_built : solver_total solve -> forall meth N n x_lo x_up R0 xeq, lyap_args n N x_lo x_up R0 xeq ->
  no_slope_one (hidden N) -> meth = LP \/ meth = MIP ->
  forall lam eps st add (T : vec -> vec -> Prop) p, flow_contract n st add x_lo x_up T ->
  system_total n st (fun xv xn vt m => option_map fst (add xv xn vt m)) ->
  covers n p x_lo x_up T -> bounded_velocity p -> (exists x d, in_box x_lo x_up x /\ T x d) ->
  forall lower upper,
  exists d, continuous_milp solve meth N n x_lo x_up add (optimisation_bounds solve meth N x_lo x_up (Some p))
    xeq lam eps ExpLower R0 lower upper = Some d.
Proof.
  intros St meth N n x_lo x_up R0 xeq Ar Ns Hm lam eps st add T p Hc Ht Hp Hb Pt lower upper.
  assert (Ec := encoding_total St meth n N x_lo x_up R0 xeq Ar).
  destruct (optimisation_total solve Hsolve St meth N n x_lo x_up (la_net _ _ _ _ _ _ Ar)
    (la_lo _ _ _ _ _ _ Ar) (la_up _ _ _ _ _ _ Ar) (R_of n R0) p T Hp Hb Pt Ec) as (B & r & E).
  eapply (continuous_total_opt solve Hsolve meth N n x_lo x_up R0 xeq Ar lam eps st add T Hc) with (B := B) (r := r);
    eauto.
  exists (encodable solve meth N x_lo x_up).
  eapply opt_bounds_ok; eauto. intros q Eq. injection Eq as <-. auto.
Qed.

(** ** Autonomous systems *)
Lemma auto_certified : forall n A, auto_built n A ->
  forall N R0 xeq, lyap_args n N (au_lo A) (au_up A) R0 xeq -> no_slope_one (hidden N) ->
  forall meth lam eps et d v eps1 mp xp vp,
  positivity_milp solve meth N n (au_lo A) (au_up A) xeq lam eps1 R0 = Some (mp, xp) ->
  solve mp = GOptimal vp -> vp <= 0 ->
  continuous_milp solve meth N n (au_lo A) (au_up A) (auto_flow solve A)
    (optimisation_bounds solve meth N (au_lo A) (au_up A) (auto_bound_prog solve A))
    xeq lam eps et R0 None None = Some d ->
  solve (cd_mip d) = GOptimal v -> v <= 0 ->
  forall b x, flow (au_lo A) (au_up A) (fun y w => w = auto_step A y) b x ->
    forall t, 0 <= t <= b ->
      eps1 * error1 (R_of n R0) xeq (x t) <= V N (R_of n R0) lam xeq (x t)
      <= exp (- eps * t) * V N (R_of n R0) lam xeq (x 0).
Proof.
  intros n A Bt N R0 xeq Ar Ns meth lam eps et d v eps1 mp xp vp Ep Sp Hp E So Hv b x Fl.
  eapply (opt_certified meth N n _ _ R0 xeq Ar Ns lam eps true (auto_flow solve A) (auto_next A)); eauto.
  - apply auto_flow_contract; auto.
  - intros q Eq. apply (auto_prog_facts solve Hsolve n A q); auto.
  - destruct Fl as [F1 F2 F3]. constructor; auto. intros t Ht. destruct (F3 t Ht) as (w & K1 & K2 & K3).
    exists w. split; auto. split; auto. apply F1. lra.
Qed.
Lemma auto_program_built : solver_total solve -> forall n A, auto_built n A -> au_meth A <> IA ->
  forall N R0 xeq, lyap_args n N (au_lo A) (au_up A) R0 xeq -> no_slope_one (hidden N) ->
  forall meth, meth = LP \/ meth = MIP -> forall lam eps lower upper,
  exists d, continuous_milp solve meth N n (au_lo A) (au_up A) (auto_flow solve A)
    (optimisation_bounds solve meth N (au_lo A) (au_up A) (auto_bound_prog solve A))
    xeq lam eps ExpLower R0 lower upper = Some d.
Proof.
  intros St n A Bt Ha N R0 xeq Ar Ns meth Hm lam eps lower upper.
  destruct (auto_bound_prog_total solve Hsolve St n A Bt Ha) as [p Ep].
  destruct (auto_prog_facts solve Hsolve n A p Bt Ep) as (C1 & C2 & _). rewrite Ep.
  apply (opt_built St meth N n _ _ R0 xeq Ar Ns Hm lam eps true (auto_flow solve A) (auto_next A)); auto.
  - apply auto_flow_contract; auto.
  - apply auto_flow_total; auto.
  - destruct (auto_built_facts _ _ Bt) as (_ & _ & Le & _).
    exists (au_lo A), (auto_step A (au_lo A)).
    assert (B : in_box (au_lo A) (au_up A) (au_lo A)) by (split; [apply vle_refl|exact Le]).
    split; auto. split; auto.
Qed.

(** ** The closed loop *)
Lemma loop_certified : forall S F, cp_built S -> fb_fwd F = cp_fwd solve S -> feedback_built F ->
  vle (cp_xlo S) (cp_xup S) ->
  forall N R0 xeq, lyap_args (cp_nx (cp_kind_ S)) N (cp_xlo S) (cp_xup S) R0 xeq -> no_slope_one (hidden N) ->
  forall meth lam eps et d v eps1 mp xp vp,
  positivity_milp solve meth N (cp_nx (cp_kind_ S)) (cp_xlo S) (cp_xup S) xeq lam eps1 R0 = Some (mp, xp) ->
  solve mp = GOptimal vp -> vp <= 0 ->
  continuous_milp solve meth N (cp_nx (cp_kind_ S)) (cp_xlo S) (cp_xup S) (cp_loop_add solve S F)
    (optimisation_bounds solve meth N (cp_xlo S) (cp_xup S) (loop_bound_prog solve S F))
    xeq lam eps et R0 None None = Some d ->
  solve (cd_mip d) = GOptimal v -> v <= 0 ->
  forall b x, flow (cp_xlo S) (cp_xup S) (fun y w => fb_step F y = Some w) b x ->
    forall t, 0 <= t <= b ->
      eps1 * error1 (R_of (cp_nx (cp_kind_ S)) R0) xeq (x t) <= V N (R_of (cp_nx (cp_kind_ S)) R0) lam xeq (x t)
      <= exp (- eps * t) * V N (R_of (cp_nx (cp_kind_ S)) R0) lam xeq (x 0).
Proof.
  intros S F Bt Ef Fb Vx N R0 xeq Ar Ns meth lam eps et d v eps1 mp xp vp Ep Sp Hp E So Hv b x Fl.
  eapply (opt_certified meth N _ _ _ R0 xeq Ar Ns lam eps true (cp_loop_add solve S F) (fb_next F (cp_moves S))); eauto.
  - apply cp_flow_contract; auto.
  - intros q Eq. apply (loop_prog_facts solve Hsolve S F Bt Ef Fb Vx q); auto.
  - destruct Fl as [F1 F2 F3]. constructor; auto. intros t Ht. destruct (F3 t Ht) as (w & K1 & K2 & K3).
    exists w. split; auto. apply (cp_loop_moves solve); auto. split; auto. apply F1. lra.
Qed.
Lemma loop_program_built : solver_total solve -> forall S F, cp_built S -> fb_fwd F = cp_fwd solve S ->
  feedback_built F -> vle (cp_xlo S) (cp_xup S) -> cp_meth S <> IA ->
  forall N R0 xeq, lyap_args (cp_nx (cp_kind_ S)) N (cp_xlo S) (cp_xup S) R0 xeq -> no_slope_one (hidden N) ->
  forall meth, meth = LP \/ meth = MIP -> forall lam eps lower upper,
  exists d, continuous_milp solve meth N (cp_nx (cp_kind_ S)) (cp_xlo S) (cp_xup S) (cp_loop_add solve S F)
    (optimisation_bounds solve meth N (cp_xlo S) (cp_xup S) (loop_bound_prog solve S F))
    xeq lam eps ExpLower R0 lower upper = Some d.
Proof.
  intros St S F Bt Ef Fb Vx Ha N R0 xeq Ar Ns meth Hm lam eps lower upper.
  destruct (loop_bound_prog_total solve Hsolve S F Bt Ef Fb Vx St Ha) as [p Ep].
  destruct (loop_prog_facts solve Hsolve S F Bt Ef Fb Vx p Ep) as (C1 & C2 & _). rewrite Ep.
  apply (opt_built St meth N _ _ _ R0 xeq Ar Ns Hm lam eps true (cp_loop_add solve S F) (fb_next F (cp_moves S))); auto.
  - apply cp_flow_contract; auto.
  - apply loop_flow_total; auto.
  - apply (loop_moves_somewhere solve S F Bt Ef Fb Vx).
Qed.
End Solver.

(** ** Concrete systems *)

Lemma decay_built : auto_built 1 decay_ex.
Proof.
  split; [|split; [reflexivity|]].
  - unfold net_wf. cbn. unfold lin_wf, wfm, out_features. cbn.
    split; [discriminate|]. repeat split; repeat constructor.
  - unfold new_auto. cbn [decay_ex au_net au_lo au_up au_meth au_kind].
    assert (E : vleb [-1] [1] = true) by (apply vleb_spec; vle_simpl; lra). rewrite E. reflexivity.
Qed.
Lemma decay_step : forall a, auto_step decay_ex [a] = [if Rle_dec 0 a then -2 * a else - a].
Proof.
  intros a. unfold auto_step. cbn [decay_ex au_kind au_net]. unfold forward. cbn.
  unfold Rmax. destruct (Rle_dec 0 a);
    repeat match goal with |- context [Rle_dec ?p ?q] => destruct (Rle_dec p q) end;
    apply cons_eq_iff; (split; [lra|auto]).
Qed.
Lemma decay_flow : forall b, flow [-1] [1] (fun y w => w = auto_step decay_ex y) b flow_ex.
Proof.
  intros b. destruct (flow_ex_ok b) as [F1 F2 F3]. constructor; auto.
  intros t Ht. destruct (F3 t Ht) as (w & K1 & K2 & K3). exists w. split; auto.
  unfold flow_ex in *. rewrite decay_step. apply sysf_next in K1.
  assert (P := exp_pos (- 2 * t)). destruct (Rle_dec 0 (exp (- 2 * t))); [|lra].
  destruct K1 as [[X _]|[_ ->]]; [lra|]. auto.
Qed.
Lemma decay_decrease_case : exists d,
  continuous_milp ideal_solve LP net_abs 1 [-1] [1] (auto_flow ideal_solve decay_ex)
    (optimisation_bounds ideal_solve LP net_abs [-1] [1] (auto_bound_prog ideal_solve decay_ex))
    [0] (1/2) 1 ExpLower None None None = Some d /\
  ideal_solve (cd_mip d) = GOptimal 0.
Proof.
  destruct (auto_program_built ideal_solve ideal_ok ideal_total 1 decay_ex decay_built ltac:(discriminate)
    net_abs None [0] abs_args abs_ns LP (or_introl eq_refl) (1/2) 1 None None) as (d & E).
  exists d. split; auto. apply ideal_optimal.
  destruct (continuous_program ideal_solve ideal_ok LP net_abs 1 [-1] [1] None [0] abs_args (1/2) 1 true
    (auto_flow ideal_solve decay_ex) (auto_next decay_ex) (auto_flow_contract _ ideal_ok 1 true decay_ex decay_built)
    (optimisation_bounds ideal_solve LP net_abs [-1] [1] (auto_bound_prog ideal_solve decay_ex))) with
    (lower := @None R) (upper := @None R) (et := ExpLower) (d := d)
    as (_ & P1 & _ & _ & P2 & P3); auto.
  { apply (opt_bounds_ok ideal_solve ideal_ok LP net_abs 1 [-1] [1] None [0] abs_args).
    intros q Eq. apply (auto_prog_facts ideal_solve ideal_ok 1 decay_ex q decay_built Eq). }
  { exact abs_ns. }
  split.
  - destruct (P3 [0] (auto_step decay_ex [0]) [[true; false]] [true]) as (sg & G & _ & _ & _ & _ & Eo).
    + split; vle_simpl; lra.
    + split; [cbn [decay_ex au_lo au_up]; split; vle_simpl; lra|auto].
    + reflexivity.
    + split; discriminate.
    + split; repeat constructor; cbn; lra.
    + split; intros i b E'.
      * destruct i as [|[|[|i]]]; cbn in E'; try discriminate; injection E' as <-;
          (exists [1]; split; [split; vle_simpl; lra|cbn; lra]).
      * destruct i as [|[|i]]; cbn in E'; try discriminate; injection E' as <-.
        exists [1]. split; [split; vle_simpl; lra|cbn; lra].
    + exists sg. split; auto. rewrite Eo, abs_V, Rabs_R0, decay_step. unfold Vdot.
      destruct (Rle_dec 0 0); cbn; unfold act_slope; lra.
  - rewrite P1. intros sg G. destruct (P2 sg G) as (B & Tx & _ & pats & sgs & Sel & _ & _ & ->).
    destruct (box1_inv _ _ _ B) as (a & Ea & Ha). rewrite Ea in *. destruct Tx as [_ ->]. rewrite decay_step.
    set (w := if Rle_dec 0 a then -2 * a else - a).
    assert (K : (a <= 0 /\ w = - a) \/ (0 <= a /\ w = -2 * a)).
    { unfold w. destruct (Rle_dec 0 a); [right|left]; split; lra. }
    destruct (abs_Vdot a w pats sgs Sel) as (J1 & J2 & J3).
    rewrite abs_V. destruct (Rtotal_order a 0) as [Hn|[Hz|Hp]].
    + rewrite J2 by auto. rewrite Rabs_left by auto. lra.
    + rewrite J3 by lra. subst a. rewrite Rabs_R0. lra.
    + rewrite J1 by auto. rewrite Rabs_right by lra. lra.
Qed.
Lemma decay_positive_case : exists m xv,
  positivity_milp ideal_solve LP net_abs 1 [-1] [1] [0] (1/2) (1/2) None = Some (m, xv) /\
  ideal_solve m = GOptimal 0.
Proof.
  destruct (positivity_total ideal_solve ideal_ok LP net_abs 1 [-1] [1] None [0] abs_args (1/2) (1/2)
    (encoding_total ideal_solve ideal_ok ideal_total LP 1 net_abs [-1] [1] None [0] abs_args)) as (m & xv & E).
  exists m, xv. split; auto. apply ideal_optimal.
  destruct (positivity_program ideal_solve ideal_ok LP net_abs 1 [-1] [1] None [0] abs_args (1/2) (1/2)
    m xv E) as (P1 & P2 & _ & P3 & P4).
  split.
  - destruct (P4 [0]) as (sg & G & Ex); [split; vle_simpl; lra|].
    exists sg. split; auto. destruct (P3 sg G) as [_ ->]. rewrite Ex, abs_error, abs_V, Rabs_R0. lra.
  - rewrite P1. intros sg G. destruct (P3 sg G) as [B ->].
    destruct (box1_inv _ _ _ B) as (a & -> & Ha). rewrite abs_error, abs_V.
    pose proof (Rabs_pos a). lra.
Qed.

Lemma pend_mip_built : cp_built pend_mip.
Proof. split; [exact net_brake_wf|]. split; reflexivity. Qed.
Lemma pend_mip_loop_built : forall solve, feedback_built (pend_mip_loop solve).
Proof.
  intros solve. unfold feedback_built. cbn [pend_mip_loop fb_fwd fb_ctl fb_lower fb_upper].
  split.
  { split; [|reflexivity]. unfold lin_wf, wfm, out_features. cbn. repeat split; repeat constructor. }
  split; [reflexivity|]. split; [reflexivity|].
  split; [|reflexivity]. constructor; [cbn; auto|constructor].
Qed.
Lemma pend_mip_u : forall solve th w, compute_u (pend_mip_loop solve) [th; w] = Some [- (th - PI) - w].
Proof.
  intros solve th w. unfold compute_u, pre_saturation. cbn. f_equal. apply cons_eq_iff. split; [lra|auto].
Qed.
Lemma pend_mip_step : forall solve th w,
  fb_step (pend_mip_loop solve) [th; w] = Some [w; -2 * (th - PI) - 3 * w].
Proof.
  intros solve th w. unfold fb_step. rewrite pend_mip_u.
  cbn [pend_mip_loop fb_fwd cp_fwd f_step]. change (cp_step pend_mip) with (cp_step pend_ex).
  rewrite pend_step_ex. do 2 f_equal. apply cons_eq_iff. split; [lra|auto].
Qed.
Lemma pend_mip_flow : forall solve b,
  flow [PI - 1; -1] [PI + 1; 1] (fun y w => fb_step (pend_mip_loop solve) y = Some w) b pend_path.
Proof.
  intros solve b. destruct (pend_path_flow solve b) as [F1 F2 F3]. constructor; auto.
Qed.
Lemma pend_mip_decrease_case : exists d,
  continuous_milp ideal_solve MIP net_const2 2 [PI - 1; -1] [PI + 1; 1]
    (cp_loop_add ideal_solve pend_mip (pend_mip_loop ideal_solve))
    (optimisation_bounds ideal_solve MIP net_const2 [PI - 1; -1] [PI + 1; 1]
       (loop_bound_prog ideal_solve pend_mip (pend_mip_loop ideal_solve)))
    [PI; 0] 1 1 ExpLower (Some pend_R) None None = Some d /\
  ideal_solve (cd_mip d) = GOptimal 0.
Proof.
  destruct (loop_program_built ideal_solve ideal_ok ideal_total pend_mip (pend_mip_loop ideal_solve)
    pend_mip_built eq_refl (pend_mip_loop_built _) pend_box ltac:(discriminate)
    net_const2 (Some pend_R) [PI; 0] pend_args const2_ns MIP (or_intror eq_refl) 1 1 None None) as (d & E).
  exists d. split; auto. apply ideal_optimal.
  destruct (continuous_program ideal_solve ideal_ok MIP net_const2 2 [PI - 1; -1] [PI + 1; 1] (Some pend_R) [PI; 0]
    pend_args 1 1 true (cp_loop_add ideal_solve pend_mip (pend_mip_loop ideal_solve))
    (fb_next (pend_mip_loop ideal_solve) (cp_moves pend_mip))
    (cp_flow_contract ideal_solve ideal_ok pend_mip (pend_mip_loop ideal_solve) true
       pend_mip_built eq_refl (pend_mip_loop_built _) pend_box)
    (optimisation_bounds ideal_solve MIP net_const2 [PI - 1; -1] [PI + 1; 1]
       (loop_bound_prog ideal_solve pend_mip (pend_mip_loop ideal_solve)))) with
    (lower := @None R) (upper := @None R) (et := ExpLower) (d := d)
    as (_ & P1 & _ & _ & P2 & P3); auto.
  { apply (opt_bounds_ok ideal_solve ideal_ok MIP net_const2 2 [PI - 1; -1] [PI + 1; 1] (Some pend_R) [PI; 0] pend_args).
    intros q Eq. apply (loop_prog_facts ideal_solve ideal_ok pend_mip (pend_mip_loop ideal_solve)
      pend_mip_built eq_refl (pend_mip_loop_built _) pend_box q Eq). }
  { exact const2_ns. }
  assert (B0 : in_box [PI - 1; -1] [PI + 1; 1] [PI; 0]) by (split; vle_simpl; lra).
  assert (Nx : forall a b d, fb_next (pend_mip_loop ideal_solve) (cp_moves pend_mip) [a; b] d <->
    in_box [PI - 1; -1] [PI + 1; 1] [a; b] /\ d = [b; -2 * (a - PI) - 3 * b]).
  { intros a b d0.
    rewrite (cp_loop_moves ideal_solve pend_mip (pend_mip_loop ideal_solve) [a; b] d0 eq_refl), pend_mip_step.
    cbn [pend_mip cp_xlo cp_xup]. split; intros [H1 H2]; split; auto; [apply Some_inj in H2; auto|subst; auto]. }
  split.
  - destruct (P3 [PI; 0] [0; -2 * (PI - PI) - 3 * 0] [[true; true]] [true; true])
      as (sg & G & _ & _ & _ & _ & Eo).
    + auto.
    + apply Nx. auto.
    + reflexivity.
    + split; discriminate.
    + split; repeat constructor; cbn; lra.
    + split; intros i b E'.
      * destruct i as [|[|[|i]]]; cbn in E'; try discriminate; injection E' as <-;
          (exists [PI; 0]; split; [auto|cbn; lra]).
      * destruct i as [|[|[|i]]]; cbn in E'; try discriminate; injection E' as <-;
          (exists [PI + 1/2; 0]; split; [split; vle_simpl; lra|cbn; lra]).
    + exists sg. split; auto. rewrite Eo, pend_V. unfold Vdot. cbn. unfold act_slope.
      replace (2 * (PI - PI) + 0) with 0 by ring. replace (PI - PI + 0) with 0 by ring. rewrite Rabs_R0. lra.
  - rewrite P1. intros sg G. destruct (P2 sg G) as (B & Tx & _ & pats & sgs & Sel & _ & _ & ->).
    destruct (box2_inv _ _ _ _ _ B) as (a & b & Ea & Ha & Hb). rewrite Ea in *.
    apply Nx in Tx. destruct Tx as [_ ->]. rewrite pend_V.
    pose proof (pend_Vdot a b pats sgs Sel). lra.
Qed.
Lemma pend_mip_positive_case : exists m xv,
  positivity_milp ideal_solve MIP net_const2 2 [PI - 1; -1] [PI + 1; 1] [PI; 0] 1 (1/2) (Some pend_R)
    = Some (m, xv) /\ ideal_solve m = GOptimal 0.
Proof.
  destruct (positivity_total ideal_solve ideal_ok MIP net_const2 2 [PI - 1; -1] [PI + 1; 1] (Some pend_R)
    [PI; 0] pend_args 1 (1/2) (encoding_total ideal_solve ideal_ok ideal_total MIP 2 net_const2 _ _ (Some pend_R) [PI; 0] pend_args)) as (m & xv & E).
  exists m, xv. split; auto. apply ideal_optimal.
  destruct (positivity_program ideal_solve ideal_ok MIP net_const2 2 [PI - 1; -1] [PI + 1; 1] (Some pend_R)
    [PI; 0] pend_args 1 (1/2) m xv E) as (P1 & P2 & _ & P3 & P4).
  split.
  - destruct (P4 [PI; 0]) as (sg & G & Ex); [split; vle_simpl; lra|].
    exists sg. split; auto. destruct (P3 sg G) as [_ ->]. rewrite Ex, pend_error, pend_V.
    replace (2 * (PI - PI) + 0) with 0 by ring. replace (PI - PI + 0) with 0 by ring. rewrite Rabs_R0. lra.
  - rewrite P1. intros sg G. destruct (P3 sg G) as [B ->].
    destruct (box2_inv _ _ _ _ _ B) as (a & b & -> & _ & _). rewrite pend_error, pend_V.
    pose proof (Rabs_pos (2 * (a - PI) + b)). pose proof (Rabs_pos (a - PI + b)). lra.
Qed.
