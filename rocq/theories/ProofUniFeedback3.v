(** The unicycle closed loop: concrete loops. *)

Require Import Reals List Lia Lra Bool Arith.
Require Import Verif.Vec Verif.VecFacts Verif.ModelMip Verif.SpecMip Verif.SpecCore
  Verif.ModelUtils Verif.SpecUtils Verif.ModelNet Verif.SpecNet Verif.SpecStep
  Verif.ProofUtils Verif.ProofMaxBox Verif.ProofGrad Verif.ProofMip Verif.ProofSat
  Verif.ProofConcat Verif.ProofBounds Verif.ProofNet Verif.ProofNetBounds Verif.ProofNetTotal
  Verif.ProofWarm Verif.ProofStep Verif.ProofNetStep Verif.ModelPattern Verif.ModelStrengthen
  Verif.ModelLyapunov Verif.SpecLyapunov Verif.ProofLyapunov Verif.ModelHybrid Verif.SpecHybrid
  Verif.ModelSystems Verif.SpecSystems Verif.ProofMilp Verif.ProofRoa Verif.ProofSystems
  Verif.ProofSatStep Verif.ProofSystems2 Verif.ProofFeedback Verif.ProofDynamics Verif.ModelExamplesEx
  Verif.ModelExamples Verif.ProofExamples Verif.ProofExSystems3 Verif.ModelUniFeedback
  Verif.SpecUniFeedback Verif.ModelExamplesUni Verif.ProofUniFeedback Verif.ProofUniFeedback2.
Import ListNotations.
Open Scope R_scope.

Lemma uni_plant_built : ctl_built uni_plant /\ ctl_usable uni_plant.
Proof.
  split; [|exact I]. split; [apply (enet_wf 5 3)|].
  unfold new_ctl. cbn [uni_plant ct_net ct_xlo ct_xup ct_ulo ct_uup ct_kind].
  match goal with |- (if ?b then _ else _) = _ => assert (E : b = true) end.
  { cbn. replace (Rleb (-1) 1) with true by (symmetry; apply Rleb_true; lra). reflexivity. }
  rewrite E. reflexivity.
Qed.

Lemma net_brake_wf : net_wf 3 net_brake.
Proof.
  unfold net_wf, net_brake. cbn [hidden last_layer hidden_wf lin_wf in_features weight bias].
  split; [discriminate|]. unfold lin_wf, wfm, out_features. cbn. repeat split; repeat constructor.
Qed.

Lemma uni_loop_built : forall solve k, controller_wf 3 2 k -> match k with CtlNet N => x_size N = 3%nat | CtlLinear l => in_features l = 3%nat end ->
  uni_built (uni_loop solve k).
Proof.
  intros solve k Wk Ek. unfold uni_built. cbn [uni_loop uf_fb uf_R uf_lambda fb_fwd fb_ctl fb_lower fb_upper fb_meth].
  split; [exact Wk|]. split; [reflexivity|]. split; [reflexivity|]. split.
  { repeat (constructor; [cbn; lra|]). constructor. }
  split; [split; [reflexivity|repeat constructor]|].
  unfold new_uni, new_feedback.
  change (f_nx (ctl_fwd solve uni_plant)) with 3%nat. change (f_nu (ctl_fwd solve uni_plant)) with 2%nat.
  destruct k as [N|l]; destruct Wk as [_ Wk]; rewrite Ek, Wk; cbn [andb length zeros repeat Nat.eqb].
  all: replace (Reqb 0 0) with true by (unfold Reqb; destruct (Req_EM_T 0 0); [auto|lra]).
  all: replace (Rltb 0 (1/2)) with true by (symmetry; apply Rltb_true; lra); reflexivity.
Qed.

Lemma uni_brake_built : forall solve, uni_built (uni_brake solve).
Proof.
  intros solve. apply uni_loop_built; [split; [exact net_brake_wf|reflexivity]|reflexivity].
Qed.
Lemma uni_lin_built : forall solve, uni_built (uni_lin solve).
Proof.
  intros solve. apply uni_loop_built; [|reflexivity]. split; [|reflexivity].
  unfold lin_wf, wfm, out_features. cbn. repeat split; repeat constructor.
Qed.

Lemma uni_brake_command : forall solve px py th, 0 < px ->
  fst (uni_command (uni_brake solve) px py th) = - px + 1/2 * (Rabs px + Rabs py).
Proof.
  intros solve px py th H. unfold uni_command, uni_brake, uni_loop.
  cbn [uf_fb fb_ctl uf_lambda uf_R controller_forward fst map fold_right nth].
  rewrite (forward_eval 3 net_brake [px; py; th] net_brake_wf eq_refl),
    (forward_eval 3 net_brake [0; 0; 0] net_brake_wf eq_refl).
  replace (1 * px + 0 * py) with px by ring. replace (0 * px + 1 * py) with py by ring.
  generalize (Rabs px) (Rabs py). intros a b. cbn. unfold relu, Rmax. repeat destruct Rle_dec; lra.
Qed.

(** The network can hold the velocity at zero arbitrarily close to the origin. *)
Lemma uni_positive_refuted : forall solve, uni_built (uni_brake solve) /\
  ~ uni_moves_near_origin (uni_brake solve).
Proof.
  intros solve. assert (HB := uni_brake_built solve). split; [exact HB|].
  intros (d & Hd & K).
  destruct (K (d / 2) 0 0) as (v & w & E & Hv).
  - unfold Rabs. destruct (Rcase_abs (d / 2)); lra.
  - rewrite Rabs_R0. lra.
  - rewrite Rabs_R0. lra.
  - left. lra.
  - rewrite (uni_u_eq _ HB) in E by reflexivity. rewrite (uni_pre_command _ HB) in E.
    apply Some_inj in E. cbn [uni_brake uni_loop uf_fb fb_lower fb_upper saturates saturate] in E.
    apply (f_equal (fun l => nth 0 l 0)) in E. cbn [nth] in E.
    rewrite uni_brake_command in E by lra. rewrite Rabs_R0 in E.
    replace (Rabs (d / 2)) with (d / 2) in E by (unfold Rabs; destruct (Rcase_abs (d / 2)); lra).
    unfold clamp, Rmax, Rmin in E. revert E. repeat destruct Rle_dec; lra.
Qed.

Lemma uni_case_total : forall st, system_total 3 st (uni_add ideal_solve (uni_brake ideal_solve)).
Proof.
  intros st. destruct uni_plant_built as [Bt Us].
  destruct (uni_origin _ (uni_brake_built ideal_solve)) as (w & E & Hw).
  assert (w = 0).
  { apply Hw. cbn. split; repeat (constructor; [cbn; lra|]); constructor. }
  subst w.
  eapply (uni_total ideal_solve ideal_ok ideal_total (uni_brake ideal_solve) st
    (in_box (ct_ulo uni_plant) (ct_uup uni_plant)) [0; 0; 0] [0; 0] (uni_brake_built ideal_solve)).
  - apply ctl_forward_total; auto. apply ideal_ok. apply ideal_total.
  - cbn. repeat (constructor; [lra|]); constructor.
  - cbn. split; repeat (constructor; [lra|]); constructor.
  - exact E.
  - cbn. split; repeat (constructor; [lra|]); constructor.
  - exact I.
Qed.

Lemma uni_case_contract : forall st, system_contract 3 st (uni_add ideal_solve (uni_brake ideal_solve))
  (uni_next (uni_brake ideal_solve) (ctl_next uni_plant)).
Proof.
  intros st. apply (uni_loop_contract ideal_solve ideal_ok _ _ st net_brake (uni_brake_built ideal_solve) eq_refl).
  - apply ctl_forward_contract; [apply ideal_ok|apply uni_plant_built].
  - cbn. repeat (constructor; [lra|]); constructor.
Qed.

(** With a linear controller the constraints leave the additional term out. *)
Lemma uni_linear_refuted : forall st,
  uni_built (uni_lin ideal_solve) /\ system_total 3 st (uni_add ideal_solve (uni_lin ideal_solve)) /\
  ~ system_contract 3 st (uni_add ideal_solve (uni_lin ideal_solve))
      (uni_next (uni_lin ideal_solve) (ctl_next uni_plant)).
Proof.
  intros st. set (U := uni_lin ideal_solve). assert (HB : uni_built U) by apply uni_lin_built.
  destruct uni_plant_built as [Bt Us].
  destruct (uni_facts U HB) as (_ & _ & _ & _ & _ & _ & FB).
  assert (Eq : forall xv xn vt m, uni_add ideal_solve U xv xn vt m = fb_add ideal_solve (uf_fb U) xv xn vt m).
  { intros. eapply uni_linear_base. reflexivity. }
  assert (Eu : forall px py th, compute_u (uf_fb U) [px; py; th] = Some [0; 0]).
  { intros px py th. destruct FB as (Cw & _ & _ & Lim & Bf).
    rewrite (compute_u_eq _ Cw Bf (limit_ok_any _ _ Lim)) by reflexivity. f_equal. cbn.
    unfold clamp, Rmax, Rmin. repeat destruct Rle_dec; try lra; auto;
      repeat (f_equal; try lra). }
  assert (Tt : system_total 3 st (uni_add ideal_solve U)).
  { intros vt m xv xn Vt H Bx Bn Lx Ln Nd. rewrite Eq.
    apply (closed_loop_total ideal_solve uni_plant (uf_fb U) st [0; 0] ideal_ok ideal_total Bt Us eq_refl FB [0; 0; 0]);
      auto; cbn; split; repeat (constructor; [lra|]); constructor. }
  split; auto. split; auto. intros C2.
  assert (C1 : system_contract 3 st (uni_add ideal_solve U) (fb_next (uf_fb U) (ctl_next uni_plant))).
  { intros vt m m' xv xn Vt H Bx Bn Lx Ln Nd E. rewrite Eq in E.
    apply (closed_loop_contract ideal_solve uni_plant (uf_fb U) st ideal_ok Bt eq_refl FB); auto. }
  destruct (contracts_agree 3 st _ _ _ C1 C2 Tt [1/2; 0; 0] [3/4; 3/4; 3/4] eq_refl eq_refl) as (_ & u & E1 & E2).
  - split; [cbn; split; repeat (constructor; [lra|]); constructor|].
    exists [0; 0]. split; [apply Eu|]. split; [cbn; split; repeat (constructor; [lra|]); constructor|].
    split; [cbn; split; repeat (constructor; [lra|]); constructor|].
    cbn [ctl_step uni_plant ct_kind ct_net app]. rewrite (forward_eval 5 (enet 5 3)); [|exact (enet_wf 5 3)|reflexivity].
    f_equal. cbn. unfold relu, Rmax. repeat destruct Rle_dec; try lra; repeat (f_equal; try lra).
  - assert (Ec : fst (uni_command U (1/2) 0 0) = 1/4 /\ snd (uni_command U (1/2) 0 0) = 0).
    { unfold uni_command, U, uni_lin, uni_loop. cbn.
      replace (1 * (1 / 2) + 0 * 0) with (1/2) by lra. replace (0 * (1 / 2) + 1 * 0) with 0 by lra.
      rewrite Rabs_R0. unfold Rabs. destruct (Rcase_abs (1/2)); lra. }
    destruct Ec as [Ec1 Ec2].
    rewrite (uni_u_eq U HB), (uni_pre_command U HB), Ec1, Ec2 in E1 by reflexivity. apply Some_inj in E1.
    assert (Eu1 : u = [1/4; 0]).
    { rewrite <- E1. cbn. unfold clamp, Rmax, Rmin. repeat destruct Rle_dec; try lra; auto. }
    subst u. destruct E2 as (_ & _ & E2).
    cbn [ctl_step uni_plant ct_kind ct_net app] in E2. rewrite (forward_eval 5 (enet 5 3)) in E2; [|exact (enet_wf 5 3)|reflexivity].
    apply Some_inj in E2. apply (f_equal (fun l => nth 0 l 0)) in E2. revert E2. cbn. unfold relu, clamp, Rmax, Rmin.
    repeat destruct Rle_dec; lra.
Qed.
