(** A concrete quadrotor closed with a network controller through the callback. *)

Require Import Reals List Lia Lra Bool Arith.
Require Import Verif.Vec Verif.VecFacts Verif.ModelMip Verif.SpecMip Verif.SpecCore
  Verif.ModelUtils Verif.ModelNet Verif.SpecNet Verif.SpecStep Verif.ProofNet
  Verif.ProofNetBounds Verif.ProofNetTotal Verif.ProofStep Verif.ModelLyapunov Verif.SpecLyapunov
  Verif.ModelHybrid Verif.SpecHybrid Verif.ModelSystems Verif.SpecSystems Verif.ModelExamples
  Verif.ProofExamples Verif.ProofDynamics Verif.ProofFeedback Verif.ModelExSystems
  Verif.SpecExSystems Verif.ProofExSystems Verif.ProofExSystems2 Verif.ModelExamplesEx Verif.ModelExamplesQuad
  Verif.ProofExSystems3 Verif.ModelQuadLoop Verif.SpecQuadLoop Verif.ProofQuadLoop
  Verif.ProofQuadLoop4.
Import ListNotations.
Open Scope R_scope.

(** The callback's bounds without the invariant. *)
Lemma cb_bounds : forall solve p xv n meth N lo up B, solver_ok solve -> wf_mip p ->
  length xv = n -> below (nvars p) xv ->
  NoDup xv -> Forall (fun v => known p v = true) xv -> net_wf n N -> length lo = n -> length up = n ->
  callback_layer_bound solve (Some (p, xv)) meth N lo up = Some B ->
  (forall v, reach p xv lo up v ->
     in_box (b_pre_lo B) (b_pre_up B) (concat (pre_acts (hidden N) v)) /\
     in_box (b_post_lo B) (b_post_up B) (concat (post_acts (hidden N) v))) /\
  (meth = MIP -> forall i, (i < num_units (hidden N))%nat ->
     (exists v, reach p xv lo up v /\
        nth i (concat (pre_acts (hidden N) v)) 0 = nth i (b_pre_lo B) 0) /\
     (exists v, reach p xv lo up v /\
        nth i (concat (pre_acts (hidden N) v)) 0 = nth i (b_pre_up B) 0)).
Proof.
  intros solve p xv n meth N lo up B Hs Wp Lv Bv Nd Kn Wn L1 L2 E.
  destruct (cb_bound_spec solve Hs p xv n Wp (conj Lv (conj Bv (conj Nd Kn))) meth N lo up B Wn L1 L2 E)
    as (z1 & z2 & _ & _ & I3 & I4).
  split; auto. intros v Hv. destruct (I3 v Hv) as (K1 & K2 & _). auto.
Qed.
Lemma cb_total : forall solve p xv n meth N lo up, solver_ok solve -> solver_total solve -> wf_mip p ->
  length xv = n -> below (nvars p) xv ->
  NoDup xv -> Forall (fun v => known p v = true) xv -> net_wf n N -> length lo = n -> length up = n ->
  (exists v, reach p xv lo up v) ->
  callback_layer_bound solve (Some (p, xv)) meth N lo up <> None.
Proof.
  intros solve p xv n meth N lo up Hs St Wp Lv Bv Nd Kn Wn L1 L2 Ex.
  exact (cb_layer_bound_total solve Hs p xv n Wp (conj Lv (conj Bv (conj Nd Kn))) St meth N lo up Wn L1 L2 Ex).
Qed.

Lemma quad_of_built : forall solve k m1 m2, controller_wf 12 4 k -> feedback_built (quad_of solve k m1 m2).
Proof.
  intros solve k m1 m2 Hk. unfold feedback_built. cbn [quad_of fb_fwd fb_ctl fb_lower fb_upper].
  split; [exact Hk|]. split; [reflexivity|]. split; [reflexivity|].
  split; [repeat (constructor; [cbn; lra|]); constructor|].
  unfold new_feedback. cbn [ex_fwd f_nx f_nu ex_of ex_kind_ ex_nx ex_nu fb_ctl quad_of].
  destruct k as [N|l]; cbn [controller_wf] in Hk.
  - destruct Hk as [Wn Ho]. rewrite (net_x_size _ _ Wn), Ho. reflexivity.
  - destruct Hk as [Wl Ho]. destruct Wl as (Hi & _). rewrite Ho, Hi. reflexivity.
Qed.
Lemma enet_ctl : controller_wf 12 4 (CtlNet (enet 12 4)).
Proof. split; [apply enet_wf|reflexivity]. Qed.
Lemma lin_ctl : controller_wf 12 4 quad_lin.
Proof.
  split; [|reflexivity]. split; [reflexivity|]. split; [split; [reflexivity|]|exact I].
  repeat constructor.
Qed.

Lemma quad_of_u : forall solve k m1 m2, controller_wf 12 4 k ->
  compute_u (quad_of solve k m1 m2) (zeros 12) = Some (repeat (1/4) 4).
Proof.
  intros solve k m1 m2 Hk. destruct (quad_of_built solve k m1 m2 Hk) as (Cw & _ & _ & Lm & Bt).
  destruct (compute_u_spec (quad_of solve k m1 m2) (zeros 12) Cw Bt) as (u & Eu & _ & _ & _ & _ & Q).
  - repeat (constructor; [cbn; lra|]). constructor.
  - reflexivity.
  - rewrite Eu. f_equal. apply Q; [reflexivity|].
    cbn. split; repeat (constructor; [cbn; lra|]); constructor.
Qed.
Lemma quad_of_state : forall solve k m1 m2, controller_wf 12 4 k ->
  loop_state (ex_of (KQuad (1/4) m1)) (quad_of solve k m1 m2) (zeros 12) (repeat (1/4) 4).
Proof.
  intros solve k m1 m2 Hk. split; [apply (zeros_box 12)|]. split; [apply quad_of_u; auto|].
  split; cbn; repeat (constructor; [lra|]); constructor.
Qed.

Lemma quad_of_total : forall st m1 m2, m1 <> IA_MIP -> m2 <> IA_MIP ->
  system_total 12 st (quad_loop_add ideal_solve (ex_of (KQuad (1/4) m1))
    (quad_of ideal_solve (CtlNet (enet 12 4)) m1 m2) m1).
Proof.
  intros st m1 m2 H1 H2.
  apply (loop_total ideal_solve ideal_ok (ex_of (KQuad (1/4) m1)) (1/4) m1
    (quad_of ideal_solve (CtlNet (enet 12 4)) m1 m2) (ex_of_built _) eq_refl (ones_vle 12) eq_refl
    (quad_of_built _ _ _ _ enet_ctl) I ideal_total st m1 (zeros 12) (repeat (1/4) 4)); auto.
  apply quad_of_state. exact enet_ctl.
Qed.

(** The base class builds the loops that raise here. *)
Lemma quad_base_total : forall st k m1 m2, controller_wf 12 4 k ->
  system_total 12 st (fb_add ideal_solve (quad_of ideal_solve k m1 m2)).
Proof.
  intros st k m1 m2 Hk.
  destruct (quad_of_state ideal_solve k m1 m2 Hk) as (H1 & H2 & H3).
  apply (quad_loop_total ideal_solve (ex_of (KQuad (1/4) m1)) (1/4) m1 _ st (zeros 12) (repeat (1/4) 4));
    auto using ideal_ok, ideal_total, ex_of_built, quad_of_built.
  apply ones_vle.
Qed.
Lemma loop_linear_refuted : exists S F meth h, ex_built S /\ ex_kind_ S = KQuad h meth /\
  fb_fwd F = ex_fwd ideal_solve S /\ feedback_built F /\
  (forall st, system_total 12 st (fb_add ideal_solve F)) /\
  forall xv xn vt m, quad_loop_add ideal_solve S F meth xv xn vt m = None.
Proof.
  exists (ex_of (KQuad (1/4) MIP)), (quad_of ideal_solve quad_lin MIP MIP), MIP, (1/4).
  split; [apply ex_of_built|]. split; [reflexivity|]. split; [reflexivity|].
  split; [apply quad_of_built, lin_ctl|]. split; [intros st; apply quad_base_total, lin_ctl|].
  intros xv xn vt m. apply loop_linear; auto; discriminate.
Qed.
Lemma loop_mixed_refuted : exists S F meth h, ex_built S /\ ex_kind_ S = KQuad h meth /\
  fb_fwd F = ex_fwd ideal_solve S /\ feedback_built F /\ is_net (fb_ctl F) /\
  (forall st, system_total 12 st (fb_add ideal_solve F)) /\
  forall xv xn vt m, quad_loop_add ideal_solve S F meth xv xn vt m = None.
Proof.
  exists (ex_of (KQuad (1/4) IA_MIP)), (quad_of ideal_solve (CtlNet (enet 12 4)) IA_MIP MIP), IA_MIP, (1/4).
  split; [apply ex_of_built|]. split; [reflexivity|]. split; [reflexivity|].
  split; [apply quad_of_built, enet_ctl|]. split; [exact I|]. split; [intros st; apply quad_base_total, enet_ctl|].
  intros xv xn vt m. apply loop_mixed; auto; discriminate.
Qed.
