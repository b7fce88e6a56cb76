(** The properties of learned systems and closed loops in their final form, and
    concrete systems. *)

Require Import Reals List Lia Lra Bool Arith.
Require Import Verif.Vec Verif.VecFacts Verif.ModelMip Verif.SpecMip Verif.SpecCore
  Verif.ModelUtils Verif.SpecUtils Verif.ModelNet Verif.SpecNet Verif.SpecStep
  Verif.ProofUtils Verif.ProofMip Verif.ProofGrad Verif.ProofBounds Verif.ProofNet Verif.ProofNetBounds
  Verif.ProofNetTotal Verif.ProofStep Verif.ModelLyapunov Verif.SpecLyapunov Verif.ProofLyapunov
  Verif.ModelHybrid Verif.SpecHybrid Verif.ProofHybrid Verif.ProofHybrid2
  Verif.ModelSystems Verif.SpecSystems Verif.ProofSystems Verif.ProofSystems2 Verif.ProofFeedback
  Verif.ModelExamples Verif.ProofExamples.
Import ListNotations.
Open Scope R_scope.

(** ** Exactness in the form: a feasible point of the program extends iff … *)

Lemma step_extends : forall vt st m m' (P : assignment -> Prop), step vt st m m' P P -> local m P ->
  forall sg, feas vt m sg -> ((exists sg', feas vt m' sg' /\ agree m sg sg') <-> P sg).
Proof.
  intros vt st m m' P (_ & _ & A & B) L sg G. split.
  - intros (s & Gs & Ag). destruct (A s Gs) as [_ K]. apply (L s sg); auto.
    apply agree_sym. auto.
  - intros K. auto.
Qed.

Lemma auto_exact : forall solve n A st vt m m' xv xn, solver_ok solve -> auto_built n A ->
  vt <> VCont -> history st m -> below (nvars m) xv -> below (nvars m) xn ->
  length xv = n -> length xn = n -> NoDup (xv ++ xn) -> auto_add solve A xv xn vt m = Some m' ->
  (forall sg, feas vt m' sg -> feas vt m sg) /\
  forall sg, feas vt m sg ->
    ((exists sg', feas vt m' sg' /\ agree m sg sg') <->
     in_box (au_lo A) (au_up A) (map sg xv) /\ map sg xn = auto_step A (map sg xv)).
Proof.
  intros solve n A st vt m m' xv xn Hs Bt Vt H Bx Bn Lx Ln Nd E.
  assert (S1 := auto_contract solve Hs n st A Bt vt m m' xv xn Vt H Bx Bn Lx Ln Nd E). split.
  - intros sg G. destruct S1 as (_ & _ & K & _). apply K; auto.
  - intros sg G. apply (step_extends _ _ _ _ _ S1); auto.
    apply (local_map2 m xv xn (auto_next A)); auto.
Qed.

Lemma ctl_exact : forall solve C st vt m m' xv xn uv alo aup, solver_ok solve -> ctl_built C ->
  vt <> VCont -> history st m -> below (nvars m) xv -> below (nvars m) xn -> below (nvars m) uv ->
  length xv = ct_nx C -> length xn = ct_nx C -> length uv = ct_nu C ->
  (forall a, alo = Some a -> length a = ct_nu C) -> (forall a, aup = Some a -> length a = ct_nu C) ->
  ctl_add solve C xv xn uv alo aup vt m = Some m' ->
  (forall sg, feas vt m' sg -> feas vt m sg) /\
  forall sg, feas vt m sg ->
    ((exists sg', feas vt m' sg' /\ agree m sg sg') <->
     confined C (map sg xv) /\ in_box (ct_ulo C) (ct_uup C) (map sg uv) /\
     opt_box alo aup (map sg uv) /\ ctl_step C (map sg xv) (map sg uv) = Some (map sg xn)).
Proof.
  intros solve C st vt m m' xv xn uv alo aup Hs Bt Vt H Bx Bn Bu Lx Ln Lu La Lb E.
  unfold ctl_add in E.
  destruct (ctl_add_ret solve C xv xn uv alo aup vt m) as [[m1 r]|] eqn:Er; [|discriminate].
  apply Some_inj in E. subst m1.
  assert (S1 := ctl_add_step solve Hs C st vt m m' xv xn uv alo aup r Bt Vt H Bx Bn Bu Lx Ln Lu La Lb Er).
  split.
  - intros sg G. destruct S1 as (_ & _ & K & _). apply K; auto.
  - intros sg G. rewrite (step_extends _ _ _ _ _ S1); auto.
    + unfold ctl_next. tauto.
    + apply local_and; [apply (local_map m uv (opt_box alo aup)); auto|].
      apply (local3 m xv uv xn (ctl_next C)); auto.
Qed.

Lemma ctl_total : forall solve C vt m xv xn uv alo aup u, solver_ok solve -> solver_total solve ->
  ctl_built C -> ctl_usable C -> length xv = ct_nx C ->
  (forall a, alo = Some a -> length a = ct_nu C) -> (forall a, aup = Some a -> length a = ct_nu C) ->
  in_box (ct_ulo C) (ct_uup C) u -> opt_box alo aup u ->
  ctl_add solve C xv xn uv alo aup vt m <> None.
Proof.
  intros solve C vt m xv xn uv alo aup u Hs St Bt Us Lx La Lb HU Ho. unfold ctl_add.
  destruct (ctl_add_ret solve C xv xn uv alo aup vt m) as [[m1 r]|] eqn:Er; [discriminate|].
  exfalso. revert Er. apply ctl_add_total; auto.
  assert (L := in_box_lengths _ _ _ HU).
  assert (K : in_box (tight_lo (ct_ulo C) alo) (tight_up (ct_uup C) aup) u).
  { apply tight_box; try tauto.
    - intros a Ea. rewrite (La a Ea). unfold ct_nu, vec in *. lia.
    - intros a Ea. rewrite (Lb a Ea). unfold ct_nu, vec in *. lia. }
  destruct K. eapply vle_trans; eauto.
Qed.

(** ** Closed loops *)

Lemma ctl_confines : forall solve C,
  (match ct_kind C with CResidue _ _ _ _ => False | _ => True end) ->
  confines (ctl_fwd solve C) (ctl_next C).
Proof.
  intros solve C K x u x' _ _ (H & _). unfold confined in H. cbn.
  destruct (ct_kind C); auto. destruct K.
Qed.

Lemma hybrid_confines : forall bounds bounded nx nu h f, bounds_valid bounds ->
  built bounds bounded nx nu h -> hybrid_fwd h = Some f -> confines f (hybrid_next h).
Proof.
  intros bounds bounded nx nu h f Vb Bt Ef x u x' Lx Lu (m & Hm & Hi & _).
  destruct (built_inv _ _ _ _ _ Vb Bt) as (Enx & Enu & W & Va).
  unfold hybrid_fwd in Ef.
  destruct (all_some (map fin (firstn (h_nx h) (lo_all h)))) as [lo|] eqn:E1; [|discriminate].
  destruct (all_some (map fin (firstn (h_nx h) (up_all h)))) as [up|] eqn:E2; [|discriminate].
  apply Some_inj in Ef. subst f. cbn [f_nx f_nu f_lo f_up] in *.
  destruct (all_valid h nx nu Enx Enu W Va m (x ++ u) Hm Hi) as [A B].
  { rewrite app_length. congruence. }
  rewrite <- (firstn_skipn (h_nx h) (lo_all h)) in A. rewrite <- (firstn_skipn (h_nx h) (up_all h)) in B.
  assert (G : forall P (l : list ext) v, all_some (map fin l) = Some v -> Forall2 P l x ->
     Forall2 (fun e y => P (Fin e) y) v x).
  { clear. intros P l v E H. revert v E. induction H as [|e y l x H1 H2 IH]; intros v E; cbn in E.
    - apply Some_inj in E. subst. constructor.
    - destruct e; cbn in E; try discriminate.
      destruct (all_some (map fin l)) as [w|]; [|discriminate]. apply Some_inj in E. subst v.
      constructor; auto. }
  assert (Ll := lo_all_length h nx nu Enx Enu W). assert (Lp := up_all_length h nx nu Enx Enu W).
  split.
  - apply Forall2_app_inv_l in A. destruct A as (x1 & x2 & A1 & A2 & Ex).
    assert (L1 := Forall2_len _ _ _ A1). rewrite firstn_length in L1.
    apply app_inj_len in Ex; [|lia]. destruct Ex as [-> ->]. apply (G _ _ _ E1 A1).
  - apply Forall2_app_inv_l in B. destruct B as (x1 & x2 & A1 & A2 & Ex).
    assert (L1 := Forall2_len _ _ _ A1). rewrite firstn_length in L1.
    apply app_inj_len in Ex; [|lia]. destruct Ex as [-> ->].
    assert (Q := G _ _ _ E2 A1). clear - Q. induction Q; constructor; auto.
Qed.

(** The next state of the closed loop is the simulated one. *)
Lemma fb_next_step : forall solve C F x x', fb_fwd F = ctl_fwd solve C ->
  (fb_next F (ctl_next C) x x' <->
   in_box (ct_xlo C) (ct_xup C) x /\ confined C x /\ fb_step F x = Some x' /\
   exists u, compute_u F x = Some u /\ in_box (ct_ulo C) (ct_uup C) u).
Proof.
  intros solve C F x x' Ef. unfold fb_next, fb_step, ctl_next. rewrite Ef. cbn [ctl_fwd f_lo f_up f_step].
  split.
  - intros (Ib & u & Eu & H1 & H2 & H3). rewrite Eu. split; auto. split; auto. split; auto.
    exists u. auto.
  - intros (Ib & Hc & Es & u & Eu & Hu). rewrite Eu in Es. split; auto. exists u. auto.
Qed.

Lemma box_confined : forall C x, ctl_built C -> ctl_usable C -> in_box (ct_xlo C) (ct_xup C) x ->
  confined C x.
Proof.
  intros C x Bt Us Ib. unfold confined. unfold ctl_usable in Us.
  destruct (ct_kind C) as [| | |qe ue dt idx]; auto. destruct Us as [_ Us].
  destruct Ib as [I1 I2]. eapply Forall_impl; [|exact Us]. cbv beta. intros i Hi.
  unfold ct_nx in Hi. split; apply nth_vle; auto.
  apply Forall2_len in I1. unfold vec in *. lia.
Qed.

Lemma closed_loop_exact : forall solve C F st vt m m' xv xn r, solver_ok solve -> ctl_built C ->
  ctl_usable C -> fb_fwd F = ctl_fwd solve C -> feedback_built F ->
  (is_net (fb_ctl F) \/ match ct_kind C with CResidue _ _ _ _ => False | _ => True end) ->
  vt <> VCont -> history st m -> below (nvars m) xv -> below (nvars m) xn ->
  length xv = ct_nx C -> length xn = ct_nx C ->
  fb_add_ret solve F xv xn vt m = Some (m', r) ->
  (forall sg, feas vt m' sg ->
     feas vt m sg /\ in_box (ct_xlo C) (ct_xup C) (map sg xv) /\
     compute_u F (map sg xv) = Some (map sg (fr_u r)) /\
     fb_step F (map sg xv) = Some (map sg xn)) /\
  (forall sg u, feas vt m sg -> in_box (ct_xlo C) (ct_xup C) (map sg xv) ->
     compute_u F (map sg xv) = Some u -> in_box (ct_ulo C) (ct_uup C) u ->
     fb_step F (map sg xv) = Some (map sg xn) ->
     exists sg', feas vt m' sg' /\ agree m sg sg').
Proof.
  intros solve C F st vt m m' xv xn r Hs Bt Us Ef Bf Hc Vt H Bx Bn Lx Ln E.
  destruct (ctl_built_facts _ Bt) as (_ & _ & Vx & _ & _).
  assert (Fc : forward_contract st (fb_fwd F) (ctl_next C)).
  { rewrite Ef. apply ctl_forward_contract; auto. }
  assert (S1 : step vt st m m' (fun sg => fb_next F (ctl_next C) (map sg xv) (map sg xn))
    (fun sg => ctl_next C (map sg xv) (map sg (fr_u r)) (map sg xn) /\
       (is_net (fb_ctl F) -> in_box (f_lo (fb_fwd F)) (f_up (fb_fwd F)) (map sg xv)) /\
       (in_box (f_lo (fb_fwd F)) (f_up (fb_fwd F)) (map sg xv) ->
        compute_u F (map sg xv) = Some (map sg (fr_u r))))).
  { eapply closed_loop_step; eauto; rewrite Ef; auto. }
  rewrite Ef in S1. cbn [ctl_fwd f_lo f_up] in S1. destruct S1 as (_ & _ & S3 & S4). split.
  - intros sg G. destruct (S3 sg G) as (G0 & K1 & K2 & K3). split; auto.
    assert (Ib : in_box (ct_xlo C) (ct_xup C) (map sg xv)).
    { destruct Hc as [Hn|Hc]; [auto|]. destruct K1 as (K1 & _). unfold confined in K1.
      destruct (ct_kind C); auto. destruct Hc. }
    split; auto. split; auto. unfold fb_step. rewrite (K3 Ib), Ef. apply K1.
  - intros sg u G Ib Eu Hu Es. apply S4; auto.
    apply (fb_next_step solve C F); auto. split; auto. split; [apply box_confined; auto|].
    split; auto. exists u. auto.
Qed.

Lemma closed_loop_total : forall solve C F st u0, solver_ok solve -> solver_total solve ->
  ctl_built C -> ctl_usable C -> fb_fwd F = ctl_fwd solve C -> feedback_built F ->
  forall x0, in_box (ct_xlo C) (ct_xup C) x0 -> compute_u F x0 = Some u0 ->
  in_box (ct_ulo C) (ct_uup C) u0 ->
  system_total (ct_nx C) st (fb_add solve F).
Proof.
  intros solve C F st u0 Hs St Bt Us Ef Bf x0 Hx Hc Hu.
  destruct (ctl_built_facts _ Bt) as (_ & _ & Vx & _ & _).
  assert (T := feedback_total solve Hs St F st (in_box (ct_ulo C) (ct_uup C)) x0 u0 Bf).
  rewrite Ef in T. cbn [ctl_fwd f_nx f_lo f_up] in T. apply T; auto.
  apply ctl_forward_total; auto.
Qed.

Lemma closed_loop_contract : forall solve C F st, solver_ok solve -> ctl_built C ->
  fb_fwd F = ctl_fwd solve C -> feedback_built F ->
  (is_net (fb_ctl F) \/ match ct_kind C with CResidue _ _ _ _ => False | _ => True end) ->
  system_contract (ct_nx C) st (fb_add solve F) (fb_next F (ctl_next C)).
Proof.
  intros solve C F st Hs Bt Ef Bf Hc.
  destruct (ctl_built_facts _ Bt) as (_ & _ & Vx & _ & _).
  assert (T := feedback_contract solve Hs F (ctl_next C) st Bf).
  rewrite Ef in T. cbn [ctl_fwd f_nx f_lo f_up] in T. apply T; auto.
  - apply ctl_forward_contract; auto.
  - destruct Hc as [Hc|Hc]; [left; auto|right; apply ctl_confines; auto].
Qed.

Lemma closed_hybrid_contract : forall solve bounds bounded nx nu h f F st, solver_ok solve ->
  bounds_valid bounds -> built bounds bounded nx nu h -> hybrid_fwd h = Some f -> fb_fwd F = f ->
  feedback_built F -> vle (f_lo f) (f_up f) ->
  system_contract nx st (fb_add solve F) (fb_next F (hybrid_next h)).
Proof.
  intros solve bounds bounded nx nu h f F st Hs Vb Bt Eh Ef Bf Hv.
  destruct (built_inv _ _ _ _ _ Vb Bt) as (Enx & Enu & _).
  assert (En : f_nx f = nx /\ f_nu f = nu).
  { unfold hybrid_fwd in Eh.
    destruct (all_some (map fin (firstn (h_nx h) (lo_all h)))); [|discriminate].
    destruct (all_some (map fin (firstn (h_nx h) (up_all h)))); [|discriminate].
    apply Some_inj in Eh. subst f. cbn. auto. }
  destruct En as [En1 En2]. rewrite <- En1, <- Ef.
  apply feedback_contract; auto; rewrite Ef; auto.
  - eapply hybrid_forward_contract; eauto.
  - right. eapply hybrid_confines; eauto.
Qed.

(** ** Concrete systems *)

Lemma net_kink_wf : net_wf 1 net_kink.
Proof.
  unfold net_wf, net_kink. cbn [hidden last_layer hidden_wf lin_wf in_features weight bias].
  split; [discriminate|]. unfold lin_wf, wfm, out_features. cbn. repeat split; repeat constructor.
Qed.
Lemma net_kink3_wf : net_wf 3 net_kink3.
Proof.
  unfold net_wf, net_kink3. cbn [hidden last_layer hidden_wf lin_wf in_features weight bias].
  split; [discriminate|]. unfold lin_wf, wfm, out_features. cbn. repeat split; repeat constructor.
Qed.

Lemma vleb_true : forall a b, vle a b -> vleb a b = true.
Proof. intros. apply vleb_spec. auto. Qed.

Ltac ok_bools := repeat match goal with
  | |- (_ && _)%bool = true => apply andb_true_intro; split
  | |- vleb _ _ = true => apply vleb_true; repeat (apply Forall2_cons; [lra|]); apply Forall2_nil
  | |- Rltb _ _ = true => apply Rltb_true; lra
  | |- Nat.eqb _ _ = true => reflexivity
  | |- Nat.leb _ _ = true => reflexivity
  | |- true = true => reflexivity
  end.

Lemma auto_ex_built : forall k,
  match k with APlain => True | AGiven e _ | AResidual e _ => length e = 1%nat end ->
  auto_built 1 (auto_ex k).
Proof.
  intros k Hk. split; [exact net_kink_wf|]. split; [reflexivity|].
  unfold new_auto. cbn [auto_ex au_net au_lo au_up au_meth au_kind].
  match goal with |- (if ?b then _ else _) = _ => assert (E : b = true) end.
  { destruct k; ok_bools; cbn in *; rewrite Hk; reflexivity. }
  rewrite E. reflexivity.
Qed.

Lemma second_ex_built : ctl_built second_ex /\ ctl_usable second_ex.
Proof.
  split; [|reflexivity]. split; [exact net_kink3_wf|].
  unfold new_ctl. cbn [second_ex ctl_ex ct_net ct_xlo ct_xup ct_ulo ct_uup ct_kind].
  match goal with |- (if ?b then _ else _) = _ => assert (E : b = true) end.
  { cbn [length ct_nv ct_nq app zeros repeat ct_net out_features last_layer net_kink3 weight]. ok_bools. }
  rewrite E. reflexivity.
Qed.

Lemma residue_ex_built : ctl_built residue_ex /\ ctl_usable residue_ex.
Proof.
  split.
  - split; [exact net_kink3_wf|].
    unfold new_ctl. cbn [residue_ex ctl_ex ct_net ct_xlo ct_xup ct_ulo ct_uup ct_kind].
    match goal with |- (if ?b then _ else _) = _ => assert (E : b = true) end.
    { cbn [length ct_nv ct_nq app zeros repeat ct_net out_features last_layer net_kink3 weight]. ok_bools. }
    rewrite E. reflexivity.
  - split; [reflexivity|]. unfold ct_nx. cbn. repeat constructor.
Qed.

Lemma fb_ex_built : forall solve, feedback_built (fb_ex solve).
Proof.
  intros solve. unfold feedback_built. cbn [fb_ex fb_fwd fb_ctl fb_lower fb_upper].
  split; [split; [exact net_abs2_wf|reflexivity]|]. split; [reflexivity|]. split; [reflexivity|].
  split; [|reflexivity]. constructor; [cbn; lra|constructor].
Qed.

Lemma fb_lin_built : forall solve, feedback_built (fb_lin solve).
Proof.
  intros solve. unfold feedback_built. cbn [fb_lin fb_fwd fb_ctl fb_lower fb_upper].
  split.
  { split; [|reflexivity]. unfold lin_wf, wfm, out_features. cbn. repeat split; repeat constructor. }
  split; [reflexivity|]. split; [reflexivity|].
  split; [|reflexivity]. constructor; [cbn; auto|constructor].
Qed.

Lemma fb_ex_u : forall solve, compute_u (fb_ex solve) [1/2; 0] = Some [1/4].
Proof.
  intros solve. destruct (fb_ex_built solve) as (Cw & _ & _ & Lm & Bt).
  destruct (compute_u_spec (fb_ex solve) [1/2; 0] Cw Bt) as (u & Eu & _ & _ & _ & _ & Q).
  - constructor; [cbn; lra|constructor].
  - reflexivity.
  - rewrite Eu. f_equal. apply Q; [reflexivity|].
    cbn. split; (constructor; [cbn; lra|constructor]).
Qed.

Lemma fb_ex_total : forall st,
  system_total 2 st (fb_add ideal_solve (fb_ex ideal_solve)).
Proof.
  intros st. destruct second_ex_built as [Bt Us].
  apply (closed_loop_total ideal_solve second_ex (fb_ex ideal_solve) st [1/4]) with (x0 := [1/2; 0]);
    auto using fb_ex_built, fb_ex_u.
  - apply ideal_ok.
  - apply ideal_total.
  - cbn. split; repeat (constructor; [lra|]); constructor.
  - cbn. split; repeat (constructor; [lra|]); constructor.
Qed.
