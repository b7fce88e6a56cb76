(** The concrete example systems, and the missing limit of the unicycle. *)

Require Import Reals List Lia Lra Bool Arith.
Require Import Verif.Vec Verif.VecFacts Verif.ModelMip Verif.SpecMip Verif.SpecCore
  Verif.ModelUtils Verif.SpecUtils Verif.ModelNet Verif.SpecNet Verif.SpecStep
  Verif.ProofUtils Verif.ProofGrad Verif.ProofMip Verif.ProofNetTotal
  Verif.ProofStep Verif.ModelLyapunov Verif.SpecLyapunov Verif.ModelHybrid Verif.SpecHybrid
  Verif.ModelSystems Verif.SpecSystems Verif.ModelExamples Verif.ProofExamples Verif.ProofDynamics
  Verif.ProofFeedback
  Verif.ModelExSystems Verif.SpecExSystems Verif.ProofExSystems Verif.ProofExSystems2
  Verif.ModelExamplesEx.
Import ListNotations.
Open Scope R_scope.

Lemma enet_wf : forall n k, net_wf n (enet n k).
Proof.
  intros n k. unfold net_wf, enet. cbn [hidden last_layer hidden_wf in_features].
  split; [discriminate|]. unfold lin_wf, wfm, out_features. cbn [in_features weight bias length].
  split; [split; [split; [reflexivity|split; [split; [reflexivity|]|reflexivity]]|reflexivity]|].
  - constructor; [apply repeat_length|constructor; [apply repeat_length|constructor]].
  - split; [reflexivity|]. split; [split; [reflexivity|]|].
    + apply Forall_forall. intros r Hr. apply repeat_spec in Hr. subst. reflexivity.
    + rewrite !repeat_length. reflexivity.
Qed.

Lemma Rltb_tenth : Rltb 0 (1/10) = true.
Proof. unfold Rltb. destruct (Rlt_dec 0 (1/10)); auto. exfalso. lra. Qed.

Lemma ex_of_built : forall k, ex_built (ex_of k).
Proof.
  intros k. unfold ex_built. cbn [ex_of ex_kind_ ex_net ex_xlo ex_xup ex_ulo ex_uup ex_dt].
  split; [apply enet_wf|]. split; [apply repeat_length|]. split; [apply repeat_length|].
  split; [apply repeat_length|].
  unfold new_ex. rewrite Rltb_tenth. destruct k as [[]|[]| | | |]; reflexivity.
Qed.

Lemma ones_vle : forall n, vle (repeat (-1) n) (repeat 1 n).
Proof. induction n; constructor; auto; lra. Qed.
Lemma zeros_box : forall n, in_box (repeat (-1) n) (repeat 1 n) (zeros n).
Proof. induction n as [|n [I1 I2]]; split; constructor; auto; lra. Qed.

Lemma quad_ex_built : forall solve, feedback_built (quad_ex solve).
Proof.
  intros solve. unfold feedback_built. cbn [quad_ex fb_fwd fb_ctl fb_lower fb_upper].
  split; [split; [apply enet_wf|reflexivity]|]. split; [reflexivity|]. split; [reflexivity|].
  split; [|reflexivity]. repeat (constructor; [cbn; lra|]). constructor.
Qed.

Lemma quad_ex_u : forall solve, compute_u (quad_ex solve) (zeros 12) = Some (repeat (1/4) 4).
Proof.
  intros solve. destruct (quad_ex_built solve) as (Cw & _ & _ & Lm & Bt).
  destruct (compute_u_spec (quad_ex solve) (zeros 12) Cw Bt) as (u & Eu & _ & _ & _ & _ & Q).
  - repeat (constructor; [cbn; lra|]). constructor.
  - reflexivity.
  - rewrite Eu. f_equal. apply Q; [reflexivity|].
    cbn. split; repeat (constructor; [cbn; lra|]); constructor.
Qed.

Lemma quad_ex_total : forall st, system_total 12 st (fb_add ideal_solve (quad_ex ideal_solve)).
Proof.
  intros st. apply (quad_loop_total ideal_solve (ex_of (KQuad (1/4) IA)) (1/4) IA (quad_ex ideal_solve) st
    (zeros 12) (repeat (1/4) 4)); auto using ideal_ok, ideal_total, ex_of_built, quad_ex_built, quad_ex_u.
  - apply ones_vle.
  - apply (zeros_box 12).
  - split; cbn; repeat (constructor; [lra|]); constructor.
Qed.

(** Where the network does not read the angular velocity, its limits are missing. *)
Lemma limits_missing : forall solve S, solver_ok solve -> solver_total solve -> ex_built S ->
  ex_kind_ S = KUnicycle false \/ ex_kind_ S = KZeroVel false ->
  forall px py th v w, ex_domain S None None [px; py; th] [v; w] ->
  exists m xv xn uv m' r sg, history true m /\ below (nvars m) (xv ++ xn ++ uv) /\
    NoDup (xv ++ xn ++ uv) /\
    ex_add_ret solve S xv xn uv None None VBin m = Some (m', r) /\ gfeas m' sg /\
    map sg xv = [px; py; th] /\ map sg uv = [v; w].
Proof.
  intros solve S Hs St Bt Ek px py th v w D.
  assert (Em : exists x', ex_move S [px; py; th] [v; w] = Some x' /\ length x' = 3%nat).
  { assert (Bt' := Bt). destruct Bt' as (W & _). destruct (ex_built_facts _ Bt) as [_ Lo].
    assert (Lp : forall k v, net_wf k (ex_net S) -> length v = k -> length (forward (ex_net S) v) = out_features (last_layer (ex_net S))).
    { intros k v0 Wk Lv. rewrite (Verif.ProofLyapunov.forward_eval _ _ _ Wk Lv), (Verif.ProofLyapunov.net_eval_length _ _ _ Wk Lv). auto. }
    unfold ex_move, ex_step. cbn [ex_kind_ ex_net ex_dt ex_uup ex_ulo].
    destruct Ek as [Ek|Ek]; rewrite Ek in *; rewrite vleb_refl; cbn [andb ex_nin ex_nout] in *;
      eexists; (split; [reflexivity|]); rewrite app_length, vadd_length;
      try (rewrite vsub_length); cbn [length]; rewrite ?(Lp 2%nat _ W) by reflexivity;
      rewrite ?Lo; auto. }
  destruct Em as (x' & Em & Lx').
  destruct (addVars (repeat (NInf, PInf) 8) VCont init_mip) as [m ids] eqn:Ea.
  destruct (step_free VBin true _ _ _ _ Ea (h_init true)) as (Ei & Nv & H & _ & F).
  cbn [init_mip nvars gvars length Nat.add seq] in Ei, Nv.
  destruct (F (fun _ => 0) ([px; py; th] ++ x' ++ [v; w])) as (sg & G & _ & M).
  { split; [|discriminate]. split; [|constructor]. intros i g Hg. destruct i; discriminate. }
  { rewrite !app_length, Lx'. reflexivity. }
  set (xv := [0; 1; 2]%nat) in *. set (xn := [3; 4; 5]%nat) in *. set (uv := [6; 7]%nat) in *.
  assert (Ids : ids = xv ++ xn ++ uv) by exact Ei.
  rewrite Ids, !map_app in M.
  assert (M1 : map sg xv = [px; py; th]).
  { apply (f_equal (firstn 3)) in M. exact M. }
  assert (M2 : map sg xn = x').
  { apply (f_equal (fun l => firstn 3 (skipn 3 l))) in M. cbn [app map xv xn uv skipn] in M.
    destruct (vec3 _ Lx') as (a & b & c & ->). exact M. }
  assert (M3 : map sg uv = [v; w]).
  { apply (f_equal (skipn 6)) in M. cbn [app map xv xn uv skipn] in M.
    destruct (vec3 _ Lx') as (a & b & c & ->). exact M. }
  assert (Bx : below (nvars m) xv) by (rewrite Nv; repeat constructor).
  assert (Bn : below (nvars m) xn) by (rewrite Nv; repeat constructor).
  assert (Bu : below (nvars m) uv) by (rewrite Nv; repeat constructor).
  assert (Nd : NoDup (xv ++ xn ++ uv)) by exact (seq_NoDup 8 0).
  assert (Nn : forall (a : vec) (n : nat), None = Some a -> length a = n) by discriminate.
  assert (Lv : length xv = ex_nx (ex_kind_ S)) by (destruct Ek as [Ek|Ek]; rewrite Ek; reflexivity).
  assert (Ln : length xn = ex_nx (ex_kind_ S)) by (destruct Ek as [Ek|Ek]; rewrite Ek; reflexivity).
  assert (Lu : length uv = ex_nu (ex_kind_ S)) by (destruct Ek as [Ek|Ek]; rewrite Ek; reflexivity).
  assert (Vt : VBin <> VCont) by discriminate.
  destruct (ex_add_ret solve S xv xn uv None None VBin m) as [[m' r]|] eqn:Eadd.
  2: { exfalso. revert Eadd.
       apply (ex_total solve Hs St S VBin true m xv xn uv None None [px; py; th] [v; w]); auto. }
  destruct (ex_add_step solve Hs S VBin true m m' xv xn uv None None r) as (_ & _ & _ & S4); auto.
  destruct (S4 sg G) as (s' & G' & Ag).
  { rewrite M1, M2, M3. split; auto. }
  assert (Mv : forall l, below (nvars m) l -> map s' l = map sg l).
  { intros l Hl. apply map_ext_in. intros i Hi. unfold below in Hl. rewrite Forall_forall in Hl.
    symmetry. apply Ag. apply Hl. auto. }
  exists m, xv, xn, uv, m', r, s'. split; auto. split.
  { unfold below in *. rewrite !Forall_app. auto. }
  split; auto. split; auto. split; [apply G'|]. rewrite !Mv by auto. auto.
Qed.

Lemma unicycle_limits_refuted : exists S m xv xn uv m' r sg, ex_built S /\
  ex_kind_ S = KUnicycle false /\ history true m /\ below (nvars m) (xv ++ xn ++ uv) /\
  NoDup (xv ++ xn ++ uv) /\
  ex_add_ret ideal_solve S xv xn uv None None VBin m = Some (m', r) /\ gfeas m' sg /\
  ex_step S (map sg xv) (map sg uv) = None.
Proof.
  set (S := ex_of (KUnicycle false)).
  destruct (limits_missing ideal_solve S ideal_ok ideal_total (ex_of_built _) (or_introl eq_refl) 0 0 0 0 5)
    as (m & xv & xn & uv & m' & r & sg & H & B & N & E & G & M1 & M2).
  { split; cbn; repeat constructor; cbn; try lra; discriminate. }
  exists S, m, xv, xn, uv, m', r, sg. split; [apply ex_of_built|]. split; auto.
  split; auto. split; auto. split; auto. split; auto. split; auto.
  rewrite M1, M2, ex_step_move. cbn [S ex_of ex_kind_ ex_uup ex_ulo].
  destruct (vleb [0; 5] (repeat 1 (ex_nu (KUnicycle false)))) eqn:Ev; auto.
  apply vleb_spec in Ev. cbn in Ev. inversion Ev as [|? ? ? ? K1 K2]; subst.
  inversion K2 as [|? ? ? ? K3 K4]; subst. exfalso. lra.
Qed.

Lemma uni_not_quad : forall h meth, ex_kind_ (ex_of (KUnicycle true)) <> KQuad h meth.
Proof. intros h meth. discriminate. Qed.
