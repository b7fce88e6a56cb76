(** The continuous-time plants: exactness, closed loops and their flows. *)

Require Import Reals List Lia Lra Bool Arith.
Require Import Verif.Vec Verif.VecFacts Verif.ModelMip Verif.SpecMip Verif.SpecCore
  Verif.ModelUtils Verif.SpecUtils Verif.ModelNet Verif.SpecNet Verif.SpecStep
  Verif.ProofUtils Verif.ProofMaxBox Verif.ProofGrad Verif.ProofMip Verif.ProofSat
  Verif.ProofConcat Verif.ProofBounds Verif.ProofNet Verif.ProofNetBounds Verif.ProofNetTotal
  Verif.ProofWarm Verif.ProofStep Verif.ProofNetStep Verif.ModelPattern Verif.SpecPattern Verif.ModelStrengthen
  Verif.ModelLyapunov Verif.SpecLyapunov Verif.ProofLyapunov Verif.ModelHybrid Verif.SpecHybrid
  Verif.ProofHybrid2 Verif.ModelSystems Verif.SpecSystems Verif.ProofMilp Verif.ProofRoa
  Verif.ModelExSystems Verif.SpecExSystems Verif.ProofSystems Verif.ProofSystems2 Verif.ProofFeedback
  Verif.ProofDynamics Verif.ModelContinuous Verif.SpecContinuous Verif.ProofContinuous6
  Verif.ModelContSys Verif.SpecContSys Verif.ProofContSys.
Import ListNotations.
Open Scope R_scope.

Section Solver.
Variable solve : mip -> gresult.
Hypothesis Hsolve : solver_ok solve.

Lemma cp_add_step : forall S st vt m m' xv xn uv alo aup r bnd, cp_built S -> vt <> VCont ->
  history st m -> below (nvars m) xv -> below (nvars m) xn -> below (nvars m) uv ->
  length xv = cp_nx (cp_kind_ S) -> length xn = cp_nx (cp_kind_ S) -> length uv = cp_nu (cp_kind_ S) ->
  (forall a, alo = Some a -> length a = cp_nu (cp_kind_ S)) ->
  (forall a, aup = Some a -> length a = cp_nu (cp_kind_ S)) ->
  cp_add_ret solve S xv xn uv alo aup vt m = Some (m', r, bnd) ->
  let P := fun sg : assignment =>
    in_box (given (cp_ulo S) alo) (given (cp_uup S) aup) (map sg uv) /\
    cp_moves S (map sg xv) (map sg uv) (map sg xn) in
  step vt st m m' P P.
Proof.
  intros S st vt m m' xv xn uv alo aup r bnd Bt Vt H Bx Bn Bu Lx Ln Lu La Lb E P.
  destruct (cp_built_facts S Bt) as (L1 & L2 & L3 & L4 & Lo).
  assert (La' : length (given (cp_ulo S) alo) = cp_nu (cp_kind_ S)) by (destruct alo; cbn; auto).
  assert (Lb' : length (given (cp_uup S) aup) = cp_nu (cp_kind_ S)) by (destruct aup; cbn; auto).
  unfold cp_add_ret in E.
  destruct (cp_mic solve S (given (cp_ulo S) alo) (given (cp_uup S) aup)) as [[[[c B] [nlo nup]] b]|] eqn:Ec;
    [|discriminate].
  destruct (add_mic c (xv ++ uv) (Some xn) NewBinary vt m) as [[m1 z] be] eqn:Em.
  apply Some_inj in E. apply pair_equal_spec in E. destruct E as [E _].
  apply pair_equal_spec in E. destruct E as [-> _].
  destruct (cp_mic_form solve Hsolve S _ _ c B _ b Bt La' Lb' Ec) as [F1 F2 F3 F4 F5 F6 _].
  destruct (step_mic vt st _ _ _ _ _ _ _ Em F1 H) as (_ & _ & _ & S4 & _); auto.
  { apply below_app. auto. }
  { rewrite app_length. unfold vec in *. lia. }
  { simpl. split; auto. congruence. }
  eapply step_weaken; [exact S4| |].
  - intros sg _ (Hu & Hx & Es). rewrite map_app. destruct (F5 _ _ Hx Hu) as (s & b0 & Hb & Hm).
    exists s, b0. split; auto. split; auto. cbn [out_ok].
    destruct (F6 (map sg xv) (map sg uv) s b0) as (_ & _ & K); rewrite ?map_length; auto. congruence.
  - intros sg _ (Hb & Hm & Ho). rewrite map_app in *. cbn [out_ok] in Ho.
    destruct (F6 (map sg xv) (map sg uv) (map sg z) (map sg be)) as (K1 & K2 & K3);
      rewrite ?map_length; auto.
    split; auto. split; auto. congruence.
Qed.

Lemma cp_exact : forall S st vt m m' xv xn uv alo aup r bnd, cp_built S -> vt <> VCont ->
  history st m -> below (nvars m) xv -> below (nvars m) xn -> below (nvars m) uv ->
  length xv = cp_nx (cp_kind_ S) -> length xn = cp_nx (cp_kind_ S) -> length uv = cp_nu (cp_kind_ S) ->
  (forall a, alo = Some a -> length a = cp_nu (cp_kind_ S)) ->
  (forall a, aup = Some a -> length a = cp_nu (cp_kind_ S)) ->
  cp_add_ret solve S xv xn uv alo aup vt m = Some (m', r, bnd) ->
  (forall sg, feas vt m' sg -> feas vt m sg) /\
  forall sg, feas vt m sg ->
    ((exists sg', feas vt m' sg' /\ agree m sg sg') <->
     in_box (cp_xlo S) (cp_xup S) (map sg xv) /\
     in_box (given (cp_ulo S) alo) (given (cp_uup S) aup) (map sg uv) /\
     cp_step S (map sg xv) (map sg uv) = Some (map sg xn)).
Proof.
  intros S st vt m m' xv xn uv alo aup r bnd Bt Vt H Bx Bn Bu Lx Ln Lu La Lb E.
  assert (S1 := cp_add_step S st vt m m' xv xn uv alo aup r bnd Bt Vt H Bx Bn Bu Lx Ln Lu La Lb E).
  cbv zeta in S1. split.
  - intros sg G. destruct S1 as (_ & _ & K & _). apply K; auto.
  - intros sg G. rewrite (step_extends _ _ _ _ _ S1); auto.
    + unfold cp_moves. tauto.
    + apply (local3 m xv uv xn (fun x u d =>
        in_box (given (cp_ulo S) alo) (given (cp_uup S) aup) u /\ cp_moves S x u d)); auto.
Qed.

Lemma cp_forward_contract : forall st S, cp_built S ->
  forward_contract st (cp_fwd solve S) (cp_moves S).
Proof.
  intros st S Bt vt m m' xv xn uv alo aup r Vt H Bx Bn Bu Lx Ln Lu La Lb E.
  cbn [cp_fwd f_add f_nx f_nu] in *.
  destruct (cp_add_ret solve S xv xn uv (Some alo) (Some aup) vt m) as [[[m1 r1] bnd]|] eqn:Ea; [|discriminate].
  apply Some_inj in E. apply pair_equal_spec in E. destruct E as [-> _].
  assert (A1 : forall a, Some alo = Some a -> length a = cp_nu (cp_kind_ S)) by (intros a Ha; congruence).
  assert (A2 : forall a, Some aup = Some a -> length a = cp_nu (cp_kind_ S)) by (intros a Ha; congruence).
  eapply step_weaken;
    [exact (cp_add_step S st vt m m' xv xn uv (Some alo) (Some aup) r1 bnd Bt Vt H Bx Bn Bu Lx Ln Lu A1 A2 Ea)| |].
  - intros sg _ D. exact D.
  - intros sg _ [_ D]. exact D.
Qed.

Lemma cp_confines : forall S, confines (cp_fwd solve S) (cp_moves S).
Proof. intros S x u x' _ _ [H _]. exact H. Qed.

Lemma cp_step_total : forall S x u, cp_built S ->
  length x = cp_nx (cp_kind_ S) -> length u = cp_nu (cp_kind_ S) ->
  exists d, cp_step S x u = Some d /\ length d = cp_nx (cp_kind_ S).
Proof.
  intros S x u Bt Lx Lu. assert (Le := at_eq_length S Bt).
  destruct (cp_built_facts S Bt) as (_ & _ & _ & _ & Lo). destruct Bt as (W & _).
  unfold cp_step. destruct (cp_kind_ S) as [|ueq]; cbn [cp_nx cp_nu cp_nout] in *.
  - destruct (len2 _ Lx) as (a & b & ->). destruct (len1 _ Lu) as (v & ->). eauto.
  - rewrite Lx, Lu. cbn [Nat.eqb andb]. eexists. split; [reflexivity|].
    assert (Lp : length (part 2 3 x ++ u) = 3%nat).
    { destruct (len6 _ Lx) as (? & ? & ? & ? & ? & ? & ->). cbn. unfold vec in *. lia. }
    rewrite app_length, skipn_length, vsub_length by
      (rewrite (forward_eval 3 _ _ W Lp), (net_eval_length 3); auto; unfold vec in *; congruence).
    rewrite (forward_eval 3 _ _ W Lp), (net_eval_length 3); auto. unfold vec in *. lia.
Qed.

Lemma cp_equilibrium : forall S, cp_built S ->
  cp_step S (cp_xeq (cp_kind_ S)) (cp_ueq (cp_kind_ S)) = Some (zeros (cp_nx (cp_kind_ S))).
Proof.
  intros S Bt. assert (Le := at_eq_length S Bt). destruct Bt as (W & Lu & _).
  unfold cp_step. destruct (cp_kind_ S) as [|ueq] eqn:Ek; cbn [cp_nx cp_nu cp_nout cp_xeq cp_ueq] in *.
  - unfold cp_at_eq in *. rewrite Ek in *. cbn [cp_xeq cp_ueq] in *. rewrite vsub_self.
    destruct (len1 _ Le) as (e & ->). reflexivity.
  - rewrite Lu. cbn [zeros repeat length Nat.eqb andb]. f_equal.
    unfold cp_at_eq in *. rewrite Ek in *. cbn [part Nat.sub skipn firstn app] in *.
    rewrite vsub_self, Le. reflexivity.
Qed.

(** The bounds of the derivative. *)
Lemma cp_add_bounds : forall S vt m m' xv xn uv alo aup r lo up, cp_built S ->
  (forall a, alo = Some a -> length a = cp_nu (cp_kind_ S)) ->
  (forall a, aup = Some a -> length a = cp_nu (cp_kind_ S)) ->
  cp_add_ret solve S xv xn uv alo aup vt m = Some (m', r, Some (lo, up)) ->
  forall x u d, in_box (cp_xlo S) (cp_xup S) x ->
    in_box (given (cp_ulo S) alo) (given (cp_uup S) aup) u -> cp_step S x u = Some d ->
    in_box lo up d.
Proof.
  intros S vt m m' xv xn uv alo aup r lo up Bt La Lb E x u d Hx Hu Ed.
  destruct (cp_built_facts S Bt) as (L1 & L2 & L3 & L4 & Lo).
  assert (La' : length (given (cp_ulo S) alo) = cp_nu (cp_kind_ S)) by (destruct alo; cbn; auto).
  assert (Lb' : length (given (cp_uup S) aup) = cp_nu (cp_kind_ S)) by (destruct aup; cbn; auto).
  unfold cp_add_ret in E.
  destruct (cp_mic solve S (given (cp_ulo S) alo) (given (cp_uup S) aup)) as [[[[c B] [nlo nup]] b]|] eqn:Ec;
    [|discriminate].
  destruct (add_mic c (xv ++ uv) (Some xn) NewBinary vt m) as [[m1 z] be] eqn:Em.
  apply Some_inj in E. apply pair_equal_spec in E. destruct E as [_ E].
  destruct (cp_meth S); try discriminate. apply Some_inj in E. subst b.
  apply (cf_bounds _ _ _ _ _ (cp_mic_form solve Hsolve S _ _ c B _ _ Bt La' Lb' Ec) x u); auto.
Qed.

(** The plant accepts the constraints whenever the bounds are ordered. *)
Lemma cp_mic_total : solver_total solve -> forall S ulo uup, cp_built S ->
  length ulo = cp_nu (cp_kind_ S) -> length uup = cp_nu (cp_kind_ S) ->
  vle (cp_xlo S) (cp_xup S) -> vle ulo uup -> cp_mic solve S ulo uup <> None.
Proof.
  intros St S ulo uup Bt Lu1 Lu2 Vx Vu. assert (Le := at_eq_length S Bt).
  destruct (cp_built_facts S Bt) as (L1 & L2 & L3 & L4 & Lo). destruct Bt as (W & Lu & _).
  unfold cp_mic. destruct (cp_kind_ S) as [|ueq] eqn:Ek; cbn [cp_nx cp_nu cp_nout] in *.
  - assert (Ln1 : length (cp_xlo S ++ ulo) = 3%nat) by (rewrite app_length; unfold vec in *; lia).
    assert (Ln2 : length (cp_xup S ++ uup) = 3%nat) by (rewrite app_length; unfold vec in *; lia).
    destruct (output_constraint solve (cp_meth S) (cp_net S) (cp_xlo S ++ ulo) (cp_xup S ++ uup))
      as [[[c0 B0] [olo oup]]|] eqn:Eo.
    + assert (M := output_constraint_mic solve Hsolve 3 _ _ _ _ _ _ _ W Ln1 Ln2 Eo).
      destruct (net_affine _ _ _ _ _ M) as (A & EA & WA & EC & LC & FA).
      destruct (nm_aout _ _ _ _ _ M) as [Ei Eb]. rewrite Ei, EA, EC. rewrite Lo in *.
      destruct (bias_of (last_layer (cp_net S))); [discriminate LC|discriminate].
    + apply (output_constraint_total solve Hsolve St 3) in Eo; auto. exfalso. apply Eo.
      apply Forall2_app; auto.
  - set (nlo := part 2 3 (cp_xlo S) ++ ulo). set (nup := part 2 3 (cp_xup S) ++ uup).
    assert (Ln : length nlo = 3%nat /\ length nup = 3%nat /\ vle nlo nup).
    { unfold nlo, nup. destruct (len6 _ L1) as (? & ? & ? & ? & ? & ? & El).
      destruct (len6 _ L2) as (? & ? & ? & ? & ? & ? & Eh). rewrite El, Eh in *.
      cbn. unfold vec in *. split; [lia|]. split; [lia|]. unfold vle in *. rewrite !F2_cons in *. tauto. }
    destruct Ln as (Ln1 & Ln2 & Ln3).
    destruct (output_constraint solve (cp_meth S) (cp_net S) nlo nup) as [[[c0 B0] [olo oup]]|] eqn:Eo.
    + assert (M := output_constraint_mic solve Hsolve 3 _ _ _ _ _ _ _ W Ln1 Ln2 Eo).
      destruct (net_affine _ _ _ _ _ M) as (A & EA & WA & EC & LC & FA).
      destruct (nm_aout _ _ _ _ _ M) as [Ei Eb].
      assert (In4 : exists a b c d a' r', Ain_input c0 = Some a /\ Ain_slack c0 = Some b /\
         Ain_binary c0 = Some c /\ rhs_in c0 = Some d /\ Aeq_input c0 = Some a' /\ rhs_eq c0 = Some r').
      { unfold output_constraint in Eo. destruct (negb _); [discriminate|].
        destruct (compute_layer_bound _ _ _ _ _) as [B1|]; [|discriminate].
        destruct (compute_network_output_bounds _ _ _ _ _ _ _) as [o1|]; [|discriminate].
        destruct (output_constraint_given_bounds _ _ _ _ _) as [c1|] eqn:Eg; [|discriminate].
        assert (c1 = c0) by congruence. subst c1.
        unfold output_constraint_given_bounds in Eg.
        destruct (write_layers _ _ _ _ _ _ _) as [[bi be]|]; [|discriminate].
        destruct (rev (hidden (cp_net S))) as [|[l a] t]; [discriminate|].
        apply Some_inj in Eg. subst c0. do 6 eexists. repeat split. }
      destruct In4 as (a & b & c & d & a' & r' & I1 & I2 & I3 & I4 & I5 & I6).
      unfold transform_input. rewrite I1, I4, I5, I6, Ei.
      cbn [Cout Aout_input Aout_slack]. rewrite EC, EA.
      unfold add_rows. cbn [set_output Ain_input Ain_slack Ain_binary rhs_in].
      rewrite I2, I3. discriminate.
    + apply (output_constraint_total solve Hsolve St 3) in Eo; auto.
Qed.

Lemma cp_add_total : solver_total solve -> forall S vt m xv xn uv alo aup, cp_built S ->
  (forall a, alo = Some a -> length a = cp_nu (cp_kind_ S)) ->
  (forall a, aup = Some a -> length a = cp_nu (cp_kind_ S)) ->
  vle (cp_xlo S) (cp_xup S) -> vle (given (cp_ulo S) alo) (given (cp_uup S) aup) ->
  cp_add_ret solve S xv xn uv alo aup vt m <> None.
Proof.
  intros St S vt m xv xn uv alo aup Bt La Lb Vx Vu.
  destruct (cp_built_facts S Bt) as (L1 & L2 & L3 & L4 & Lo).
  assert (La' : length (given (cp_ulo S) alo) = cp_nu (cp_kind_ S)) by (destruct alo; cbn; auto).
  assert (Lb' : length (given (cp_uup S) aup) = cp_nu (cp_kind_ S)) by (destruct aup; cbn; auto).
  assert (K := cp_mic_total St S _ _ Bt La' Lb' Vx Vu). unfold cp_add_ret.
  destruct (cp_mic solve S (given (cp_ulo S) alo) (given (cp_uup S) aup)) as [[[[c B] [nlo nup]] b]|];
    [|congruence].
  destruct (add_mic c (xv ++ uv) (Some xn) NewBinary vt m) as [[m1 z] be]. discriminate.
Qed.

Lemma in_box_ordered : forall lo up x, in_box lo up x -> vle lo up.
Proof. intros lo up x [A B]. eapply vle_trans; eauto. Qed.

Lemma cp_forward_total : solver_total solve -> forall S, cp_built S -> vle (cp_xlo S) (cp_xup S) ->
  forward_total (fun _ => True) (cp_fwd solve S).
Proof.
  intros St S Bt Vx vt m xv xn uv alo aup u L1 L2 L3 L4 L5 Hb _.
  cbn [cp_fwd f_add f_nx f_nu] in *.
  assert (K := cp_add_total St S vt m xv xn uv (Some alo) (Some aup) Bt).
  destruct (cp_add_ret solve S xv xn uv (Some alo) (Some aup) vt m) as [[[m1 r] b]|]; [discriminate|].
  exfalso. apply K; auto; try (intros a Ha; congruence).
  cbn. eapply in_box_ordered; eauto.
Qed.

(** ** Closed loops *)

(** The bounds of the input that the controller returns, for any program. *)
Lemma controller_bounds : forall F vt m m' xv uv ulo uup rc, feedback_built F ->
  vle (f_lo (fb_fwd F)) (f_up (fb_fwd F)) ->
  add_controller solve F xv uv vt m = Some (m', (ulo, uup), rc) ->
  forall x u, in_box (f_lo (fb_fwd F)) (f_up (fb_fwd F)) x -> compute_u F x = Some u -> in_box ulo uup u.
Proof.
  intros F vt m m' xv uv ulo uup rc (Cw & Ll & Lp & Hl & Bt) Hv E x u Hx Eu.
  destruct (feedback_facts F Bt) as (Fx & Fu & Flo & Fup).
  assert (Ha := limit_ok_any _ _ Hl).
  assert (Lx : length x = f_nx (fb_fwd F)) by (apply in_box_lengths in Hx; unfold vec in *; lia).
  assert (Lpre := pre_saturation_length F Cw Bt x Lx).
  rewrite (compute_u_eq F Cw Bt Ha x Lx) in Eu. apply Some_inj in Eu. subst u.
  assert (Sat : forall plo pup vt pv m2 m4, in_box plo pup (pre_saturation F x) ->
    add_input_saturation uv pv (fb_lower F) (fb_upper F) plo pup vt m2 = Some (m4, (ulo, uup)) ->
    in_box ulo uup (saturates (fb_lower F) (fb_upper F) (pre_saturation F x))).
  { clear E. intros plo pup vt0 pv m2 m4 Hp E. unfold add_input_saturation in E.
    match type of E with (if ?b then _ else _) = _ => destruct b; [|discriminate] end.
    destruct (all_some (map fin (map2 ext_min _ _))) as [a|] eqn:E1; [|discriminate].
    destruct (all_some (map fin (map2 ext_max _ _))) as [b|] eqn:E2; [|discriminate].
    destruct (saturation_loop _ _ _ _ _ _ _ _) as [m5|]; [|discriminate].
    destruct (vleb a b); [|discriminate].
    apply Some_inj in E. apply pair_equal_spec in E. destruct E as [_ E].
    apply pair_equal_spec in E. destruct E as [-> ->].
    eapply saturates_bounds; eauto. congruence. }
  unfold add_controller in E. destruct (fb_ctl F) as [N|l] eqn:Ek.
  - destruct Cw as [W On].
    destruct (compute_layer_bound solve (fb_meth F) N (f_lo (fb_fwd F)) (f_up (fb_fwd F))) as [B|] eqn:E1;
      [|discriminate].
    destruct (compute_network_output_bounds solve (fb_meth F) N (b_pre_lo B) (b_pre_up B)
       (f_lo (fb_fwd F)) (f_up (fb_fwd F))) as [[olo oup]|] eqn:E2; [|discriminate].
    destruct (output_constraint_given_bounds N (b_pre_lo B) (b_pre_up B) (f_lo (fb_fwd F)) (f_up (fb_fwd F)))
      as [c|] eqn:E3; [|discriminate].
    assert (Eo : output_constraint solve (fb_meth F) N (f_lo (fb_fwd F)) (f_up (fb_fwd F))
                 = Some (c, B, (olo, oup))).
    { unfold output_constraint. apply vleb_spec in Hv. rewrite Hv. cbn [negb]. rewrite E1, E2, E3. auto. }
    destruct (network_bounds solve Hsolve _ _ _ _ _ _ _ _ _ W Ll Lp Eo) as [Nb _].
    destruct (Aout_input c), (Aout_binary c), (Aout_slack c), (Cout c); try discriminate.
    destruct (add_mic c xv None NewBinary vt m) as [[m1 z] be].
    destruct (addVars (repeat (NInf, PInf) (f_nu (fb_fwd F))) VCont m1) as [m2 pv].
    cbv zeta in E.
    match type of E with match ?X with _ => _ end = _ => destruct X as [[m4 b]|] eqn:Es; [|discriminate] end.
    apply Some_inj in E. apply pair_equal_spec in E. destruct E as [E _].
    apply pair_equal_spec in E. destruct E as [_ ->].
    eapply Sat; [|exact Es]. destruct (Nb x Hx) as (_ & _ & K).
    unfold pre_saturation. rewrite Ek. cbn [controller_forward].
    rewrite (forward_eval _ _ _ W Lx).
    apply vadd_box; [apply vsub_box; auto|apply box_refl].
  - destruct Cw as [W On].
    destruct (addVars (repeat (NInf, PInf) (f_nu (fb_fwd F))) VCont m) as [m1 pv].
    cbv zeta in E. destruct (linear_prop _ _ _ _ W Ll Hv) as (olo & oup & Ep & Pb & _). rewrite Ep in E.
    match type of E with match ?X with _ => _ end = _ => destruct X as [[m4 b]|] eqn:Es; [|discriminate] end.
    apply Some_inj in E. apply pair_equal_spec in E. destruct E as [E _].
    apply pair_equal_spec in E. destruct E as [_ ->].
    eapply Sat; [|exact Es]. assert (K := Pb x Hx).
    unfold pre_saturation. rewrite Ek. cbn [controller_forward].
    assert (Lf : lin_eval l x = linear_forward l x) by (apply lin_eval_bias; rewrite Lx; apply W).
    rewrite <- Lf. apply vadd_box; [apply vsub_box; auto|apply box_refl].
Qed.

Lemma loop_add_fst : forall S F xv xn vt m, fb_fwd F = cp_fwd solve S ->
  option_map fst (cp_loop_add solve S F xv xn vt m) = fb_add solve F xv xn vt m.
Proof.
  intros S F xv xn vt m Ef. unfold cp_loop_add, fb_add, fb_add_ret.
  destruct (addVars _ VCont m) as [m1 uv].
  destruct (add_controller solve F xv uv vt m1) as [[[m2 [ulo uup]] rc]|]; [|reflexivity].
  rewrite Ef. cbn [cp_fwd f_add].
  destruct (cp_add_ret solve S xv xn uv (Some ulo) (Some uup) vt m2) as [[[m3 r] b]|]; reflexivity.
Qed.

Lemma cp_flow_contract : forall S F st, cp_built S -> fb_fwd F = cp_fwd solve S -> feedback_built F ->
  vle (cp_xlo S) (cp_xup S) ->
  flow_contract (cp_nx (cp_kind_ S)) st (cp_loop_add solve S F) (cp_xlo S) (cp_xup S)
    (fb_next F (cp_moves S)).
Proof.
  intros S F st Bt Ef Fb Vx. split.
  - assert (K : system_contract (f_nx (fb_fwd F)) st (fb_add solve F) (fb_next F (cp_moves S))).
    { apply feedback_contract; auto.
      - rewrite Ef. apply cp_forward_contract; auto.
      - rewrite Ef. exact Vx.
      - right. rewrite Ef. apply cp_confines. }
    rewrite Ef in K at 1. intros vt m m' xv xn Vt H Bx Bn Lx Ln Nd E.
    rewrite (loop_add_fst S F) in E by auto. eapply K; eauto.
  - intros xv xn vt m m' a b E. unfold cp_loop_add in E.
    destruct (addVars _ VCont m) as [m1 uv].
    destruct (add_controller solve F xv uv vt m1) as [[[m2 [ulo uup]] rc]|] eqn:Ec; [|discriminate].
    destruct (cp_add_ret solve S xv xn uv (Some ulo) (Some uup) vt m2) as [[[m3 r] bn]|] eqn:Ea; [|discriminate].
    apply Some_inj in E. apply pair_equal_spec in E. destruct E as [_ ->].
    destruct (cp_built_facts S Bt) as (L1 & L2 & L3 & L4 & Lo).
    assert (Cb := controller_bounds F vt m1 m2 xv uv ulo uup rc Fb).
    rewrite Ef in Cb. cbn [cp_fwd f_lo f_up] in Cb. specialize (Cb Vx Ec).
    assert (CU : forall x, length x = cp_nx (cp_kind_ S) -> exists u, compute_u F x = Some u /\
       length u = cp_nu (cp_kind_ S)).
    { intros x Lx. destruct Fb as (Cw & _ & _ & Hl & Bf).
      destruct (compute_u_spec F x Cw Bf (limit_ok_any _ _ Hl)) as (u & E1 & E2 & _).
      - rewrite Ef. exact Lx.
      - exists u. split; auto. rewrite Ef in E2. exact E2. }
    assert (Ix : in_box (cp_xlo S) (cp_xup S) (cp_xlo S))
      by (split; [apply (box_refl (cp_xlo S))|exact Vx]).
    destruct (CU _ L1) as (u0 & Eu0 & Lu0). assert (Iu0 := Cb _ _ Ix Eu0).
    assert (Lb := in_box_lengths _ _ _ Iu0).
    assert (Bd : forall x d, in_box (cp_xlo S) (cp_xup S) x -> fb_next F (cp_moves S) x d -> in_box a b d).
    { intros x d Hx (_ & u & Eu & _ & Ed).
      assert (Iu := Cb x u Hx Eu).
      apply (cp_add_bounds S vt m2 m3 xv xn uv (Some ulo) (Some uup) r a b Bt) with (x := x) (u := u); auto.
      - intros v Hv. unfold vec in *. apply Some_inj in Hv. subst. lia.
      - intros v Hv. unfold vec in *. apply Some_inj in Hv. subst. lia. }
    destruct (cp_step_total S (cp_xlo S) u0 Bt L1 Lu0) as (d0 & Ed0 & Ld0).
    assert (Id : in_box a b d0).
    { apply (Bd (cp_xlo S)); auto. split; [rewrite Ef; exact Ix|].
      exists u0. split; auto. split; auto. }
    split; [eapply in_box_ordered; eauto|]. split; auto.
    apply in_box_lengths in Id. unfold vec in *. lia.
Qed.

Lemma cp_loop_total : solver_total solve -> forall S F st vt m xv xn, cp_built S ->
  fb_fwd F = cp_fwd solve S -> feedback_built F -> vle (cp_xlo S) (cp_xup S) -> vt <> VCont ->
  history st m -> below (nvars m) xv -> below (nvars m) xn -> length xv = cp_nx (cp_kind_ S) ->
  length xn = cp_nx (cp_kind_ S) -> NoDup (xv ++ xn) ->
  exists m' b, cp_loop_add solve S F xv xn vt m = Some (m', b) /\
    (cp_meth S = IA -> exists lo up, b = Some (lo, up)).
Proof.
  intros St S F st vt m xv xn Bt Ef Fb Vx Vt H Bx Bn Lx Ln Nd.
  destruct (cp_built_facts S Bt) as (L1 & L2 & L3 & L4 & Lo).
  assert (CU : exists u, compute_u F (cp_xlo S) = Some u).
  { destruct Fb as (Cw & _ & _ & Hl & Bf).
    destruct (compute_u_spec F (cp_xlo S) Cw Bf (limit_ok_any _ _ Hl)) as (u & E1 & E2 & _); eauto.
    rewrite Ef. exact L1. }
  destruct CU as [u0 Eu0].
  assert (K : system_total (f_nx (fb_fwd F)) st (fb_add solve F)).
  { apply (feedback_total solve Hsolve St F st (fun _ => True) (cp_xlo S) u0); auto.
    - rewrite Ef. apply cp_forward_total; auto.
    - rewrite Ef. exact Vx.
    - rewrite Ef. split; [apply (box_refl (cp_xlo S))|exact Vx]. }
  rewrite Ef in K at 1. specialize (K vt m xv xn Vt H Bx Bn Lx Ln Nd).
  rewrite <- (loop_add_fst S F) in K by auto.
  destruct (cp_loop_add solve S F xv xn vt m) as [[m' b]|] eqn:E; [|exfalso; apply K; reflexivity].
  exists m', b. split; auto. intros Em. unfold cp_loop_add in E.
  destruct (addVars _ VCont m) as [m1 uv].
  destruct (add_controller solve F xv uv vt m1) as [[[m2 [ulo uup]] rc]|] eqn:Ec; [|discriminate].
  destruct (cp_add_ret solve S xv xn uv (Some ulo) (Some uup) vt m2) as [[[m3 r] bn]|] eqn:Ea; [|discriminate].
  apply Some_inj in E. apply pair_equal_spec in E. destruct E as [_ <-].
  unfold cp_add_ret in Ea.
  destruct (cp_mic _ _ _ _) as [[[[c B] [nlo nup]] [q1 q2]]|]; [|discriminate].
  destruct (add_mic c (xv ++ uv) (Some xn) NewBinary vt m2) as [[m4 z] be].
  apply Some_inj in Ea. apply pair_equal_spec in Ea. destruct Ea as [_ <-]. rewrite Em. eauto.
Qed.

(** The closed loop moves with fb_step. *)
Lemma cp_loop_moves : forall S F x d, fb_fwd F = cp_fwd solve S ->
  (fb_next F (cp_moves S) x d <-> in_box (cp_xlo S) (cp_xup S) x /\ fb_step F x = Some d).
Proof.
  intros S F x d Ef. unfold fb_next, fb_step, cp_moves. rewrite Ef. cbn [cp_fwd f_lo f_up f_step].
  split.
  - intros (Ib & u & Eu & _ & Es). rewrite Eu. auto.
  - intros (Ib & Es). destruct (compute_u F x) as [u|] eqn:Eu; [|discriminate].
    split; auto. exists u. auto.
Qed.

Lemma cp_loop_exact : forall S F st vt m m' xv xn b, cp_built S -> fb_fwd F = cp_fwd solve S ->
  feedback_built F -> vle (cp_xlo S) (cp_xup S) -> vt <> VCont ->
  history st m -> below (nvars m) xv -> below (nvars m) xn -> length xv = cp_nx (cp_kind_ S) ->
  length xn = cp_nx (cp_kind_ S) -> NoDup (xv ++ xn) ->
  cp_loop_add solve S F xv xn vt m = Some (m', b) ->
  (forall sg, feas vt m' sg -> feas vt m sg) /\
  forall sg, feas vt m sg ->
    ((exists sg', feas vt m' sg' /\ agree m sg sg') <->
     in_box (cp_xlo S) (cp_xup S) (map sg xv) /\ fb_step F (map sg xv) = Some (map sg xn)).
Proof.
  intros S F st vt m m' xv xn b Bt Ef Fb Vx Vt H Bx Bn Lx Ln Nd E.
  destruct (cp_flow_contract S F st Bt Ef Fb Vx) as [K _].
  assert (E1 : option_map fst (cp_loop_add solve S F xv xn vt m) = Some m') by (rewrite E; reflexivity).
  assert (S1 := K vt m m' xv xn Vt H Bx Bn Lx Ln Nd E1). cbv zeta in S1.
  split.
  - intros sg G. destruct S1 as (_ & _ & X & _). apply X; auto.
  - intros sg G. rewrite (step_extends _ _ _ _ _ S1); auto.
    + apply cp_loop_moves; auto.
    + apply (local_map2 m xv xn (fb_next F (cp_moves S))); auto.
Qed.

(** From the two programs to the decay along the solutions of the closed loop. *)
Lemma cp_certified : forall S F, cp_built S -> fb_fwd F = cp_fwd solve S -> feedback_built F ->
  vle (cp_xlo S) (cp_xup S) ->
  forall N R0 xeq, lyap_args (cp_nx (cp_kind_ S)) N (cp_xlo S) (cp_xup S) R0 xeq -> no_slope_one (hidden N) ->
  forall lam eps opt_bounds et d v eps1 mp xp vp,
  positivity_milp solve IA N (cp_nx (cp_kind_ S)) (cp_xlo S) (cp_xup S) xeq lam eps1 R0 = Some (mp, xp) ->
  solve mp = GOptimal vp -> vp <= 0 ->
  continuous_milp solve IA N (cp_nx (cp_kind_ S)) (cp_xlo S) (cp_xup S) (cp_loop_add solve S F) opt_bounds
    xeq lam eps et R0 None None = Some d ->
  solve (cd_mip d) = GOptimal v -> v <= 0 ->
  forall b x, flow (cp_xlo S) (cp_xup S) (fun y w => fb_step F y = Some w) b x ->
    forall t, 0 <= t <= b ->
      eps1 * error1 (R_of (cp_nx (cp_kind_ S)) R0) xeq (x t) <= V N (R_of (cp_nx (cp_kind_ S)) R0) lam xeq (x t)
      <= exp (- eps * t) * V N (R_of (cp_nx (cp_kind_ S)) R0) lam xeq (x 0).
Proof.
  intros S F Bt Ef Fb Vx N R0 xeq Ar Ns lam eps ob et d v eps1 mp xp vp Ep Sp Hp E So Hv b x Fl.
  eapply (continuous_certified solve Hsolve IA N _ _ _ R0 xeq Ar lam eps true (cp_loop_add solve S F)
    (fb_next F (cp_moves S)) (cp_flow_contract S F true Bt Ef Fb Vx) ob Ns); eauto.
  - intros [X|X]; discriminate.
  - destruct Fl as [F1 F2 F3]. constructor; auto. intros t Ht. destruct (F3 t Ht) as (w & K1 & K2 & K3).
    exists w. split; auto. apply cp_loop_moves; auto. split; auto. apply F1. lra.
Qed.

End Solver.
