(** Facts about the concrete objects of ModelContExamples. *)

Require Import Reals List Lia Lra Bool Arith.
Require Import Verif.Vec Verif.VecFacts Verif.ModelMip Verif.SpecMip Verif.SpecCore
  Verif.ModelUtils Verif.SpecUtils Verif.ModelNet Verif.SpecNet Verif.SpecStep
  Verif.ModelPattern Verif.SpecPattern
  Verif.ModelGrad Verif.ModelLyapunov Verif.SpecLyapunov Verif.ModelHybrid Verif.SpecHybrid
  Verif.ModelContinuous Verif.SpecContinuous Verif.ModelExamples Verif.ModelContExamples
  Verif.ProofUtils Verif.ProofGrad Verif.ProofMip Verif.ProofBounds Verif.ProofNetBounds Verif.ProofStep Verif.ProofLyapunov Verif.ProofLyapCert
  Verif.ProofLyapMore Verif.ProofStrengthen Verif.ProofHybrid Verif.ProofHybrid2 Verif.ProofExamples
  Verif.ProofContinuous Verif.ProofContinuous4 Verif.ProofContinuous5 Verif.ProofContinuous6.
Import ListNotations.
Open Scope R_scope.

Lemma sysf_built : built row_bounds (fun _ => true) 1 0 sysf.
Proof.
  eapply built_add with (h := mkHybrid 1 0 [nth 0 (h_modes sysf) (mkMode [] [] [] [] [] [] [])])
    (A := [[-2]]) (B := [[]]) (c := [0]) (P := [[1]; [-1]]) (q := [1; 0]) (check := true).
  - eapply built_add with (h := new_hybrid 1 0)
      (A := [[-1]]) (B := [[]]) (c := [0]) (P := [[1]; [-1]]) (q := [0; 1]) (check := true).
    + constructor.
    + unfold add_mode. cbn [h_nx h_nu new_hybrid shape_ok length Nat.eqb forallb andb negb orb seq Nat.add map].
      rowcalc. reflexivity.
  - unfold add_mode. cbn [h_nx h_nu new_hybrid shape_ok length Nat.eqb forallb andb negb orb seq Nat.add map].
    rowcalc. reflexivity.
Qed.
Lemma sysd_built : built row_bounds (fun _ => true) 1 0 sysd.
Proof.
  eapply built_add with (h := new_hybrid 1 0)
      (A := [[0]]) (B := [[]]) (c := [-1]) (P := [[1]; [-1]]) (q := [1; 0]) (check := true).
  - constructor.
  - unfold add_mode. cbn [h_nx h_nu new_hybrid shape_ok length Nat.eqb forallb andb negb orb seq Nat.add map].
    rowcalc. reflexivity.
Qed.
Lemma sysf_finite : finite_modes sysf.
Proof.
  unfold finite_modes, sysf. cbn [h_modes].
  repeat (apply Forall_cons || apply Forall_nil); cbn [md_lo md_up]; split;
    repeat (apply Forall_cons || apply Forall_nil); eauto.
Qed.
Lemma sysd_finite : finite_modes sysd.
Proof.
  unfold finite_modes, sysd. cbn [h_modes].
  repeat (apply Forall_cons || apply Forall_nil); cbn [md_lo md_up]; split;
    repeat (apply Forall_cons || apply Forall_nil); eauto.
Qed.

Lemma sysf_next : forall a x', Tf [a] x' <->
  (-1 <= a <= 0 /\ x' = [- a]) \/ (0 <= a <= 1 /\ x' = [- 2 * a]).
Proof.
  intros a x'. unfold Tf, hybrid_next, sysf. cbn [h_modes In].
  split.
  - intros (m & [<-|[<-|[]]] & I & ->); unfold inside, image in *;
      cbn [md_A md_B md_c md_P md_q mv map dot map2 vsum vadd app] in *; vle_simpl.
    + left. split; [lra|]. apply cons_eq_iff. split; [lra|auto].
    + right. split; [lra|]. apply cons_eq_iff. split; [lra|auto].
  - intros [[H ->]|[H ->]].
    + eexists. split; [left; reflexivity|]. unfold inside, image.
      cbn [md_A md_B md_c md_P md_q mv map dot map2 vsum vadd app]. vle_simpl.
      split; [lra|]. apply cons_eq_iff. split; [lra|auto].
    + eexists. split; [right; left; reflexivity|]. unfold inside, image.
      cbn [md_A md_B md_c md_P md_q mv map dot map2 vsum vadd app]. vle_simpl.
      split; [lra|]. apply cons_eq_iff. split; [lra|auto].
Qed.
Lemma sysd_next : forall a x', Td [a] x' <-> 0 <= a <= 1 /\ x' = [-1].
Proof.
  intros a x'. unfold Td, hybrid_next, sysd. cbn [h_modes In].
  split.
  - intros (m & [<-|[]] & I & ->); unfold inside, image in *;
      cbn [md_A md_B md_c md_P md_q mv map dot map2 vsum vadd app] in *; vle_simpl.
    split; [lra|]. apply cons_eq_iff. split; [lra|auto].
  - intros [H ->].
    eexists. split; [left; reflexivity|]. unfold inside, image.
    cbn [md_A md_B md_c md_P md_q mv map dot map2 vsum vadd app]. vle_simpl.
    split; [lra|]. apply cons_eq_iff. split; [lra|auto].
Qed.

Lemma fst_snd_add : forall (f : option mip) b, option_map fst (option_map (fun m' => (m', b : option (vec * vec))) f) = f.
Proof. intros [m|] b; reflexivity. Qed.

Lemma sysf_contract : flow_contract 1 true addf [-1] [1] Tf.
Proof.
  split.
  - intros vt m m' xv xn H1 H2 H3 H4 H5 H6 H7 E. unfold addf in E. rewrite fst_snd_add in E.
    revert E. eapply hybrid_contract; [apply row_bounds_valid|apply sysf_built|..]; auto.
  - intros xv xn vt m m' a b E. unfold addf in E.
    destruct (hybrid_add_dynamics sysf xv xn [] vt m); [|discriminate].
    cbn [option_map] in E. apply Some_inj in E. apply pair_equal_spec in E. destruct E as [_ E].
    apply Some_inj in E. apply pair_equal_spec in E. destruct E as [<- <-].
    split; [vle_simpl; lra|]. split; auto.
    intros x d B Td. destruct (box1_inv _ _ _ B) as (c & -> & Hc).
    apply sysf_next in Td. destruct Td as [[K ->]|[K ->]]; split; vle_simpl; lra.
Qed.
Lemma sysd_contract : flow_contract 1 true addd [0] [1] Td.
Proof.
  split.
  - intros vt m m' xv xn H1 H2 H3 H4 H5 H6 H7 E. unfold addd in E. rewrite fst_snd_add in E.
    revert E. eapply hybrid_contract; [apply row_bounds_valid|apply sysd_built|..]; auto.
  - intros xv xn vt m m' a b E. unfold addd in E.
    destruct (hybrid_add_dynamics sysd xv xn [] vt m); [|discriminate].
    cbn [option_map] in E. apply Some_inj in E. apply pair_equal_spec in E. destruct E as [_ E].
    apply Some_inj in E. apply pair_equal_spec in E. destruct E as [<- <-].
    split; [vle_simpl; lra|]. split; auto.
    intros x d B Td. destruct (box1_inv _ _ _ B) as (c & -> & Hc).
    apply sysd_next in Td. destruct Td as [K ->]; split; vle_simpl; lra.
Qed.

Lemma addf_total : forall m xv xn, history true m -> below (nvars m) xv -> below (nvars m) xn ->
  length xv = 1%nat -> length xn = 1%nat -> NoDup (xv ++ xn) ->
  exists m' a b, addf xv xn VBin m = Some (m', Some (a, b)).
Proof.
  intros m xv xn H1 H2 H3 H4 H5 H6.
  assert (K : hybrid_add_dynamics sysf xv xn [] VBin m <> None).
  { apply (hybrid_system_total row_bounds (fun _ => true) 1 sysf true [0] [- 0]); auto.
    - apply row_bounds_valid.
    - apply sysf_built.
    - apply sysf_finite.
    - apply sysf_next. left. split; [lra|auto].
    - discriminate. }
  unfold addf. destruct (hybrid_add_dynamics sysf xv xn [] VBin m) as [m'|]; [|congruence].
  cbn [option_map]. eauto.
Qed.
Lemma addd_total : forall m xv xn, history true m -> below (nvars m) xv -> below (nvars m) xn ->
  length xv = 1%nat -> length xn = 1%nat -> NoDup (xv ++ xn) ->
  exists m' a b, addd xv xn VBin m = Some (m', Some (a, b)).
Proof.
  intros m xv xn H1 H2 H3 H4 H5 H6.
  assert (K : hybrid_add_dynamics sysd xv xn [] VBin m <> None).
  { apply (hybrid_system_total row_bounds (fun _ => true) 1 sysd true [0] [-1]); auto.
    - apply row_bounds_valid.
    - apply sysd_built.
    - apply sysd_finite.
    - apply sysd_next. split; [lra|auto].
    - discriminate. }
  unfold addd. destruct (hybrid_add_dynamics sysd xv xn [] VBin m) as [m'|]; [|congruence].
  cbn [option_map]. eauto.
Qed.

(** ** A certified continuous-time system *)

Lemma abs_slopes : slopes_nonneg (hidden net_abs).
Proof. constructor; [cbn; lra|constructor]. Qed.
Lemma abs_ns : no_slope_one (hidden net_abs).
Proof. constructor; [cbn; discriminate|constructor]. Qed.
Lemma no_opt_ok : forall lo up N M (T : vec -> vec -> Prop) A, IA = LP \/ IA = MIP -> forall B r,
  no_opt M = Some (B, r) -> product_bounds_ok lo up N M T A B r.
Proof. intros lo up N M T A _ B r E. discriminate. Qed.

Lemma abs_Vdot : forall a w pats sgs, selects net_abs (R_of 1 None) [0] [a] pats sgs ->
  (0 < a -> Vdot net_abs (R_of 1 None) (1/2) pats sgs [w] = 3/2 * w) /\
  (a < 0 -> Vdot net_abs (R_of 1 None) (1/2) pats sgs [w] = - 3/2 * w) /\
  (w = 0 -> Vdot net_abs (R_of 1 None) (1/2) pats sgs [w] = 0).
Proof.
  intros a w pats sgs [C S]. unfold Vdot.
  unfold consistent in C. cbn in C. unfold signs_ok in S. cbn in S.
  inversion C as [|p ? ps ? C1 C2]; subst. inversion C2; subst.
  inversion C1 as [|b1 ? p' ? D1 C3]; subst. inversion C3 as [|b2 ? p'' ? D2 C4]; subst. inversion C4; subst.
  inversion S as [|s ? ss ? D3 S']; subst. inversion S'; subst.
  unfold flag_ok in *. cbn.
  destruct b1, b2, s; cbn; unfold act_slope; (split; [|split]); intros; lra.
Qed.

Lemma flow_case : exists d,
  continuous_milp ideal_solve IA net_abs 1 [-1] [1] addf no_opt [0] (1/2) 1 ExpLower None None None
    = Some d /\
  ideal_solve (cd_mip d) = GOptimal 0.
Proof.
  destruct (continuous_total ideal_solve ideal_ok IA net_abs 1 [-1] [1] None [0] abs_args (1/2) 1 true
    addf Tf sysf_contract no_opt abs_ns None None eq_refl abs_slopes addf_total (abs_out _ ideal_ok))
    as (d & E).
  exists d. split; auto. apply ideal_optimal.
  destruct (continuous_program ideal_solve ideal_ok IA net_abs 1 [-1] [1] None [0] abs_args (1/2) 1 true
    addf Tf sysf_contract no_opt (no_opt_ok _ _ _ _ _ _) None None abs_ns ExpLower d E)
    as (_ & P1 & _ & _ & P2 & P3).
  split.
  - destruct (P3 [0] [- 0] [[true; false]] [true]) as (sg & G & _ & _ & _ & _ & Eo).
    + split; vle_simpl; lra.
    + apply sysf_next. left. split; [lra|auto].
    + reflexivity.
    + split; discriminate.
    + split.
      * repeat constructor; cbn; lra.
      * repeat constructor; cbn; lra.
    + split; intros i b E'.
      * destruct i as [|[|[|i]]]; cbn in E'; try discriminate; injection E' as <-;
          (exists [1]; split; [split; vle_simpl; lra|cbn; lra]).
      * destruct i as [|[|i]]; cbn in E'; try discriminate; injection E' as <-.
        exists [1]. split; [split; vle_simpl; lra|cbn; lra].
    + exists sg. split; auto. rewrite Eo, abs_V, Rabs_R0. unfold Vdot. cbn. unfold act_slope. lra.
  - rewrite P1. intros sg G. destruct (P2 sg G) as (B & Tx & _ & pats & sgs & Sel & _ & _ & ->).
    destruct (box1_inv _ _ _ B) as (a & Ea & Ha). rewrite Ea in *.
    apply sysf_next in Tx.
    assert (K : exists w, map sg (cd_xdot d) = [w] /\ ((a <= 0 /\ w = - a) \/ (0 <= a /\ w = -2 * a))).
    { destruct Tx as [[X ->]|[X ->]]; eexists; (split; [reflexivity|]); [left|right]; split; auto; lra. }
    destruct K as (w & -> & K). destruct (abs_Vdot a w pats sgs Sel) as (J1 & J2 & J3).
    rewrite abs_V. destruct (Rtotal_order a 0) as [Hn|[Hz|Hp]].
    + rewrite J2 by auto. rewrite Rabs_left by auto. lra.
    + rewrite J3 by lra. subst a. rewrite Rabs_R0. lra.
    + rewrite J1 by auto. rewrite Rabs_right by lra. lra.
Qed.

Lemma flow_ex_ok : forall b, flow [-1] [1] Tf b flow_ex.
Proof.
  intros b. assert (D : forall t, derivable_pt_lim (fun s => exp (- 2 * s)) t (- 2 * exp (- 2 * t))).
  { intros t. apply exp_derivable. }
  assert (Pe : forall t, 0 <= t -> 0 <= exp (- 2 * t) <= 1).
  { intros t Ht. split; [left; apply exp_pos|]. rewrite <- exp_0.
    destruct (Req_dec t 0) as [->|]; [right; f_equal; ring|]. left. apply exp_increasing. lra. }
  constructor.
  - intros t Ht. specialize (Pe t ltac:(lra)). unfold flow_ex. split; vle_simpl; lra.
  - intros i. destruct i as [|i].
    + apply cont_of_continuity. intros s. apply derivable_continuous_pt. eexists. apply D.
    + cbn. destruct i; apply cont_const.
  - intros t Ht. exists [-2 * exp (- 2 * t)]. split; [|split; auto].
    + apply sysf_next. right. split; auto. apply Pe. lra.
    + intros i. destruct i as [|i]; cbn.
      * apply rderiv_derivable. apply D.
      * destruct i; apply rderiv_const.
Qed.

(** ** A gradient at the boundary that the program does not have *)

Lemma net_flat_wf : net_wf 1 net_flat.
Proof.
  unfold net_wf, net_flat. cbn [hidden last_layer hidden_wf lin_wf in_features weight bias].
  split; [discriminate|]. unfold lin_wf, wfm, out_features. cbn. repeat split; repeat constructor.
Qed.
Lemma flat_args : lyap_args 1 net_flat [0] [1] None [0].
Proof.
  constructor; try reflexivity; try exact net_flat_wf.
  - apply (wfm_eyek 1 1).
  - split; vle_simpl; lra.
Qed.
Lemma flat_ns : no_slope_one (hidden net_flat).
Proof. constructor; [cbn; discriminate|constructor]. Qed.
Lemma flat_V : forall a, V net_flat (R_of 1 None) 1 [0] [a] = Rabs a.
Proof.
  intros a. unfold V. rewrite abs_error. unfold phi. cbn. 
  replace (0 * a + 0 + 1) with (0 * 0 + 0 + 1) by ring. lra.
Qed.
Lemma flat_out : forall solve, solver_ok solve ->
  exists c B out, output_constraint solve IA net_flat [0] [1] = Some (c, B, out).
Proof.
  intros solve H. apply (ia_total solve H 1); try reflexivity; [exact net_flat_wf|]. vle_simpl. lra.
Qed.

Lemma boundary_gradient_missing : forall solve, solver_ok solve -> exists d,
  continuous_milp solve IA net_flat 1 [0] [1] addd no_opt [0] 1 1 ExpLower None None None = Some d /\
  (forall sg, gfeas (cd_mip d) sg -> objective (cd_mip d) sg <= 0) /\
  exists x w pats sgs, in_box [0] [1] x /\ Td x w /\
    selects net_flat (R_of 1 None) [0] x pats sgs /\
    0 < Vdot net_flat (R_of 1 None) 1 pats sgs w + 1 * V net_flat (R_of 1 None) 1 [0] x.
Proof.
  intros solve Hs.
  destruct (continuous_total solve Hs IA net_flat 1 [0] [1] None [0] flat_args 1 1 true
    addd Td sysd_contract no_opt flat_ns None None eq_refl) as (d & E).
  { constructor; [cbn; lra|constructor]. }
  { apply addd_total. }
  { apply flat_out. auto. }
  exists d. split; auto. split.
  - destruct (continuous_program_forced solve Hs IA net_flat 1 [0] [1] None [0] flat_args 1 1 true
      addd Td sysd_contract no_opt (no_opt_ok _ _ _ _ _ _) None None flat_ns ExpLower d E)
      as (_ & _ & _ & _ & _ & blo & bup & ls & us & Er & P & _).
    intros sg G. destruct (P sg G) as (B & Tx & _ & pats & sgs & [C S] & _ & _ & -> & _ & F).
    destruct (box1_inv _ _ _ B) as (a & Ea & Ha). rewrite Ea in *. clear Ea.
    apply sysd_next in Tx. destruct Tx as [_ ->].
    rewrite flat_V. rewrite Rabs_right by lra.
    destruct (range_inv _ _ _ _ _ _ _ Er) as (_ & _ & _ & El & _).
    unfold signs_ok in S. cbn in S.
    inversion S as [|s ? ss ? D3 S']; subst. inversion S'; subst.
    cbn in F. destruct us as [|u us]; [tauto|]. destruct F as [[F _] _].
    assert (s = true) as ->.
    { apply F. rewrite ia_lo_cons. unfold ia_lo. cbn. unfold Rltb. destruct (Rlt_dec 0 1); cbn; lra. }
    unfold Vdot.
    assert (Z : nth 0 (jvp net_flat pats [-1]) 0 = 0).
    { unfold consistent in C. cbn in C.
      inversion C as [|p ? ps ? C1 C2]; subst. inversion C2; subst.
      inversion C1 as [|b1 ? p' ? D1 C3]; subst. inversion C3 as [|b2 ? p'' ? D2 C4]; subst. inversion C4; subst.
      cbn. destruct b1, b2; cbn; lra. }
    rewrite Z. cbn. lra.
  - exists [0], [-1], [[true; true]], [false].
    split; [split; vle_simpl; lra|]. split; [apply sysd_next; split; [lra|auto]|]. split.
    + split; repeat constructor; cbn; lra.
    + rewrite flat_V, Rabs_R0. unfold Vdot. cbn. lra.
Qed.
