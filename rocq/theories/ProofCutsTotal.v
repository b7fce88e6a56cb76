(** The strengthening rounds of a closed loop succeed (C29) — lemmas. *)

Require Import Reals List Bool Arith Lra Lia Psatz.
Require Import Verif.Vec Verif.VecFacts Verif.ModelMip Verif.SpecMip
  Verif.ModelUtils Verif.ModelGrad Verif.ModelNet Verif.SpecCore Verif.SpecUtils Verif.SpecNet
  Verif.ModelPattern Verif.ModelStrengthen Verif.SpecStrengthen
  Verif.ProofUtils Verif.ProofGrad Verif.ProofMip Verif.ProofTorch Verif.ProofNet
  Verif.SpecStep Verif.ProofStep Verif.ModelLyapunov Verif.SpecLyapunov Verif.ProofNetStep
  Verif.ProofLyapunov Verif.ProofLyapCert Verif.ProofLyapMore Verif.ProofStrengthen Verif.ProofLyapStrengthen
  Verif.ModelHybrid Verif.ModelSystems Verif.SpecSystems Verif.ProofSystems Verif.ProofSystems2
  Verif.ProofFeedback Verif.ProofNetTotal Verif.ProofNetBounds Verif.ProofDynamics
  Verif.ModelExamples Verif.ModelExamples2 Verif.SpecHybrid Verif.ProofHybrid Verif.ProofHybrid2 Verif.ProofExamples
  Verif.ModelFeedbackCuts Verif.SpecFeedbackCuts Verif.ProofFeedbackCuts.
Import ListNotations.
Open Scope R_scope.

Lemma cut_slopes_not_one : forall hs, cut_slopes hs -> no_slope_one hs.
Proof.
  intros hs H. unfold cut_slopes in H. unfold no_slope_one. eapply Forall_impl; [|exact H].
  intros [l a]. cbn [snd]. destruct a; intros K E; [discriminate|]. injection E as ->. lra.
Qed.

Section Solver.
Variable solve : mip -> gresult.
Hypothesis Hsolve : solver_ok solve.

Lemma post_lengths : forall n meth N x_lo x_up c B out, net_wf n N ->
  length x_lo = n -> length x_up = n ->
  output_constraint solve meth N x_lo x_up = Some (c, B, out) ->
  length (b_post_lo B) = num_units (hidden N) /\ length (b_post_up B) = num_units (hidden N).
Proof.
  intros n meth N x_lo x_up c B [lo up] W L1 L2 H.
  destruct (network_bounds solve Hsolve n _ _ _ _ _ _ _ _ W L1 L2 H) as [Sd _].
  unfold output_constraint in H.
  destruct (vleb x_lo x_up) eqn:Ev; [|discriminate]. apply vleb_spec in Ev.
  assert (Bx : in_box x_lo x_up x_lo) by (split; auto; apply vle_refl).
  destruct (Sd _ Bx) as (_ & A2 & _). destruct W as (_ & Wh & _).
  destruct (num_units_pre _ _ _ _ Wh L1) as [_ Q2].
  apply in_box_lengths in A2. unfold vec in *. lia.
Qed.

Lemma at_solution_total : forall n meth N x_lo x_up c B out xv sv bv sol m, net_wf n N ->
  cut_slopes (hidden N) -> length x_lo = n -> length x_up = n ->
  output_constraint solve meth N x_lo x_up = Some (c, B, out) ->
  length xv = n -> length sv = num_units (hidden N) -> length bv = num_units (hidden N) ->
  strengthen_relu_mip_at_solution N xv sv bv x_lo x_up (b_post_lo B) (b_post_up B) sol m <> None.
Proof.
  intros n meth N x_lo x_up c B out xv sv bv sol m W Cs L1 L2 H Lx Ls Lb.
  destruct (post_lengths _ _ _ _ _ _ _ _ W L1 L2 H) as [P1 P2].
  unfold strengthen_relu_mip_at_solution.
  assert (T : strengthen_mip_at_point N (map sol xv ++ map sol sv) (map sol bv)
          (x_lo ++ b_post_lo B) (x_up ++ b_post_up B) <> None).
  { apply (strengthen_total n); auto; rewrite ?app_length, ?map_length; unfold vec in *; lia. }
  destruct (strengthen_mip_at_point N (map sol xv ++ map sol sv) (map sol bv)
          (x_lo ++ b_post_lo B) (x_up ++ b_post_up B)) as [[k|]|]; congruence.
Qed.

Lemma nn_cuts_total : forall meth N r P, cut_slopes (hidden N) -> carries solve meth N r P ->
  forall sol m, nn_cuts N r sol m <> None.
Proof.
  intros meth N r P Cs (n & c & out & W & L1 & L2 & H & Lx & Ls & Lb & _) sol m.
  unfold nn_cuts. eapply at_solution_total; eauto.
Qed.

Lemma fb_cuts_total : forall F r P net,
  (forall rf, fr_fwd r = Some rf -> exists N meth, net = Some N /\ cut_slopes (hidden N) /\
     carries solve meth N rf P) ->
  (forall rc, fr_ctl r = Some rc -> exists N, fb_ctl F = CtlNet N /\ cut_slopes (hidden N) /\
     nn_lo rc = f_lo (fb_fwd F) /\ nn_up rc = f_up (fb_fwd F) /\
     carries solve (fb_meth F) N rc P) ->
  forall sol m, fb_cuts net F r sol m <> None.
Proof.
  intros F r P net H1 H2 sol m. unfold fb_cuts.
  assert (T2 : forall m1, match fr_ctl r with None => Some m1 | Some rc => controller_cuts F rc sol m1 end
    <> None).
  { intros m1. destruct (fr_ctl r) as [rc|]; [|discriminate].
    destruct (H2 rc eq_refl) as (N & Ek & Cs & E1 & E2 & C).
    assert (K := nn_cuts_total _ _ _ _ Cs C sol m1).
    unfold controller_cuts. rewrite Ek, <- E1, <- E2. exact K. }
  destruct (fr_fwd r) as [rf|]; [|apply T2].
  destruct (H1 rf eq_refl) as (N & me & -> & Cs & C).
  assert (K := nn_cuts_total _ _ _ _ Cs C sol m). destruct (nn_cuts N rf sol m); [apply T2|congruence].
Qed.

(** ** The rounds *)

Section Program.
Variable meth : method.
Variable N : network.
Variable n : nat.
Variables x_lo x_up : vec.
Variable R0 : option mat.
Variable xeq : vec.
Hypothesis Args : lyap_args n N x_lo x_up R0 xeq.
Variables lam eps : R.
Variable st : bool.
Variable add_system : list nat -> list nat -> vtype -> mip -> option mip.
Variable T : vec -> vec -> Prop.
Hypothesis Hsys : system_contract n st add_system T.
Variable et : eps_type.
Variables lower upper : option R.

Lemma rounds_total : forall lp sys_cuts d,
  derivative_milp solve meth N n x_lo x_up add_system xeq lam eps et R0 lower upper VBinRelax = Some d ->
  cut_slopes (hidden N) -> cuts_ok sys_cuts (feas VBinRelax (d_mip d)) ->
  (forall sol m, sys_cuts sol m <> None) ->
  (forall m, (exists sg, gfeas m sg) -> lp m <> None) ->
  (exists sg, feas VBinRelax (d_mip d) sg) ->
  forall k m, (forall sg, feas VBinRelax (d_mip d) sg -> gfeas m sg) ->
  strengthen_rounds N x_lo x_up lp sys_cuts k d m <> None.
Proof.
  intros lp sys_cuts d E Cs Ok Tot Hlp [sg0 G0].
  assert (O := cut_slopes_not_one _ Cs).
  destruct (derivative_program solve Hsolve meth N n x_lo x_up R0 xeq Args lam eps st add_system T Hsys
    et lower upper VBinRelax ltac:(discriminate) d E)
    as (_ & Lx & Ln & _ & _ & _ & _ & L1 & L2 & L3 & L4 & (c & B & out & Ec & Eb & Eb' & Hm) & _).
  induction k as [|k IH]; intros m1 G; cbn [strengthen_rounds]; [discriminate|].
  assert (Hl := Hlp m1 ltac:(exists sg0; auto)). destruct (lp m1) as [sol|]; [clear Hl|congruence].
  assert (Ta := at_solution_total n meth N x_lo x_up c B out (d_x d) (ret_z (d_relu d))
    (ret_beta (d_relu d)) sol m1 (la_net _ _ _ _ _ _ Args) Cs (la_lo _ _ _ _ _ _ Args)
    (la_up _ _ _ _ _ _ Args) Ec Lx L3 L1).
  unfold relu_cuts at 1. rewrite Eb.
  destruct (strengthen_relu_mip_at_solution N (d_x d) (ret_z (d_relu d)) (ret_beta (d_relu d)) x_lo x_up
    (b_post_lo B) (b_post_up B) sol m1) as [ma|] eqn:Ea; [clear Ta|congruence].
  assert (Tb := at_solution_total n meth N x_lo x_up c B out (d_next d) (ret_z (d_relu_next d))
    (ret_beta (d_relu_next d)) sol ma (la_net _ _ _ _ _ _ Args) Cs (la_lo _ _ _ _ _ _ Args)
    (la_up _ _ _ _ _ _ Args) Ec Ln L4 L2).
  unfold relu_cuts at 1. rewrite Eb'.
  destruct (strengthen_relu_mip_at_solution N (d_next d) (ret_z (d_relu_next d)) (ret_beta (d_relu_next d))
    x_lo x_up (b_post_lo B) (b_post_up B) sol ma) as [mb|] eqn:Eb2; [clear Tb|congruence].
  destruct (sys_cuts sol mb) as [mc|] eqn:Em; [|apply Tot in Em; destruct Em].
  apply IH. intros sg Hf.
  destruct (relu_cuts_spec solve Hsolve meth N n x_lo x_up R0 xeq Args d (d_x d) (d_relu d) sol m1 ma c B out
    Ec O Eb Lx L3 L1) as (_ & A2 & _).
  { intros s F. apply Hm in F. tauto. }
  { unfold relu_cuts. rewrite Eb. exact Ea. }
  destruct (relu_cuts_spec solve Hsolve meth N n x_lo x_up R0 xeq Args d (d_next d) (d_relu_next d) sol ma mb c B out
    Ec O Eb' Ln L4 L2) as (_ & B2 & _).
  { intros s F. apply Hm in F. tauto. }
  { unfold relu_cuts. rewrite Eb'. exact Eb2. }
  destruct (Ok sol mb mc Em) as (_ & C2 & _). auto.
Qed.
End Program.

Lemma loop_rounds_total : forall F Tf net st, feedback_built F ->
  forward_contract st (fb_fwd F) Tf -> vle (f_lo (fb_fwd F)) (f_up (fb_fwd F)) ->
  (is_net (fb_ctl F) \/ confines (fb_fwd F) Tf) ->
  fwd_carries solve st (fb_fwd F) net -> controller_cut_slopes (fb_ctl F) ->
  (forall N, net = Some N -> cut_slopes (hidden N)) ->
  system_total (f_nx (fb_fwd F)) st (fb_add solve F) ->
  forall meth N x_lo x_up R0 xeq, lyap_args (f_nx (fb_fwd F)) N x_lo x_up R0 xeq ->
  cut_slopes (hidden N) ->
  (exists c B out, output_constraint solve meth N x_lo x_up = Some (c, B, out)) ->
  forall lam lower upper,
  (exists x x', in_box x_lo x_up x /\ in_box x_lo x_up x' /\ fb_next F Tf x x' /\
     within lower upper (V N (R_of (f_nx (fb_fwd F)) R0) lam xeq x)) ->
  forall lp, (forall m, (exists sg, gfeas m sg) -> lp m <> None) ->
  forall eps et num, exists d,
  strengthen_derivative solve meth N (f_nx (fb_fwd F)) x_lo x_up (fb_add solve F) lp
    (fb_sys_cuts solve net F) xeq lam eps et R0 lower upper num = Some d.
Proof.
  intros F Tf net st Bt Hf Hv Hcf Hn Hs Ns Tot meth N x_lo x_up R0 xeq Args Nl Out lam lower upper Pt lp Hlp eps et num.
  set (n := f_nx (fb_fwd F)) in *.
  assert (Sc := feedback_contract solve Hsolve F Tf st Bt Hf Hv Hcf). fold n in Sc.
  destruct (derivative_total solve Hsolve meth N n x_lo x_up R0 xeq Args lam st
    (fb_add solve F) _ Sc eps et lower upper VBinRelax ltac:(discriminate) Tot Out) as (d & E).
  unfold strengthen_derivative. rewrite E.
  assert (Hs' : controller_slopes (fb_ctl F)).
  { unfold controller_slopes, controller_cut_slopes in *. destruct (fb_ctl F); auto.
    apply cut_slopes_not_one; auto. }
  assert (Ck : cuts_ok (fb_sys_cuts solve net F) (feas VBinRelax (d_mip d))).
  { exact (loop_cuts_ok solve Hsolve F Tf net st Bt Hf Hv Hcf Hn Hs'
      meth N x_lo x_up R0 xeq Args lam eps et lower upper d E). }
  assert (Tc : forall sol m, fb_sys_cuts solve net F sol m <> None).
  { unfold fb_sys_cuts, fb_system_return. fold n.
    destruct (addVars (repeat (NInf, PInf) n) VCont init_mip) as [m0 xn] eqn:E0.
    destruct (addVars (repeat (NInf, PInf) n) VCont m0) as [m1 xv] eqn:E1.
    destruct (derivative_prefix solve Hsolve meth N _ x_lo x_up R0 xeq Args lam eps st (fb_add solve F) _ Sc et
      lower upper VBinRelax ltac:(discriminate) d m0 xn m1 xv E E0 E1) as (m2 & E2 & _).
    unfold fb_add in E2.
    destruct (fb_add_ret solve F xv xn VBinRelax m1) as [[m2' r]|] eqn:Er; [|discriminate].
    destruct (step_free VBinRelax st n _ _ _ E0 (h_init st)) as (A1 & A2 & A3 & A4 & A5).
    destruct (step_free VBinRelax st n _ _ _ E1 A3) as (B1 & B2 & B3 & B4 & B5).
    assert (Bn : below (nvars m1) xn) by (rewrite A1; apply below_seq; lia).
    assert (Bv : below (nvars m1) xv) by (rewrite B1; apply below_seq; lia).
    assert (Ln : length xn = f_nx (fb_fwd F)) by (rewrite A1; apply seq_length).
    assert (Lv : length xv = f_nx (fb_fwd F)) by (rewrite B1; apply seq_length).
    destruct (loop_carries solve Hsolve F Tf net st VBinRelax m1 m2' xv xn r Bt
      ltac:(discriminate) Hf Hn Hv B3 Bv Bn Lv Ln Er) as [K1 K2].
    apply fb_cuts_total with (P := feas VBinRelax m2').
    - intros rf Hr. destruct (K1 rf Hr) as (N1 & me & X1 & X2 & X3). exists N1, me. auto.
    - intros rc Hr. destruct (K2 rc Hr) as (N1 & X1 & X2 & X3 & X4). exists N1.
      split; auto. split; [rewrite X1 in Hs; exact Hs|]. auto. }
  destruct (derivative_program solve Hsolve meth N n x_lo x_up R0 xeq Args lam eps st
    (fb_add solve F) _ Sc et lower upper VBinRelax ltac:(discriminate) d E)
    as (_ & _ & _ & _ & _ & _ & _ & _ & _ & _ & _ & _ & _ & P3).
  destruct Pt as (x & x' & Bx & Bx' & Tx & Wx). destruct (P3 x x' Bx Bx' Tx Wx) as (sg0 & G0 & _).
  assert (R := rounds_total meth N n x_lo x_up R0 xeq Args lam eps st _ _ Sc et lower upper
    lp _ d E Nl Ck Tc Hlp (ex_intro _ sg0 G0) num (d_mip d) ltac:(intros sg [G _]; exact G)).
  destruct (strengthen_rounds N x_lo x_up lp (fb_sys_cuts solve net F) num d (d_mip d));
    [eexists; reflexivity|congruence].
Qed.

Lemma relu_rounds_total : forall C F, ctl_built C ->
  fb_fwd F = ctl_fwd solve C -> feedback_built F ->
  (is_net (fb_ctl F) \/ match ct_kind C with CResidue _ _ _ _ => False | _ => True end) ->
  controller_cut_slopes (fb_ctl F) -> cut_slopes (hidden (ct_net C)) ->
  system_total (ct_nx C) false (fb_add solve F) ->
  forall meth N x_lo x_up R0 xeq, lyap_args (ct_nx C) N x_lo x_up R0 xeq ->
  cut_slopes (hidden N) ->
  (exists c B out, output_constraint solve meth N x_lo x_up = Some (c, B, out)) ->
  forall lam lower upper,
  (exists x x', in_box x_lo x_up x /\ in_box x_lo x_up x' /\ fb_next F (ctl_next C) x x' /\
     within lower upper (V N (R_of (ct_nx C) R0) lam xeq x)) ->
  forall lp, (forall m, (exists sg, gfeas m sg) -> lp m <> None) ->
  forall eps et num, exists d,
  strengthen_derivative solve meth N (ct_nx C) x_lo x_up (fb_add solve F) lp
    (fb_sys_cuts solve (Some (ct_net C)) F) xeq lam eps et R0 lower upper num = Some d.
Proof.
  intros C F Ct Ef Bt Hc Hs Ns Tot meth N x_lo x_up R0 xeq Args Nl Out lam lower upper Pt lp Hlp eps et num.
  assert (En : f_nx (fb_fwd F) = ct_nx C) by (rewrite Ef; reflexivity).
  destruct (ctl_built_facts _ Ct) as (_ & _ & Hv & _ & _).
  rewrite <- En in *.
  apply (loop_rounds_total F (ctl_next C) (Some (ct_net C)) false Bt); auto.
  - rewrite Ef. apply ctl_forward_contract; auto.
  - rewrite Ef. exact Hv.
  - destruct Hc as [Hc|Hc]; [left; auto|right; rewrite Ef; apply ctl_confines; auto].
  - rewrite Ef. apply ctl_fwd_carries; auto. apply cut_slopes_not_one; auto.
  - intros N1 X. injection X as <-. auto.
Qed.

(** ** Hybrid linear forward systems *)

Lemma hybrid_fwd_dims : forall bounds bounded nx nu h f, bounds_valid bounds ->
  built bounds bounded nx nu h -> hybrid_fwd h = Some f -> f_nx f = nx /\ f_nu f = nu.
Proof.
  intros bounds bounded nx nu h f Vb Bt Eh.
  destruct (built_inv _ _ _ _ _ Vb Bt) as (Enx & Enu & _).
  unfold hybrid_fwd in Eh.
  destruct (all_some (map fin (firstn (h_nx h) (lo_all h)))); [|discriminate].
  destruct (all_some (map fin (firstn (h_nx h) (up_all h)))); [|discriminate].
  apply Some_inj in Eh. subst f. cbn. auto.
Qed.

Lemma hybrid_forward_total : forall bounds bounded nx nu h f x u x' U, bounds_valid bounds ->
  built bounds bounded nx nu h -> hybrid_fwd h = Some f -> finite_modes h ->
  length x = nx -> length u = nu -> hybrid_next h x u x' -> forward_total U f.
Proof.
  intros bounds bounded nx nu h f x u x' U Vb Bt Eh Fm Lx Lu Hn.
  assert (T := hybrid_total bounds bounded nx nu h x u x' Vb Bt Fm Lx Lu Hn).
  unfold hybrid_fwd in Eh.
  destruct (all_some (map fin (firstn (h_nx h) (lo_all h)))); [|discriminate].
  destruct (all_some (map fin (firstn (h_nx h) (up_all h)))); [|discriminate].
  apply Some_inj in Eh. subst f. intros vt m xv xn uv alo aup u0 _ _ _ _ _ _ _. cbn [f_add].
  unfold hybrid_add_dynamics. destruct (hybrid_mic h None None None None) as [c|]; [|congruence].
  destruct (add_mic c (xv ++ uv) (Some xn) NewBinary vt m) as [[m1 sl] bi]. discriminate.
Qed.

(** The constraints of a loop around a hybrid system are accepted as soon as
    the loop can make one step. *)
Lemma hybrid_loop_total : solver_total solve ->
  forall bounds bounded nx nu h f F st x x', bounds_valid bounds -> built bounds bounded nx nu h ->
  hybrid_fwd h = Some f -> fb_fwd F = f -> feedback_built F -> vle (f_lo f) (f_up f) ->
  finite_modes h -> fb_next F (hybrid_next h) x x' ->
  system_total nx st (fb_add solve F).
Proof.
  intros St bounds bounded nx nu h f F st x x' Vb Bt Eh Ef Bf Hv Fm (Ix & u & Eu & Hn).
  destruct (hybrid_fwd_dims _ _ _ _ _ _ Vb Bt Eh) as [En Eu'].
  rewrite <- En, <- Ef.
  assert (Lx : length x = nx).
  { rewrite Ef in Ix. apply in_box_lengths in Ix.
    assert (L : length (f_lo f) = nx).
    { destruct Bf as (_ & B2 & _). rewrite Ef in B2. unfold vec in *. lia. }
    unfold vec in *. lia. }
  assert (Lu : length u = nu).
  { destruct Bf as (Cw & _ & _ & Lm & Nb).
    destruct (compute_u_spec F x Cw Nb) as (u' & Eu2 & Lu & _).
    - clear - Lm. induction Lm as [|a b la lb Hab _ IH]; constructor; auto. destruct a, b; cbn in *; auto.
    - rewrite Ef, En. exact Lx.
    - rewrite Ef, Eu' in Lu. assert (u = u') by (apply Some_inj; exact (eq_trans (eq_sym Eu) Eu2)).
      subst u'. exact Lu. }
  apply (feedback_total solve Hsolve St F st (fun _ => True) x u Bf); auto; rewrite ?Ef; auto.
  eapply hybrid_forward_total; eauto.
Qed.

Lemma hybrid_rounds_total : solver_total solve ->
  forall bounds bounded nx nu h f F net, bounds_valid bounds -> built bounds bounded nx nu h ->
  hybrid_fwd h = Some f -> fb_fwd F = f -> feedback_built F -> vle (f_lo f) (f_up f) ->
  finite_modes h -> controller_cut_slopes (fb_ctl F) ->
  (forall N, net = Some N -> cut_slopes (hidden N)) ->
  forall meth N x_lo x_up R0 xeq, lyap_args nx N x_lo x_up R0 xeq ->
  cut_slopes (hidden N) ->
  (exists c B out, output_constraint solve meth N x_lo x_up = Some (c, B, out)) ->
  forall lam lower upper,
  (exists x x', in_box x_lo x_up x /\ in_box x_lo x_up x' /\ fb_next F (hybrid_next h) x x' /\
     within lower upper (V N (R_of nx R0) lam xeq x)) ->
  forall lp, (forall m, (exists sg, gfeas m sg) -> lp m <> None) ->
  forall eps et num, exists d,
  strengthen_derivative solve meth N nx x_lo x_up (fb_add solve F) lp
    (fb_sys_cuts solve net F) xeq lam eps et R0 lower upper num = Some d.
Proof.
  intros St bounds bounded nx nu h f F net Vb Bt Eh Ef Bf Hv Fm Hs Ns meth N x_lo x_up R0 xeq Args Nl Out
    lam lower upper Pt lp Hlp eps et num.
  assert (Tot : system_total nx false (fb_add solve F)).
  { destruct Pt as (x & x' & _ & _ & Hn & _). eapply hybrid_loop_total; eauto. }
  destruct (hybrid_fwd_dims _ _ _ _ _ _ Vb Bt Eh) as [En Eu].
  assert (En2 : nx = f_nx (fb_fwd F)) by congruence. rewrite En2 in Args, Pt, Tot |- *.
  apply (loop_rounds_total F (hybrid_next h) net false Bf); auto; try (rewrite Ef; auto).
  - eapply hybrid_forward_contract; eauto.
  - right. eapply hybrid_confines; eauto.
  - eapply hybrid_fwd_carries; eauto.
Qed.
End Solver.

(** ** A concrete loop *)

Lemma fb_ex_fixed : fb_next (fb_ex ideal_solve) (ctl_next second_ex) [1/2; 0] [1/2; 0].
Proof.
  destruct second_ex_built as [Bt Us]. split.
  - cbn. split; repeat (constructor; [lra|]); constructor.
  - exists [1/4]. split; [apply fb_ex_u|]. split; [|split].
    + cbn. split; repeat (constructor; [lra|]); constructor.
    + cbn. split; repeat (constructor; [lra|]); constructor.
    + exact (ctl_equilibrium second_ex _ _ Bt Us eq_refl).
Qed.

Lemma relu_cut_slopes : forall l, cut_slopes [(l, Relu)].
Proof. intros l. constructor; [exact I|constructor]. Qed.

Lemma fb_ex_rounds : exists d,
  strengthen_derivative ideal_solve IA net_abs2 2 [-1; -1] [1; 1]
    (fb_add ideal_solve (fb_ex ideal_solve)) (fun _ => Some (fun _ => 1/2))
    (fb_sys_cuts ideal_solve (Some net_kink3) (fb_ex ideal_solve)) [0; 0] 1 (1/2) ExpLower None
    None None 3 = Some d.
Proof.
  destruct second_ex_built as [Bt Us].
  apply (relu_rounds_total ideal_solve ideal_ok second_ex (fb_ex ideal_solve) Bt eq_refl
    (fb_ex_built ideal_solve) (or_introl I) (relu_cut_slopes _) (relu_cut_slopes _) (fb_ex_total false)
    IA net_abs2 [-1; -1] [1; 1] None [0; 0] abs2_args (relu_cut_slopes _) (abs2_out _ ideal_ok)).
  - exists [1/2; 0], [1/2; 0]. split; [split; vle_simpl; lra|]. split; [split; vle_simpl; lra|].
    split; [exact fb_ex_fixed|]. split; discriminate.
  - discriminate.
Qed.
