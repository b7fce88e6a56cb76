(** The program for the smallest value on the boundary of the box, and the values
    of lyapunov_derivative. *)

Require Import Reals List Lia Lra Bool Arith.
Require Import Verif.Vec Verif.VecFacts Verif.ModelMip Verif.SpecMip Verif.SpecCore
  Verif.ModelUtils Verif.SpecUtils Verif.ModelNet Verif.SpecNet Verif.SpecStep
  Verif.ModelGrad Verif.ModelLyapunov Verif.SpecLyapunov Verif.SpecRoa
  Verif.ProofUtils Verif.ProofMaxBox Verif.ProofMip Verif.ProofSat Verif.ProofConcat
  Verif.ProofBounds Verif.ProofNet Verif.ProofNetBounds Verif.ProofNetTotal Verif.ProofWarm
  Verif.ProofStep Verif.ProofNetStep Verif.ProofLyapunov Verif.ProofLyapCert Verif.ProofHybrid
  Verif.ProofRoa.
Import ListNotations.
Open Scope R_scope.

(** On the boundary, by binaries. *)
Lemma boundary_bins : forall lo up x, vle lo up ->
  (on_boundary lo up x <-> length x = length lo /\
   exists b1 b2, bins b1 /\ bins b2 /\ length b1 = length lo /\ length b2 = length lo /\
     (forall i, (i < length lo)%nat ->
        nth i lo 0 + (nth i up 0 - nth i lo 0) * nth i b1 0 <= nth i x 0) /\
     (forall i, (i < length lo)%nat ->
        nth i x 0 <= nth i up 0 - (nth i up 0 - nth i lo 0) * nth i b2 0) /\
     vsum b1 + vsum b2 = 1).
Proof.
  intros lo up x V. assert (L : length up = length lo) by (apply vle_length in V; auto).
  destruct (box_boundary lo up) as [c|] eqn:E.
  2:{ unfold box_boundary in E. rewrite L, Nat.eqb_refl in E. discriminate. }
  rewrite <- (bb_exact lo up c x E V). split.
  - intros (s & b & Hb & Hr & _). apply (bb_rows_iff _ _ _ _ _ _ E) in Hr.
    destruct Hr as (Lx & _ & b1 & b2 & Eb & K). subst b. apply bins_app in Hb. destruct Hb.
    split; auto. exists b1, b2. tauto.
  - intros (Lx & b1 & b2 & B1 & B2 & K). exists [], (b1 ++ b2).
    split; [apply bins_app; auto|]. split.
    + apply (bb_rows_iff _ _ _ _ _ _ E). split; auto. split; auto. exists b1, b2. tauto.
    + unfold box_boundary in E. rewrite L, Nat.eqb_refl in E. cbn [negb] in E.
      injection E as E. subst c. repeat split.
Qed.

Section Boundary.
Variable n : nat.
Variables x_lo x_up : vec.
Hypothesis L1 : length x_lo = n.
Hypothesis L2 : length x_up = n.
Hypothesis V0 : vle x_lo x_up.

Lemma ge_rows : forall x z, length x = n -> length z = n ->
  (sense_ok SGe (vadd x (vadd (mv (diag (vsub x_lo x_up)) z) (zeros n))) x_lo <->
   forall i, (i < length x_lo)%nat -> nth i x_lo 0 + (nth i x_up 0 - nth i x_lo 0) * nth i z 0 <= nth i x 0).
Proof.
  intros x z Lx Lz.
  assert (Lw : length (vsub x_lo x_up) = n) by (rewrite vsub_length; lia).
  assert (Lm : length (vmul (vsub x_lo x_up) z) = n) by (rewrite vmul_length; lia).
  rewrite mv_diag by lia. rewrite vadd_zeros_r by exact Lm.
  cbn [sense_ok]. rewrite vle_nth. rewrite vadd_length by lia.
  split.
  - intros [_ K] i Hi. specialize (K i Hi). rewrite nth_vadd, nth_vmul, nth_vsub in K by lia. lra.
  - intros K. split; [lia|]. intros i Hi. specialize (K i Hi).
    rewrite nth_vadd, nth_vmul, nth_vsub by lia. lra.
Qed.
Lemma le_rows' : forall x z, length x = n -> length z = n ->
  (sense_ok SLe (vadd x (vadd (mv (diag (vsub x_up x_lo)) z) (zeros n))) x_up <->
   forall i, (i < length x_lo)%nat -> nth i x 0 <= nth i x_up 0 - (nth i x_up 0 - nth i x_lo 0) * nth i z 0).
Proof.
  intros x z Lx Lz.
  assert (Lw : length (vsub x_up x_lo) = n) by (rewrite vsub_length; lia).
  assert (Lm : length (vmul (vsub x_up x_lo) z) = n) by (rewrite vmul_length; lia).
  rewrite mv_diag by lia. rewrite vadd_zeros_r by exact Lm.
  cbn [sense_ok]. rewrite vle_nth. rewrite vadd_length by lia.
  split.
  - intros [_ K] i Hi. specialize (K i ltac:(lia)). rewrite nth_vadd, nth_vmul, nth_vsub in K by lia. lra.
  - intros K. split; [lia|]. intros i Hi. specialize (K i ltac:(lia)).
    rewrite nth_vadd, nth_vmul, nth_vsub by lia. lra.
Qed.

Lemma bin_vars : forall k x, bins x -> length x = k -> vars_ok VBin (repeat (Fin 0, Fin 1) k) x.
Proof. intros k x B L. apply vars_ok_bin. split; auto. Qed.

Lemma boundary_step : forall st xv m m1 m2 m3 zlo zup, history st m -> below (nvars m) xv ->
  length xv = n ->
  addVars (repeat (Fin 0, Fin 1) n) VBin m = (m1, zlo) ->
  addVars (repeat (Fin 0, Fin 1) n) VBin m1 = (m2, zup) ->
  addLConstr [ones n; ones n] [zlo; zup] SEq 1 m2 = Some m3 ->
  step VBin st m
    (addMConstr [eye n; diag (vsub x_up x_lo)] [xv; zlo] SLe x_up
      (addMConstr [eye n; diag (vsub x_lo x_up)] [xv; zup] SGe x_lo m3))
    (fun sg => on_boundary x_lo x_up (map sg xv)) (fun sg => on_boundary x_lo x_up (map sg xv)).
Proof.
  intros st xv m m1 m2 m3 zlo zup H B L E1 E2 E3.
  assert (Z : vars_ok VBin (repeat (Fin 0, Fin 1) n) (zeros n))
    by (apply bin_vars; [apply bins_zeros|apply zeros_length]).
  destruct (step_addVars VBin st _ _ _ _ _ E1 H ltac:(discriminate) (zeros n) Z
    ltac:(intros; apply bins_zeros)) as (S1 & I1 & N1 & X1).
  assert (H1 : history st m1) by apply S1.
  destruct (step_addVars VBin st _ _ _ _ _ E2 H1 ltac:(discriminate) (zeros n) Z
    ltac:(intros; apply bins_zeros)) as (S2 & I2 & N2 & X2).
  assert (H2 : history st m2) by apply S2. rewrite repeat_length in *.
  assert (Ll : length zlo = n) by (rewrite I1; apply seq_length).
  assert (Lu : length zup = n) by (rewrite I2; apply seq_length).
  assert (Bl1 : below (nvars m1) zlo) by (rewrite I1; apply below_seq; lia).
  assert (Bl : below (nvars m2) zlo) by (apply (below_weaken _ _ _ Bl1); lia).
  assert (Bu : below (nvars m2) zup) by (rewrite I2; apply below_seq; lia).
  assert (Bx : below (nvars m2) xv) by (apply (below_weaken _ _ _ B); lia).
  destruct (step_addLConstr VBin st [ones n; ones n] [zlo; zup] SEq 1 m2 H2) as (m3' & K1 & K2 & K3 & K4 & _).
  { reflexivity. }
  { constructor; [unfold ones; rewrite repeat_length; auto|].
    constructor; [unfold ones; rewrite repeat_length; auto|constructor]. }
  { cbn [concat]. rewrite app_nil_r. apply Forall_app. auto. }
  { cbn [concat]. rewrite app_nil_r. eapply (fresh_disj (nvars m) (nvars m1) (nvars m1) (nvars m2)); auto.
    - rewrite I1. apply fresh_seq. lia.
    - rewrite I2. apply fresh_seq. lia. }
  assert (m3' = m3) by congruence. subst m3'.
  destruct (step_addM VBin st [eye n; diag (vsub x_lo x_up)] [xv; zup] SGe x_lo m3 K4) as (A1 & A2 & A3);
    [discriminate|reflexivity| | |].
  { rewrite L1. constructor; [cbn [fst snd]; rewrite L; apply wfm_eyek|]. constructor; [|constructor].
    cbn [fst snd]. rewrite Lu. assert (W := wfm_diag (vsub x_lo x_up)).
    replace (length (vsub x_lo x_up)) with n in W by (rewrite vsub_length; lia). exact W. }
  { cbn [concat]. rewrite app_nil_r, K2. apply Forall_app. auto. }
  destruct (step_addM VBin st [eye n; diag (vsub x_up x_lo)] [xv; zlo] SLe x_up _ A1) as (C1 & C2 & C3);
    [discriminate|reflexivity| | |].
  { rewrite L2. constructor; [cbn [fst snd]; rewrite L; apply wfm_eyek|]. constructor; [|constructor].
    cbn [fst snd]. rewrite Ll. assert (W := wfm_diag (vsub x_up x_lo)).
    replace (length (vsub x_up x_lo)) with n in W by (rewrite vsub_length; lia). exact W. }
  { cbn [concat]. rewrite app_nil_r, A2, K2. apply Forall_app. auto. }
  assert (Sem : forall sg, feas VBin
     (addMConstr [eye n; diag (vsub x_up x_lo)] [xv; zlo] SLe x_up
      (addMConstr [eye n; diag (vsub x_lo x_up)] [xv; zup] SGe x_lo m3)) sg <->
     feas VBin m2 sg /\ vsum (map sg zup) + vsum (map sg zlo) = 1 /\
     (forall i, (i < length x_lo)%nat ->
        nth i x_lo 0 + (nth i x_up 0 - nth i x_lo 0) * nth i (map sg zup) 0 <= nth i (map sg xv) 0) /\
     (forall i, (i < length x_lo)%nat ->
        nth i (map sg xv) 0 <= nth i x_up 0 - (nth i x_up 0 - nth i x_lo 0) * nth i (map sg zlo) 0)).
  { intros sg. rewrite C3, A3, K3. cbn [combine bsum concat]. rewrite app_nil_r.
    rewrite mv_eye by (rewrite map_length; auto). rewrite L1, L2.
    rewrite (ge_rows (map sg xv) (map sg zup)), (le_rows' (map sg xv) (map sg zlo)) by (rewrite map_length; auto).
    assert (D : dot (ones n ++ ones n) (map sg (zlo ++ zup)) = vsum (map sg zup) + vsum (map sg zlo)).
    { rewrite map_app, dot_app by (unfold ones; rewrite repeat_length, map_length; auto).
      rewrite !dot_ones_l by (rewrite map_length; auto). lra. }
    rewrite app_nil_r, D. cbn [sense_ok]. rewrite cons_eq_iff, L1. intuition. }
  split; [lia|]. split; [exact C1|]. split.
  - intros sg G. apply Sem in G. destruct G as (G & Gs & G1 & G2).
    destruct (proj1 (proj2 (proj2 S2)) sg G) as [Gm1 [Vu _]].
    destruct (proj1 (proj2 (proj2 S1)) sg Gm1) as [Gm [Vl _]].
    split; auto. apply boundary_bins; auto. split; [rewrite map_length; lia|].
    apply vars_ok_bin in Vu. apply vars_ok_bin in Vl.
    exists (map sg zup), (map sg zlo). rewrite !map_length.
    repeat split; try apply Vu; try apply Vl; auto; lia.
  - intros sg G D. apply boundary_bins in D; auto.
    destruct D as (_ & b1 & b2 & B1 & B2 & Lb1 & Lb2 & D1 & D2 & D3). rewrite L1 in Lb1, Lb2.
    destruct (X1 sg b2 G) as (s1 & G1 & Ag1 & Es1); [apply bin_vars; auto|auto|].
    destruct (X2 s1 b1 G1) as (s2 & G2 & Ag2 & Es2); [apply bin_vars; auto|auto|].
    assert (Ez : map s2 zlo = b2).
    { rewrite <- Es1. symmetry. apply (map_agree (nvars m1)); auto. }
    assert (Ag : agree m sg s2).
    { eapply agree_trans; [|exact Ag1|exact Ag2]. lia. }
    assert (Ex : map s2 xv = map sg xv).
    { symmetry. apply (map_agree (nvars m)); auto. }
    exists s2. split; auto. apply Sem. rewrite Es2, Ez, Ex. auto.
Qed.
End Boundary.

Section Program.
Variable solve : mip -> gresult.
Hypothesis Hsolve : solver_ok solve.
Variable meth : method.
Variable N : network.
Variable n : nat.
Variables x_lo x_up : vec.
Variable R0 : option mat.
Variable xeq : vec.
Hypothesis Args : lyap_args n N x_lo x_up R0 xeq.
Variable lam : R.

Let M := R_of n R0.
Let W := la_net _ _ _ _ _ _ Args.
Let Ho := la_out _ _ _ _ _ _ Args.
Let L1 := la_lo _ _ _ _ _ _ Args.
Let L2 := la_up _ _ _ _ _ _ Args.
Let WR := la_R _ _ _ _ _ _ Args.
Let Leq : length xeq = n := in_box_length n _ _ _ (la_eq _ _ _ _ _ _ Args) L1.

Lemma box_bounds_fine : forall lo up, vle lo up -> Forall bnd_fine (combine (map Fin lo) (map Fin up)).
Proof. intros lo up H. induction H; cbn; constructor; auto. Qed.

Lemma roa_boundary_program : forall m xv,
  roa_boundary_milp solve meth N n x_lo x_up xeq lam R0 = Some (m, xv) ->
  obj_max m = false /\ length xv = n /\
  (forall sg, gfeas m sg -> on_boundary x_lo x_up (map sg xv) /\
     objective m sg = V N M lam xeq (map sg xv)) /\
  (forall x, on_boundary x_lo x_up x -> exists sg, gfeas m sg /\ map sg xv = x).
Proof.
  intros m xv E. unfold roa_boundary_milp in E.
  assert (Bx0 := la_eq _ _ _ _ _ _ Args).
  assert (V0 : vle x_lo x_up) by (destruct Bx0; eapply vle_trans; eauto).
  destruct (addVars (combine (map Fin x_lo) (map Fin x_up)) VCont init_mip) as [m0 xv0] eqn:E0.
  assert (Lc : length (combine (map Fin x_lo) (map Fin x_up)) = n).
  { rewrite combine_length, !map_length. lia. }
  destruct (step_addVars VBin true _ _ _ _ _ E0 (h_init true)) with (x := xeq) as (S0 & I0 & N0 & X0).
  { intros _ _. apply box_bounds_fine. auto. }
  { apply vars_ok_box; auto. lia. }
  { intros K. destruct K. reflexivity. }
  rewrite Lc in *. assert (H0 : history true m0) by apply S0.
  assert (Lx : length xv0 = n) by (rewrite I0; apply seq_length).
  assert (Bx : below (nvars m0) xv0) by (rewrite I0; apply below_seq; lia).
  destruct (add_relu_output solve meth N x_lo x_up xv0 VBin m0) as [[m1 rr]|] eqn:E1; [|discriminate].
  destruct (relu_output_step solve Hsolve meth N n x_lo x_up W Ho L1 L2 true _ VBin _ _ _ H0 Bx Lx
              ltac:(discriminate) E1) as (R1 & R2 & R3 & R4 & _ & R5).
  assert (N1 : (nvars m0 <= nvars m1)%nat) by apply R5.
  assert (H1 : history true m1) by apply R5.
  destruct (addVars (repeat (Fin 0, Fin 1) n) VBin m1) as [m2 zlo] eqn:E2.
  destruct (addVars (repeat (Fin 0, Fin 1) n) VBin m2) as [m3 zup] eqn:E3.
  destruct (addLConstr [ones n; ones n] [zlo; zup] SEq 1 m3) as [m4|] eqn:E4; [|discriminate].
  assert (SB := boundary_step n x_lo x_up L1 L2 V0 true xv0 m1 m2 m3 m4 zlo zup H1
    (below_weaken _ _ _ Bx N1) Lx E2 E3 E4).
  remember (addMConstr [eye n; diag (vsub x_up x_lo)] [xv0; zlo] SLe x_up
      (addMConstr [eye n; diag (vsub x_lo x_up)] [xv0; zup] SGe x_lo m4)) as m5 eqn:Em5.
  assert (N5 : (nvars m1 <= nvars m5)%nat) by apply SB.
  assert (H5 : history true m5) by apply SB.
  assert (Bx5 : below (nvars m5) xv0) by (apply (below_weaken _ _ _ Bx); lia).
  rewrite (scalar_phi n) in E by auto.
  destruct (add_state_error n x_lo x_up false xeq R0 xv0 VBin m5) as [[[m6 s] al]|] eqn:E6; [|discriminate].
  destruct (state_error_step n x_lo x_up L1 L2 R0 xeq WR true _ _ _ _ _ _ _ E6 H5
    Bx5 Lx ltac:(discriminate)) as (K1 & K2 & K3 & K4 & K5).
  assert (N6 : (nvars m5 <= nvars m6)%nat) by apply K5.
  assert (H6 : history true m6) by apply K5.
  destruct (setObjective_step VBin true [ret_a rr; repeat lam (length s)]
     [ret_z rr; s] (ret_b rr - phi N xeq) false m6 H6) as (m7 & E7 & O1 & O2 & O3 & O4 & O5).
  { constructor; [auto|]. constructor; [apply repeat_length|constructor]. }
  { cbn [concat]. rewrite app_nil_r. apply Forall_app. split.
    - apply fresh_below in R1. apply (below_weaken _ _ _ R1). lia.
    - apply fresh_below in K1. auto. }
  { cbn [concat]. rewrite app_nil_r. eapply fresh_disj; eauto. }
  rewrite E7 in E. injection E as <- <-. split; auto. split; auto.
  set (D := fun sg : assignment => on_boundary x_lo x_up (map sg xv0)).
  assert (LD : local m0 D) by (apply (local_map m0 xv0 (on_boundary x_lo x_up)); auto).
  assert (T1 : step VBin true m0 m1 D (fun sg => in_box x_lo x_up (map sg xv0) /\
      dot (ret_a rr) (map sg (ret_z rr)) + ret_b rr = phi N (map sg xv0))).
  { eapply step_weaken; [exact R5| |auto]. unfold D, on_boundary. tauto. }
  assert (T5 := step_seq VBin true _ _ _ _ _ _ _ T1 SB LD ltac:(unfold D; auto)).
  assert (T6 := step_seq VBin true _ _ _ _ _ _ _ T5 K5 LD ltac:(unfold D, on_boundary; tauto)).
  destruct T6 as (_ & _ & Q1 & Q2). split.
  - intros sg G. rewrite <- feas_bin, O4 in G.
    destruct (Q1 sg G) as (_ & ((P1 & P2) & P3) & P4). split; auto.
    rewrite O5. cbn [map2 vsum]. rewrite dot_repeat_l by apply map_length. rewrite P4. unfold V.
    change (vsum (map Rabs (mv (R_of n R0) (vsub (map sg xv0) xeq)))) with (error1 M xeq (map sg xv0)).
    lra.
  - intros x B. destruct (X0 (fun _ => 0) x (init_feas _ _)) as (s0 & G0 & _ & Ex).
    { apply vars_ok_box; [lia|]. apply B. }
    { intros K. destruct K. reflexivity. }
    destruct (Q2 s0 G0) as (s1 & G1 & Ag).
    { unfold D. rewrite Ex. auto. }
    exists s1. split; [apply feas_bin, O4; auto|].
    rewrite <- Ex. symmetry. apply (map_agree (nvars m0)); auto.
Qed.

(** The optimal value is the smallest value on the boundary. *)
Lemma roa_boundary_value : forall m xv v,
  roa_boundary_milp solve meth N n x_lo x_up xeq lam R0 = Some (m, xv) -> solve m = GOptimal v ->
  (exists x, on_boundary x_lo x_up x /\ V N M lam xeq x = v) /\
  forall x, on_boundary x_lo x_up x -> v <= V N M lam xeq x.
Proof.
  intros m xv v E S. destruct (roa_boundary_program m xv E) as (P1 & P2 & P3 & P4).
  specialize (Hsolve m). rewrite S, P1 in Hsolve. destruct Hsolve as [(sg & G & Ev) Mn]. split.
  - destruct (P3 sg G) as [B Eo]. exists (map sg xv). split; auto. congruence.
  - intros x B. destruct (P4 x B) as (sg' & G' & Ex). specialize (Mn sg' G').
    destruct (P3 sg' G') as [_ Eo]. rewrite Eo, Ex in Mn. lra.
Qed.

Lemma roa_boundary_total :
  (exists c B out, output_constraint solve meth N x_lo x_up = Some (c, B, out)) ->
  exists m xv, roa_boundary_milp solve meth N n x_lo x_up xeq lam R0 = Some (m, xv).
Proof.
  intros C. unfold roa_boundary_milp.
  assert (Bx0 := la_eq _ _ _ _ _ _ Args).
  assert (V0 : vle x_lo x_up) by (destruct Bx0; eapply vle_trans; eauto).
  destruct (addVars (combine (map Fin x_lo) (map Fin x_up)) VCont init_mip) as [m0 xv0] eqn:E0.
  assert (Lc : length (combine (map Fin x_lo) (map Fin x_up)) = n).
  { rewrite combine_length, !map_length. lia. }
  destruct (step_addVars VBin true _ _ _ _ _ E0 (h_init true)) with (x := xeq) as (S0 & I0 & N0 & X0).
  { intros _ _. apply box_bounds_fine. auto. }
  { apply vars_ok_box; auto. lia. }
  { intros K. destruct K. reflexivity. }
  rewrite Lc in *. assert (H0 : history true m0) by apply S0.
  assert (Lx : length xv0 = n) by (rewrite I0; apply seq_length).
  assert (Bx : below (nvars m0) xv0) by (rewrite I0; apply below_seq; lia).
  destruct (relu_output_total solve Hsolve meth N n x_lo x_up W Ho L1 L2 xv0 VBin m0
    (la_units _ _ _ _ _ _ Args) C) as (m1 & rr & E1). rewrite E1.
  destruct (relu_output_step solve Hsolve meth N n x_lo x_up W Ho L1 L2 true _ VBin _ _ _ H0 Bx Lx
              ltac:(discriminate) E1) as (R1 & R2 & R3 & R4 & _ & R5).
  assert (N1 : (nvars m0 <= nvars m1)%nat) by apply R5.
  assert (H1 : history true m1) by apply R5.
  assert (Z : vars_ok VBin (repeat (Fin 0, Fin 1) n) (zeros n))
    by (apply bin_vars; [apply bins_zeros|apply zeros_length]).
  destruct (addVars (repeat (Fin 0, Fin 1) n) VBin m1) as [m2 zlo] eqn:E2.
  destruct (step_addVars VBin true _ _ _ _ _ E2 H1 ltac:(discriminate) (zeros n) Z
    ltac:(intros; apply bins_zeros)) as (S2 & I2 & N2 & _).
  assert (H2 : history true m2) by apply S2.
  destruct (addVars (repeat (Fin 0, Fin 1) n) VBin m2) as [m3 zup] eqn:E3.
  destruct (step_addVars VBin true _ _ _ _ _ E3 H2 ltac:(discriminate) (zeros n) Z
    ltac:(intros; apply bins_zeros)) as (S3 & I3 & N3 & _).
  assert (H3 : history true m3) by apply S3. rewrite repeat_length in *.
  destruct (step_addLConstr VBin true [ones n; ones n] [zlo; zup] SEq 1 m3 H3) as (m4 & E4 & _).
  { reflexivity. }
  { constructor; [unfold ones; rewrite repeat_length, I2, seq_length; auto|].
    constructor; [unfold ones; rewrite repeat_length, I3, seq_length; auto|constructor]. }
  { cbn [concat]. rewrite app_nil_r. apply Forall_app.
    split; [rewrite I2|rewrite I3]; apply below_seq; lia. }
  { cbn [concat]. rewrite app_nil_r. eapply (fresh_disj (nvars m1) (nvars m2) (nvars m2) (nvars m3)); auto.
    - rewrite I2. apply fresh_seq. lia.
    - rewrite I3. apply fresh_seq. lia. }
  rewrite E4.
  assert (SB := boundary_step n x_lo x_up L1 L2 V0 true xv0 m1 m2 m3 m4 zlo zup H1
    (below_weaken _ _ _ Bx N1) Lx E2 E3 E4).
  remember (addMConstr [eye n; diag (vsub x_up x_lo)] [xv0; zlo] SLe x_up
      (addMConstr [eye n; diag (vsub x_lo x_up)] [xv0; zup] SGe x_lo m4)) as m5 eqn:Em5.
  assert (N5 : (nvars m1 <= nvars m5)%nat) by apply SB.
  assert (H5 : history true m5) by apply SB.
  assert (Bx5 : below (nvars m5) xv0) by (apply (below_weaken _ _ _ Bx); lia).
  rewrite (scalar_phi n) by (auto; eapply in_box_length; eauto).
  destruct (state_error_total n x_lo x_up L1 L2 R0 xeq WR true false xv0 VBin m5 Bx0
    (la_rows _ _ _ _ _ _ Args) H5 Bx5 Lx
    ltac:(discriminate)) as (m6 & s & al & E6). rewrite E6.
  destruct (state_error_step n x_lo x_up L1 L2 R0 xeq WR true _ _ _ _ _ _ _ E6 H5
    Bx5 Lx ltac:(discriminate)) as (K1 & K2 & K3 & K4 & K5).
  assert (N6 : (nvars m5 <= nvars m6)%nat) by apply K5.
  assert (H6 : history true m6) by apply K5.
  destruct (setObjective_step VBin true [ret_a rr; repeat lam (length s)]
     [ret_z rr; s] (ret_b rr - phi N xeq) false m6 H6) as (m7 & E7 & _).
  { constructor; [auto|]. constructor; [apply repeat_length|constructor]. }
  { cbn [concat]. rewrite app_nil_r. apply Forall_app. split.
    - apply fresh_below in R1. apply (below_weaken _ _ _ R1). lia.
    - apply fresh_below in K1. auto. }
  { cbn [concat]. rewrite app_nil_r. eapply fresh_disj; eauto. }
  rewrite E7. eauto.
Qed.

(** lyapunov_derivative lists the violations of the possible successors. *)
Lemma derivative_values : forall eps dx x, Forall (fun y => length y = n) dx -> length x = n ->
  lyapunov_derivative N n dx x xeq lam eps R0
  = Some (map (fun x' => violation ExpLower N M lam eps xeq x x') dx).
Proof.
  intros eps dx x F Lx. unfold lyapunov_derivative.
  assert (E : traverse (lyapunov_value N n R0 xeq lam) dx = Some (map (V N M lam xeq) dx)).
  { induction F as [|y l Hy F IH]; [reflexivity|]. cbn [traverse map].
    rewrite (value_V n N x_lo x_up) by auto. rewrite IH. reflexivity. }
  rewrite E, (value_V n N x_lo x_up) by auto. rewrite map_map. reflexivity.
Qed.
End Program.
