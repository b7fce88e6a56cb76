(** Verdicts, trajectories, strengthening and losses (C25, C26, C29, C30). *)

Require Import Reals List Bool Arith Lra Lia Psatz.
Require Import Verif.Vec Verif.VecFacts Verif.ModelMip Verif.SpecMip
  Verif.ModelUtils Verif.ModelGrad Verif.ModelNet Verif.SpecCore Verif.SpecUtils Verif.SpecNet
  Verif.ModelPattern Verif.ModelStrengthen
  Verif.ProofUtils Verif.ProofGrad Verif.ProofMip Verif.ProofTorch Verif.ProofNet
  Verif.SpecStep Verif.ProofStep Verif.ModelLyapunov Verif.SpecLyapunov Verif.ProofNetStep
  Verif.ProofLyapunov Verif.ProofLyapCert Verif.ProofStrengthen.
Import ListNotations.
Open Scope R_scope.

Section More.
Variable solve : mip -> gresult.
Hypothesis Hsolve : solver_ok solve.
Variable meth : method.
Variable N : network.
Variable n : nat.
Variables x_lo x_up : vec.
Variable R0 : option mat.
Variable xeq : vec.
Hypothesis Args : lyap_args n N x_lo x_up R0 xeq.
Variables lam : R.
Let M := R_of n R0.

Variable st : bool.
Variable add_system : list nat -> list nat -> vtype -> mip -> option mip.
Variable T : vec -> vec -> Prop.
Hypothesis Hsys : system_contract n st add_system T.

(** ** Verdicts of the decrease program *)

Lemma derivative_exact : forall eps et lower upper d,
  derivative_milp solve meth N n x_lo x_up add_system xeq lam eps et R0 lower upper VBin = Some d ->
  obj_max (d_mip d) = true /\
  (forall sg, gfeas (d_mip d) sg ->
     in_box x_lo x_up (map sg (d_x d)) /\ in_box x_lo x_up (map sg (d_next d)) /\
     T (map sg (d_x d)) (map sg (d_next d)) /\
     within lower upper (V N M lam xeq (map sg (d_x d))) /\
     objective (d_mip d) sg
     = violation et N M lam eps xeq (map sg (d_x d)) (map sg (d_next d))) /\
  (forall x x', in_box x_lo x_up x -> in_box x_lo x_up x' -> T x x' ->
     within lower upper (V N M lam xeq x) ->
     exists sg, gfeas (d_mip d) sg /\ map sg (d_x d) = x /\ map sg (d_next d) = x').
Proof.
  intros eps et lower upper d E.
  destruct (derivative_program solve Hsolve meth N n x_lo x_up R0 xeq Args lam eps st add_system T Hsys
    et lower upper VBin ltac:(discriminate) d E) as (P1 & _ & _ & _ & _ & _ & _ & _ & _ & _ & _ & _ & P2 & P3).
  split; [exact P1|]. split.
  - intros sg G. apply P2. apply feas_bin. exact G.
  - intros x x' B B' Tx W. destruct (P3 x x' B B' Tx W) as (sg & F & K). exists sg.
    split; auto. apply feas_bin in F. exact F.
Qed.

Lemma derivative_verdict : forall eps et lower upper d,
  derivative_milp solve meth N n x_lo x_up add_system xeq lam eps et R0 lower upper VBin = Some d ->
  (forall v, solve (d_mip d) = GOptimal v ->
    (v <= 0 <-> forall x x', in_box x_lo x_up x -> in_box x_lo x_up x' -> T x x' ->
       within lower upper (V N M lam xeq x) -> violation et N M lam eps xeq x x' <= 0)) /\
  (solve (d_mip d) = GInfeasible ->
    forall x x', in_box x_lo x_up x -> in_box x_lo x_up x' -> T x x' ->
      ~ within lower upper (V N M lam xeq x)).
Proof.
  intros eps et lower upper d E. destruct (derivative_exact eps et lower upper d E) as (P1 & P2 & P3).
  assert (Hs := Hsolve (d_mip d)). split.
  - intros v S. rewrite S, P1 in Hs. destruct Hs as [(sg & G & Ev) Mx]. split.
    + intros Hv x x' B B' Tx W. destruct (P3 x x' B B' Tx W) as (sg' & G' & Ex & Ex').
      specialize (Mx sg' G'). destruct (P2 sg' G') as (_ & _ & _ & _ & Eo).
      rewrite Eo, Ex, Ex' in Mx. lra.
    + intros K. destruct (P2 sg G) as (B & B' & Tx & W & Eo). specialize (K _ _ B B' Tx W). lra.
  - intros S x x' B B' Tx W. rewrite S in Hs.
    destruct (P3 x x' B B' Tx W) as (sg' & G' & _). exact (Hs sg' G').
Qed.

(** ** The program is built *)

Lemma derivative_total : forall eps et lower upper vt, vt <> VCont ->
  system_total n st add_system ->
  (exists c B out, output_constraint solve meth N x_lo x_up = Some (c, B, out)) ->
  exists d, derivative_milp solve meth N n x_lo x_up add_system xeq lam eps et R0 lower upper vt = Some d.
Proof.
  intros eps et lower upper vt Hvt Ht C.
  assert (W := la_net _ _ _ _ _ _ Args). assert (Ho := la_out _ _ _ _ _ _ Args).
  assert (L1 := la_lo _ _ _ _ _ _ Args). assert (L2 := la_up _ _ _ _ _ _ Args).
  assert (WR := la_R _ _ _ _ _ _ Args). assert (Hu := la_units _ _ _ _ _ _ Args).
  assert (Rr := la_rows _ _ _ _ _ _ Args). assert (Bq := la_eq _ _ _ _ _ _ Args).
  assert (Leq : length xeq = n) by (eapply in_box_length; eauto).
  unfold derivative_milp. rewrite get_R_ok by exact WR. fold M. fold M in WR, Rr.
  destruct (addVars (repeat (NInf, PInf) n) VCont init_mip) as [m0 xn] eqn:E0.
  destruct (addVars (repeat (NInf, PInf) n) VCont m0) as [m1 xv] eqn:E1.
  destruct (step_free vt st n _ _ _ E0 (h_init st)) as (A1 & A2 & A3 & A4 & A5).
  destruct (step_free vt st n _ _ _ E1 A3) as (B1 & B2 & B3 & B4 & B5).
  assert (Bn : below (nvars m1) xn) by (rewrite A1; apply below_seq; lia).
  assert (Bv : below (nvars m1) xv) by (rewrite B1; apply below_seq; lia).
  assert (Ln : length xn = n) by (rewrite A1; apply seq_length).
  assert (Lv : length xv = n) by (rewrite B1; apply seq_length).
  assert (ND : NoDup (xv ++ xn)).
  { apply (fresh_disj n (n + n) 0 n); auto.
    - rewrite B1, A2. apply fresh_seq. simpl. lia.
    - rewrite A1. apply fresh_seq. simpl. lia. }
  destruct (add_system xv xn vt m1) as [m2|] eqn:E2;
    [|exfalso; exact (Ht vt m1 xv xn Hvt B3 Bv Bn Lv Ln ND E2)].
  assert (S2 := Hsys vt m1 m2 xv xn Hvt B3 Bv Bn Lv Ln ND E2).
  destruct (relu_output_total solve Hsolve meth N n x_lo x_up W Ho L1 L2 xv vt m2 Hu C) as (m3 & rr & E3).
  rewrite E3. rewrite (scalar_phi n) by auto.
  assert (V2 : (nvars m1 <= nvars m2)%nat) by apply S2.
  destruct (relu_output_step solve Hsolve meth N n x_lo x_up W Ho L1 L2 st xv vt m2 m3 rr
    (proj1 (proj2 S2)) (below_weaken _ _ _ Bv V2) Lv Hvt E3) as (P1 & P2 & P3 & P4 & P5 & S3).
  assert (V3 : (nvars m2 <= nvars m3)%nat) by apply S3.
  assert (Bv3 : below (nvars m3) xv) by (apply (below_weaken _ _ _ Bv); lia).
  destruct (state_error_total n x_lo x_up L1 L2 (Some M) xeq WR st false xv vt m3 Bq Rr
    (proj1 (proj2 S3)) Bv3 Lv Hvt) as (m4 & s & al & E4). rewrite E4.
  destruct (state_error_step n x_lo x_up L1 L2 (Some M) xeq WR st _ _ _ _ _ _ _ E4
    (proj1 (proj2 S3)) Bv3 Lv Hvt) as (K1 & K2 & _ & _ & S4).
  assert (V4 : (nvars m3 <= nvars m4)%nat) by apply S4.
  assert (Bn4 : below (nvars m4) xn) by (apply (below_weaken _ _ _ Bn); lia).
  destruct (state_error_total n x_lo x_up L1 L2 (Some M) xeq WR st false xn vt m4 Bq Rr
    (proj1 (proj2 S4)) Bn4 Ln Hvt) as (m5 & sn & aln & E5). rewrite E5.
  destruct (state_error_step n x_lo x_up L1 L2 (Some M) xeq WR st _ _ _ _ _ _ _ E5
    (proj1 (proj2 S4)) Bn4 Ln Hvt) as (K3 & K4 & _ & _ & S5).
  assert (V5 : (nvars m4 <= nvars m5)%nat) by apply S5.
  cbn [R_of] in *.
  destruct (value_bounds_step lam vt st lower upper (ret_a rr) (ret_b rr) (ret_z rr) (phi N xeq) s m5
    (proj1 (proj2 S5)) P3) as (m6 & E6 & V6 & H6 & G6).
  { apply Forall_app. split.
    - apply fresh_below in P1. apply (below_weaken _ _ _ P1). lia.
    - apply fresh_below in K1. apply (below_weaken _ _ _ K1). lia. }
  { eapply fresh_disj; eauto. }
  rewrite E6.
  assert (Bn6 : below (nvars m6) xn) by (apply (below_weaken _ _ _ Bn); lia).
  destruct (relu_output_total solve Hsolve meth N n x_lo x_up W Ho L1 L2 xn vt m6 Hu C) as (m7 & rn & E7).
  rewrite E7.
  destruct (relu_output_step solve Hsolve meth N n x_lo x_up W Ho L1 L2 st xn vt m6 m7 rn
    H6 Bn6 Ln Hvt E7) as (Q1 & Q2 & Q3 & Q4 & Q5 & S7).
  assert (V7 : (nvars m6 <= nvars m7)%nat) by apply S7.
  assert (H7 : history st m7) by apply S7.
  remember (derivative_objective et eps lam (ret_a rr) (ret_b rr) (phi N xeq) (length M)) as ob eqn:Eob.
  destruct ob as [cs k].
  assert (F2 : Forall2 (fun (c : vec) (v : list nat) => length c = length v) cs
     [ret_z rn; ret_z rr; sn; s]).
  { unfold derivative_objective in Eob. destruct et; injection Eob as -> _;
      repeat constructor; unfold vneg, vscale; rewrite ?map_length, ?repeat_length; congruence. }
  destruct (setObjective_step vt st cs [ret_z rn; ret_z rr; sn; s] k true m7 H7 F2)
    as (m8 & E8 & O1 & O2 & O3 & O4 & O5).
  { cbn [concat]. rewrite app_nil_r.
    apply fresh_below in P1, K1, K3, Q1.
    repeat (apply Forall_app; split); eapply below_weaken; eauto; lia. }
  { cbn [concat]. rewrite app_nil_r.
    assert (X1 : fresh (nvars m4) (nvars m5) sn) by exact K3.
    destruct P1 as [Na Fa], K1 as [Nb Fb], K3 as [Nc Fc], Q1 as [Nd Fd].
    apply (fresh_disj (nvars m6) (nvars m7) 0 (nvars m6)); [split; auto| |lia].
    split.
    - apply (fresh_disj (nvars m2) (nvars m3) (nvars m3) (nvars m6)); [split; auto| |lia].
      split.
      + apply (fresh_disj (nvars m4) (nvars m5) (nvars m3) (nvars m4)); [split; auto|split; auto|lia].
      + apply Forall_app. split; eapply Forall_impl; try eassumption; simpl; intros; lia.
    - repeat (apply Forall_app; split); eapply Forall_impl; try eassumption; simpl; intros; lia. }
  rewrite E8. eexists. reflexivity.
Qed.

(** ** Trajectories *)

Lemma exp_decrease : forall eps (x : nat -> vec), 0 <= eps <= 1 ->
  trajectory_in x_lo x_up T x ->
  (forall x x', in_box x_lo x_up x -> in_box x_lo x_up x' -> T x x' ->
     violation ExpLower N M lam eps xeq x x' <= 0) ->
  forall k, V N M lam xeq (x k) <= (1 - eps) ^ k * V N M lam xeq (x 0%nat).
Proof.
  intros eps x He [B Tr] D. induction k; [simpl; lra|].
  specialize (D _ _ (B k) (B (S k)) (Tr k)). unfold violation in D.
  cbn [pow]. rewrite Rmult_assoc.
  assert ((1 - eps) * V N M lam xeq (x k) <= (1 - eps) * ((1 - eps) ^ k * V N M lam xeq (x 0%nat)))
    by (apply Rmult_le_compat_l; lra).
  lra.
Qed.

Lemma asymp_sum : forall eps (x : nat -> vec),
  trajectory_in x_lo x_up T x ->
  (forall x x', in_box x_lo x_up x -> in_box x_lo x_up x' -> T x x' ->
     violation Asymp N M lam eps xeq x x' <= 0) ->
  forall k, V N M lam xeq (x k) + eps * partial_sum (fun i => error1 M xeq (x i)) k
            <= V N M lam xeq (x 0%nat).
Proof.
  intros eps x [B Tr] D. induction k; [simpl; lra|].
  specialize (D _ _ (B k) (B (S k)) (Tr k)). unfold violation in D.
  cbn [partial_sum]. lra.
Qed.

Variables (mp : mip) (xp : list nat) (eps1 vp : R).
Hypothesis Epos : positivity_milp solve meth N n x_lo x_up xeq lam eps1 R0 = Some (mp, xp).
Hypothesis Spos : solve mp = GOptimal vp.
Hypothesis Hpos : vp <= 0.
Hypothesis He1 : 0 <= eps1.

Lemma certified_positive : forall x, in_box x_lo x_up x -> eps1 * error1 M xeq x <= V N M lam xeq x.
Proof.
  apply (positivity_verdict solve Hsolve meth N n x_lo x_up R0 xeq Args lam eps1 mp xp vp Epos Spos). auto.
Qed.
Lemma certified_nonneg : forall x, in_box x_lo x_up x -> 0 <= V N M lam xeq x.
Proof.
  intros x B. assert (K := certified_positive x B).
  assert (Q := norm1_nonneg (mv M (vsub x xeq))). unfold error1 in K.
  assert (0 <= eps1 * norm1 (mv M (vsub x xeq))) by (apply Rmult_le_pos; auto). lra.
Qed.

Variables (d : deriv_ret) (eps v : R).
Lemma certified_exp : forall x, 0 <= eps <= 1 ->
  derivative_milp solve meth N n x_lo x_up add_system xeq lam eps ExpLower R0 None None VBin = Some d ->
  solve (d_mip d) = GOptimal v -> v <= 0 ->
  trajectory_in x_lo x_up T x ->
  (forall k, 0 <= V N M lam xeq (x k) <= (1 - eps) ^ k * V N M lam xeq (x 0%nat)) /\
  (forall k, eps1 * error1 M xeq (x k) <= (1 - eps) ^ k * V N M lam xeq (x 0%nat)) /\
  (0 < eps1 -> 0 < eps -> Un_cv (fun k => error1 M xeq (x k)) 0).
Proof.
  intros x He E S Hv Tr.
  assert (D := proj1 (proj1 (derivative_verdict eps ExpLower None None d E) v S) Hv).
  assert (K : forall k, V N M lam xeq (x k) <= (1 - eps) ^ k * V N M lam xeq (x 0%nat)).
  { apply exp_decrease; auto. intros y y' B B' Ty. apply D; auto. split; intros ? X; discriminate X. }
  destruct Tr as [B Tr].
  assert (K2 : forall k, eps1 * error1 M xeq (x k) <= (1 - eps) ^ k * V N M lam xeq (x 0%nat)).
  { intros k. assert (P := certified_positive _ (B k)). specialize (K k). lra. }
  split; [intros k; split; [apply certified_nonneg|]; auto|]. split; auto.
  intros P1 P2 e Pe. set (V0 := V N M lam xeq (x 0%nat)) in *.
  assert (N0 : 0 <= V0) by (apply certified_nonneg; auto).
  destruct (pow_lt_1_zero (1 - eps) ltac:(apply Rabs_def1; lra) (e * eps1 / (V0 + 1))) as [k0 Hk].
  { apply Rdiv_lt_0_compat; [apply Rmult_lt_0_compat|]; lra. }
  exists k0. intros k Gk. specialize (Hk k Gk). specialize (K2 k).
  unfold R_dist. rewrite Rminus_0_r.
  assert (Ne := norm1_nonneg (mv M (vsub (x k) xeq))). fold (error1 M xeq (x k)) in Ne.
  rewrite Rabs_pos_eq by exact Ne.
  assert (Pk : 0 <= (1 - eps) ^ k) by (apply pow_le; lra).
  rewrite Rabs_pos_eq in Hk by exact Pk.
  apply (Rmult_lt_reg_l eps1); auto.
  assert ((1 - eps) ^ k * (V0 + 1) < e * eps1).
  { apply (Rmult_lt_compat_r (V0 + 1)) in Hk; [|lra].
    replace (e * eps1 / (V0 + 1) * (V0 + 1)) with (e * eps1) in Hk by (field; lra). auto. }
  lra.
Qed.

Lemma certified_asymp : forall x, 0 < eps ->
  derivative_milp solve meth N n x_lo x_up add_system xeq lam eps Asymp R0 None None VBin = Some d ->
  solve (d_mip d) = GOptimal v -> v <= 0 ->
  trajectory_in x_lo x_up T x ->
  (forall k, partial_sum (fun i => error1 M xeq (x i)) k <= V N M lam xeq (x 0%nat) / eps) /\
  Un_cv (fun k => error1 M xeq (x k)) 0.
Proof.
  intros x He E S Hv Tr.
  assert (D := proj1 (proj1 (derivative_verdict eps Asymp None None d E) v S) Hv).
  assert (K := asymp_sum eps x Tr ltac:(intros y y' B B' Ty; apply D; auto; split; intros ? X; discriminate X)).
  destruct Tr as [B Tr].
  assert (K2 : forall k, partial_sum (fun i => error1 M xeq (x i)) k <= V N M lam xeq (x 0%nat) / eps).
  { intros k. specialize (K k). assert (P := certified_nonneg _ (B k)).
    apply (Rmult_le_reg_l eps); auto. field_simplify; lra. }
  split; auto.
  assert (Ne : forall k, 0 <= error1 M xeq (x k)) by (intros; apply norm1_nonneg).
  destruct (Un_cv_crit (partial_sum (fun i => error1 M xeq (x i)))) as [l Hl].
  - intros k. cbn [partial_sum]. specialize (Ne k). lra.
  - exists (V N M lam xeq (x 0%nat) / eps). intros r [k ->]. apply K2.
  - intros e Pe. destruct (Hl (e / 2) ltac:(lra)) as [k0 Hk]. exists k0. intros k Gk.
    assert (Q1 := Hk k Gk). assert (Q2 := Hk (Datatypes.S k) ltac:(lia)).
    unfold R_dist in *. cbn [partial_sum] in Q2. rewrite Rminus_0_r, Rabs_pos_eq by apply Ne.
    apply Rabs_def2 in Q1. apply Rabs_def2 in Q2. lra.
Qed.
End More.
