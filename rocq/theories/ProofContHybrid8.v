(** Concrete hybrid systems for the derivative programs. *)

Require Import Reals List Lia Lra Bool Arith.
Require Import Verif.Vec Verif.VecFacts Verif.ModelMip Verif.SpecMip Verif.SpecCore
  Verif.ModelUtils Verif.SpecUtils Verif.ModelNet Verif.SpecNet Verif.SpecStep
  Verif.ModelPattern Verif.SpecPattern
  Verif.ModelGrad Verif.ModelLyapunov Verif.SpecLyapunov Verif.ModelHybrid Verif.SpecHybrid
  Verif.ModelContinuous Verif.SpecContinuous Verif.ModelContHybrid Verif.SpecContHybrid
  Verif.ModelExamples Verif.ModelContExamples
  Verif.ProofUtils Verif.ProofGrad Verif.ProofMip Verif.ProofBounds Verif.ProofNetBounds Verif.ProofStep Verif.ProofLyapunov Verif.ProofLyapCert
  Verif.ProofLyapMore Verif.ProofStrengthen Verif.ProofHybrid Verif.ProofHybrid2 Verif.ProofExamples
  Verif.ProofContinuous Verif.ProofContinuous4 Verif.ProofContinuous5 Verif.ProofContinuous6 Verif.ProofContExamples
  Verif.ProofContHybrid4 Verif.ProofContHybrid6 Verif.ProofContHybrid7.
Import ListNotations.
Open Scope R_scope.

Lemma line_bounds_valid : SpecContHybrid.row_bounds_valid line_bounds.
Proof.
  intros P q a lo up x E FP La V. unfold line_bounds in E.
  destruct a as [|c [|]]; try discriminate.
  destruct x as [|t [|]]; try discriminate.
  destruct (row_bounds P q 0) as [[[|l|] [|u|]]|] eqn:Er; try discriminate.
  apply Some_inj in E. apply pair_equal_spec in E. destruct E as [<- <-].
  destruct (row_bounds_valid P q 0%nat _ _ [t] Er FP ltac:(cbn; lia) V) as [Q1 Q2].
  cbn in Q1, Q2. cbn [dot ext_le_r r_le_ext].
  unfold Rmin, Rmax. destruct (Rle_dec (c * l) (c * u)); destruct (Rle_dec 0 c); split; nra.
Qed.

Lemma moves_next : forall h k x v, Forall (fun md => md_B md = map (fun _ => []) (md_A md)) (h_modes h) ->
  Forall (fun md => length (md_c md) = length (md_A md)) (h_modes h) ->
  moves h k x v -> hybrid_next h x [] v.
Proof.
  intros h k x v HB Hc (md & Hk & I & ->). assert (Hm := nth_error_In _ _ Hk).
  rewrite Forall_forall in HB, Hc. exists md. split; auto. split.
  - unfold inside. rewrite app_nil_r. exact I.
  - unfold image. rewrite (HB md Hm). f_equal.
    generalize (md_A md). intros A. induction A as [|r A IH]; auto. cbn. apply cons_eq_iff.
    split; [rewrite Rplus_0_r; auto|exact IH].
Qed.
Lemma next_moves : forall h x v, Forall (fun md => md_B md = map (fun _ => []) (md_A md)) (h_modes h) ->
  hybrid_next h x [] v -> exists k, moves h k x v.
Proof.
  intros h x v HB (md & Hm & I & ->). destruct (In_nth_error _ _ Hm) as (k & Hk). exists k.
  rewrite Forall_forall in HB. exists md. split; auto. split.
  - unfold inside in I. rewrite app_nil_r in I. exact I.
  - unfold image. rewrite (HB md Hm). f_equal.
    generalize (md_A md). intros A. induction A as [|r A IH]; auto. cbn. apply cons_eq_iff.
    split; [rewrite Rplus_0_r; auto|exact IH].
Qed.

Lemma sysf_B : Forall (fun md => md_B md = map (fun _ => []) (md_A md)) (h_modes sysf).
Proof. repeat constructor. Qed.
Lemma sysf_c : Forall (fun md => length (md_c md) = length (md_A md)) (h_modes sysf).
Proof. repeat constructor. Qed.
Lemma sysd_B : Forall (fun md => md_B md = map (fun _ => []) (md_A md)) (h_modes sysd).
Proof. repeat constructor. Qed.
Lemma sysd_c : Forall (fun md => length (md_c md) = length (md_A md)) (h_modes sysd).
Proof. repeat constructor. Qed.

Ltac extcalc := unfold lo_all, up_all, sysf, sysd;
  cbn [h_modes h_nx h_nu fold_left md_lo md_up Nat.add repeat map2 map];
  unfold ext_min, ext_max, ext_min, ext_max;
  repeat match goal with |- context [Rle_dec ?a ?b] => destruct (Rle_dec a b); try lra end;
  rewrite ?Rmin_left, ?Rmax_right by lra; try reflexivity; try (repeat f_equal; lra).

Lemma sysf_box : hybrid_box sysf [-1] [1].
Proof. split; extcalc. Qed.
Lemma sysd_box : hybrid_box sysd [0] [1].
Proof. split; extcalc. Qed.

Lemma sysf_args : hybrid_args net_abs sysf [-1] [1] [0] line_bounds.
Proof.
  constructor.
  - exists row_bounds, (fun _ => true). split; [apply row_bounds_valid|apply sysf_built].
  - apply line_bounds_valid.
  - apply sysf_box.
  - exact abs_args.
  - exact abs_ns.
Qed.
Lemma sysd_args : hybrid_args net_flat sysd [0] [1] [0] line_bounds.
Proof.
  constructor.
  - exists row_bounds, (fun _ => true). split; [apply row_bounds_valid|apply sysd_built].
  - apply line_bounds_valid.
  - apply sysd_box.
  - exact flat_args.
  - exact flat_ns.
Qed.

Lemma sysf_rows : finite_rows line_bounds sysf.
Proof.
  unfold finite_rows, sysf. cbn [h_modes].
  repeat (apply Forall_cons || apply Forall_nil); cbn [md_A md_P md_q];
    repeat (apply Forall_cons || apply Forall_nil); unfold line_bounds; rowcalc; eauto.
Qed.
Lemma sysd_rows : finite_rows line_bounds sysd.
Proof.
  unfold finite_rows, sysd. cbn [h_modes].
  repeat (apply Forall_cons || apply Forall_nil); cbn [md_A md_P md_q];
    repeat (apply Forall_cons || apply Forall_nil); unfold line_bounds; rowcalc; eauto.
Qed.

Lemma sysf_move : moves sysf 0 [0] [- 0].
Proof.
  eexists. split; [reflexivity|]. cbn [md_A md_B md_c md_P md_q mv map dot map2 vsum vadd app]. vle_simpl.
  split; [lra|]. apply cons_eq_iff. split; [lra|auto].
Qed.
Lemma sysd_move : moves sysd 0 [0] [-1].
Proof.
  eexists. split; [reflexivity|]. cbn [md_A md_B md_c md_P md_q mv map dot map2 vsum vadd app]. vle_simpl.
  split; [lra|]. apply cons_eq_iff. split; [lra|auto].
Qed.

(** ** The programs of xdot = - x or - 2 x *)

Lemma hybrid_case_optimum : forall d,
  hybrid_derivative ideal_solve line_bounds IA net_abs sysf [-1] [1] [0] (1/2) 1 ExpLower None None None d ->
  ideal_solve (hd_mip d) = GOptimal 0.
Proof.
  intros d E. apply ideal_optimal.
  destruct (hybrid_exact ideal_solve ideal_ok IA net_abs sysf [-1] [1] [0] line_bounds sysf_args (1/2) 1
    ExpLower None None None d E) as (_ & P1 & P0 & P2 & P3).
  split.
  - destruct (P3 [0] 0%nat [- 0] [[true; false]] [true]) as (sg & G & _ & _ & _ & Eo).
    + reflexivity.
    + apply sysf_move.
    + split; discriminate.
    + split.
      * repeat constructor; cbn; lra.
      * repeat constructor; cbn; lra.
    + split; intros i b E'.
      * destruct i as [|[|[|i]]]; cbn in E'; try discriminate; injection E' as <-;
          (exists [1]; split; [split; vle_simpl; lra|cbn; lra]).
      * destruct i as [|[|i]]; cbn in E'; try discriminate; injection E' as <-.
        exists [1]. split; [split; vle_simpl; lra|cbn; lra].
    + exists sg. split; auto. rewrite Eo. change (eye (h_nx sysf)) with (R_of 1 None).
      rewrite abs_V, Rabs_R0. unfold Vdot. cbn. unfold act_slope. lra.
  - rewrite P1. intros sg G. destruct (P2 sg G) as (B & _ & k & v & pats & sgs & Mv & Sel & _ & _ & ->).
    apply (moves_next _ _ _ _ sysf_B sysf_c) in Mv. change (hybrid_next sysf) with (fun x (u : vec) d => hybrid_next sysf x u d) in Mv.
    change (eye (h_nx sysf)) with (R_of 1 None) in *.
    destruct (box1_inv _ _ _ B) as (a & Ea & Ha). rewrite Ea in *.
    apply sysf_next in Mv.
    assert (K : exists w, v = [w] /\ ((a <= 0 /\ w = - a) \/ (0 <= a /\ w = -2 * a))).
    { destruct Mv as [[X ->]|[X ->]]; eexists; (split; [reflexivity|]); [left|right]; split; auto; lra. }
    destruct K as (w & -> & K). destruct (abs_Vdot a w pats sgs Sel) as (J1 & J2 & J3).
    rewrite abs_V. destruct (Rtotal_order a 0) as [Hn|[Hz|Hp]].
    + rewrite J2 by auto. rewrite Rabs_left by auto. lra.
    + rewrite J3 by lra. subst a. rewrite Rabs_R0. lra.
    + rewrite J1 by auto. rewrite Rabs_right by lra. lra.
Qed.

Lemma hybrid_case1 : exists d,
  hybrid_ct_milp ideal_solve line_bounds IA net_abs sysf [-1] [1] [0] (1/2) 1 ExpLower None None None = Some d /\
  ideal_solve (hd_mip d) = GOptimal 0.
Proof.
  destruct (program1_total ideal_solve ideal_ok IA net_abs sysf [-1] [1] [0] line_bounds sysf_args (1/2) 1 None None
    sysf_finite sysf_rows abs_slopes) with (R0 := @None mat) as (d & E).
  - exists 0%nat, [0], [- 0]. split; [reflexivity|apply sysf_move].
  - exact (abs_out _ ideal_ok).
  - reflexivity.
  - exists d. split; auto. apply hybrid_case_optimum. left. exact E.
Qed.
Lemma hybrid_case2 : exists d,
  hybrid_ct_milp2 ideal_solve line_bounds IA net_abs sysf [-1] [1] [0] (1/2) 1 ExpLower None None None = Some d /\
  ideal_solve (hd_mip d) = GOptimal 0.
Proof.
  destruct (program2_total ideal_solve ideal_ok IA net_abs sysf [-1] [1] [0] line_bounds sysf_args (1/2) 1 None None
    sysf_finite sysf_rows abs_slopes) with (R0 := @None mat) as (d & E).
  - exists 0%nat, [0], [- 0]. split; [reflexivity|apply sysf_move].
  - exact (abs_out _ ideal_ok).
  - reflexivity.
  - exists d. split; auto. apply hybrid_case_optimum. right. exact E.
Qed.

Lemma hybrid_flow_case : forall b, flow [-1] [1] (fun y w => exists k, moves sysf k y w) b flow_ex.
Proof.
  intros b. destruct (flow_ex_ok b) as [F1 F2 F3]. constructor; auto.
  intros t Ht. destruct (F3 t Ht) as (d & Td & Ld & Hd). exists d. split; auto.
  apply next_moves; auto. apply sysf_B.
Qed.

(** ** The missing gradient on the boundary *)

Lemma hybrid_boundary_all : forall solve, solver_ok solve -> forall d,
  hybrid_derivative solve line_bounds IA net_flat sysd [0] [1] [0] 1 1 ExpLower None None None d ->
  (forall sg, gfeas (hd_mip d) sg -> objective (hd_mip d) sg <= 0) /\
  exists x k w pats sgs, moves sysd k x w /\
    selects net_flat (eye 1) [0] x pats sgs /\
    0 < Vdot net_flat (eye 1) 1 pats sgs w + 1 * V net_flat (eye 1) 1 [0] x.
Proof.
  intros solve Hs d E. change (eye 1) with (R_of 1 None). split.
  - destruct (hybrid_forced solve Hs IA net_flat sysd [0] [1] [0] line_bounds sysd_args 1 1 _ _ _ _ d E)
      as (_ & _ & _ & _ & blo & bup & ls & us & (Er & _) & P & _).
    intros sg G. destruct (P sg G) as (B & _ & k & v & pats & sgs & Mv & [C S] & _ & _ & -> & _ & F).
    change (eye (h_nx sysd)) with (R_of 1 None) in *.
    apply (moves_next _ _ _ _ sysd_B sysd_c) in Mv.
    destruct (box1_inv _ _ _ B) as (a & Ea & Ha). rewrite Ea in *. clear Ea.
    apply sysd_next in Mv. destruct Mv as [_ ->].
    rewrite flat_V. rewrite Rabs_right by lra.
    destruct (range_inv _ _ _ _ _ _ _ Er) as (_ & _ & _ & El & _).
    unfold signs_ok in S. cbn in S.
    inversion S as [|s ? ss ? D3 S']; subst. inversion S'; subst.
    cbn in F. destruct us as [|u us]; [tauto|]. destruct F as [[F _] _].
    assert (s = true) as ->.
    { apply F. rewrite ia_lo_cons. unfold ia_lo. cbn. unfold Rltb. destruct (Rlt_dec 0 1); cbn; lra. }
    unfold Vdot.
    assert (Z : nth 0 (jvp net_flat pats [-1]) 0 = 0).
    { unfold consistent in C. cbn in C.
      inversion C as [|p ? ps ? C1 C2]; subst. inversion C2; subst.
      inversion C1 as [|b1 ? p' ? D1 C3]; subst. inversion C3 as [|b2 ? p'' ? D2 C4]; subst. inversion C4; subst.
      cbn. destruct b1, b2; cbn; lra. }
    rewrite Z. cbn. lra.
  - exists [0], 0%nat, [-1], [[true; true]], [false].
    split; [apply sysd_move|]. split.
    + split; repeat constructor; cbn; lra.
    + rewrite flat_V, Rabs_R0. unfold Vdot. cbn. lra.
Qed.

Lemma hybrid_boundary_missing : forall solve, solver_ok solve -> exists d1 d2,
  hybrid_ct_milp solve line_bounds IA net_flat sysd [0] [1] [0] 1 1 ExpLower None None None = Some d1 /\
  hybrid_ct_milp2 solve line_bounds IA net_flat sysd [0] [1] [0] 1 1 ExpLower None None None = Some d2 /\
  (forall sg, gfeas (hd_mip d1) sg -> objective (hd_mip d1) sg <= 0) /\
  (forall sg, gfeas (hd_mip d2) sg -> objective (hd_mip d2) sg <= 0) /\
  exists x k w pats sgs, moves sysd k x w /\
    selects net_flat (eye 1) [0] x pats sgs /\
    0 < Vdot net_flat (eye 1) 1 pats sgs w + 1 * V net_flat (eye 1) 1 [0] x.
Proof.
  intros solve Hs.
  assert (Hsl : slopes_nonneg (hidden net_flat)) by (constructor; [cbn; lra|constructor]).
  assert (Hp : exists k x v, length x = h_nx sysd /\ moves sysd k x v).
  { exists 0%nat, [0], [-1]. split; [reflexivity|apply sysd_move]. }
  destruct (program1_total solve Hs IA net_flat sysd [0] [1] [0] line_bounds sysd_args 1 1 None None
    sysd_finite sysd_rows Hsl Hp (flat_out _ Hs) None eq_refl) as (d1 & E1).
  destruct (program2_total solve Hs IA net_flat sysd [0] [1] [0] line_bounds sysd_args 1 1 None None
    sysd_finite sysd_rows Hsl Hp (flat_out _ Hs) None eq_refl) as (d2 & E2).
  destruct (hybrid_boundary_all solve Hs d1 (or_introl E1)) as (Q1 & Q2).
  destruct (hybrid_boundary_all solve Hs d2 (or_intror E2)) as (Q3 & _).
  exists d1, d2. auto.
Qed.
