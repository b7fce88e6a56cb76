(** Concrete barriers. *)

Require Import Reals List Bool Arith Lra Lia.
Require Import Verif.Vec Verif.VecFacts Verif.ModelMip Verif.SpecMip
  Verif.ModelUtils Verif.ModelGrad Verif.ModelNet Verif.SpecCore Verif.SpecNet
  Verif.ProofUtils Verif.ProofGrad Verif.SpecStep Verif.ModelLyapunov Verif.SpecLyapunov
  Verif.ProofNetBounds Verif.ProofStrengthen Verif.ProofMip Verif.ProofStep Verif.ProofLyapCert Verif.ProofRoa Verif.ProofAttain Verif.ModelHybrid Verif.SpecHybrid Verif.ProofHybrid Verif.ProofHybrid2
  Verif.ProofLyapunov Verif.ModelBarrier Verif.SpecBarrier Verif.ProofBarrier
  Verif.ModelExamples Verif.ProofExamples Verif.ProofLyapMore.
Import ListNotations.
Open Scope R_scope.

Lemma net_nabs_wf : net_wf 1 net_nabs.
Proof.
  unfold net_wf, net_nabs. cbn [hidden last_layer hidden_wf lin_wf in_features weight bias].
  split; [discriminate|]. unfold lin_wf, wfm, out_features. cbn. repeat split; repeat constructor.
Qed.
Lemma phi_nabs : forall a, phi net_nabs [a] = - Rabs a.
Proof.
  intros a. rewrite <- relu_abs. unfold phi, net_eval, net_nabs.
  cbn. replace (1 * a + 0 + 0) with a by lra. replace (-1 * a + 0 + 0) with (- a) by lra. lra.
Qed.
Lemma nabs_args : barrier_args 1 net_nabs [-1] [1] [0].
Proof. constructor; try reflexivity. exact net_nabs_wf. Qed.
Lemma nabs_h : forall a, h_of net_nabs [0] (1/2) [a] = 1/2 - Rabs a.
Proof. intros a. unfold h_of. rewrite !phi_nabs, Rabs_R0. lra. Qed.
Lemma nabs_out : forall solve, solver_ok solve ->
  exists c B out, output_constraint solve IA net_nabs [-1] [1] = Some (c, B, out).
Proof.
  intros solve H. apply (ia_total solve H 1); try reflexivity; [exact net_nabs_wf|]. vle_simpl. lra.
Qed.

Lemma sysj_built : built row_bounds (fun _ => true) 1 0 sysj.
Proof.
  eapply built_add with (h := mkHybrid 1 0 [nth 0 (h_modes sysj) (mkMode [] [] [] [] [] [] [])])
    (A := [[0]]) (B := [[]]) (c := [2]) (P := [[1]; [-1]]) (q := [1; Ropp (1/4)]) (check := true).
  - eapply built_add with (h := new_hybrid 1 0)
      (A := [[1/2]]) (B := [[]]) (c := [0]) (P := [[1]; [-1]]) (q := [1/4; 1]) (check := true).
    + constructor.
    + unfold add_mode. cbn [h_nx h_nu new_hybrid shape_ok length Nat.eqb forallb andb negb orb seq Nat.add map].
      rowcalc. reflexivity.
  - unfold add_mode. cbn [h_nx h_nu new_hybrid shape_ok length Nat.eqb forallb andb negb orb seq Nat.add map].
    rowcalc. reflexivity.
Qed.
Lemma sysj_finite : finite_modes sysj.
Proof.
  unfold finite_modes, sysj. cbn [h_modes].
  repeat (apply Forall_cons || apply Forall_nil); cbn [md_lo md_up]; split;
    repeat (apply Forall_cons || apply Forall_nil); eauto.
Qed.
Lemma sysj_next : forall a x', hybrid_next sysj [a] [] x' <->
  (-1 <= a <= 1/4 /\ x' = [a / 2]) \/ (1/4 <= a <= 1 /\ x' = [2]).
Proof.
  intros a x'. unfold hybrid_next, sysj. cbn [h_modes In].
  split.
  - intros (m & [<-|[<-|[]]] & I & ->); unfold inside, image in *;
      cbn [md_A md_B md_c md_P md_q mv map dot map2 vsum vadd app] in *; vle_simpl.
    + left. split; [lra|]. apply cons_eq_iff. split; [lra|auto].
    + right. split; [lra|]. apply cons_eq_iff. split; [lra|auto].
  - intros [[H ->]|[H ->]].
    + eexists. split; [left; reflexivity|]. unfold inside, image.
      cbn [md_A md_B md_c md_P md_q mv map dot map2 vsum vadd app]. vle_simpl.
      split; [lra|]. apply cons_eq_iff. split; [lra|auto].
    + eexists. split; [right; left; reflexivity|]. unfold inside, image.
      cbn [md_A md_B md_c md_P md_q mv map dot map2 vsum vadd app]. vle_simpl.
      split; [lra|]. apply cons_eq_iff. split; [lra|auto].
Qed.
Lemma sysj_contract : forall st, system_contract 1 st addj Tj.
Proof. intros st. eapply hybrid_contract; [apply row_bounds_valid|apply sysj_built]. Qed.
Lemma sysj_total : forall st, system_total 1 st addj.
Proof.
  intros st. apply (hybrid_system_total row_bounds (fun _ => true) 1 sysj st [0] [0 / 2]).
  - apply row_bounds_valid.
  - apply sysj_built.
  - apply sysj_finite.
  - reflexivity.
  - apply sysj_next. left. split; [lra|auto].
Qed.

Lemma region_ge_ok : mic_ok region_ge.
Proof.
  unfold mic_ok, mic_wf, region_ge, slack_size, binary_size. cbn.
  repeat split; auto; try (repeat constructor); intros; try discriminate; left; discriminate.
Qed.
Lemma region_ge_in : forall a, in_region region_ge [a] <-> 3/4 <= a.
Proof.
  intros a. unfold in_region, mic_sat, rows_sat, sat_in, sat_eq, bounds_ok, lhs, term. cbn. split.
  - intros (s & b & _ & (_ & _ & _ & H & _) & _). vle_simpl. lra.
  - intros H. exists [], []. split; [constructor|]. repeat split. vle_simpl. lra.
Qed.
Lemma region_edge_ok : mic_ok region_edge.
Proof.
  unfold mic_ok, mic_wf, region_edge, slack_size, binary_size. cbn.
  repeat split; auto; try (repeat constructor); intros; try discriminate; left; discriminate.
Qed.
Lemma region_edge_in : forall a, -1 <= a <= 1 -> (in_region region_edge [a] <-> a = -1 \/ a = 1).
Proof.
  intros a Ha. unfold in_region, mic_sat, rows_sat, sat_in, sat_eq, bounds_ok, lhs, term. cbn. split.
  - intros (s & b & Hb & (_ & _ & L & H & _) & _). destruct b as [|b [|]]; try discriminate.
    apply Forall_inv in Hb. cbn in H. vle_simpl. destruct Hb as [-> | ->]; [right|left]; lra.
  - intros [-> | ->].
    + exists [], [1]. split; [constructor; [right; auto|constructor]|]. repeat split. cbn. vle_simpl. lra.
    + exists [], [0]. split; [constructor; [left; auto|constructor]|]. repeat split. cbn. vle_simpl. lra.
Qed.

(** ** A certified barrier *)

Lemma barrier_case : exists m xv md xd xdn,
  barrier_value_milp net_nabs ideal_solve IA 1 [-1] [1] [0] (1/2) region_ge false = Some (m, xv) /\
  barrier_derivative_milp net_nabs ideal_solve IA 1 [-1] [1] add1 [0] (1/2) (1/2) VBin
    = Some (md, xd, xdn) /\
  ideal_solve m = GOptimal (-1/4) /\ ideal_solve md = GOptimal (-1/4).
Proof.
  destruct (value_total ideal_solve ideal_ok IA net_nabs 1 [-1] [1] [0] nabs_args (1/2)
    region_ge false region_ge_ok eq_refl (nabs_out _ ideal_ok)) as (m & xv & E).
  destruct (barrier_derivative_total ideal_solve ideal_ok IA net_nabs 1 [-1] [1] [0] nabs_args (1/2)
    false add1 T1 (sys1_contract false) (1/2) VBin ltac:(discriminate) (sys1_total false)
    (nabs_out _ ideal_ok)) as (md & xd & xdn & Ed).
  exists m, xv, md, xd, xdn. split; auto. split; auto.
  destruct (value_program ideal_solve ideal_ok IA net_nabs 1 [-1] [1] [0] nabs_args (1/2)
    region_ge false m xv region_ge_ok eq_refl E) as (P1 & P2 & P3 & P4).
  destruct (barrier_derivative_program ideal_solve ideal_ok IA net_nabs 1 [-1] [1] [0] nabs_args (1/2)
    false add1 T1 (sys1_contract false) (1/2) VBin md xd xdn ltac:(discriminate) Ed)
    as (Q1 & Q2 & _ & Q3 & Q4).
  split; apply ideal_optimal; split.
  - destruct (P4 [3/4]) as (sg & G & Ex); [split; vle_simpl; lra|apply region_ge_in; lra|].
    exists sg. split; auto. destruct (P3 sg G) as (_ & _ & ->). rewrite Ex, nabs_h.
    rewrite Rabs_right; lra.
  - rewrite P1. intros sg G. destruct (P3 sg G) as (B & Hr & ->).
    destruct (box1_inv _ _ _ B) as (a & Ea & Ha). rewrite Ea in *. apply region_ge_in in Hr.
    rewrite nabs_h, Rabs_right; lra.
  - assert (T0 : T1 [0] [0]) by (apply sys1_next; left; split; [lra|f_equal; lra]).
    destruct (Q4 [0] [0]) as (sg & G & Ex & Ex'); auto; [split; vle_simpl; lra..|].
    exists sg. split; [exact (proj1 (feas_bin _ _) G)|]. destruct (Q3 sg G) as (_ & _ & _ & ->).
    unfold barrier_violation. rewrite Ex, Ex', nabs_h, Rabs_R0. lra.
  - rewrite Q1. intros sg G. apply feas_bin in G. destruct (Q3 sg G) as (B & _ & Ht & ->).
    destruct (box1_inv _ _ _ B) as (a & Ea & Ha). rewrite Ea in *. apply sys1_next in Ht.
    unfold barrier_violation. destruct Ht as [[H ->]|[H ->]]; rewrite !nabs_h.
    + rewrite Rabs_half. lra.
    + rewrite Rabs_mquarter. pose proof (Rabs_pos a). lra.
Qed.

Lemma traj_barrier : trajectory_in [-1] [1] T1 (fun k => [- (1/4) * (1/2) ^ k]) /\
  0 < h_of net_nabs [0] (1/2) [- (1/4) * (1/2) ^ 0].
Proof.
  split.
  - assert (P : forall k, 0 < (1/2) ^ k <= 1).
    { intros k. split; [apply pow_lt; lra|]. induction k; cbn [pow]; [lra|]. 
      assert (0 < (1/2)^k) by (apply pow_lt; lra). lra. }
    split.
    + intros k. specialize (P k). split; vle_simpl; lra.
    + intros k. specialize (P k). apply sys1_next. left. split; [lra|]. cbn [pow]. f_equal. lra.
  - rewrite nabs_h. cbn [pow]. rewrite Rabs_left; lra.
Qed.

(** ** A certificate for a system that leaves the box *)

Lemma barrier_leaving : exists solve N n x_lo x_up x_star c eps add T m xv md xd xdn,
  solver_ok solve /\ barrier_args n N x_lo x_up x_star /\ 0 < c /\ 0 < eps < 1 /\
  (forall st, system_contract n st add T) /\ mic_ok region_edge /\
  (forall a, -1 <= a <= 1 -> (in_region region_edge [a] <-> a = -1 \/ a = 1)) /\
  (x_lo = [-1] /\ x_up = [1]) /\
  barrier_value_milp N solve IA n x_lo x_up x_star c region_edge false = Some (m, xv) /\
  barrier_derivative_milp N solve IA n x_lo x_up add x_star c eps VBin = Some (md, xd, xdn) /\
  (exists v, solve m = GOptimal v /\ v < 0) /\ (exists v, solve md = GOptimal v /\ v < 0) /\
  exists x x', in_box x_lo x_up x /\ 0 < h_of N x_star c x /\ T x x' /\ h_of N x_star c x' < 0.
Proof.
  destruct (value_total ideal_solve ideal_ok IA net_nabs 1 [-1] [1] [0] nabs_args (1/2)
    region_edge false region_edge_ok eq_refl (nabs_out _ ideal_ok)) as (m & xv & E).
  destruct (barrier_derivative_total ideal_solve ideal_ok IA net_nabs 1 [-1] [1] [0] nabs_args (1/2)
    false addj Tj (sysj_contract false) (1/2) VBin ltac:(discriminate) (sysj_total false)
    (nabs_out _ ideal_ok)) as (md & xd & xdn & Ed).
  exists ideal_solve, net_nabs, 1%nat, [-1], [1], [0], (1/2), (1/2), addj, Tj, m, xv, md, xd, xdn.
  destruct (value_program ideal_solve ideal_ok IA net_nabs 1 [-1] [1] [0] nabs_args (1/2)
    region_edge false m xv region_edge_ok eq_refl E) as (P1 & P2 & P3 & P4).
  destruct (barrier_derivative_program ideal_solve ideal_ok IA net_nabs 1 [-1] [1] [0] nabs_args (1/2)
    false addj Tj (sysj_contract false) (1/2) VBin md xd xdn ltac:(discriminate) Ed)
    as (Q1 & Q2 & _ & Q3 & Q4).
  split; [exact ideal_ok|]. split; [exact nabs_args|]. split; [lra|]. split; [lra|].
  split; [exact sysj_contract|]. split; [exact region_edge_ok|]. split; [exact region_edge_in|].
  split; [auto|]. split; [exact E|]. split; [exact Ed|]. split; [|split].
  - exists (-1/2). split; [|lra]. apply ideal_optimal. split.
    + destruct (P4 [1]) as (sg & G & Ex); [split; vle_simpl; lra|apply region_edge_in; auto; lra|].
      exists sg. split; auto. destruct (P3 sg G) as (_ & _ & ->). rewrite Ex, nabs_h.
      rewrite Rabs_right; lra.
    + rewrite P1. intros sg G. destruct (P3 sg G) as (B & Hr & ->).
      destruct (box1_inv _ _ _ B) as (a & Ea & Ha). rewrite Ea in *.
      apply (region_edge_in a Ha) in Hr. rewrite nabs_h.
      destruct Hr as [-> | ->]; [rewrite Rabs_left|rewrite Rabs_right]; lra.
  - exists (-1/4). split; [|lra]. apply ideal_optimal. split.
    + assert (T0 : Tj [0] [0]) by (apply sysj_next; left; split; [lra|f_equal; lra]).
      destruct (Q4 [0] [0]) as (sg & G & Ex & Ex'); auto; [split; vle_simpl; lra..|].
      exists sg. split; [exact (proj1 (feas_bin _ _) G)|]. destruct (Q3 sg G) as (_ & _ & _ & ->).
      unfold barrier_violation. rewrite Ex, Ex', nabs_h, Rabs_R0. lra.
    + rewrite Q1. intros sg G. apply feas_bin in G. destruct (Q3 sg G) as (B & B' & Ht & ->).
      destruct (box1_inv _ _ _ B) as (a & Ea & Ha). rewrite Ea in *. apply sysj_next in Ht.
      unfold barrier_violation. destruct Ht as [[H Ex]|[H Ex]]; rewrite Ex in *; rewrite !nabs_h.
      * rewrite Rabs_half. lra.
      * destruct (box1_inv _ _ _ B') as (b & Eb & Hb). injection Eb as <-. lra.
  - exists [1/3], [2]. split; [split; vle_simpl; lra|]. split; [rewrite nabs_h, Rabs_right; lra|].
    split; [apply sysj_next; right; split; [lra|auto]|]. rewrite nabs_h, Rabs_right; lra.
Qed.

(** A certified barrier with optimum 0: a state with h >= 0 in the unsafe region. *)
Lemma barrier_touching : exists solve N n x_lo x_up x_star c region m xv,
  solver_ok solve /\ barrier_args n N x_lo x_up x_star /\ 0 < c /\ mic_ok region /\ nin region = n /\
  barrier_value_milp N solve IA n x_lo x_up x_star c region false = Some (m, xv) /\
  solve m = GOptimal 0 /\
  exists x, in_box x_lo x_up x /\ in_region region x /\ 0 <= h_of N x_star c x.
Proof.
  assert (Args : barrier_args 1 net_nabs [-1] [1] [0]) by exact nabs_args.
  destruct (value_total ideal_solve ideal_ok IA net_nabs 1 [-1] [1] [0] nabs_args (3/4)
    region_ge false region_ge_ok eq_refl (nabs_out _ ideal_ok)) as (m & xv & E).
  exists ideal_solve, net_nabs, 1%nat, [-1], [1], [0], (3/4), region_ge, m, xv.
  destruct (value_program ideal_solve ideal_ok IA net_nabs 1 [-1] [1] [0] nabs_args (3/4)
    region_ge false m xv region_ge_ok eq_refl E) as (P1 & P2 & P3 & P4).
  assert (Hh : forall a, h_of net_nabs [0] (3/4) [a] = 3/4 - Rabs a).
  { intros a. unfold h_of. rewrite !phi_nabs, Rabs_R0. lra. }
  split; [exact ideal_ok|]. split; [exact nabs_args|]. split; [lra|].
  split; [exact region_ge_ok|]. split; [reflexivity|]. split; [exact E|]. split.
  - apply ideal_optimal. split.
    + destruct (P4 [3/4]) as (sg & G & Ex); [split; vle_simpl; lra|apply region_ge_in; lra|].
      exists sg. split; auto. destruct (P3 sg G) as (_ & _ & ->). rewrite Ex, Hh.
      rewrite Rabs_right; lra.
    + rewrite P1. intros sg G. destruct (P3 sg G) as (B & Hr & ->).
      destruct (box1_inv _ _ _ B) as (a & Ea & Ha). rewrite Ea in *. apply region_ge_in in Hr.
      rewrite Hh, Rabs_right; lra.
  - exists [3/4]. split; [split; vle_simpl; lra|]. split; [apply region_ge_in; lra|].
    rewrite Hh, Rabs_right; lra.
Qed.
