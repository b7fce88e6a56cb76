(** Facts about the concrete objects of ModelExamples. *)

Require Import Reals List Lia Lra Bool Arith ClassicalEpsilon.
Require Import Verif.Vec Verif.VecFacts Verif.ModelMip Verif.SpecMip Verif.SpecCore
  Verif.ModelUtils Verif.SpecUtils Verif.ModelNet Verif.SpecNet Verif.SpecStep
  Verif.ModelGrad Verif.ModelLyapunov Verif.SpecLyapunov Verif.SpecRoa Verif.ModelHybrid
  Verif.SpecHybrid Verif.ModelExamples
  Verif.ProofUtils Verif.ProofGrad Verif.ProofMip Verif.ProofNetBounds Verif.ProofStep Verif.ProofLyapunov Verif.ProofLyapCert
  Verif.ProofAttain Verif.ProofLyapMore Verif.ProofStrengthen Verif.ProofRoa
  Verif.ProofHybrid Verif.ProofHybrid2.
Import ListNotations.
Open Scope R_scope.

(** ** The oracles *)

Lemma ext_le_max : forall a b x, ext_le_r a x -> ext_le_r b x -> ext_le_r (ext_max a b) x.
Proof. intros a b x. destruct a, b; cbn; auto. intros. apply Rmax_lub; auto. Qed.
Lemma r_le_min : forall a b x, r_le_ext x a -> r_le_ext x b -> r_le_ext x (ext_min a b).
Proof. intros a b x. destruct a, b; cbn; auto. intros. apply Rmin_glb; auto. Qed.

Lemma row_bounds_valid : bounds_valid row_bounds.
Proof.
  intros P q j lo up z E F Hj V. unfold row_bounds in E. apply Some_inj in E.
  apply pair_equal_spec in E. destruct E as [<- <-].
  revert q V. induction F as [|r P Hr F IH]; intros q V.
  - cbn. auto.
  - destruct q as [|b q]; [inversion V|].
    assert (Hb : dot r z <= b /\ vle (mv P z) q) by (inversion V; auto). destruct Hb as [Hb V'].
    destruct (IH q V') as [I1 I2]. unfold row_lo, row_up in *. cbn [combine fold_right fst snd].
    split.
    + destruct (list_eq_dec _ r _) as [Er|]; auto. apply ext_le_max; auto. cbn.
      rewrite Er, Hr in Hb. rewrite dot_unit_row in Hb by auto. lra.
    + destruct (list_eq_dec _ r _) as [Er|]; auto. apply r_le_min; auto. cbn.
      rewrite Er, Hr in Hb. rewrite dot_unit_row in Hb by auto. lra.
Qed.

Lemma ideal_ok : solver_ok ideal_solve.
Proof.
  intros m. unfold ideal_solve.
  destruct (excluded_middle_informative (exists v, optimum m v)) as [H|H].
  - destruct (constructive_indefinite_description (fun v => optimum m v) H) as [v O]. exact O.
  - destruct (excluded_middle_informative (exists sg, gfeas m sg)) as [K|K]; auto.
    intros sg G. apply K. eauto.
Qed.
Lemma ideal_total : solver_total ideal_solve.
Proof.
  intros m Hf Hb. destruct (optimum_exists m Hf Hb) as (sg & G & M). unfold ideal_solve.
  destruct (excluded_middle_informative (exists v, optimum m v)) as [H|H]; [eauto|].
  exfalso. apply H. exists (objective m sg). split; [eauto|exact M].
Qed.
Lemma ideal_optimal : forall m v, optimum m v -> ideal_solve m = GOptimal v.
Proof.
  intros m v O. unfold ideal_solve.
  destruct (excluded_middle_informative (exists w, optimum m w)) as [H|H].
  - destruct (constructive_indefinite_description (fun w => optimum m w) H) as [w O']. cbn [proj1_sig].
    f_equal. destruct O as [(s1 & G1 & E1) O], O' as [(s2 & G2 & E2) O'].
    specialize (O s2 G2). specialize (O' s1 G1). destruct (obj_max m); lra.
  - exfalso. eauto.
Qed.
Lemma ideal_infeasible : forall m, (forall sg, ~ gfeas m sg) -> ideal_solve m = GInfeasible.
Proof.
  intros m H. unfold ideal_solve.
  destruct (excluded_middle_informative (exists v, optimum m v)) as [Hv|_].
  - exfalso. destruct Hv as (v & (sg & G & _) & _). eapply H; eauto.
  - destruct (excluded_middle_informative _) as [[sg G]|]; auto. exfalso. eapply H; eauto.
Qed.

(** ** The systems are built by add_mode *)

Ltac rowdec :=
  repeat match goal with
  | |- context [list_eq_dec Req_EM_T ?a ?b] =>
      destruct (list_eq_dec Req_EM_T a b) as [?E|?E];
      [first [ exfalso; repeat match goal with H : _ :: _ = _ :: _ |- _ => injection H; clear H; intros end; lra | clear E ]
      |first [ exfalso; apply E; reflexivity | clear E ]]
  end.
Ltac rowcalc :=
  unfold row_bounds, row_lo, row_up, unit_row; cbn [combine fold_right fst snd length seq map Nat.eqb nth repeat firstn skipn app]; rowdec; cbn.

Lemma sys1_built : built row_bounds (fun _ => true) 1 0 sys1.
Proof.
  eapply built_add with (h := mkHybrid 1 0 [nth 0 (h_modes sys1) (mkMode [] [] [] [] [] [] [])])
    (A := [[-1/4]]) (B := [[]]) (c := [0]) (P := [[1]; [-1]]) (q := [1; 0]) (check := true).
  - eapply built_add with (h := new_hybrid 1 0)
      (A := [[1/2]]) (B := [[]]) (c := [0]) (P := [[1]; [-1]]) (q := [0; 1]) (check := true).
    + constructor.
    + unfold add_mode. cbn [h_nx h_nu new_hybrid shape_ok length Nat.eqb forallb andb negb orb seq Nat.add map].
      rowcalc. reflexivity.
  - unfold add_mode. cbn [h_nx h_nu new_hybrid shape_ok length Nat.eqb forallb andb negb orb seq Nat.add map].
    rowcalc. reflexivity.
Qed.

Lemma sysc_built : built row_bounds (fun _ => true) 2 0 sysc.
Proof.
  eapply built_add with (h := mkHybrid 2 0 [nth 0 (h_modes sysc) (mkMode [] [] [] [] [] [] [])])
    (A := [[0; 0]; [0; 0]]) (B := [[]; []]) (c := [2; 2])
    (P := [[1; 0]; [-1; 0]; [0; 1]; [0; -1]]) (q := [1; Ropp (1/2); 1; 1]) (check := true).
  - eapply built_add with (h := new_hybrid 2 0)
      (A := [[1/2; 0]; [0; 1/2]]) (B := [[]; []]) (c := [0; 0])
      (P := [[1; 0]; [-1; 0]; [0; 1]; [0; -1]]) (q := [1/2; 1; 1; 1]) (check := true).
    + constructor.
    + unfold add_mode. cbn [h_nx h_nu new_hybrid shape_ok length Nat.eqb forallb andb negb orb seq Nat.add map].
      rowcalc. reflexivity.
  - unfold add_mode. cbn [h_nx h_nu new_hybrid shape_ok length Nat.eqb forallb andb negb orb seq Nat.add map].
    rowcalc. reflexivity.
Qed.

Ltac vle_simpl := rewrite ?vle_cons, ?vle_nil in *.

Lemma finite_fin : forall l : list ext, (exists v, l = map Fin v) ->
  Forall (fun e => exists r, e = Fin r) l.
Proof.
  intros l (v & ->). apply Forall_forall. intros e He. apply in_map_iff in He.
  destruct He as (r & <- & _). eauto.
Qed.
Lemma sys1_finite : finite_modes sys1.
Proof.
  unfold finite_modes, sys1. cbn [h_modes].
  repeat (apply Forall_cons || apply Forall_nil); cbn [md_lo md_up]; split;
    repeat (apply Forall_cons || apply Forall_nil); eauto.
Qed.
Lemma sysc_finite : finite_modes sysc.
Proof.
  unfold finite_modes, sysc. cbn [h_modes].
  repeat (apply Forall_cons || apply Forall_nil); cbn [md_lo md_up]; split;
    repeat (apply Forall_cons || apply Forall_nil); eauto.
Qed.

Lemma sys1_next : forall a x', hybrid_next sys1 [a] [] x' <->
  (-1 <= a <= 0 /\ x' = [a / 2]) \/ (0 <= a <= 1 /\ x' = [- a / 4]).
Proof.
  intros a x'. unfold hybrid_next, sys1. cbn [h_modes In].
  assert (E : forall k, [k * a + 0 + 0 + 0] = [k * a]) by (intros; f_equal; lra).
  split.
  - intros (m & [<-|[<-|[]]] & I & ->); unfold inside, image in *;
      cbn [md_A md_B md_c md_P md_q mv map dot map2 vsum vadd app] in *; vle_simpl.
    + left. split; [lra|]. apply cons_eq_iff. split; [lra|auto].
    + right. split; [lra|]. apply cons_eq_iff. split; [lra|auto].
  - intros [[H ->]|[H ->]].
    + eexists. split; [left; reflexivity|]. unfold inside, image.
      cbn [md_A md_B md_c md_P md_q mv map dot map2 vsum vadd app]. vle_simpl.
      split; [lra|]. apply cons_eq_iff. split; [lra|auto].
    + eexists. split; [right; left; reflexivity|]. unfold inside, image.
      cbn [md_A md_B md_c md_P md_q mv map dot map2 vsum vadd app]. vle_simpl.
      split; [lra|]. apply cons_eq_iff. split; [lra|auto].
Qed.
Lemma sysc_next : forall a b x', hybrid_next sysc [a; b] [] x' <->
  (-1 <= a <= 1/2 /\ -1 <= b <= 1 /\ x' = [a / 2; b / 2]) \/
  (1/2 <= a <= 1 /\ -1 <= b <= 1 /\ x' = [2; 2]).
Proof.
  intros a b x'. unfold hybrid_next, sysc. cbn [h_modes In].
  split.
  - intros (m & [<-|[<-|[]]] & I & ->); unfold inside, image in *;
      cbn [md_A md_B md_c md_P md_q mv map dot map2 vsum vadd app] in *; vle_simpl.
    + left. split; [lra|]. split; [lra|].
      apply cons_eq_iff. split; [lra|]. apply cons_eq_iff. split; [lra|auto].
    + right. split; [lra|]. split; [lra|].
      apply cons_eq_iff. split; [lra|]. apply cons_eq_iff. split; [lra|auto].
  - intros [(H & H' & ->)|(H & H' & ->)].
    + eexists. split; [left; reflexivity|]. unfold inside, image.
      cbn [md_A md_B md_c md_P md_q mv map dot map2 vsum vadd app]. vle_simpl.
      split; [lra|]. apply cons_eq_iff. split; [lra|]. apply cons_eq_iff. split; [lra|auto].
    + eexists. split; [right; left; reflexivity|]. unfold inside, image.
      cbn [md_A md_B md_c md_P md_q mv map dot map2 vsum vadd app]. vle_simpl.
      split; [lra|]. apply cons_eq_iff. split; [lra|]. apply cons_eq_iff. split; [lra|auto].
Qed.

(** ** The networks *)

Lemma net_abs_wf : net_wf 1 net_abs.
Proof.
  unfold net_wf, net_abs. cbn [hidden last_layer hidden_wf lin_wf in_features weight bias].
  split; [discriminate|]. unfold lin_wf, wfm, out_features. cbn. repeat split; repeat constructor.
Qed.
Lemma net_abs2_wf : net_wf 2 net_abs2.
Proof.
  unfold net_wf, net_abs2. cbn [hidden last_layer hidden_wf lin_wf in_features weight bias].
  split; [discriminate|]. unfold lin_wf, wfm, out_features. cbn. repeat split; repeat constructor.
Qed.
Lemma relu_abs : forall a, relu a + relu (- a) = Rabs a.
Proof.
  intros a. unfold relu, Rmax, Rabs. destruct (Rcase_abs a); destruct (Rle_dec a 0), (Rle_dec (- a) 0); lra.
Qed.
Lemma phi_abs : forall a, phi net_abs [a] = Rabs a.
Proof.
  intros a. rewrite <- relu_abs. unfold phi, net_eval, net_abs.
  cbn. replace (1 * a + 0 + 0) with a by lra. replace (-1 * a + 0 + 0) with (- a) by lra. lra.
Qed.
Lemma phi_abs2 : forall a b, phi net_abs2 [a; b] = Rabs a / 2.
Proof.
  intros a b. rewrite <- relu_abs. unfold phi, net_eval, net_abs2.
  cbn. replace (1 * a + (0 * b + 0) + 0) with a by lra.
  replace (-1 * a + (0 * b + 0) + 0) with (- a) by lra. lra.
Qed.

Lemma abs_args : lyap_args 1 net_abs [-1] [1] None [0].
Proof.
  constructor; try reflexivity; try exact net_abs_wf.
  - apply (wfm_eyek 1 1).
  - split; vle_simpl; lra.
Qed.
Lemma abs2_args : lyap_args 2 net_abs2 [-1; -1] [1; 1] None [0; 0].
Proof.
  constructor; try reflexivity; try exact net_abs2_wf.
  - apply (wfm_eyek 2 1).
  - split; vle_simpl; lra.
Qed.

Lemma eye_error : forall n x xeq, length x = n -> length xeq = n ->
  error1 (R_of n None) xeq x = norm1 (vsub x xeq).
Proof.
  intros n x xeq L1 L2. unfold error1, R_of. rewrite mv_eye; auto. rewrite vsub_length; auto. congruence.
Qed.
Lemma abs_error : forall a, error1 (R_of 1 None) [0] [a] = Rabs a.
Proof. intros a. rewrite eye_error by auto. unfold norm1. cbn. rewrite Rminus_0_r. lra. Qed.
Lemma abs2_error : forall a b, error1 (R_of 2 None) [0; 0] [a; b] = Rabs a + Rabs b.
Proof. intros a b. rewrite eye_error by auto. unfold norm1. cbn. rewrite !Rminus_0_r. lra. Qed.
Lemma abs_V : forall a, V net_abs (R_of 1 None) (1/2) [0] [a] = 3/2 * Rabs a.
Proof. intros a. unfold V. rewrite abs_error, !phi_abs, Rabs_R0. lra. Qed.
Lemma abs2_V : forall a b, V net_abs2 (R_of 2 None) 1 [0; 0] [a; b] = 3/2 * Rabs a + Rabs b.
Proof. intros a b. unfold V. rewrite abs2_error, !phi_abs2, Rabs_R0. lra. Qed.

Lemma box1_inv : forall lo up x, in_box [lo] [up] x -> exists a, x = [a] /\ lo <= a <= up.
Proof.
  intros lo up x [H1 H2]. destruct x as [|a [|b x]].
  - inversion H1.
  - exists a. vle_simpl. split; auto. lra.
  - inversion H1 as [|? ? ? ? _ K]; subst. inversion K.
Qed.
Lemma box2_inv : forall l1 l2 u1 u2 x, in_box [l1; l2] [u1; u2] x ->
  exists a b, x = [a; b] /\ l1 <= a <= u1 /\ l2 <= b <= u2.
Proof.
  intros l1 l2 u1 u2 x [H1 H2]. destruct x as [|a x].
  - inversion H1.
  - rewrite vle_cons in *. destruct H1 as [A1 H1], H2 as [A2 H2].
    destruct (box1_inv l2 u2 x (conj H1 H2)) as (b & -> & Hb). exists a, b. auto.
Qed.


Lemma sys1_contract : forall st, system_contract 1 st add1 T1.
Proof. intros st. eapply hybrid_contract; [apply row_bounds_valid|apply sys1_built]. Qed.
Lemma sysc_contract : forall st, system_contract 2 st addc Tc.
Proof. intros st. eapply hybrid_contract; [apply row_bounds_valid|apply sysc_built]. Qed.
Lemma sys1_total : forall st, system_total 1 st add1.
Proof.
  intros st. apply (hybrid_system_total row_bounds (fun _ => true) 1 sys1 st [0] [0 / 2]).
  - apply row_bounds_valid.
  - apply sys1_built.
  - apply sys1_finite.
  - reflexivity.
  - apply sys1_next. left. split; [lra|auto].
Qed.
Lemma sysc_total : forall st, system_total 2 st addc.
Proof.
  intros st. apply (hybrid_system_total row_bounds (fun _ => true) 2 sysc st [0; 0] [0 / 2; 0 / 2]).
  - apply row_bounds_valid.
  - apply sysc_built.
  - apply sysc_finite.
  - reflexivity.
  - apply sysc_next. left. split; [lra|]. split; [lra|auto].
Qed.

Lemma abs_out : forall solve, solver_ok solve ->
  exists c B out, output_constraint solve IA net_abs [-1] [1] = Some (c, B, out).
Proof.
  intros solve H. apply (ia_total solve H 1); try reflexivity; [exact net_abs_wf|]. vle_simpl. lra.
Qed.
Lemma abs2_out : forall solve, solver_ok solve ->
  exists c B out, output_constraint solve IA net_abs2 [-1; -1] [1; 1] = Some (c, B, out).
Proof.
  intros solve H. apply (ia_total solve H 2); try reflexivity; [exact net_abs2_wf|]. vle_simpl. lra.
Qed.

(** ** Certificates *)

Lemma Rabs_half : forall a, Rabs (a / 2) = Rabs a / 2.
Proof. intros. unfold Rdiv. rewrite Rabs_mult, (Rabs_right (/ 2)); lra. Qed.
Lemma Rabs_mquarter : forall a, Rabs (- a / 4) = Rabs a / 4.
Proof.
  intros. unfold Rdiv. rewrite Rabs_mult, Rabs_Ropp, (Rabs_right (/ 4)); lra.
Qed.

Lemma positivity_case : exists m xv,
  positivity_milp ideal_solve IA net_abs 1 [-1] [1] [0] (1/2) (1/2) None = Some (m, xv) /\
  ideal_solve m = GOptimal 0.
Proof.
  destruct (positivity_total ideal_solve ideal_ok IA net_abs 1 [-1] [1] None [0] abs_args (1/2) (1/2)
    (abs_out _ ideal_ok)) as (m & xv & E).
  exists m, xv. split; auto. apply ideal_optimal.
  destruct (positivity_program ideal_solve ideal_ok IA net_abs 1 [-1] [1] None [0] abs_args (1/2) (1/2)
    m xv E) as (P1 & P2 & _ & P3 & P4).
  split.
  - destruct (P4 [0]) as (sg & G & Ex); [split; vle_simpl; lra|].
    exists sg. split; auto. destruct (P3 sg G) as [_ ->]. rewrite Ex, abs_error, abs_V, Rabs_R0. lra.
  - rewrite P1. intros sg G. destruct (P3 sg G) as [B ->].
    destruct (box1_inv _ _ _ B) as (a & -> & Ha). rewrite abs_error, abs_V.
    pose proof (Rabs_pos a). lra.
Qed.

Lemma sys1_decrease : forall et, et <> ExpUpper -> forall x x', in_box [-1] [1] x -> T1 x x' ->
  violation et net_abs (R_of 1 None) (1/2) (1/2) [0] x x' <= 0.
Proof.
  intros et Het x x' B H. destruct (box1_inv _ _ _ B) as (a & -> & Ha).
  apply sys1_next in H. pose proof (Rabs_pos a).
  destruct H as [[Hr ->]|[Hr ->]]; unfold violation; destruct et; try congruence;
    rewrite ?abs_error, !abs_V, ?Rabs_half, ?Rabs_mquarter; lra.
Qed.
Lemma decrease_case : forall et, et <> ExpUpper -> exists d,
  derivative_milp ideal_solve IA net_abs 1 [-1] [1] add1 [0] (1/2) (1/2) et None None None VBin
    = Some d /\
  ideal_solve (d_mip d) = GOptimal 0.
Proof.
  intros et Het.
  destruct (derivative_total ideal_solve ideal_ok IA net_abs 1 [-1] [1] None [0] abs_args (1/2) true
    add1 T1 (sys1_contract true) (1/2) et None None VBin ltac:(discriminate) (sys1_total true)
    (abs_out _ ideal_ok)) as (d & E).
  exists d. split; auto. apply ideal_optimal.
  destruct (derivative_exact ideal_solve ideal_ok IA net_abs 1 [-1] [1] None [0] abs_args (1/2) true
    add1 T1 (sys1_contract true) (1/2) et None None d E) as (P1 & P2 & P3).
  split.
  - assert (T0 : T1 [0] [0]) by (apply sys1_next; left; split; [lra|f_equal; lra]).
    destruct (P3 [0] [0]) as (sg & G & Ex & Ex'); try (split; vle_simpl; lra); auto.
    { split; discriminate. }
    exists sg. split; auto. destruct (P2 sg G) as (_ & _ & _ & _ & ->). rewrite Ex, Ex'.
    unfold violation. destruct et; rewrite ?abs_error, ?abs_V, Rabs_R0; lra.
  - rewrite P1. intros sg G. destruct (P2 sg G) as (B & _ & Tx & _ & ->).
    apply sys1_decrease; auto.
Qed.

(** A trajectory of the example: 1, -1/4, -1/8, ... *)
Lemma traj1_ok : trajectory_in [-1] [1] T1 traj1.
Proof.
  assert (P : forall j, 0 < (1/2) ^ j <= 1).
  { intros j. split; [apply pow_lt; lra|]. replace 1 with (1 ^ j) at 2 by apply pow1. apply pow_incr. lra. }
  split; intros k.
  - destruct k as [|j]; cbn [traj1]; split; vle_simpl; try (specialize (P j)); lra.
  - destruct k as [|j]; cbn [traj1]; apply sys1_next.
    + right. split; [lra|]. f_equal. simpl. lra.
    + left. specialize (P j). split; [lra|]. f_equal. simpl. lra.
Qed.

(** ** A system that leaves the verified box *)

Lemma Tc_shrink : forall x x', in_box [-1; -1] [1; 1] x -> in_box [-1; -1] [1; 1] x' -> Tc x x' ->
  exists a b, x = [a; b] /\ x' = [a / 2; b / 2] /\ -1 <= a <= 1/2.
Proof.
  intros x x' B B' H. destruct (box2_inv _ _ _ _ _ B) as (a & b & -> & Ha & Hb).
  apply sysc_next in H. destruct H as [(H1 & H2 & ->)|(H1 & H2 & ->)].
  - exists a, b. auto.
  - destruct B' as [_ B']. vle_simpl. lra.
Qed.

Lemma leaving_case : exists d,
  derivative_milp ideal_solve IA net_abs2 2 [-1; -1] [1; 1] addc [0; 0] 1 (1/2) ExpLower None
    None None VBin = Some d /\
  ideal_solve (d_mip d) = GOptimal 0 /\
  in_box [-1; -1] [1; 1] [1; 0] /\ Tc [1; 0] [2; 2] /\
  violation ExpLower net_abs2 (R_of 2 None) 1 (1/2) [0; 0] [1; 0] [2; 2] > 0.
Proof.
  destruct (derivative_total ideal_solve ideal_ok IA net_abs2 2 [-1; -1] [1; 1] None [0; 0] abs2_args 1 true
    addc Tc (sysc_contract true) (1/2) ExpLower None None VBin ltac:(discriminate) (sysc_total true)
    (abs2_out _ ideal_ok)) as (d & E).
  exists d. split; auto.
  destruct (derivative_exact ideal_solve ideal_ok IA net_abs2 2 [-1; -1] [1; 1] None [0; 0] abs2_args 1 true
    addc Tc (sysc_contract true) (1/2) ExpLower None None d E) as (P1 & P2 & P3).
  split.
  - apply ideal_optimal. split.
    + assert (T0 : Tc [0; 0] [0; 0]).
      { apply sysc_next. left. split; [lra|]. split; [lra|].
        apply cons_eq_iff. split; [lra|]. apply cons_eq_iff. split; [lra|auto]. }
      destruct (P3 [0; 0] [0; 0]) as (sg & G & Ex & Ex'); try (split; vle_simpl; lra); auto.
      { split; discriminate. }
      exists sg. split; auto. destruct (P2 sg G) as (_ & _ & _ & _ & ->). rewrite Ex, Ex'.
      unfold violation. rewrite !abs2_V, Rabs_R0. lra.
    + rewrite P1. intros sg G. destruct (P2 sg G) as (B & B' & Tx & _ & ->).
      destruct (Tc_shrink _ _ B B' Tx) as (a & b & -> & -> & Ha).
      unfold violation. rewrite !abs2_V, !Rabs_half. pose proof (Rabs_pos a). pose proof (Rabs_pos b). lra.
  - split; [split; vle_simpl; lra|]. split.
    + apply sysc_next. right. split; [lra|]. split; [lra|auto].
    + unfold violation. rewrite !abs2_V, Rabs_R0, (Rabs_right 1), (Rabs_right 2) by lra. lra.
Qed.

Lemma roa_corner_case : exists rho,
  region_of_attraction ideal_solve IA net_abs2 2 [-1; -1] [1; 1] addc [0; 0] 1 None None
    [-3; -3] [3; 3] = Some rho /\
  (forall m xv xn, roa_milp ideal_solve IA net_abs2 2 [-1; -1] [1; 1] addc [0; 0] 1 None
     [-3; -3] [3; 3] true = Some (m, xv, xn) -> ideal_solve m = GInfeasible) /\
  exists x x', in_box [-1; -1] [1; 1] x /\
    below_level (V net_abs2 (R_of 2 None) 1 [0; 0] x) rho /\ Tc x x' /\
    in_box [-3; -3] [3; 3] x' /\ ~ in_box [-1; -1] [1; 1] x'.
Proof.
  assert (Tot := roa_total ideal_solve ideal_ok IA net_abs2 2 [-1; -1] [1; 1] None [0; 0] abs2_args 1
    [-3; -3] [3; 3] true addc Tc (sysc_contract true) (sysc_total true) (abs2_out _ ideal_ok)).
  destruct (Tot true) as (m1 & xv1 & xn1 & E1). destruct (Tot false) as (m2 & xv2 & xn2 & E2).
  unfold region_of_attraction. rewrite E1, E2. eexists. split; [reflexivity|].
  destruct (roa_program ideal_solve ideal_ok IA net_abs2 2 [-1; -1] [1; 1] None [0; 0] abs2_args 1
    [-3; -3] [3; 3] true addc Tc (sysc_contract true) _ _ _ _ E1) as (A1 & A2 & A3 & A4 & A5).
  destruct (roa_program ideal_solve ideal_ok IA net_abs2 2 [-1; -1] [1; 1] None [0; 0] abs2_args 1
    [-3; -3] [3; 3] true addc Tc (sysc_contract true) _ _ _ _ E2) as (B1 & B2 & B3 & B4 & B5).
  assert (Inf : ideal_solve m1 = GInfeasible).
  { apply ideal_infeasible. intros sg G.
    destruct (A4 sg G) as (X1 & X2 & X3 & _). cbn [roa_cond] in X3.
    destruct (box2_inv _ _ _ _ _ X1) as (a & b & Ex & Ha & Hb). rewrite Ex in X2.
    apply sysc_next in X2. destruct X2 as [(H1 & H2 & H3)|(H1 & H2 & H3)]; rewrite H3 in X3.
    + destruct X3 as (i & Hi & _ & Y1 & Y2). destruct i as [|[|i]]; [| |lia]; cbn in Y2; lra.
    + destruct X3 as (i & Hi & _ & Y1 & Y2). destruct i as [|[|i]]; [| |lia].
      * specialize (Y1 1%nat ltac:(lia) ltac:(lia)). cbn in Y1. lra.
      * specialize (Y1 0%nat ltac:(lia) ltac:(lia)). cbn in Y1. lra. }
  split; [intros m xv xn Q; congruence|].
  exists [1/2; 0], [2; 2].
  split; [split; vle_simpl; lra|]. split.
  2: { split; [apply sysc_next; right; split; [lra|]; split; [lra|auto]|].
       split; [split; vle_simpl; lra|]. intros [_ H]. vle_simpl. lra. }
  rewrite abs2_V, Rabs_R0, (Rabs_right (1/2)) by lra.
  apply below_min. split; [|apply below_min; split; [|exact I]].
  - rewrite Inf. exact I.
  - assert (S := ideal_ok m2). unfold roa_value. destruct (ideal_solve m2) eqn:Es; try exact I.
    destruct S as [(sg & G & Ev) _]. destruct (B4 sg G) as (X1 & X2 & [X3 X4] & Eo).
    destruct (box2_inv _ _ _ _ _ X1) as (a & b & Ex & Ha & Hb). rewrite Ex in *.
    rewrite Eo, abs2_V in Ev. cbn [below_level]. rewrite <- Ev.
    destruct X4 as (i & Hi & _ & Y1 & Y2).
    assert (K : 1 <= Rabs a \/ 1 <= Rabs b).
    { destruct i as [|[|i]]; [left|right|lia]; cbn in Y2; unfold Rabs;
        match goal with |- context [Rcase_abs ?z] => destruct (Rcase_abs z) end; lra. }
    pose proof (Rabs_pos a). pose proof (Rabs_pos b). lra.
Qed.
