(** Concrete cases for PropDerivList. *)

Require Import Reals List Lra Lia Bool Arith.
Require Import Verif.Vec Verif.VecFacts Verif.ModelMip Verif.SpecMip Verif.SpecCore Verif.ModelUtils Verif.SpecUtils
  Verif.ModelGrad Verif.ModelNet Verif.SpecNet Verif.SpecStep Verif.ModelPattern Verif.SpecPattern Verif.ModelLyapunov
  Verif.SpecLyapunov Verif.ModelContinuous Verif.SpecContinuous Verif.ModelHybrid Verif.SpecHybrid Verif.ModelContHybrid
  Verif.SpecContHybrid Verif.ModelDerivList Verif.SpecDerivList Verif.ModelExamples Verif.ModelContExamples
  Verif.ProofUtils Verif.ProofMip Verif.ProofNet Verif.ProofMaxBox Verif.ProofGrad Verif.ProofPattern Verif.ProofLyapunov
  Verif.ProofLyapCert Verif.ProofLoss Verif.ProofExamples Verif.ProofContinuous Verif.ProofContinuous2 Verif.ProofContinuous3 Verif.ProofContinuous4 Verif.ProofContinuous5
  Verif.ProofContinuous6 Verif.ProofNetBounds Verif.ProofAttain Verif.ProofHybrid Verif.ProofHybrid2
  Verif.ProofContExamples Verif.ProofContHybrid4 Verif.ProofContHybrid6 Verif.ProofContHybrid7 Verif.ProofContHybrid8
  Verif.ProofDerivList Verif.ProofDerivList2 Verif.ProofDerivList3 Verif.ProofDerivList4 Verif.ProofDerivList5.
Import ListNotations.
Open Scope R_scope.

(** ** A network with kinks at zero, equilibrium 1/2 *)

Lemma half_args : lyap_args 1 net_abs [-1] [1] (Some [[1]]) [1/2].
Proof.
  constructor; try reflexivity; try exact net_abs_wf.
  - split; repeat constructor.
  - split; vle_simpl; lra.
Qed.
Lemma half_V : forall a, V net_abs [[1]] 2 [1/2] [a] = Rabs a - 1/2 + 2 * Rabs (a - 1/2).
Proof.
  intros a. unfold V. rewrite !phi_abs. unfold error1, norm1. cbn.
  replace (1 * (a - 1 / 2) + 0) with (a - 1/2) by ring. rewrite (Rabs_right (1/2)) by lra. lra.
Qed.

Lemma line_leaves : forall t, leaves 1 (fun s => [s]) t [1].
Proof.
  intros t. split; auto. intros [|[|i]]; cbn; intros e He; exists 1; split; try lra; intros h Hh.
  - replace (t + h - t - h * 1) with 0 by ring. rewrite Rabs_R0. nra.
  - replace (0 - 0 - h * 0) with 0 by ring. rewrite Rabs_R0. nra.
  - destruct i; replace (0 - 0 - h * 0) with 0 by ring; rewrite Rabs_R0; nra.
Qed.

Lemma half_right : rderiv (fun s => V net_abs [[1]] 2 [1/2] [s]) 0 (-1).
Proof.
  intros e He. exists (1/2). split; [lra|]. intros h Hh. rewrite !half_V.
  rewrite (Rabs_right (0 + h)), (Rabs_left (0 + h - 1/2)), Rabs_R0, (Rabs_left (0 - 1/2)) by lra.
  match goal with |- Rabs ?z <= _ => replace z with 0 by lra end. rewrite Rabs_R0. nra.
Qed.

Lemma half_list : exists l, ct_derivative net_abs 1 (fun _ => Some [1]) [1/2] 2 3 (Some [[1]]) 0 [0] = Some l /\
  length l = 4%nat /\ In (1/2) l /\ In (-3/2) l.
Proof.
  destruct (ct_listed net_abs 1 [-1] [1] (Some [[1]]) [1/2] half_args 2 3 (fun _ => Some [1]) [0] [1])
    as (l & E & C & I); auto; [discriminate|]. exists l. split; auto. split; [|split].
  - rewrite C. cbn. repeat (destruct (Req_EM_T _ _); try (exfalso; lra)). reflexivity.
  - apply I. exists [[true; false]], [false]. split.
    + split; repeat constructor; cbn; lra.
    + change (R_of 1 (Some [[1]])) with [[1]]. rewrite half_V, Rabs_R0, (Rabs_left (0 - 1/2)) by lra.
      unfold Vdot. cbn. unfold act_slope. lra.
  - apply I. exists [[false; true]], [false]. split.
    + split; repeat constructor; cbn; lra.
    + change (R_of 1 (Some [[1]])) with [[1]]. rewrite half_V, Rabs_R0, (Rabs_left (0 - 1/2)) by lra.
      unfold Vdot. cbn. unfold act_slope. lra.
Qed.

Lemma half_smooth : smooth_at net_abs [[1]] [1/2] [1].
Proof. split; repeat constructor; cbn; lra. Qed.

(** The loss is zero at the state 0 although dV/dt + eps V is positive along the flow. *)
Lemma half_loss : forall red tol w, weights_ok red w 1 -> 0 <= tol ->
  ct_loss net_abs 1 [1/2] [[0]] [[1]] 2 3 ExpLower (Some [[1]]) 0 red w tol = Some 0.
Proof.
  intros red tol w Hw Ht.
  destruct (ct_loss_spec net_abs 1 [-1] [1] (Some [[1]]) [1/2] half_args 2 3 0 [[0]] [[1]] red w tol)
    as (v & E & _ & Z); auto; try discriminate; try (repeat constructor).
  rewrite E. f_equal. apply Z. constructor; [|constructor].
  change (R_of 1 (Some [[1]])) with [[1]]. rewrite half_V, Rabs_R0, (Rabs_left (0 - 1/2)) by lra.
  unfold sample_rate, sample_flags, sign3. cbn.
  repeat match goal with |- context [Rlt_dec ?a ?b] => destruct (Rlt_dec a b); try (exfalso; lra) end.
  cbn. unfold act_slope. lra.
Qed.

Lemma kink_missed : exists N n x_lo x_up R0 xeq lam eps x d y,
  lyap_args n N x_lo x_up R0 xeq /\ 0 < eps /\ in_box x_lo x_up x /\
  (forall red w tol, weights_ok red w 1 -> 0 <= tol ->
     ct_loss N n xeq [x] [d] lam eps ExpLower R0 0 red w tol = Some 0) /\
  leaves n y 0 d /\ y 0 = x /\
  exists r, rderiv (fun s => V N (R_of n R0) lam xeq (y s)) 0 r /\
    0 < r + eps * V N (R_of n R0) lam xeq x.
Proof.
  exists net_abs, 1%nat, [-1], [1], (Some [[1]]), [1/2], 2, 3, [0], [1], (fun s => [s]).
  split; [exact half_args|]. split; [lra|]. split; [split; vle_simpl; lra|].
  split; [intros red w tol Hw Ht; apply half_loss; auto|]. split; [apply line_leaves|]. split; auto.
  exists (-1). split; [exact half_right|]. change (R_of 1 (Some [[1]])) with [[1]].
  rewrite half_V, Rabs_R0, (Rabs_left (0 - 1/2)) by lra. lra.
Qed.

Lemma half_loss_zero : exists v, 
  ct_loss net_abs 1 [1/2] [[1]; [1/4]] [[-1]; [1]] 2 (1/4) ExpLower (Some [[1]]) (1/8) RMean (Some [1; 2]) 0 = Some v /\
  v = 0.
Proof.
  destruct (ct_loss_spec net_abs 1 [-1] [1] (Some [[1]]) [1/2] half_args 2 (1/4) (1/8) [[1]; [1/4]] [[-1]; [1]] RMean
    (Some [1; 2]) 0) as (v & E & _ & Z); auto; try discriminate; try lra; try (repeat constructor; lra).
  exists v. split; auto. apply Z. change (R_of 1 (Some [[1]])) with [[1]].
  constructor; [|constructor; [|constructor]]; rewrite half_V; unfold sample_rate, sample_flags, sign3; cbn;
  repeat match goal with |- context [Rlt_dec ?a ?b] => destruct (Rlt_dec a b); try (exfalso; lra) end; cbn; unfold act_slope.
  - rewrite !Rabs_right by lra. lra.
  - rewrite (Rabs_right (1/4)), (Rabs_left (1/4 - 1/2)) by lra. lra.
Qed.

(** ** The optimum of the program of xdot = -1 *)

Lemma flat_args1 : lyap_args 1 net_flat [0] [1] (Some (eye 1)) [0].
Proof. destruct flat_args. constructor; auto. Qed.

Lemma sysd_optimum : exists d v,
  continuous_milp ideal_solve IA net_flat 1 [0] [1] addd no_opt [0] 1 1 ExpLower (Some (eye 1)) None None = Some d /\
  ideal_solve (cd_mip d) = GOptimal v.
Proof.
  destruct (continuous_total ideal_solve ideal_ok IA net_flat 1 [0] [1] (Some (eye 1)) [0] flat_args1 1 1 true
    addd Td sysd_contract no_opt flat_ns None None eq_refl) as (d & E).
  { constructor; [cbn; lra|constructor]. }
  { apply addd_total. }
  { apply flat_out. apply ideal_ok. }
  exists d.
  destruct (continuous_program ideal_solve ideal_ok IA net_flat 1 [0] [1] (Some (eye 1)) [0] flat_args1 1 1 true
    addd Td sysd_contract no_opt (no_opt_ok _ _ _ _ _ _) None None flat_ns ExpLower d E)
    as (_ & P1 & _ & _ & P2 & P3).
  destruct (ideal_total (cd_mip d)) as (v & Ev); [| |exists v; auto].
  - destruct (P3 [0] [-1] [[true; true]] [true]) as (sg & G & _).
    + split; vle_simpl; lra.
    + apply sysd_next. split; [lra|auto].
    + reflexivity.
    + split; discriminate.
    + split; repeat constructor; cbn; lra.
    + split; intros i b E'.
      * destruct i as [|[|[|i]]]; cbn in E'; try discriminate; injection E' as <-;
          (exists [1]; split; [split; vle_simpl; lra|cbn; lra]).
      * destruct i as [|[|i]]; cbn in E'; try discriminate; injection E' as <-.
        exists [1]. split; [split; vle_simpl; lra|cbn; lra].
    + eauto.
  - exists 3. intros sg G. destruct (P2 sg G) as (B & Tx & _ & pats & sgs & [C S] & _ & _ & Eo). rewrite Eo.
    destruct (box1_inv _ _ _ B) as (a & Ea & Ha). rewrite Ea in *. clear Ea.
    apply sysd_next in Tx. destruct Tx as [_ ->]. change (R_of 1 (Some (eye 1))) with (R_of 1 None) in *.
    rewrite flat_V. rewrite (Rabs_right a) by lra.
    unfold signs_ok in S. cbn in S.
    inversion S as [|s ? ss ? D3 S']; subst. inversion S'; subst. unfold Vdot.
    assert (Z : nth 0 (jvp net_flat pats [-1]) 0 = 0).
    { unfold consistent in C. cbn in C.
      inversion C as [|p ? ps ? C1 C2]; subst. inversion C2; subst.
      inversion C1 as [|b1 ? p' ? D1 C3]; subst. inversion C3 as [|b2 ? p'' ? D2 C4]; subst. inversion C4; subst.
      cbn. destruct b1, b2; cbn; lra. }
    rewrite Z. apply Rabs_le. destruct s; cbn; lra.
Qed.

(** ** A hybrid system in the plane *)

Definition plane_bounds (P : mat) (q a : vec) : option (Vec.ext * Vec.ext) :=
  match a, row_bounds P q 0, row_bounds P q 1 with
  | [c; e], Some (Fin l, Fin u), Some (Fin k, Fin w) =>
      Some (Fin (Rmin (c * l) (c * u) + Rmin (e * k) (e * w)), Fin (Rmax (c * l) (c * u) + Rmax (e * k) (e * w)))
  | _, _, _ => None
  end.
Lemma plane_bounds_valid : SpecContHybrid.row_bounds_valid plane_bounds.
Proof.
  intros P q a lo up x E FP La V. unfold plane_bounds in E.
  destruct a as [|c [|e [|]]]; try discriminate. 
  destruct x as [|s [|t [|]]]; try discriminate.
  destruct (row_bounds P q 0) as [[[|l|] [|u|]]|] eqn:Er; try discriminate.
  destruct (row_bounds P q 1) as [[[|k|] [|w|]]|] eqn:Er2; try discriminate.
  apply Some_inj in E. apply pair_equal_spec in E. destruct E as [<- <-].
  destruct (row_bounds_valid P q 0%nat _ _ [s; t] Er FP ltac:(cbn; lia) V) as [Q1 Q2].
  destruct (row_bounds_valid P q 1%nat _ _ [s; t] Er2 FP ltac:(cbn; lia) V) as [Q3 Q4].
  cbn in Q1, Q2, Q3, Q4. cbn [dot ext_le_r r_le_ext].
  assert (B : forall a l u s, l <= s <= u -> Rmin (a * l) (a * u) <= a * s <= Rmax (a * l) (a * u)).
  { clear. intros a l u s H. unfold Rmin, Rmax. destruct (Rle_dec (a * l) (a * u)); destruct (Rle_dec 0 a); split; nra. }
  destruct (B c l u s); [lra|]. destruct (B e k w t); [lra|]. split; lra.
Qed.
Lemma sysc_box : hybrid_box sysc [-1; -1] [1; 1].
Proof.
  split; unfold lo_all, up_all, sysc;
  cbn [h_modes h_nx h_nu fold_left md_lo md_up Nat.add repeat map2 map];
  unfold ext_min, ext_max;
  repeat match goal with |- context [Rle_dec ?a ?b] => destruct (Rle_dec a b); try lra end;
  rewrite ?Rmin_left, ?Rmax_right, ?Rmax_left by lra; try reflexivity; try (repeat f_equal; lra).
Qed.
Lemma abs2_ns : no_slope_one (hidden net_abs2).
Proof. constructor; [cbn; discriminate|constructor]. Qed.
Lemma sysc_args : hybrid_args net_abs2 sysc [-1; -1] [1; 1] [0; 0] plane_bounds.
Proof.
  constructor.
  - exists row_bounds, (fun _ => true). split; [apply row_bounds_valid|apply sysc_built].
  - apply plane_bounds_valid.
  - apply sysc_box.
  - exact abs2_args.
  - exact abs2_ns.
Qed.
Lemma sysc_rows : finite_rows plane_bounds sysc.
Proof.
  unfold finite_rows, sysc. cbn [h_modes].
  repeat (apply Forall_cons || apply Forall_nil); cbn [md_A md_P md_q];
    repeat (apply Forall_cons || apply Forall_nil); unfold plane_bounds; rowcalc; eauto.
Qed.
Lemma sysc_B : Forall (fun md => md_B md = map (fun _ => []) (md_A md)) (h_modes sysc).
Proof. repeat constructor. Qed.
Lemma sysc_c : Forall (fun md => length (md_c md) = length (md_A md)) (h_modes sysc).
Proof. repeat constructor. Qed.
Lemma sysc_move : exists w, moves sysc 0 [1/4; 1/4] w.
Proof. eexists. eexists. split; [reflexivity|]. split; [|reflexivity]. cbn. vle_simpl; lra. Qed.

Lemma sysc_optimum : exists d v,
  hybrid_derivative ideal_solve plane_bounds IA net_abs2 sysc [-1; -1] [1; 1] [0; 0] 1 1 ExpLower None None None d /\
  ideal_solve (hd_mip d) = GOptimal v.
Proof.
  destruct sysc_move as (w0 & Mw).
  destruct (program1_total ideal_solve ideal_ok IA net_abs2 sysc [-1; -1] [1; 1] [0; 0] plane_bounds sysc_args 1 1 None None
    sysc_finite sysc_rows) with (R0 := @None mat) as (d & E).
  - repeat constructor; cbn; lra.
  - exists 0%nat, [1/4; 1/4], w0. split; auto.
  - exact (abs2_out _ ideal_ok).
  - reflexivity.
  - exists d. assert (Hd : hybrid_derivative ideal_solve plane_bounds IA net_abs2 sysc [-1; -1] [1; 1] [0; 0] 1 1 ExpLower
      None None None d) by (left; exact E).
    destruct (hybrid_exact ideal_solve ideal_ok IA net_abs2 sysc [-1; -1] [1; 1] [0; 0] plane_bounds sysc_args 1 1
      ExpLower None None None d Hd) as (_ & P1 & P0 & P2 & P3).
    destruct (ideal_total (hd_mip d)) as (v & Ev); [| |exists v; auto].
    + destruct (P3 [1/4; 1/4] 0%nat w0 [[true; false]] [true; true]) as (sg & G & _); auto.
      * split; discriminate.
      * split; repeat constructor; cbn; lra.
      * split; intros i b E'.
        -- destruct i as [|[|[|i]]]; cbn in E'; try discriminate; injection E' as <-;
             (exists [1; 1]; split; [split; vle_simpl; lra|cbn; lra]).
        -- destruct i as [|[|[|i]]]; cbn in E'; try discriminate; injection E' as <-;
             (exists [1; 1]; split; [split; vle_simpl; lra|cbn; lra]).
      * eauto.
    + exists 20. intros sg G. destruct (P2 sg G) as (B & _ & k & w & pats & sgs & Mv & [C S] & _ & _ & Eo). rewrite Eo.
      apply (moves_next _ _ _ _ sysc_B sysc_c) in Mv. change (eye (h_nx sysc)) with (R_of 2 None) in *.
      assert (Lx := in_box_length 2 _ _ _ B eq_refl).
      destruct (map sg (hd_x d)) as [|a [|b [|]]]; try discriminate.
      destruct B as [B1 B2]. inversion B1 as [|? ? ? ? G1 B1']; subst. inversion B1' as [|? ? ? ? G2 _]; subst.
      inversion B2 as [|? ? ? ? G3 B2']; subst. inversion B2' as [|? ? ? ? G4 _]; subst.
      assert (W : exists p q, w = [p; q] /\ -2 <= p <= 2 /\ -2 <= q <= 2).
      { apply sysc_next in Mv. destruct Mv as [(_ & _ & ->)|(_ & _ & ->)]; eexists; eexists; (split; [reflexivity|]); lra. }
      destruct W as (p & q & -> & Wp & Wq). rewrite abs2_V.
      unfold consistent in C. cbn in C.
      inversion C as [|pt ? ps ? C1 C2]; subst. inversion C2; subst.
      inversion C1 as [|b1 ? p' ? D1 C3]; subst. inversion C3 as [|b2 ? p'' ? D2 C4]; subst. inversion C4; subst.
      unfold signs_ok in S. cbn in S.
      inversion S as [|s1 ? ss ? D3 S']; subst. inversion S' as [|s2 ? ss' ? D4 S'']; subst. inversion S''; subst.
      assert (A1 : 0 <= Rabs a <= 1) by (split; [apply Rabs_pos|apply Rabs_le; lra]).
      assert (A2 : 0 <= Rabs b <= 1) by (split; [apply Rabs_pos|apply Rabs_le; lra]).
      apply Rabs_le. unfold Vdot. cbn. unfold act_slope. destruct b1, b2, s1, s2; cbn; lra.
Qed.

Lemma sysc_line : forall w, moves sysc 0 [1/4; 1/4] w ->
  leaves 2 (fun s => [1/4 + s * nth 0 w 0; 1/4 + s * nth 1 w 0]) 0 w.
Proof.
  intros w (md & Hk & _ & ->). apply Some_inj in Hk. subst md. cbn.
  split; auto. intros [|[|[|i]]]; cbn; intros e He; exists 1; split; try lra; intros h Hh;
  match goal with |- Rabs ?z <= _ => replace z with 0 by (try destruct i; ring) end; rewrite Rabs_R0; nra.
Qed.
