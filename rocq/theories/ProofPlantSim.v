(** Proofs about the simulation of a plant. *)

Require Import Reals List Lra Lia ZArith.
Require Import Verif.Vec Verif.VecFacts Verif.SpecCore Verif.ModelMip Verif.ModelNet Verif.ModelHybrid Verif.ModelSystems
  Verif.ModelPlantSim Verif.SpecPlantSim.
Import ListNotations.
Open Scope R_scope.

Lemma ceil_bounds : forall x, x <= IZR (ceil x) < x + 1.
Proof. intros x. unfold ceil. rewrite opp_IZR. destruct (base_Int_part (- x)). lra. Qed.

Lemma grid_ok : forall t0 t1, t0 <= t1 -> hundredths t0 t1 (arange t0 t1 (1/100)).
Proof.
  intros t0 t1 H. unfold hundredths, arange. set (q := (t1 - t0) / (1/100)).
  assert (Eq : q = 100 * (t1 - t0)) by (unfold q; field).
  destruct (ceil_bounds q) as [C1 C2]. set (n := Z.to_nat (ceil q)) in *.
  assert (Cz : (0 <= ceil q)%Z).
  { apply Z.lt_succ_r. apply lt_IZR. rewrite succ_IZR. lra. }
  assert (En : INR n = IZR (ceil q)) by (unfold n; rewrite INR_IZR_INZ, Z2Nat.id; auto).
  rewrite map_length, seq_length. split; [|split].
  - intros i Hi. rewrite (nth_indep _ 0 (t0 + INR 0 * (1/100))) by (rewrite map_length, seq_length; auto).
    rewrite (map_nth (fun k => t0 + INR k * (1/100))). rewrite seq_nth by auto. cbn [Nat.add]. lra.
  - intros t Ht. apply in_map_iff in Ht. destruct Ht as (j & <- & Hj). apply in_seq in Hj.
    assert (P0 := pos_INR j). assert (Hs : INR (S j) <= INR n) by (apply le_INR; lia). rewrite S_INR in Hs. lra.
  - lra.
Qed.

Lemma saturate_box : forall lo up u, vle lo up -> length u = length lo -> in_box lo up (map2 Rmax (map2 Rmin u up) lo).
Proof.
  intros lo up u B. revert u. unfold in_box. induction B as [|a b lo up H B IH]; intros [|x u] L; try discriminate.
  - split; constructor.
  - injection L as L. destruct (IH u L) as [H1 H2]. cbn [map2]. split; constructor; auto.
    + apply Rmax_r.
    + apply Rmax_lub; auto. apply Rmin_r.
Qed.
Lemma saturate_fix : forall lo up u, in_box lo up u -> map2 Rmax (map2 Rmin u up) lo = u.
Proof.
  intros lo up u [H1 H2]. revert up H2. induction H1 as [|a x lo u H H1 IH]; intros up H2; inversion H2; subst; auto.
  cbn [map2]. rewrite IH by auto. rewrite Rmin_left, Rmax_left by auto. reflexivity.
Qed.
Lemma input_in_limits : forall k x_eq u_eq lo up x, vle lo up ->
  length (controller_forward k x) = length lo -> length (controller_forward k x_eq) = length lo -> length u_eq = length lo ->
  in_box lo up (sim_input k x_eq u_eq lo up x).
Proof.
  intros k x_eq u_eq lo up x B L1 L2 L3. apply saturate_box; auto. unfold vadd, vsub. rewrite !map2_length. lia.
Qed.
Lemma cancel : forall a u : vec, length a = length u -> vadd (vsub a a) u = u.
Proof.
  induction a as [|x a IH]; intros [|y u] L; try discriminate; auto. injection L as L.
  cbn [vadd vsub map2]. unfold vadd, vsub in IH. rewrite IH by auto. f_equal. ring.
Qed.
Lemma input_at_rest : forall k x_eq u_eq lo up, in_box lo up u_eq -> length (controller_forward k x_eq) = length u_eq ->
  sim_input k x_eq u_eq lo up x_eq = u_eq.
Proof. intros k x_eq u_eq lo up B L. unfold sim_input. rewrite cancel by auto. apply saturate_fix. auto. Qed.

Lemma fin_saturate : forall u up lo,
  all_some (map fin (map2 ext_max (map2 ext_min (map Fin u) (map Fin up)) (map Fin lo)))
  = Some (map2 Rmax (map2 Rmin u up) lo).
Proof.
  induction u as [|x u IH]; intros [|b up] [|a lo]; try reflexivity. cbn [map map2 ext_min ext_max fin all_some].
  rewrite IH. reflexivity.
Qed.
Lemma same_input : forall F lo up x, fb_lower F = map Fin lo -> fb_upper F = map Fin up ->
  compute_u F x = Some (sim_input (fb_ctl F) (fb_xeq F) (fb_ueq F) lo up x).
Proof.
  intros F lo up x E1 E2. unfold compute_u, sim_input, pre_saturation. rewrite E1, E2. apply fin_saturate.
Qed.

Lemma rest_follows : forall dynamics k x_eq u_eq lo up t0 t1, in_box lo up u_eq ->
  length (controller_forward k x_eq) = length u_eq -> dynamics x_eq u_eq = zeros (length x_eq) ->
  follows (sim_rhs dynamics k x_eq u_eq lo up) t0 t1 (fun _ => x_eq).
Proof.
  intros dynamics k x_eq u_eq lo up t0 t1 B L D t Ht. unfold sim_rhs. rewrite input_at_rest, D by auto. split.
  - apply repeat_length.
  - intros i Hi. replace (nth i (zeros (length x_eq)) 0) with 0 by (symmetry; apply nth_repeat).
    apply derivable_pt_lim_const.
Qed.
Lemma sim_ok : forall (near : vec -> vec -> Prop) dynamics k x_eq u_eq lo up solve_ivp t0 t1 x0 ts xs, t0 <= t1 ->
  (let f := sim_rhs dynamics k x_eq u_eq lo up in
   forall ts, (forall t, In t ts -> t0 <= t <= t1) ->
   exists y, follows f t0 t1 y /\ y t0 = x0 /\ Forall2 (fun t x => near (y t) x) ts (solve_ivp f t0 t1 x0 ts)) ->
  simulate_plant dynamics k x_eq u_eq lo up solve_ivp t0 t1 x0 = (ts, xs) ->
  hundredths t0 t1 ts /\
  exists y, y t0 = x0 /\ Forall2 (fun t x => near (y t) x) ts xs /\
    follows (fun _ x => dynamics x (sim_input k x_eq u_eq lo up x)) t0 t1 y.
Proof.
  intros near dynamics k x_eq u_eq lo up solve_ivp t0 t1 x0 ts xs H S Q. unfold simulate_plant in Q.
  assert (G := grid_ok t0 t1 H). assert (E1 : ts = arange t0 t1 (1/100)) by congruence.
  destruct (S ts) as (y & F & Y0 & Ys).
  { intros t Ht. rewrite E1 in Ht. destruct G as (_ & G & _). specialize (G t Ht). lra. }
  split; [rewrite E1; exact G|]. exists y. split; auto. split; [|exact F].
  assert (E2 : xs = solve_ivp (sim_rhs dynamics k x_eq u_eq lo up) t0 t1 x0 ts) by congruence.
  rewrite E2. exact Ys.
Qed.
(** The end of the time span is not among the times. *)
Lemma end_missing : forall t0 t1, t0 <= t1 -> ~ In t1 (arange t0 t1 (1/100)).
Proof. intros t0 t1 H I. destruct (grid_ok t0 t1 H) as (_ & G & _). specialize (G t1 I). lra. Qed.

(** ** Example *)
Definition ex_ctl : controller := CtlLinear (mkLin 1 [[-1]] (Some [0])).
Lemma ex_sim : vle [-1] [1] /\ in_box [-1] [1] [0] /\ length (controller_forward ex_ctl [0]) = length [0] /\
  sim_input ex_ctl [0] [0] [-1] [1] [1/2] = [-1/2] /\ sim_input ex_ctl [0] [0] [-1] [1] [3] = [-1] /\
  follows (sim_rhs (fun x u => u) ex_ctl [0] [0] [-1] [1]) 0 1 (fun _ => [0]).
Proof.
  assert (V : vle [-1] [1]) by (constructor; [lra|constructor]).
  assert (B : in_box [-1] [1] [0]) by (split; (constructor; [lra|constructor])).
  split; [exact V|]. split; [exact B|]. split; [reflexivity|].
  split; [|split].
  - unfold sim_input. cbn [ex_ctl controller_forward linear_forward weight mv map dot bias_of bias vadd vsub map2].
    rewrite Rmin_left by lra. rewrite Rmax_left by lra. f_equal. field.
  - unfold sim_input. cbn [ex_ctl controller_forward linear_forward weight mv map dot bias_of bias vadd vsub map2].
    rewrite Rmin_left by lra. rewrite Rmax_right by lra. reflexivity.
  - apply rest_follows; auto.
Qed.
