(** The constraints of a network with relaxed binaries: all variables are bounded. *)

Require Import Reals List Bool Arith Lra Lia.
Require Import Verif.Vec Verif.VecFacts Verif.ModelMip Verif.SpecMip
  Verif.ModelUtils Verif.ModelNet Verif.SpecCore Verif.SpecUtils Verif.SpecNet
  Verif.ProofUtils Verif.ProofMaxBox Verif.ProofMip Verif.ProofSat Verif.ProofConcat Verif.ProofBounds
  Verif.ProofNet Verif.ProofNetBounds Verif.ProofNetTotal.
Import ListNotations.
Open Scope R_scope.

Definition relaxed (b : vec) : Prop := Forall (fun v => 0 <= v <= 1) b.

Lemma relaxed_bound : forall b, relaxed b -> vbound 1 b.
Proof. intros b H. eapply Forall_impl; [|exact H]. intros v Hv. cbn in *. apply Rabs_le. lra. Qed.
Lemma bins_relaxed : forall b, bins b -> relaxed b.
Proof. intros b H. eapply Forall_impl; [|exact H]. intros v [-> | ->]; lra. Qed.

Lemma vbound_app : forall K a b, vbound K (a ++ b) <-> vbound K a /\ vbound K b.
Proof. intros. unfold vbound. apply Forall_app. Qed.

Lemma mv_bounded : forall A K, 0 <= K -> exists K', 0 <= K' /\ forall z, vbound K z -> vbound K' (mv A z).
Proof.
  induction A as [|w A IH]; intros K HK.
  - exists 0. split; [lra|]. intros. constructor.
  - destruct (IH K HK) as (K1 & P1 & Q1). exists (Rmax (norm1 w * K) K1).
    split; [eapply Rle_trans; [exact P1|apply Rmax_r]|]. intros z Hz. cbn [mv map]. constructor.
    + apply Rle_trans with (norm1 w * K); [apply norm_dot; auto|apply Rmax_l].
    + eapply vbound_mono; [apply Rmax_r|]. apply Q1. auto.
Qed.
Lemma term_bounded : forall k A K, 0 <= K -> exists K', 0 <= K' /\ forall z, vbound K z -> vbound K' (term k A z).
Proof.
  intros k [A|] K HK; cbn [term].
  - apply mv_bounded. auto.
  - exists 0. split; [lra|]. intros z _. unfold zeros, vbound. apply Forall_forall.
    intros v Hv. apply repeat_spec in Hv. subst. rewrite Rabs_R0. lra.
Qed.
Lemma vadd_bounded : forall a b Ka Kb, vbound Ka a -> vbound Kb b -> vbound (Ka + Kb) (vadd a b).
Proof.
  induction a as [|x a IH]; intros b Ka Kb Ha Hb; [constructor|].
  destruct b as [|y b]; [constructor|]. inversion Ha; inversion Hb; subst.
  cbn. constructor; [|apply IH; auto]. eapply Rle_trans; [apply Rabs_triang|]. lra.
Qed.
Lemma vec_bounded : forall v : vec, exists K, 0 <= K /\ vbound K v.
Proof.
  induction v as [|x v (K & P & Q)]; [exists 0; split; [lra|constructor]|].
  exists (Rmax (Rabs x) K). split; [eapply Rle_trans; [exact P|apply Rmax_r]|].
  constructor; [apply Rmax_l|]. eapply vbound_mono; [apply Rmax_r|auto].
Qed.

Lemma output_bounded : forall c K, 0 <= K -> exists K', 0 <= K' /\
  forall x s b, vbound K x -> vbound K s -> vbound K b -> vbound K' (output c x s b).
Proof.
  intros c K HK. unfold output, lhs.
  destruct (term_bounded (num_out c) (Aout_input c) K HK) as (K1 & P1 & Q1).
  destruct (term_bounded (num_out c) (Aout_slack c) K HK) as (K2 & P2 & Q2).
  destruct (term_bounded (num_out c) (Aout_binary c) K HK) as (K3 & P3 & Q3).
  destruct (Cout c) as [C|].
  - destruct (vec_bounded C) as (K4 & P4 & Q4).
    exists (K1 + K2 + K3 + K4). split; [lra|]. intros x s b Hx Hs Hb. repeat apply vadd_bounded; auto.
  - destruct (vec_bounded (zeros (num_out c))) as (K4 & P4 & Q4).
    exists (K1 + K2 + K3 + K4). split; [lra|]. intros x s b Hx Hs Hb. repeat apply vadd_bounded; auto.
Qed.

Lemma net_sat_bounded : forall hs n out lo up, hidden_wf n hs out ->
  forall K, 0 <= K -> exists K', 0 <= K' /\ forall z s b, length z = n -> length s = num_units hs ->
    relaxed b -> vbound K z -> net_sat hs z lo up s b -> vbound K' s.
Proof.
  induction hs as [|[l a] hs IH]; intros n out lo up W K HK.
  - exists 0. split; [lra|]. intros z s b _ Ls _ _ _. destruct s; [constructor|discriminate].
  - destruct W as [Wl W].
    set (k := out_features l) in *.
    destruct (neurons_bounded a (weight l) (bias_of l) (firstn k lo) (firstn k up) n) with (K := K)
      as (K1 & P1 & Q1); auto.
    { apply Wl. }
    destruct (IH k out (skipn k lo) (skipn k up) W K1 P1) as (K2 & P2 & Q2).
    exists (Rmax K1 K2). split; [eapply Rle_trans; [exact P1|apply Rmax_l]|].
    intros z s b Lz Ls Rb Hz (S1 & S2). fold k in S1, S2. cbn [num_units] in Ls. fold k in Ls.
    assert (Rs : relaxed (firstn k b) /\ relaxed (skipn k b)).
    { rewrite <- (firstn_skipn k b) in Rb. apply Forall_app in Rb. auto. }
    destruct Rs as [R1 R2].
    assert (B1 := Q1 z _ _ Lz R1 Hz S1).
    assert (B2 : vbound K2 (skipn k s)).
    { apply (Q2 (firstn k s) _ (skipn k b)); auto.
      - rewrite firstn_length. lia.
      - rewrite skipn_length. lia. }
    rewrite <- (firstn_skipn k s). apply vbound_app. split.
    + eapply vbound_mono; [apply Rmax_l|]. auto.
    + eapply vbound_mono; [apply Rmax_r|]. auto.
Qed.

Section Solver.
Variable solve : mip -> gresult.
Hypothesis Hsolve : solver_ok solve.

Lemma output_constraint_relaxed : forall n meth N x_lo x_up c B out, net_wf n N ->
  length x_lo = n -> length x_up = n ->
  output_constraint solve meth N x_lo x_up = Some (c, B, out) ->
  exists K, 0 <= K /\ forall x s b, relaxed b -> mic_sat c x s b -> vbound K x /\ vbound K s /\ vbound K b.
Proof.
  intros n meth N x_lo x_up c B [lo up] W L1 L2 H.
  unfold output_constraint in H.
  destruct (vleb x_lo x_up); [|discriminate]. cbn [negb] in H.
  destruct (compute_layer_bound solve meth N x_lo x_up) as [B'|] eqn:E1; [|discriminate].
  destruct (compute_network_output_bounds solve meth N (b_pre_lo B') (b_pre_up B') x_lo x_up)
    as [out'|] eqn:E2; [|discriminate].
  destruct (output_constraint_given_bounds N (b_pre_lo B') (b_pre_up B') x_lo x_up)
    as [c'|] eqn:E3; [|discriminate].
  injection H as <- <- ->.
  destruct (layer_bound_spec solve Hsolve n _ _ _ _ _ W L1 L2 E1) as (z1 & z2 & I1 & I2 & _).
  destruct (encoding_given_bounds n N _ _ _ _ W L1 L2 I1 I2)
    as (c0 & Ec & M1 & M2 & M3 & M4 & M5 & M6 & M7).
  rewrite E3 in Ec. injection Ec as <-.
  assert (W' := W). destruct W' as (Hh & Wh & Wl).
  destruct (box_bound x_lo x_up) as (K0 & P0 & Q0).
  destruct (net_sat_bounded _ _ _ (b_pre_lo B') (b_pre_up B') Wh K0 P0) as (K1 & P1 & Q1).
  exists (K0 + K1 + 1). split; [lra|]. intros x s b Rb Hm. apply M6 in Hm.
  destruct Hm as (Ls & Lb & Bx & Ns).
  assert (Lx : length x = n) by (apply in_box_lengths in Bx; unfold vec in *; lia).
  assert (Hx := Q0 x Bx). split; [eapply vbound_mono; [|exact Hx]; lra|]. split.
  - apply (vbound_mono K1); [lra|]. apply (Q1 x s b); auto. congruence.
  - apply (vbound_mono 1); [lra|]. apply relaxed_bound. auto.
Qed.
End Solver.
