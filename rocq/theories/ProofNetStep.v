(** Adding the encoding of a network to a program. *)

Require Import Reals List Lia Lra Bool Arith.
Require Import Verif.Vec Verif.VecFacts Verif.ModelMip Verif.SpecMip Verif.SpecCore
  Verif.ModelUtils Verif.SpecUtils Verif.ModelNet Verif.SpecNet Verif.SpecStep
  Verif.ProofUtils Verif.ProofMip Verif.ProofSat Verif.ProofConcat
  Verif.ProofBounds Verif.ProofNet Verif.ProofNetBounds Verif.ProofWarm Verif.ProofStep.
Import ListNotations.
Open Scope R_scope.

Record net_mic (n : nat) (N : network) (x_lo x_up : vec) (c : mic) : Prop := {
  nm_ok : mic_ok c;
  nm_nin : nin c = n;
  nm_nsl : nsl c = num_units (hidden N);
  nm_nbin : nbin c = num_units (hidden N);
  nm_out : num_out c = out_features (last_layer N);
  nm_nobnd : input_lo c = None /\ input_up c = None /\ slack_lo c = None /\ slack_up c = None;
  nm_aout : Aout_input c = None /\ Aout_binary c = None;
  nm_A : exists A, Aout_slack c = Some A /\
           wfm (out_features (last_layer N)) (num_units (hidden N)) A;
  nm_C : Cout c = Some (bias_of (last_layer N)) /\
         length (bias_of (last_layer N)) = out_features (last_layer N);
  nm_complete : forall x, in_box x_lo x_up x ->
     exists b, bins b /\ mic_sat c x (concat (post_acts (hidden N) x)) b;
  nm_box : forall x s b, mic_sat c x s b -> in_box x_lo x_up x;
  nm_sound : forall x s b, bins b -> mic_sat c x s b ->
     s = concat (post_acts (hidden N) x);
  nm_output : forall x b, length x = n ->
     output c x (concat (post_acts (hidden N) x)) b = net_eval N x
}.

Section Solver.
Variable solve : mip -> gresult.
Hypothesis Hsolve : solver_ok solve.

Lemma output_constraint_mic : forall n meth N x_lo x_up c B out, net_wf n N ->
  length x_lo = n -> length x_up = n ->
  output_constraint solve meth N x_lo x_up = Some (c, B, out) ->
  net_mic n N x_lo x_up c.
Proof.
  intros n meth N x_lo x_up c B [lo up] W L1 L2 H.
  destruct (network_bounds solve Hsolve n _ _ _ _ _ _ _ _ W L1 L2 H) as [S _].
  unfold output_constraint in H.
  destruct (vleb x_lo x_up); [|discriminate]. cbn [negb] in H.
  destruct (compute_layer_bound solve meth N x_lo x_up) as [B'|] eqn:E1; [|discriminate].
  destruct (compute_network_output_bounds solve meth N (b_pre_lo B') (b_pre_up B') x_lo x_up)
    as [out'|] eqn:E2; [|discriminate].
  destruct (output_constraint_given_bounds N (b_pre_lo B') (b_pre_up B') x_lo x_up)
    as [c'|] eqn:E3; [|discriminate].
  injection H as <- <- ->.
  destruct (layer_bound_spec solve Hsolve n _ _ _ _ _ W L1 L2 E1) as (z1 & z2 & I1 & I2 & _).
  destruct (encoding_given_bounds n N _ _ _ _ W L1 L2 I1 I2)
    as (c0 & Ec & M1 & M2 & M3 & M4 & M5 & M6 & M7).
  rewrite E3 in Ec. injection Ec as <-.
  assert (W' := W). destruct W' as (Hh & Wh & Wl).
  assert (F : (input_lo c' = None /\ input_up c' = None /\ slack_lo c' = None /\ slack_up c' = None)
    /\ (Aout_input c' = None /\ Aout_binary c' = None) /\
    Cout c' = Some (bias_of (last_layer N)) /\ exists A, Aout_slack c' = Some A).
  { unfold output_constraint_given_bounds in E3.
    destruct (write_layers _ _ _ _ _ _ _) as [[bi be]|]; [|discriminate].
    destruct (rev (hidden N)) as [|[l a] t]; [discriminate|].
    injection E3 as <-.
    cbn [input_lo input_up slack_lo slack_up Aout_input Aout_binary Cout Aout_slack].
    repeat match goal with |- _ /\ _ => split end; auto. eexists; reflexivity. }
  destruct F as (F1 & F2 & F3 & A & F4).
  constructor; auto.
  - exists A. split; auto. destruct M1 as ((O1 & O2 & _) & _).
    rewrite F4 in O2. simpl in O2. rewrite M5, M3 in O2. exact O2.
  - split; auto. unfold bias_of. destruct Wl as [_ [_ Wb]].
    destruct (bias (last_layer N)); auto. apply zeros_length.
  - intros x Bx. destruct (S x Bx) as (A1 & _ & _).
    assert (Lx : length x = n) by (apply in_box_lengths in Bx; lia).
    destruct (pick_net_ok _ _ _ _ _ _ Wh Lx A1) as (P1 & P2 & P3).
    exists (pick_net (hidden N) (b_pre_lo B') (b_pre_up B') (concat (pre_acts (hidden N) x))).
    split; auto. apply M6. destruct (num_units_pre _ _ _ _ Wh Lx) as [Q1 Q2].
    split; [congruence|]. split; [congruence|]. split; auto.
    eapply net_complete; eauto.
  - intros x s b Hs. apply M6 in Hs. tauto.
  - intros x s b Hb Hs. apply M6 in Hs. destruct Hs as (K1 & K2 & K3 & K4).
    assert (Lx : length x = n) by (apply in_box_lengths in K3; lia).
    rewrite M3 in K1.
    destruct (net_sound _ _ _ _ _ _ _ _ Wh Lx K1 Hb K4) as [-> _]. auto.
Qed.

End Solver.

(** Adding the encoding without output variables. *)
Lemma net_step : forall st n N x_lo x_up c xv vt m m' z be,
  net_mic n N x_lo x_up c -> history st m -> below (nvars m) xv -> length xv = n ->
  vt <> VCont ->
  add_mic c xv None NewBinary vt m = (m', z, be) ->
  z = seq (nvars m) (num_units (hidden N)) /\
  be = seq (nvars m + num_units (hidden N)) (num_units (hidden N)) /\
  nvars m' = (nvars m + num_units (hidden N) + num_units (hidden N))%nat /\
  step vt st m m' (fun sg => in_box x_lo x_up (map sg xv))
    (fun sg => in_box x_lo x_up (map sg xv) /\ bins (map sg be) /\
               mic_sat c (map sg xv) (map sg z) (map sg be) /\
               map sg z = concat (post_acts (hidden N) (map sg xv))).
Proof.
  intros st n N x_lo x_up c xv vt m m' z be C H B L V E.
  destruct C as [C1 C2 C3 C4 C5 (C6 & C7 & C8 & C9) C10 C11 C12 C13 C14 C15 C16].
  destruct (step_mic vt st _ _ _ _ _ _ _ E C1 H B) as (S1 & S2 & S3 & S4 & _); auto.
  - congruence.
  - exact I.
  - rewrite C3 in *. rewrite C4 in *. split; auto. split; auto. split; auto.
    eapply step_weaken; [exact S4| |].
    + intros sg G D. destruct (C13 _ D) as (b & Hb & Hm).
      eexists. exists b. split; [exact Hb|]. split; [exact Hm|exact I].
    + intros sg G (D & Hm & _). split; [eapply C14; eauto|]. split; auto. split; auto.
      eapply C15; eauto.
Qed.
