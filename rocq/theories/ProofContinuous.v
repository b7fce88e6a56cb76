(** The binaries of the network and of the 1-norm, as flags. *)

Require Import Reals List Lia Lra Bool Arith.
Require Import Verif.Vec Verif.VecFacts Verif.ModelMip Verif.SpecMip Verif.SpecCore
  Verif.ModelUtils Verif.SpecUtils Verif.ModelNet Verif.SpecNet Verif.SpecStep
  Verif.ModelPattern Verif.SpecPattern
  Verif.ModelGrad Verif.ModelLyapunov Verif.SpecLyapunov Verif.ModelContinuous Verif.SpecContinuous
  Verif.ProofUtils Verif.ProofMip Verif.ProofSat Verif.ProofConcat Verif.ProofTorch
  Verif.ProofBounds Verif.ProofNet Verif.ProofNetBounds Verif.ProofNetTotal Verif.ProofWarm
  Verif.ProofStep Verif.ProofNetStep Verif.ProofPattern Verif.ProofGradVec Verif.ProofLyapunov
  Verif.ProofLyapCert.
Import ListNotations.
Open Scope R_scope.

Definition bit (b : bool) : R := if b then 1 else 0.
Definition forced (l u : R) (b : bool) : Prop :=
  (0 <= l -> b = true) /\ (l < 0 -> u <= 0 -> b = false).
Fixpoint forced_all (lo up : vec) (fl : list bool) : Prop :=
  match lo, up, fl with
  | [], [], [] => True
  | l :: lo', u :: up', b :: fl' => forced l u b /\ forced_all lo' up' fl'
  | _, _, _ => False
  end.

Lemma forced_app : forall k lo up f1 f2, length lo = length up -> length f1 = k ->
  (k <= length lo)%nat ->
  (forced_all lo up (f1 ++ f2) <->
   forced_all (firstn k lo) (firstn k up) f1 /\ forced_all (skipn k lo) (skipn k up) f2).
Proof.
  induction k; intros lo up f1 f2 L Lf Lk.
  - destruct f1; [|discriminate]. cbn. tauto.
  - destruct f1 as [|b f1]; [discriminate|]. destruct lo as [|l lo]; [simpl in Lk; lia|].
    destruct up as [|u up]; [discriminate|]. cbn [app forced_all firstn skipn].
    rewrite (IHk lo up f1 f2) by (simpl in *; lia). tauto.
Qed.

Lemma attained_forced : forall lo up f fl blo bup, attained lo up f fl ->
  length blo = length fl -> length bup = length fl ->
  (forall y, in_box lo up y -> in_box blo bup (f y)) -> forced_all blo bup fl.
Proof.
  intros lo up f fl blo bup A L1 L2 B.
  assert (K : forall i b, nth_error fl i = Some b -> forced (nth i blo 0) (nth i bup 0) b).
  { intros i b E. destruct (A i b E) as (y & By & S). destruct (B y By) as [B1 B2].
    assert (Hi : (i < length fl)%nat) by (apply nth_error_Some; congruence).
    apply vle_nth in B1. apply vle_nth in B2. destruct B1 as [K1 B1], B2 as [K2 B2].
    specialize (B1 i ltac:(congruence)). specialize (B2 i ltac:(congruence)).
    unfold forced. destruct b; split; auto; intros; exfalso; lra. }
  clear A B. revert blo bup L1 L2 K. induction fl as [|b fl IH]; intros blo bup L1 L2 K.
  - destruct blo; [|discriminate]. destruct bup; [|discriminate]. exact I.
  - destruct blo as [|l blo]; [discriminate|]. destruct bup as [|u bup]; [discriminate|].
    cbn [forced_all]. split; [apply (K 0%nat b eq_refl)|].
    apply IH; auto. intros i b' E. apply (K (S i) b' E).
Qed.

Lemma forced_possible : forall lo up fl, forced_all lo up fl -> possible lo up fl.
Proof.
  induction lo as [|l lo IH]; intros [|u up] [|b fl] F; try contradiction; intros i b' E.
  - destruct i; discriminate.
  - destruct F as [F1 F2]. destruct i.
    + injection E as <-. exact F1.
    + apply (IH _ _ F2 i b' E).
Qed.
Lemma possible_forced : forall lo up fl, length lo = length fl -> length up = length fl ->
  possible lo up fl -> forced_all lo up fl.
Proof.
  induction lo as [|l lo IH]; intros [|u up] [|b fl] L1 L2 F; try discriminate; [exact I|].
  split; [exact (F 0%nat b eq_refl)|]. apply IH; auto. intros i b' E. exact (F (S i) b' E).
Qed.

(** ** One unit *)

Lemma bit_bin : forall b, is_bin (bit b).
Proof. intros [|]; unfold bit; [right|left]; auto. Qed.
Lemma bits_bins : forall fl, bins (map bit fl).
Proof.
  intros fl. apply Forall_forall. intros v Hv. apply in_map_iff in Hv.
  destruct Hv as (b & <- & _). apply bit_bin.
Qed.
Lemma bins_bits : forall b, bins b -> exists fl, b = map bit fl.
Proof.
  intros b H. induction H as [|v b Hv H IH]; [exists []; auto|].
  destruct IH as (fl & ->). destruct Hv as [->| ->]; [exists (false :: fl)|exists (true :: fl)]; auto.
Qed.
Lemma flat_bits : forall pats, flat pats = map bit (concat pats).
Proof. reflexivity. Qed.
Lemma bits_inj : forall a b, map bit a = map bit b -> a = b.
Proof.
  induction a as [|x a IH]; intros [|y b] H; try discriminate; auto.
  cbn [map] in H. apply cons_eq_iff in H. destruct H as [H1 H2]. f_equal; auto.
  destruct x, y; auto; unfold bit in H1; lra.
Qed.

Lemma unit_flag : forall a lo up p b,
  unit_binary a lo up p (bit b) <-> flag_ok b p /\ forced lo up b.
Proof.
  intros a lo up p b. unfold unit_binary, flag_ok, forced. split.
  - intros (H1 & H2 & H3 & H4 & H5). destruct b; cbn [bit] in *.
    + split; [auto|]. split; [auto|]. intros A B. specialize (H5 A B). exfalso. lra.
    + split; [auto|]. split; [|auto]. intros A. specialize (H4 A). exfalso. lra.
  - intros (H1 & H2 & H3). split; [apply bit_bin|]. destruct b; cbn [bit].
    + split; [auto|]. split; [intros; exfalso; lra|]. split; [auto|].
      intros A B. specialize (H3 A B). discriminate.
    + split; [intros; exfalso; lra|]. split; [auto|]. split; [|auto].
      intros A. specialize (H2 A). discriminate.
Qed.
Lemma units_flags : forall a pat lo up p, length lo = length pat -> length up = length pat ->
  length p = length pat ->
  (units_binary a lo up p (map bit pat) <-> Forall2 flag_ok pat p /\ forced_all lo up pat).
Proof.
  intros a. induction pat as [|b pat IH]; intros lo up p L1 L2 L3;
    destruct lo, up, p; try discriminate; cbn [map units_binary forced_all].
  - split; [intros _; split; constructor|auto].
  - rewrite (IH lo up p), unit_flag by (simpl in *; lia). split.
    + intros ((A & B) & C & D). split; [constructor; auto|auto].
    + intros (A & B & C). inversion A; subst. auto.
Qed.
Lemma net_flags : forall hs n out lo up x pats, hidden_wf n hs out -> length x = n ->
  pattern_shape hs pats -> length lo = num_units hs -> length up = num_units hs ->
  (net_binary hs lo up (concat (pre_acts hs x)) (flat pats) <->
   consistent pats (pre_acts hs x) /\ forced_all lo up (concat pats)).
Proof.
  induction hs as [|[l a] hs IH]; intros n out lo up x pats W L S L1 L2;
    inversion S as [|? pat ? pats' Sp S' E1 E2]; subst.
  - destruct lo; [|discriminate]. destruct up; [|discriminate]. cbn.
    split; [intros _; split; [constructor|auto]|auto].
  - destruct W as [W1 W2]. cbn [fst] in Sp. cbn [num_units] in L1, L2.
    cbn [pre_acts concat net_binary]. rewrite flat_bits. cbn [concat]. rewrite map_app.
    assert (Lp := lin_eval_length _ l x W1 eq_refl).
    assert (Lb : length (map bit pat) = out_features l) by (rewrite map_length; auto).
    rewrite !firstn_all', !skipn_all' by auto.
    rewrite <- flat_bits.
    rewrite (units_flags a pat) by (rewrite ?firstn_length; unfold vec in *; lia).
    rewrite (IH (out_features l) out); auto.
    2:{ rewrite map_length. auto. }
    2:{ rewrite skipn_length. unfold vec in *. lia. }
    2:{ rewrite skipn_length. unfold vec in *. lia. }
    rewrite (forced_app (out_features l) lo up pat) by (unfold vec in *; lia).
    unfold consistent. split.
    + intros ((A & B) & C & D). split; [constructor; auto|auto].
    + intros (A & B & C). inversion A; subst. auto.
Qed.
Lemma split_flags : forall hs fl, length fl = num_units hs ->
  exists pats, pattern_shape hs pats /\ concat pats = fl.
Proof.
  induction hs as [|[l a] hs IH]; intros fl L.
  - destruct fl; [|discriminate]. exists []. split; [constructor|auto].
  - cbn [num_units] in L. destruct (IH (skipn (out_features l) fl)) as (pats & S & E).
    { rewrite skipn_length. lia. }
    exists (firstn (out_features l) fl :: pats). split.
    + constructor; auto. cbn [fst]. rewrite firstn_length. lia.
    + cbn [concat]. rewrite E. apply firstn_skipn.
Qed.
Lemma shape_of_consistent : forall hs n out x pats, hidden_wf n hs out -> length x = n ->
  consistent pats (pre_acts hs x) -> pattern_shape hs pats.
Proof.
  induction hs as [|[l a] hs IH]; intros n out x pats W L C; cbn [pre_acts] in C;
    inversion C as [|pat p pats' ps C1 C2 E1 E2]; subst.
  - constructor.
  - destruct W as [W1 W2]. constructor.
    + cbn [fst]. rewrite (Forall2_len _ _ _ C1). eapply lin_eval_length; eauto.
    + eapply (IH (out_features l)); eauto. rewrite map_length. eapply lin_eval_length; eauto.
Qed.

(** ** The network in the program *)

Section Relu.
Variable solve : mip -> gresult.
Hypothesis Hsolve : solver_ok solve.
Variable meth : method.
Variable N : network.
Variable n : nat.
Variables x_lo x_up : vec.
Hypothesis W : net_wf n N.
Hypothesis Hout : out_features (last_layer N) = 1%nat.
Hypothesis L1 : length x_lo = n.
Hypothesis L2 : length x_up = n.
Hypothesis Hslope : no_slope_one (hidden N).

Lemma relu_flags : forall st xv m m' rr, history st m -> below (nvars m) xv ->
  length xv = n ->
  add_relu_output solve meth N x_lo x_up xv VBin m = Some (m', rr) ->
  length (ret_beta rr) = num_units (hidden N) /\
  length (b_pre_lo (ret_bounds rr)) = num_units (hidden N) /\
  length (b_pre_up (ret_bounds rr)) = num_units (hidden N) /\
  (forall y, in_box x_lo x_up y ->
     in_box (b_pre_lo (ret_bounds rr)) (b_pre_up (ret_bounds rr)) (concat (pre_acts (hidden N) y))) /\
  (forall sg, feas VBin m' sg -> exists pats, map sg (ret_beta rr) = flat pats /\
     consistent pats (pre_acts (hidden N) (map sg xv)) /\
     forced_all (b_pre_lo (ret_bounds rr)) (b_pre_up (ret_bounds rr)) (concat pats)) /\
  (forall sg pats, feas VBin m sg -> in_box x_lo x_up (map sg xv) ->
     consistent pats (pre_acts (hidden N) (map sg xv)) ->
     forced_all (b_pre_lo (ret_bounds rr)) (b_pre_up (ret_bounds rr)) (concat pats) ->
     exists sg', feas VBin m' sg' /\ agree m sg sg' /\ map sg' (ret_beta rr) = flat pats).
Proof.
  intros st xv m m' rr H B L E.
  destruct (relu_output_step solve Hsolve meth N n x_lo x_up W Hout L1 L2 st xv VBin m m' rr
    H B L ltac:(discriminate) E) as (R1 & R2 & R3 & R4 & (c & B0 & out & Eo & Em & Eb) & R5).
  destruct out as [olo oup].
  destruct (network_bounds solve Hsolve n _ _ _ _ _ _ _ _ W L1 L2 Eo) as [S _].
  assert (C := output_constraint_mic solve Hsolve n _ _ _ _ _ _ _ W L1 L2 Eo).
  rewrite Eb.
  destruct C as [C1 C2 C3 C4 C5 (C6 & C7 & C8 & C9) C10 C11 C12 C13 C14 C15 C16].
  destruct (step_mic VBin st _ _ _ _ _ _ _ Em C1 H B) as (S1 & S2 & S3 & S4 & S5);
    [congruence|exact I|discriminate|auto|].
  unfold output_constraint in Eo.
  destruct (vleb x_lo x_up); [|discriminate]. cbn [negb] in Eo.
  destruct (compute_layer_bound solve meth N x_lo x_up) as [B'|] eqn:E1; [|discriminate].
  destruct (compute_network_output_bounds solve meth N (b_pre_lo B') (b_pre_up B') x_lo x_up)
    as [out'|] eqn:E2; [|discriminate].
  destruct (output_constraint_given_bounds N (b_pre_lo B') (b_pre_up B') x_lo x_up)
    as [c'|] eqn:E3; [|discriminate].
  injection Eo as -> -> _.
  destruct (layer_bound_spec solve Hsolve n _ _ _ _ _ W L1 L2 E1) as (z1 & z2 & I1 & I2 & _).
  destruct (encoding_given_bounds n N _ _ _ _ W L1 L2 I1 I2)
    as (c0 & Ec & M1 & M2 & M3 & M4 & M5 & M6 & M7).
  rewrite E3 in Ec. injection Ec as <-.
  assert (W' := W). destruct W' as (Hh & Wh & Wl).
  split. { rewrite S2, seq_length. auto. }
  split; auto. split; auto.
  split. { intros y By. apply (S y By). }
  split.
  - intros sg G. destruct S4 as (_ & _ & S4 & _). destruct (S4 sg G) as (_ & Hb & Hm & _).
    apply M6 in Hm. destruct Hm as (K1 & K2 & K3 & K4).
    assert (Lx : length (map sg xv) = n) by (rewrite map_length; auto).
    rewrite M3 in K1. rewrite M4 in K2.
    destruct (net_sound _ _ _ _ _ _ _ _ Wh Lx K1 Hb K4) as [_ K5].
    destruct (K5 Hslope I1 I2) as [_ K6].
    destruct (bins_bits _ Hb) as (fl & Ef).
    destruct (split_flags (hidden N) fl) as (pats & Sp & Ep).
    { rewrite <- K2, Ef, map_length. auto. }
    exists pats. assert (Ef' : map sg (ret_beta rr) = flat pats) by (rewrite flat_bits, Ep; auto).
    split; auto. rewrite Ef' in K6. apply (net_flags _ _ _ _ _ _ _ Wh Lx Sp I1 I2) in K6. auto.
  - intros sg pats G By Cp Fp.
    assert (Lx : length (map sg xv) = n) by (rewrite map_length; auto).
    assert (Sp := shape_of_consistent _ _ _ _ _ Wh Lx Cp).
    destruct (num_units_pre _ _ _ _ Wh Lx) as [Q1 Q2].
    destruct (S5 sg (concat (post_acts (hidden N) (map sg xv))) (flat pats) G)
      as (sg' & G' & A & _ & Eb').
    + rewrite flat_bits. apply bits_bins.
    + apply M6. split; [congruence|]. split; [rewrite M4; apply flat_length; auto|].
      split; auto. eapply net_complete; eauto; [apply (S _ By)|].
      apply (net_flags _ _ _ _ _ _ _ Wh Lx Sp I1 I2). auto.
    + exact I.
    + exists sg'. auto.
Qed.

End Relu.
