(** Systems with an input: equilibria and exactness of the constraints. *)

Require Import Reals List Lia Lra Bool Arith.
Require Import Verif.Vec Verif.VecFacts Verif.ModelMip Verif.SpecMip Verif.SpecCore
  Verif.ModelUtils Verif.SpecUtils Verif.ModelNet Verif.SpecNet Verif.SpecStep
  Verif.ProofUtils Verif.ProofMaxBox Verif.ProofGrad Verif.ProofMip Verif.ProofSat
  Verif.ProofConcat Verif.ProofBounds Verif.ProofNet Verif.ProofNetBounds Verif.ProofNetTotal
  Verif.ProofWarm Verif.ProofStep Verif.ProofNetStep Verif.ModelPattern Verif.ModelStrengthen
  Verif.ModelLyapunov Verif.SpecLyapunov Verif.ProofLyapunov Verif.ModelHybrid Verif.SpecHybrid
  Verif.ProofHybrid2 Verif.ModelSystems Verif.SpecSystems Verif.ProofMilp Verif.ProofRoa Verif.ProofSystems.
Import ListNotations.
Open Scope R_scope.

(** ** Vectors *)

Lemma midpoint_eq : forall k q v a c,
  vadd (vadd (vadd q (vscale k v)) (vscale k a)) (vscale k c)
  = vadd q (vscale k (vadd v (vadd a c))).
Proof.
  unfold vadd, vscale. intros k. induction q; intros [|v0 v] [|a0 a1] [|c0 c1]; simpl; auto.
  f_equal; auto. ring.
Qed.

Lemma residue_v_eq : forall k vn vc a c p, length vn = k -> length vc = k -> length a = k ->
  length c = k -> length p = k ->
  (vadd vn (vadd (vneg vc) (vadd (vneg a) (zeros k))) = vsub c p <->
   vn = vsub (vadd vc (vadd a c)) p).
Proof.
  unfold vadd, vneg, vsub, zeros.
  induction k; intros [|n0 vn] [|v0 vc] [|a0 a] [|c0 c] [|p0 p] L1 L2 L3 L4 L5;
    try discriminate; [simpl; tauto|].
  simpl. rewrite !cons_eq_iff. rewrite IHk by (simpl in *; lia).
  split; intros [E1 E2]; split; auto; lra.
Qed.

Lemma residue_q_eq : forall k d qn qc vn vc, length qn = k -> length qc = k ->
  length vn = k -> length vc = k ->
  (vadd qn (vadd (vneg qc) (vadd (vscale (- d / 2) vn) (vadd (vscale (- d / 2) vc) (zeros k))))
     = zeros k <->
   qn = vadd qc (vscale (d / 2) (vadd vc vn))).
Proof.
  unfold vadd, vneg, vscale, zeros.
  induction k; intros d [|q0 qn] [|p0 qc] [|n0 vn] [|v0 vc] L1 L2 L3 L4;
    try discriminate; [simpl; tauto|].
  simpl. rewrite !cons_eq_iff. rewrite IHk by (simpl in *; lia).
  split; intros [E1 E2]; split; auto; lra.
Qed.

Lemma app_inj_len : forall {A} (a b c d : list A), a ++ b = c ++ d -> length a = length c ->
  a = c /\ b = d.
Proof.
  induction a as [|x a IH]; intros b [|y c] d E L; try discriminate; auto.
  simpl in E. injection E as -> E. destruct (IH b c d E) as [-> ->]; auto.
Qed.
Lemma in_box_app_iff : forall lo1 up1 x1 lo2 up2 x2, length lo1 = length x1 -> length up1 = length x1 ->
  (in_box (lo1 ++ lo2) (up1 ++ up2) (x1 ++ x2) <-> in_box lo1 up1 x1 /\ in_box lo2 up2 x2).
Proof.
  intros lo1 up1 x1 lo2 up2 x2 L1 L2. split.
  - intros [H1 H2]. unfold in_box, vle in *.
    apply Forall2_app_inv_l in H1. destruct H1 as (a & b & Ha & Hb & E).
    assert (La := Forall2_len _ _ _ Ha).
    assert (a = x1 /\ b = x2).
    { apply app_inj_len; auto. lia. }
    destruct H as [-> ->].
    apply Forall2_app_inv_l in H2. destruct H2 as (a & b & Ha' & Hb' & E').
    assert (La' := Forall2_len _ _ _ Ha').
    assert (a = up1 /\ b = up2).
    { apply app_inj_len; auto. lia. }
    destruct H as [-> ->]. auto.
  - intros [[A B] [C D]]. split; apply Forall2_app; auto.
Qed.

Lemma tight_box : forall lo up alo aup u, length lo = length u -> length up = length u ->
  (forall a, alo = Some a -> length a = length u) ->
  (forall a, aup = Some a -> length a = length u) ->
  (in_box (tight_lo lo alo) (tight_up up aup) u <-> in_box lo up u /\ opt_box alo aup u).
Proof.
  intros lo up alo aup u L1 L2 L3 L4.
  assert (Hl : vle (tight_lo lo alo) u <-> vle lo u /\ (forall l, alo = Some l -> vle l u)).
  { destruct alo as [a|]; cbn [tight_lo].
    - specialize (L3 a eq_refl). clear L2 L4 up aup.
      assert (X : vle (map2 Rmax lo a) u <-> vle lo u /\ vle a u).
      { revert a u L1 L3. unfold vle. induction lo as [|l0 lo IH]; intros [|a0 a] [|u0 u] L1 L3;
          try discriminate; [simpl; split; [intros; split; constructor|constructor]|].
        simpl. rewrite !F2_cons, IH by (simpl in *; lia).
        pose proof (Rmax_l l0 a0). pose proof (Rmax_r l0 a0).
        split; intros H1; intuition; try lra. apply Rmax_lub; auto. }
      rewrite X. split; intros [H1 H2]; split; auto. intros l El. congruence.
    - split; [intros; split; auto; discriminate|tauto]. }
  assert (Hu : vle u (tight_up up aup) <-> vle u up /\ (forall l, aup = Some l -> vle u l)).
  { destruct aup as [a|]; cbn [tight_up].
    - specialize (L4 a eq_refl). clear L1 L3 Hl lo alo.
      assert (X : vle u (map2 Rmin up a) <-> vle u up /\ vle u a).
      { revert a u L2 L4. unfold vle. induction up as [|l0 up IH]; intros [|a0 a] [|u0 u] L1 L3;
          try discriminate; [simpl; split; [intros; split; constructor|constructor]|].
        simpl. rewrite !F2_cons, IH by (simpl in *; lia).
        pose proof (Rmin_l l0 a0). pose proof (Rmin_r l0 a0).
        split; intros H1; intuition; try lra. apply Rmin_glb; auto. }
      rewrite X. split; intros [H1 H2]; split; auto. intros l El. congruence.
    - split; [intros; split; auto; discriminate|tauto]. }
  unfold in_box, opt_box. rewrite Hl, Hu. tauto.
Qed.

Lemma tight_length : forall lo up alo aup k, length lo = k -> length up = k ->
  (forall a, alo = Some a -> length a = k) -> (forall a, aup = Some a -> length a = k) ->
  length (tight_lo lo alo) = k /\ length (tight_up up aup) = k.
Proof.
  intros lo up alo aup k L1 L2 L3 L4. split.
  - destruct alo as [v|]; cbn [tight_lo]; auto. rewrite map2_length. rewrite (L3 v eq_refl). unfold vec in *. lia.
  - destruct aup as [v|]; cbn [tight_up]; auto. rewrite map2_length. rewrite (L4 v eq_refl). unfold vec in *. lia.
Qed.

(** ** gather *)

Lemma gather_spec : forall {A} (idx : list nat) (v r : list A) d, gather idx v = Some r ->
  r = map (fun i => nth i v d) idx /\ Forall (fun i => (i < length v)%nat) idx.
Proof.
  unfold gather. induction idx as [|i idx IH]; intros v r d E; simpl in E.
  - injection E as <-. split; auto.
  - destruct (nth_error v i) as [a|] eqn:Ei; [|discriminate].
    destruct (all_some (map (nth_error v) idx)) as [t|] eqn:Et; [|discriminate].
    injection E as <-. destruct (IH v t d Et) as [E1 E2]. split.
    + simpl. rewrite E1. f_equal. symmetry. apply nth_error_nth; auto.
    + constructor; auto. apply nth_error_Some. congruence.
Qed.
Lemma gather_total : forall {A} (idx : list nat) (v : list A),
  Forall (fun i => (i < length v)%nat) idx -> exists r, gather idx v = Some r.
Proof.
  unfold gather. induction idx as [|i idx IH]; intros v H; simpl; eauto.
  inversion H; subst. destruct (nth_error v i) as [a|] eqn:Ei.
  - destruct (IH v H3) as [r ->]. eauto.
  - apply nth_error_None in Ei. lia.
Qed.
Lemma gather_map : forall {A B} (f : A -> B) idx v r, gather idx v = Some r ->
  gather idx (map f v) = Some (map f r).
Proof.
  unfold gather. induction idx as [|i idx IH]; intros v r E; simpl in *.
  - injection E as <-. auto.
  - rewrite nth_error_map. destruct (nth_error v i) as [a|]; [|discriminate]. simpl.
    destruct (all_some (map (nth_error v) idx)) as [t|] eqn:Et; [|discriminate].
    injection E as <-. rewrite (IH _ _ Et). auto.
Qed.
Lemma gather_length : forall {A} idx (v r : list A), gather idx v = Some r -> length r = length idx.
Proof.
  unfold gather. induction idx as [|i idx IH]; intros v r E; simpl in *.
  - injection E as <-. auto.
  - destruct (nth_error v i) as [a|]; [|discriminate].
    destruct (all_some (map (nth_error v) idx)) as [t|] eqn:Et; [|discriminate].
    injection E as <-. simpl. f_equal. eauto.
Qed.

Lemma gather_box : forall idx lo up x glo gup gx, gather idx lo = Some glo ->
  gather idx up = Some gup -> gather idx x = Some gx ->
  (in_box glo gup gx <-> Forall (fun i => nth i lo 0 <= nth i x 0 <= nth i up 0) idx).
Proof.
  intros idx lo up x glo gup gx E1 E2 E3.
  apply (gather_spec _ _ _ 0) in E1. apply (gather_spec _ _ _ 0) in E2. apply (gather_spec _ _ _ 0) in E3.
  destruct E1 as [-> _]. destruct E2 as [-> _]. destruct E3 as [-> _].
  unfold in_box, vle. induction idx as [|i idx IH]; simpl.
  - split; [constructor|intros; split; constructor].
  - rewrite !F2_cons, Fa_cons, <- IH. tauto.
Qed.

(** ** What the constructor guarantees *)

Definition kind_facts (S : ctl_sys) : Prop :=
  match ct_kind S with
  | CPlain => x_size (ct_net S) = (ct_nx S + ct_nu S)%nat /\ ct_nv S = ct_nx S
  | CGiven xeq ueq _ => x_size (ct_net S) = (ct_nx S + ct_nu S)%nat /\ ct_nv S = ct_nx S /\
      in_box (ct_xlo S) (ct_xup S) xeq /\ in_box (ct_ulo S) (ct_uup S) ueq
  | CSecond qeq ueq dt => x_size (ct_net S) = (ct_nx S + ct_nu S)%nat /\
      (ct_nv S <= ct_nx S)%nat /\ length qeq = ct_nq S /\ 0 < dt /\
      in_box (ct_xlo S) (ct_xup S) (qeq ++ zeros (ct_nv S)) /\ in_box (ct_ulo S) (ct_uup S) ueq
  | CResidue qeq ueq dt idx => x_size (ct_net S) = (length idx + ct_nu S)%nat /\
      (ct_nv S <= ct_nx S)%nat /\ length qeq = ct_nq S /\ 0 < dt /\
      in_box (ct_xlo S) (ct_xup S) (qeq ++ zeros (ct_nv S)) /\ in_box (ct_ulo S) (ct_uup S) ueq
  end.

Lemma vle_trans : forall a b c, vle a b -> vle b c -> vle a c.
Proof.
  unfold vle. intros a b c H. revert c. induction H; intros c K; inversion K; subst; constructor; eauto; lra.
Qed.

Lemma ctl_built_facts : forall S, ctl_built S ->
  length (ct_xup S) = ct_nx S /\ length (ct_uup S) = ct_nu S /\
  vle (ct_xlo S) (ct_xup S) /\ vle (ct_ulo S) (ct_uup S) /\ kind_facts S.
Proof.
  intros C (W & E). unfold new_ctl in E.
  match type of E with (if ?b then _ else _) = _ => destruct b eqn:Eb; [|discriminate] end.
  unfold kind_facts, ct_nx, ct_nu, ct_nq.
  replace (mkCtl (ct_net C) (ct_xlo C) (ct_xup C) (ct_ulo C) (ct_uup C) (ct_kind C)) with C in Eb
    by (destruct C; reflexivity).
  repeat (apply andb_prop in Eb; destruct Eb as [Eb ?]).
  apply Nat.eqb_eq in Eb. apply Nat.eqb_eq in H0.
  split; [auto|]. split; [auto|].
  destruct (ct_kind C) as [|xeq ueq d|qeq ueq dt|qeq ueq dt idx];
    repeat match goal with H : (_ && _)%bool = true |- _ => apply andb_prop in H; destruct H end;
    repeat match goal with
           | H : vleb _ _ = true |- _ => apply vleb_spec in H
           | H : Nat.eqb _ _ = true |- _ => apply Nat.eqb_eq in H
           | H : Nat.leb _ _ = true |- _ => apply Nat.leb_le in H
           | H : Rltb _ _ = true |- _ => apply Rltb_true in H
           end.
  - auto.
  - split; [auto|]. split; [auto|]. split; [auto|]. split; [auto|]. split; split; auto.
  - split; [eapply vle_trans; eauto|]. split; [eapply vle_trans; eauto|].
    split; [auto|]. split; [auto|]. split; [auto|]. split; [auto|]. split; split; auto.
  - split; [eapply vle_trans; eauto|]. split; [eapply vle_trans; eauto|].
    split; [auto|]. split; [auto|]. split; [auto|]. split; [auto|]. split; split; auto.
Qed.

Lemma firstn_skipn_app : forall {A} (n : nat) (a b : list A), length a = n ->
  firstn n (a ++ b) = a /\ skipn n (a ++ b) = b.
Proof.
  intros A n a b L. subst n. split.
  - rewrite firstn_app, Nat.sub_diag, firstn_all. simpl. apply app_nil_r.
  - rewrite skipn_app, Nat.sub_diag, skipn_all. auto.
Qed.

Lemma vscale_zeros : forall k n, vscale k (zeros n) = zeros n.
Proof. intros. unfold vscale, zeros. induction n; simpl; auto. f_equal; auto. ring. Qed.

(** ** Equilibria *)

Lemma midpoint_rest : forall dt q n, length q = n -> midpoint dt q (zeros n) (zeros n) = Some (q ++ zeros n).
Proof.
  intros dt q n L. unfold midpoint. rewrite zeros_length, L, Nat.eqb_refl.
  rewrite (vadd_zeros_l n) by apply zeros_length. rewrite vscale_zeros, vadd_zeros_r; auto.
Qed.

Lemma ctl_equilibrium : forall S xeq ueq, ctl_built S -> ctl_usable S -> ct_eq S = Some (xeq, ueq) ->
  ctl_step S xeq ueq =
  Some (match ct_kind S with CGiven _ _ false => zeros (ct_nx S) | _ => xeq end).
Proof.
  intros C xeq ueq Bt Us E. destruct (ctl_built_facts _ Bt) as (Lx & Lu & _ & _ & K).
  destruct Bt as (W & _). unfold kind_facts in K. unfold ct_eq in E. unfold ctl_usable in Us.
  unfold ctl_step. destruct (ct_kind C) as [|xe ue d|qe ue dt|qe ue dt idx]; [discriminate| | |].
  - injection E as -> ->. destruct K as (K1 & K2 & K3 & K4).
    apply in_box_lengths in K3. apply in_box_lengths in K4.
    assert (Lq : length (xeq ++ ueq) = x_size (ct_net C))
      by (rewrite app_length; unfold ct_nx, ct_nu, vec in *; lia).
    assert (Lf : length (forward (ct_net C) (xeq ++ ueq)) = ct_nx C).
    { rewrite (forward_eval (x_size (ct_net C))), (net_eval_length (x_size (ct_net C))); auto. }
    rewrite vsub_self, Lf. destruct d; auto. f_equal. apply vadd_zeros_l.
    unfold ct_nx, vec in *; lia.
  - injection E as <- <-. destruct K as (K1 & K2 & K3 & K4 & K5 & K6).
    apply in_box_lengths in K5. apply in_box_lengths in K6.
    assert (Lf : length (forward (ct_net C) ((qe ++ zeros (ct_nv C)) ++ ue)) = ct_nv C).
    { rewrite (forward_eval (x_size (ct_net C))), (net_eval_length (x_size (ct_net C))); auto;
        rewrite app_length; unfold ct_nx, ct_nu, vec in *; lia. }
    rewrite vsub_self, Lf. destruct (firstn_skipn_app (ct_nq C) qe (zeros (ct_nv C)) K3) as [-> ->].
    apply midpoint_rest. congruence.
  - injection E as <- <-. destruct K as (K1 & K2 & K3 & K4 & K5 & K6). destruct Us as [Us Ui].
    apply in_box_lengths in K5. apply in_box_lengths in K6.
    destruct (gather_total idx (qe ++ zeros (ct_nv C))) as [r Er].
    { eapply Forall_impl; [|exact Ui]. intros i Hi. unfold ct_nx, vec in *. lia. }
    rewrite Er. assert (Lr := gather_length _ _ _ Er).
    assert (Lf : length (forward (ct_net C) (r ++ ue)) = ct_nv C).
    { rewrite (forward_eval (x_size (ct_net C))), (net_eval_length (x_size (ct_net C))); auto;
        rewrite app_length; unfold ct_nx, ct_nu, vec in *; lia. }
    destruct (firstn_skipn_app (ct_nq C) qe (zeros (ct_nv C)) K3) as [-> ->].
    rewrite vadd_zeros_l by auto. rewrite vsub_self, Lf. apply midpoint_rest. congruence.
Qed.

(** ** The constraints *)

Section Solver.
Variable solve : mip -> gresult.
Hypothesis Hsolve : solver_ok solve.

Lemma ctl_mic_form : forall C lo up c B, ctl_built C -> length lo = ct_nu C -> length up = ct_nu C ->
  ctl_mic solve C lo up = Some (c, B) ->
  exists c0 out Ai As K, output_constraint solve IA (ct_net C) (ct_xlo C ++ lo) (ct_xup C ++ up)
                       = Some (c0, B, out) /\
    net_mic (ct_nx C + ct_nu C) (ct_net C) (ct_xlo C ++ lo) (ct_xup C ++ up) c0 /\
    c = with_output c0 Ai (Some As) (Some K) /\ owf (ct_nx C) (ct_nx C + ct_nu C) Ai /\
    wfm (ct_nx C) (num_units (hidden (ct_net C))) As /\ length K = ct_nx C /\
    forall x u, length x = ct_nx C -> length u = ct_nu C ->
      ctl_step C x u = Some (affine_out (ct_nx C) (ct_net C) Ai As K (x ++ u)).
Proof.
  intros C lo up c B Bt Ll Lp E. destruct (ctl_built_facts _ Bt) as (Lx & Lu & _ & _ & Kf).
  destruct Bt as (W & _). unfold ctl_mic in E.
  destruct (output_constraint solve IA (ct_net C) (ct_xlo C ++ lo) (ct_xup C ++ up))
    as [[[c0 B0] out]|] eqn:Eo; [|discriminate].
  unfold kind_facts in Kf.
  assert (L1 : length (ct_xlo C ++ lo) = (ct_nx C + ct_nu C)%nat)
    by (rewrite app_length; unfold ct_nx, vec in *; lia).
  assert (L2 : length (ct_xup C ++ up) = (ct_nx C + ct_nu C)%nat)
    by (rewrite app_length; unfold ct_nx, vec in *; lia).
  destruct (ct_kind C) as [|xe ue d|qe ue dt|qe ue dt idx] eqn:Ek; [| | |discriminate].
  - destruct Kf as [K1 K2]. rewrite K1 in W.
    assert (M : net_mic (ct_nx C + ct_nu C) (ct_net C) (ct_xlo C ++ lo) (ct_xup C ++ up) c0)
      by (eapply output_constraint_mic; eauto).
    destruct (net_affine _ _ _ _ _ M) as (Am & EA & WA & EC & LC & F).
    change (out_features (last_layer (ct_net C))) with (ct_nv C) in *. rewrite K2 in *.
    exists c0, out, None, Am, (bias_of (last_layer (ct_net C))).
    assert (E' : c = c0 /\ B = B0) by (split; congruence). destruct E' as [-> ->].
    split; auto. split; auto. split; [rewrite <- EA, <- EC; eapply plain_output; eauto|].
    split; [exact I|]. split; auto. split; auto.
    intros x u Lx' Lu'. unfold ctl_step. rewrite Ek. f_equal.
    assert (L : length (x ++ u) = (ct_nx C + ct_nu C)%nat) by (rewrite app_length; lia).
    rewrite (forward_eval _ _ _ W L). unfold affine_out. cbn [term].
    rewrite (vadd_zeros_l (ct_nx C)) by (rewrite mv_length; apply WA). rewrite F; auto.
  - destruct Kf as (K1 & K2 & K3 & K4). rewrite K1 in W.
    assert (M : net_mic (ct_nx C + ct_nu C) (ct_net C) (ct_xlo C ++ lo) (ct_xup C ++ up) c0)
      by (eapply output_constraint_mic; eauto).
    destruct (net_affine _ _ _ _ _ M) as (Am & EA & WA & EC & LC & F).
    destruct (nm_aout _ _ _ _ _ M) as [Ei _].
    assert (An := affine_net _ _ _ _ _ _ M EA).
    change (out_features (last_layer (ct_net C))) with (ct_nv C) in *. rewrite K2 in *.
    apply in_box_lengths in K3. apply in_box_lengths in K4.
    assert (Lq : length (xe ++ ue) = (ct_nx C + ct_nu C)%nat)
      by (rewrite app_length; unfold ct_nx, ct_nu, vec in *; lia).
    assert (Lf : length (forward (ct_net C) (xe ++ ue)) = ct_nx C).
    { rewrite (forward_eval _ _ _ W Lq), (net_eval_length _ _ _ W Lq); auto. }
    assert (Le : length xe = ct_nx C) by (unfold ct_nx, vec in *; lia).
    unfold add_Cout in E. rewrite EC in E. cbn [with_output Cout Aout_input Aout_slack] in E.
    rewrite Ei, EA in E.
    exists c0, out, None, Am,
      (vadd (bias_of (last_layer (ct_net C)))
        (if d then vadd (vneg (forward (ct_net C) (xe ++ ue))) xe
         else vneg (forward (ct_net C) (xe ++ ue)))).
    assert (Lv : length (if d then vadd (vneg (forward (ct_net C) (xe ++ ue))) xe
         else vneg (forward (ct_net C) (xe ++ ue))) = ct_nx C).
    { destruct d; [rewrite vadd_length; rewrite vneg_length; congruence|rewrite vneg_length; auto]. }
    split; [destruct d; congruence|]. split; auto.
    split; [destruct d; apply Some_inj in E; apply pair_equal_spec in E; destruct E as [<- _];
            [rewrite vadd_assoc|]; reflexivity|].
    split; [exact I|]. split; auto. split; [rewrite vadd_length; [exact LC|etransitivity; [exact LC|symmetry; exact Lv]]|].
    intros x u Lx' Lu'. unfold ctl_step. rewrite Ek. f_equal.
    assert (L : length (x ++ u) = (ct_nx C + ct_nu C)%nat) by (rewrite app_length; lia).
    rewrite An by auto. rewrite (forward_eval _ _ _ W L).
    destruct d; [rewrite vsub_vadd_comm|rewrite vadd_neg]; auto.
  - destruct Kf as (K1 & K2 & K3 & K4 & K5 & K6). rewrite K1 in W.
    assert (M : net_mic (ct_nx C + ct_nu C) (ct_net C) (ct_xlo C ++ lo) (ct_xup C ++ up) c0)
      by (eapply output_constraint_mic; eauto).
    destruct (net_affine _ _ _ _ _ M) as (Am & EA & WA & EC & LC & F).
    destruct (nm_aout _ _ _ _ _ M) as [Ei Eb].
    change (out_features (last_layer (ct_net C))) with (ct_nv C) in *.
    apply in_box_lengths in K5. apply in_box_lengths in K6.
    rewrite Ei, Eb, EA, EC in E.
    destruct (Nat.eqb (ct_nq C) (ct_nv C)) eqn:Eq; [|discriminate]. apply Nat.eqb_eq in Eq.
    set (ps := forward (ct_net C) ((qe ++ zeros (ct_nv C)) ++ ue)) in *.
    assert (Lq : length ((qe ++ zeros (ct_nv C)) ++ ue) = (ct_nx C + ct_nu C)%nat)
      by (rewrite app_length; unfold ct_nx, ct_nu, vec in *; lia).
    assert (Lf : length ps = ct_nv C).
    { unfold ps. rewrite (forward_eval _ _ _ W Lq), (net_eval_length _ _ _ W Lq); auto. }
    assert (Nx : ct_nx C = (ct_nv C + ct_nv C)%nat) by (unfold ct_nq in Eq; lia).
    set (Ki := vsub (bias_of (last_layer (ct_net C))) ps) in *.
    assert (LK : length Ki = ct_nv C) by (unfold Ki; rewrite vsub_length; congruence).
    exists c0, out.
    exists (Some (hcat (hcat (eye (ct_nq C)) (eyek (ct_nv C) (dt / 2))) (zerom (ct_nq C) (ct_nu C))
                 ++ zerom (ct_nv C) (ct_nx C + ct_nu C))),
      (map (vscale (dt / 2)) Am ++ Am), (vscale (dt / 2) Ki ++ Ki).
    split; [congruence|]. split; auto.
    split; [apply Some_inj in E; apply pair_equal_spec in E; destruct E as [<- _]; reflexivity|].
    destruct WA as [WA1 WA2].
    rewrite Eq in *.
    assert (We : length (hcat (eye (ct_nv C)) (eyek (ct_nv C) (dt / 2))) = ct_nv C).
    { unfold hcat, eye. rewrite map2_length, !eyek_length. lia. }
    split; [|split; [|split]].
    + cbn [owf]. split.
      * rewrite app_length. unfold hcat at 1. rewrite map2_length, We.
        unfold zerom. rewrite !repeat_length. lia.
      * apply Forall_app. split.
        -- assert (G : forall a b (X Y : mat), Forall (fun r => length r = a) X ->
               Forall (fun r => length r = b) Y -> Forall (fun r => length r = (a + b)%nat) (hcat X Y)).
           { intros a b X Y HX. revert Y. unfold hcat. induction HX; intros Y HY; [constructor|].
             destruct HY; [constructor|]. simpl. constructor; [rewrite app_length; lia|]. auto. }
           rewrite Nx. apply G; [apply G; apply wfm_eyek|].
           unfold zerom. apply Forall_forall. intros r Hr. apply repeat_spec in Hr. subst.
           apply zeros_length.
        -- unfold zerom. apply Forall_forall. intros r Hr. apply repeat_spec in Hr. subst.
           apply zeros_length.
    + split; [rewrite app_length, map_length, Nx; unfold mat, vec in *; lia|]. apply Forall_app. split; auto.
      apply Forall_forall. intros r Hr. apply in_map_iff in Hr. destruct Hr as (r0 & <- & Hr).
      rewrite vscale_length. rewrite Forall_forall in WA2. auto.
    + rewrite app_length, vscale_length. lia.
    + intros x u Lx' Lu'. unfold ctl_step. rewrite Ek. fold ps.
      assert (L : length (x ++ u) = (ct_nx C + ct_nu C)%nat) by (rewrite app_length; lia).
      rewrite (forward_eval _ _ _ W L). unfold midpoint.
      rewrite firstn_length, skipn_length, Eq.
      replace (Nat.min (ct_nv C) (length x) =? length x - ct_nv C)%nat with true
        by (symmetry; apply Nat.eqb_eq; lia).
      f_equal. set (q := firstn (ct_nv C) x). set (v := skipn (ct_nv C) x).
      assert (Lqv : length q = ct_nv C) by (unfold q; rewrite firstn_length; lia).
      assert (Lv : length v = ct_nv C) by (unfold v; rewrite skipn_length; lia).
      assert (Ex : x ++ u = (q ++ v) ++ u) by (unfold q, v; rewrite firstn_skipn; auto).
      unfold affine_out. cbn [term]. rewrite mv_app_rows, mv_zerom. rewrite mv_app_rows.
      assert (E1 : mv (hcat (hcat (eye (ct_nv C)) (eyek (ct_nv C) (dt / 2)))
                       (zerom (ct_nv C) (ct_nu C))) (x ++ u) = vadd q (vscale (dt / 2) v)).
      { rewrite Ex.
        rewrite (mv_hcat _ _ _ _ (ct_nv C + ct_nv C)%nat).
        - rewrite (mv_hcat _ _ _ _ (ct_nv C)).
          + rewrite mv_eye, mv_eyek, mv_zerom by auto. apply vadd_zeros_r.
            rewrite vadd_length; rewrite ?vscale_length; congruence.
          + unfold eye. rewrite !eyek_length. auto.
          + apply wfm_eyek.
          + auto.
        - rewrite We. unfold zerom. rewrite repeat_length. auto.
        - assert (G : forall a b (X Y : mat), Forall (fun r => length r = a) X ->
               Forall (fun r => length r = b) Y -> Forall (fun r => length r = (a + b)%nat) (hcat X Y)).
           { intros a b X Y HX. revert Y. unfold hcat. induction HX; intros Y HY; [constructor|].
             destruct HY; [constructor|]. simpl. constructor; [rewrite app_length; lia|]. auto. }
          apply G; apply wfm_eyek.
        - rewrite app_length. lia. }
      rewrite E1. set (s := concat (post_acts (hidden (ct_net C)) (x ++ u))).
      rewrite mv_map_vscale.
      assert (Fs := F (x ++ u) L). fold s in Fs.
      set (as_ := mv Am s) in *.
      assert (La : length as_ = ct_nv C) by (unfold as_; rewrite mv_length; auto).
      rewrite vadd_app by (rewrite vadd_length; rewrite ?vscale_length; congruence).
      rewrite vadd_app.
      2:{ rewrite !vadd_length; rewrite ?vadd_length, ?vscale_length; rewrite ?vscale_length; congruence. }
      rewrite (vadd_zeros_l (ct_nv C)) by auto.
      rewrite midpoint_eq.
      assert (Ev : vadd as_ Ki = vsub (net_eval (ct_net C) (x ++ u)) ps).
      { unfold Ki. rewrite <- !vadd_neg, <- Fs, vadd_assoc. auto. }
      rewrite Ev. auto.
Qed.

Lemma local3 : forall m l k j (P : vec -> vec -> vec -> Prop), below (nvars m) l -> below (nvars m) k ->
  below (nvars m) j -> local m (fun sg => P (map sg l) (map sg k) (map sg j)).
Proof.
  intros m l k j P B B' B'' s1 s2 A H.
  rewrite <- (map_agree (nvars m) s1 s2 l B), <- (map_agree (nvars m) s1 s2 k B'),
    <- (map_agree (nvars m) s1 s2 j B''); auto.
Qed.
Lemma below_app : forall n a b, below n (a ++ b) <-> below n a /\ below n b.
Proof. intros. unfold below. apply Forall_app. Qed.
Lemma below_firstn : forall n k a, below n a -> below n (firstn k a).
Proof. unfold below. intros n k a H. rewrite <- (firstn_skipn k a) in H. apply Forall_app in H. apply H. Qed.
Lemma below_skipn : forall n k a, below n a -> below n (skipn k a).
Proof. unfold below. intros n k a H. rewrite <- (firstn_skipn k a) in H. apply Forall_app in H. apply H. Qed.
Lemma below_gather : forall n idx a r, below n a -> gather idx a = Some r -> below n r.
Proof.
  unfold below. intros n idx a r H E. destruct (gather_spec _ _ _ O E) as [-> Hi].
  apply Forall_forall. intros i Hin. apply in_map_iff in Hin. destruct Hin as (j & <- & Hj).
  rewrite Forall_forall in H. apply H. apply nth_In. rewrite Forall_forall in Hi. auto.
Qed.

Lemma ctl_plain_step : forall C st vt m m' xv xn uv alo aup c B z be,
  ctl_built C -> vt <> VCont -> history st m ->
  below (nvars m) xv -> below (nvars m) xn -> below (nvars m) uv ->
  length xv = ct_nx C -> length xn = ct_nx C -> length uv = ct_nu C ->
  (forall a, alo = Some a -> length a = ct_nu C) -> (forall a, aup = Some a -> length a = ct_nu C) ->
  (match ct_kind C with CResidue _ _ _ _ => False | _ => True end) ->
  ctl_mic solve C (tight_lo (ct_ulo C) alo) (tight_up (ct_uup C) aup) = Some (c, B) ->
  add_mic c (xv ++ uv) (Some xn) NewBinary vt m = (m', z, be) ->
  step vt st m m'
    (fun sg => opt_box alo aup (map sg uv) /\ ctl_next C (map sg xv) (map sg uv) (map sg xn))
    (fun sg => opt_box alo aup (map sg uv) /\ ctl_next C (map sg xv) (map sg uv) (map sg xn)).
Proof.
  intros C st vt m m' xv xn uv alo aup c B z be Bt Vt H Bx Bn Bu Lx Ln Lu La Lb Kd Ec Em.
  destruct (ctl_built_facts _ Bt) as (Lx' & Lu' & _ & _ & _).
  destruct (tight_length _ _ _ _ (ct_nu C) eq_refl Lu' La Lb) as [T1 T2].
  destruct (ctl_mic_form _ _ _ _ _ Bt T1 T2 Ec) as (c0 & out & Ai & As & K & _ & M & -> & W1 & W2 & LC & F).
  destruct (out_step st _ _ _ _ _ _ Ai As K (xv ++ uv) xn vt m m' z be M W1 W2 LC H) as (_ & _ & _ & S4); auto.
  { apply below_app; auto. }
  { rewrite app_length; lia. }
  assert (X : forall sg,
    in_box (ct_xlo C ++ tight_lo (ct_ulo C) alo) (ct_xup C ++ tight_up (ct_uup C) aup) (map sg (xv ++ uv))
    /\ map sg xn = affine_out (ct_nx C) (ct_net C) Ai As K (map sg (xv ++ uv)) <->
    opt_box alo aup (map sg uv) /\ ctl_next C (map sg xv) (map sg uv) (map sg xn)).
  { intros sg. rewrite map_app.
    assert (M1 : length (map sg xv) = ct_nx C) by (rewrite map_length; auto).
    assert (M2 : length (map sg uv) = ct_nu C) by (rewrite map_length; auto).
    rewrite in_box_app_iff by (unfold ct_nx, vec in *; congruence).
    rewrite tight_box; try (unfold ct_nu, vec in *; congruence).
    2:{ intros a Ea. rewrite M2. auto. }
    2:{ intros a Ea. rewrite M2. auto. }
    unfold ctl_next, confined. rewrite (F _ _ M1 M2).
    destruct (ct_kind C); try tauto;
      (split; [intros ((I1 & I2 & I3) & Eq); split; [exact I3|]; split; [exact I1|];
               split; [exact I2|]; rewrite Eq; reflexivity
              |intros (I1 & I2 & I3 & Eq); split; [split; [exact I2|split; [exact I3|exact I1]]|];
               apply Some_inj in Eq; symmetry; exact Eq]). }
  eapply step_weaken; [exact S4| |].
  - intros sg _ D. apply X. exact D.
  - intros sg _ (D1 & D2 & _). apply X. auto.
Qed.

Lemma map_firstn_skipn : forall {A B} (f : A -> B) k l,
  map f (firstn k l) = firstn k (map f l) /\ map f (skipn k l) = skipn k (map f l).
Proof. intros. rewrite firstn_map, skipn_map. auto. Qed.

Lemma mv_map_vneg : forall A x, mv (map vneg A) x = vneg (mv A x).
Proof.
  intros. unfold mv, vneg at 2. rewrite !map_map. apply map_ext. intros r.
  unfold vneg. revert x. induction r; intros [|y x]; cbn; try ring. rewrite IHr. ring.
Qed.
Lemma nth_vle : forall a b i, vle a b -> (i < length a)%nat -> nth i a 0 <= nth i b 0.
Proof.
  unfold vle. intros a b i H. revert i. induction H; intros [|i] L; simpl in *; try lia; auto.
  apply IHForall2. lia.
Qed.

Lemma ctl_residue_step : forall C qe ue dt idx st vt m m' xv xn uv alo aup r,
  ctl_built C -> ct_kind C = CResidue qe ue dt idx -> vt <> VCont -> history st m ->
  below (nvars m) xv -> below (nvars m) xn -> below (nvars m) uv ->
  length xv = ct_nx C -> length xn = ct_nx C -> length uv = ct_nu C ->
  (forall a, alo = Some a -> length a = ct_nu C) -> (forall a, aup = Some a -> length a = ct_nu C) ->
  ctl_add_ret solve C xv xn uv alo aup vt m = Some (m', r) ->
  step vt st m m'
    (fun sg => opt_box alo aup (map sg uv) /\ ctl_next C (map sg xv) (map sg uv) (map sg xn))
    (fun sg => opt_box alo aup (map sg uv) /\ ctl_next C (map sg xv) (map sg uv) (map sg xn)).
Proof.
  intros C qe ue dt idx st vt m m' xv xn uv alo aup r Bt Ek Vt H Bx Bn Bu Lx Ln Lu La Lb E.
  destruct (ctl_built_facts _ Bt) as (Lx' & Lu' & _ & _ & Kf).
  destruct (tight_length _ _ _ _ (ct_nu C) eq_refl Lu' La Lb) as [T1 T2].
  destruct Bt as (W & _). unfold kind_facts in Kf. rewrite Ek in Kf.
  destruct Kf as (K1 & K2 & K3 & K4 & K5 & K6).
  unfold ctl_add_ret in E. rewrite Ek in E.
  destruct (gather idx (ct_xlo C)) as [xlo|] eqn:G1; [|discriminate].
  destruct (gather idx (ct_xup C)) as [xup|] eqn:G2; [|discriminate].
  destruct (gather idx xv) as [xi|] eqn:G3; [|discriminate].
  destruct (gather idx (qe ++ zeros (ct_nv C))) as [xei|] eqn:G4; [|discriminate].
  destruct (output_constraint solve IA (ct_net C) (xlo ++ tight_lo (ct_ulo C) alo)
             (xup ++ tight_up (ct_uup C) aup)) as [[[c B] out]|] eqn:Eo; [|discriminate].
  destruct (add_mic c (xi ++ uv) None NewBinary vt m) as [[m1 z] be] eqn:Em.
  set (ni := (length idx + ct_nu C)%nat) in *. rewrite K1 in W.
  assert (L1 : length (xlo ++ tight_lo (ct_ulo C) alo) = ni).
  { rewrite app_length, (gather_length _ _ _ G1). unfold ni, vec in *. lia. }
  assert (L2 : length (xup ++ tight_up (ct_uup C) aup) = ni).
  { rewrite app_length, (gather_length _ _ _ G2). unfold ni, vec in *. lia. }
  assert (M := output_constraint_mic solve Hsolve ni _ _ _ _ _ _ _ W L1 L2 Eo).
  destruct (net_affine _ _ _ _ _ M) as (Am & EA & WA & EC & LC & F).
  destruct (nm_aout _ _ _ _ _ M) as [Ei Eb].
  change (out_features (last_layer (ct_net C))) with (ct_nv C) in *.
  rewrite Ei, Eb, EA, EC in E.
  destruct (Nat.eqb (ct_nq C) (ct_nv C)) eqn:Eq; [|discriminate]. apply Nat.eqb_eq in Eq.
  apply Some_inj in E. apply pair_equal_spec in E. destruct E as [E _].
  rewrite Eq in *. assert (Nx : ct_nx C = (ct_nv C + ct_nv C)%nat) by (unfold ct_nq in Eq; lia).
  assert (Lxi : length xi = length idx) by (eapply gather_length; eauto).
  assert (Lei : length xei = length idx) by (eapply gather_length; eauto).
  assert (K6' := in_box_lengths _ _ _ K6).
  set (ps := forward (ct_net C) (xei ++ ue)) in *.
  assert (Lps : length ps = ct_nv C).
  { unfold ps. assert (L : length (xei ++ ue) = ni)
      by (rewrite app_length; unfold ni, ct_nu, vec in *; lia).
    rewrite (forward_eval _ _ _ W L), (net_eval_length _ _ _ W L). auto. }
  set (vn := skipn (ct_nv C) xn) in *. set (vc := skipn (ct_nv C) xv) in *.
  set (qn := firstn (ct_nv C) xn) in *. set (qc := firstn (ct_nv C) xv) in *.
  assert (Lvn : length vn = ct_nv C) by (unfold vn; rewrite skipn_length; lia).
  assert (Lvc : length vc = ct_nv C) by (unfold vc; rewrite skipn_length; lia).
  assert (Lqn : length qn = ct_nv C) by (unfold qn; rewrite firstn_length; lia).
  assert (Lqc : length qc = ct_nv C) by (unfold qc; rewrite firstn_length; lia).
  assert (Bxi : below (nvars m) (xi ++ uv)).
  { apply below_app. split; auto. apply (below_gather _ idx xv); auto. }
  assert (Lxu : length (xi ++ uv) = ni) by (rewrite app_length; unfold ni; lia).
  destruct (net_step st ni _ _ _ _ (xi ++ uv) vt m m1 z be M H Bxi Lxu Vt Em) as (Z1 & _ & Nv & S1).
  assert (H1 : history st m1) by apply S1.
  assert (Bz : below (nvars m1) z).
  { subst z. unfold below. apply Forall_forall. intros i Hi. apply in_seq in Hi. lia. }
  assert (Up : forall l, below (nvars m) l -> below (nvars m1) l).
  { unfold below. intros l Hl. eapply Forall_impl; [|exact Hl]. cbv beta. intros. lia. }
  set (b := vsub (bias_of (last_layer (ct_net C))) ps) in *.
  assert (Lbb : length b = ct_nv C) by (unfold b; rewrite vsub_length; congruence).
  assert (We : forall k n, wfm n n (eyek n k)) by (intros; split; [apply eyek_length|apply wfm_eyek]).
  destruct (step_addM vt st [eye (ct_nv C); eyek (ct_nv C) (-1); map vneg Am] [vn; vc; z] SEq b m1)
    as (H2 & N2 & F2); auto.
  { discriminate. }
  { rewrite Lbb. cbn [combine]. unfold blocks_wf.
    constructor; [cbn; rewrite Lvn; apply We|]. constructor; [cbn; rewrite Lvc; apply We|].
    constructor; [|constructor]. cbn. destruct WA as [A1 A2].
    split; [rewrite map_length; auto|]. apply Forall_forall. intros x Hx.
    apply in_map_iff in Hx. destruct Hx as (y & <- & Hy). rewrite vneg_length.
    rewrite Forall_forall in A2. rewrite (A2 y Hy). subst z. rewrite seq_length. auto. }
  { cbn. rewrite app_nil_r. apply below_app. split; [apply Up; apply below_skipn; auto|].
    apply below_app. split; auto. apply Up; apply below_skipn; auto. }
  set (m2 := addMConstr [eye (ct_nv C); eyek (ct_nv C) (-1); map vneg Am] [vn; vc; z] SEq b m1) in *.
  destruct (step_addM vt st [eye (ct_nv C); eyek (ct_nv C) (-1); eyek (ct_nv C) (- dt / 2);
               eyek (ct_nv C) (- dt / 2)] [qn; qc; vn; vc] SEq (zeros (ct_nv C)) m2)
    as (H3 & N3 & F3); auto.
  { discriminate. }
  { rewrite zeros_length. cbn [combine]. unfold blocks_wf.
    constructor; [cbn; rewrite Lqn; apply We|]. constructor; [cbn; rewrite Lqc; apply We|].
    constructor; [cbn; rewrite Lvn; apply We|]. constructor; [cbn; rewrite Lvc; apply We|].
    constructor. }
  { rewrite N2. cbn. rewrite app_nil_r. apply below_app. split; [apply Up; apply below_firstn; auto|].
    apply below_app. split; [apply Up; apply below_firstn; auto|].
    apply below_app. split; apply Up; apply below_skipn; auto. }
  rewrite E in *.
  (* what the rows say once z holds the activations *)
  assert (X : forall sg, map sg z = concat (post_acts (hidden (ct_net C)) (map sg (xi ++ uv))) ->
    (in_box (xlo ++ tight_lo (ct_ulo C) alo) (xup ++ tight_up (ct_uup C) aup) (map sg (xi ++ uv)) /\
     sense_ok SEq (bsum (length b) (combine [eye (ct_nv C); eyek (ct_nv C) (-1); map vneg Am]
        [vn; vc; z]) sg) b /\
     sense_ok SEq (bsum (length (zeros (ct_nv C))) (combine [eye (ct_nv C); eyek (ct_nv C) (-1);
         eyek (ct_nv C) (- dt / 2); eyek (ct_nv C) (- dt / 2)] [qn; qc; vn; vc]) sg) (zeros (ct_nv C))
     <-> opt_box alo aup (map sg uv) /\ ctl_next C (map sg xv) (map sg uv) (map sg xn))).
  { intros sg Hz. rewrite Lbb, zeros_length. cbn [combine bsum sense_ok].
    unfold eye. rewrite Hz.
    assert (N1 : length (map sg vn) = ct_nv C) by (rewrite map_length; auto).
    assert (N4 : length (map sg vc) = ct_nv C) by (rewrite map_length; auto).
    assert (N5 : length (map sg qn) = ct_nv C) by (rewrite map_length; auto).
    assert (N6 : length (map sg qc) = ct_nv C) by (rewrite map_length; auto).
    assert (N7 : length (map sg (xi ++ uv)) = ni) by (rewrite map_length; auto).
    assert (N8 : length (map sg uv) = ct_nu C) by (rewrite map_length; auto).
    assert (Gx := gather_map sg _ _ _ G3).
    change (eyek (ct_nv C) 1) with (eye (ct_nv C)). rewrite !mv_eye by auto.
    rewrite !mv_eyek_neg by auto. rewrite !mv_eyek by auto.
    rewrite mv_map_vneg. specialize (F _ N7).
    set (a := mv Am (concat (post_acts (hidden (ct_net C)) (map sg (xi ++ uv))))) in *.
    assert (Na : length a = ct_nv C) by (unfold a; rewrite mv_length; apply WA).
    unfold b. rewrite residue_v_eq by auto. rewrite residue_q_eq by auto. rewrite F.
    rewrite map_app in *. rewrite in_box_app_iff.
    2:{ rewrite map_length, (gather_length _ _ _ G1). auto. }
    2:{ rewrite map_length, (gather_length _ _ _ G2). auto. }
    rewrite tight_box; try (unfold ct_nu, vec in *; congruence).
    2:{ intros a0 Ea. rewrite N8. auto. }
    2:{ intros a0 Ea. rewrite N8. auto. }
    rewrite (gather_box _ _ _ _ _ _ _ G1 G2 Gx).
    unfold ctl_next, confined, ctl_step. rewrite Ek, Gx, G4.
    fold ps. rewrite Eq. unfold midpoint.
    destruct (map_firstn_skipn sg (ct_nv C) xv) as [<- <-]. fold qc vc.
    rewrite N4, N6, Nat.eqb_refl. rewrite (forward_eval _ _ _ W) by auto.
    assert (En : map sg xn = map sg qn ++ map sg vn).
    { unfold qn, vn. rewrite <- map_app, firstn_skipn. auto. }
    set (nv := vsub (vadd (map sg vc) (net_eval (ct_net C) (map sg xi ++ map sg uv))) ps) in *.
    assert (Ne : length (net_eval (ct_net C) (map sg xi ++ map sg uv)) = ct_nv C)
      by (rewrite (net_eval_length _ _ _ W); auto).
    assert (Nn : length nv = ct_nv C).
    { unfold nv. rewrite vsub_length; rewrite vadd_length; congruence. }
    set (q' := vadd (map sg qc) (vscale (dt / 2) (vadd (map sg vc) nv))).
    assert (Ee : map sg vn = nv /\ map sg qn = vadd (map sg qc) (vscale (dt / 2) (vadd (map sg vc) (map sg vn))) <->
                 Some (q' ++ nv) = Some (map sg xn)).
    { rewrite En. split.
      - intros [Y1 Y2]. f_equal. rewrite Y2, Y1. reflexivity.
      - intros Y. apply Some_inj in Y. apply app_inj_len in Y.
        + destruct Y as [Y1 Y2]. split; [congruence|]. rewrite <- Y2. symmetry. exact Y1.
        + unfold q'. rewrite vadd_length; [congruence|].
          rewrite vscale_length, vadd_length; congruence. }
    rewrite <- Ee. tauto. }
  destruct S1 as (S11 & S12 & S13 & S14).
  split; [rewrite N3, N2; auto|]. split; [exact H3|]. split.
  - intros sg G. apply F3 in G. destruct G as [G R3]. apply F2 in G. destruct G as [G R2].
    destruct (S13 sg G) as (G0 & Ib & _ & _ & Hz). split; auto. apply (X sg Hz). auto.
  - intros sg G D.
    assert (LD : local m (fun sg => opt_box alo aup (map sg uv) /\
                ctl_next C (map sg xv) (map sg uv) (map sg xn))).
    { apply local_and; [apply (local_map m uv (opt_box alo aup)); auto|].
      apply (local3 m xv uv xn (ctl_next C)); auto. }
    assert (I0 : in_box (xlo ++ tight_lo (ct_ulo C) alo) (xup ++ tight_up (ct_uup C) aup)
                  (map sg (xi ++ uv))).
    { destruct D as (D1 & D2 & D3 & _). unfold confined in D2. rewrite Ek in D2.
      rewrite map_app. apply in_box_app_iff.
      { rewrite map_length, (gather_length _ _ _ G1). auto. }
      { rewrite map_length, (gather_length _ _ _ G2). auto. }
      split; [eapply gather_box; eauto; eapply gather_map; eauto|].
      assert (N8 : length (map sg uv) = ct_nu C) by (rewrite map_length; auto).
      apply tight_box; try (unfold ct_nu, vec in *; congruence); auto.
      - intros a0 Ea. rewrite N8. auto.
      - intros a0 Ea. rewrite N8. auto. }
    destruct (S14 sg G I0) as (s1 & Gs & Ag). exists s1. split; auto.
    destruct (S13 s1 Gs) as (_ & _ & _ & _ & Hz).
    destruct (proj2 (X s1 Hz) (LD sg s1 Ag D)) as (_ & R2 & R3).
    apply F3. split; auto. apply F2. auto.
Qed.

Lemma ctl_add_step : forall C st vt m m' xv xn uv alo aup r,
  ctl_built C -> vt <> VCont -> history st m ->
  below (nvars m) xv -> below (nvars m) xn -> below (nvars m) uv ->
  length xv = ct_nx C -> length xn = ct_nx C -> length uv = ct_nu C ->
  (forall a, alo = Some a -> length a = ct_nu C) -> (forall a, aup = Some a -> length a = ct_nu C) ->
  ctl_add_ret solve C xv xn uv alo aup vt m = Some (m', r) ->
  step vt st m m'
    (fun sg => opt_box alo aup (map sg uv) /\ ctl_next C (map sg xv) (map sg uv) (map sg xn))
    (fun sg => opt_box alo aup (map sg uv) /\ ctl_next C (map sg xv) (map sg uv) (map sg xn)).
Proof.
  intros C st vt m m' xv xn uv alo aup r Bt Vt H Bx Bn Bu Lx Ln Lu La Lb E.
  destruct (ct_kind C) as [|xe ue d|qe ue dt|qe ue dt idx] eqn:Ek;
    [| | |eapply ctl_residue_step; eauto];
    (unfold ctl_add_ret in E; rewrite Ek in E;
     destruct (ctl_mic solve C (tight_lo (ct_ulo C) alo) (tight_up (ct_uup C) aup)) as [[c B]|] eqn:Ec;
       [|discriminate];
     destruct (add_mic c (xv ++ uv) (Some xn) NewBinary vt m) as [[m1 z] be] eqn:Em;
     apply Some_inj in E; apply pair_equal_spec in E; destruct E as [-> _];
     eapply ctl_plain_step; eauto; rewrite Ek; exact I).
Qed.

Lemma ctl_forward_contract : forall st C, ctl_built C ->
  forward_contract st (ctl_fwd solve C) (ctl_next C).
Proof.
  intros st C Bt vt m m' xv xn uv alo aup r Vt H Bx Bn Bu Lx Ln Lu La Lb E.
  cbn [ctl_fwd f_add f_nx f_nu] in *.
  destruct (ctl_add_ret solve C xv xn uv (Some alo) (Some aup) vt m) as [[m1 r1]|] eqn:Ea; [|discriminate].
  apply Some_inj in E. apply pair_equal_spec in E. destruct E as [-> _].
  assert (S1 : step vt st m m'
    (fun sg => opt_box (Some alo) (Some aup) (map sg uv) /\ ctl_next C (map sg xv) (map sg uv) (map sg xn))
    (fun sg => opt_box (Some alo) (Some aup) (map sg uv) /\ ctl_next C (map sg xv) (map sg uv) (map sg xn))).
  { eapply ctl_add_step; eauto; intros a Ha; congruence. }
  eapply step_weaken; [exact S1| |].
  - intros sg _ [[D1 D2] D]. split; auto. split; intros l El; congruence.
  - intros sg _ [_ D]. exact D.
Qed.

(** The constraints can always be built when the bounds on the input are compatible. *)
Lemma ctl_add_total : solver_total solve -> forall C vt m xv xn uv alo aup,
  ctl_built C -> ctl_usable C -> length xv = ct_nx C ->
  (forall a, alo = Some a -> length a = ct_nu C) -> (forall a, aup = Some a -> length a = ct_nu C) ->
  vle (tight_lo (ct_ulo C) alo) (tight_up (ct_uup C) aup) ->
  ctl_add_ret solve C xv xn uv alo aup vt m <> None.
Proof.
  intros St C vt m xv xn uv alo aup Bt Us Lx La Lb Hv.
  destruct (ctl_built_facts _ Bt) as (Lx' & Lu' & Vx & _ & Kf).
  destruct (tight_length _ _ _ _ (ct_nu C) eq_refl Lu' La Lb) as [T1 T2].
  destruct Bt as (W & _). unfold kind_facts in Kf. unfold ctl_usable in Us.
  unfold ctl_add_ret, ctl_mic.
  assert (Tot : forall n lo up, x_size (ct_net C) = n -> length lo = n -> length up = n -> vle lo up ->
    exists c B out, output_constraint solve IA (ct_net C) lo up = Some (c, B, out) /\
      net_mic n (ct_net C) lo up c).
  { intros n lo up En L1 L2 V. rewrite En in W.
    destruct (output_constraint solve IA (ct_net C) lo up) as [[[c B] out]|] eqn:Eo.
    - exists c, B, out. split; auto. eapply output_constraint_mic; eauto.
    - apply (output_constraint_total solve Hsolve St n) in Eo; auto. tauto. }
  assert (Hbox : vle (ct_xlo C ++ tight_lo (ct_ulo C) alo) (ct_xup C ++ tight_up (ct_uup C) aup)).
  { apply Forall2_app; auto. }
  assert (B1 : length (ct_xlo C ++ tight_lo (ct_ulo C) alo) = (ct_nx C + ct_nu C)%nat)
    by (rewrite app_length; unfold ct_nx, vec in *; lia).
  assert (B2 : length (ct_xup C ++ tight_up (ct_uup C) aup) = (ct_nx C + ct_nu C)%nat)
    by (rewrite app_length; unfold ct_nx, vec in *; lia).
  destruct (ct_kind C) as [|xe ue d|qe ue dt|qe ue dt idx].
  - destruct Kf as [K1 K2].
    destruct (Tot _ _ _ K1 B1 B2 Hbox) as (c & B & out & -> & _).
    destruct (add_mic c (xv ++ uv) (Some xn) NewBinary vt m) as [[? ?] ?]. discriminate.
  - destruct Kf as [K1 K2].
    destruct (Tot _ _ _ K1 B1 B2 Hbox) as (c & B & out & -> & M).
    destruct (nm_C _ _ _ _ _ M) as [EC _]. unfold add_Cout. rewrite EC.
    destruct d; cbn [Cout with_output];
      match goal with |- context [add_mic ?c ?a ?b ?d ?e ?f] =>
        destruct (add_mic c a b d e f) as [[? ?] ?] end; discriminate.
  - destruct Kf as [K1 K2].
    destruct (Tot _ _ _ K1 B1 B2 Hbox) as (c & B & out & -> & M).
    destruct (net_affine _ _ _ _ _ M) as (Am & EA & WA & EC & LC & F).
    destruct (nm_aout _ _ _ _ _ M) as [Ei Eb]. rewrite Ei, Eb, EA, EC, Us, Nat.eqb_refl.
    match goal with |- context [add_mic ?c ?a ?b ?d ?e ?f] =>
        destruct (add_mic c a b d e f) as [[? ?] ?] end. discriminate.
  - destruct Kf as (K1 & K2 & K3 & _ & K5 & _). destruct Us as [Us Ui].
    apply in_box_lengths in K5.
    assert (G : forall {A} (l : list A), length l = ct_nx C -> exists r, gather idx l = Some r).
    { intros A l Ll. apply gather_total. rewrite Ll. auto. }
    destruct (G _ (ct_xlo C) eq_refl) as [xlo G1]. destruct (G _ (ct_xup C) Lx') as [xup G2].
    destruct (G _ xv Lx) as [xi G3].
    destruct (G _ (qe ++ zeros (ct_nv C))) as [xei G4]; [unfold ct_nx, vec in *; lia|].
    rewrite G1, G2, G3, G4.
    assert (C1 := gather_length _ _ _ G1). assert (C2 := gather_length _ _ _ G2).
    destruct (Tot _ (xlo ++ tight_lo (ct_ulo C) alo) (xup ++ tight_up (ct_uup C) aup) K1)
      as (c & B & out & -> & M).
    { rewrite app_length; unfold vec in *; lia. }
    { rewrite app_length; unfold vec in *; lia. }
    { apply Forall2_app; auto.
      apply (gather_spec _ _ _ 0) in G1. apply (gather_spec _ _ _ 0) in G2.
      destruct G1 as [-> _]. destruct G2 as [-> _].
      clear - Vx Ui Lx'. induction idx as [|i idx IH]; simpl; constructor.
      - apply nth_vle; auto. inversion Ui; auto.
      - apply IH. inversion Ui; auto. }
    destruct (add_mic c (xi ++ uv) None NewBinary vt m) as [[m1 z] be].
    destruct (net_affine _ _ _ _ _ M) as (Am & EA & WA & EC & LC & F).
    destruct (nm_aout _ _ _ _ _ M) as [Ei Eb]. rewrite Ei, Eb, EA, EC, Us, Nat.eqb_refl. discriminate.
Qed.

End Solver.

(** ** Hybrid systems as forward systems *)

Lemma hybrid_forward_contract : forall bounds bounded nx nu h st f, bounds_valid bounds ->
  built bounds bounded nx nu h -> hybrid_fwd h = Some f -> f_nx f = nx -> f_nu f = nu ->
  forward_contract st f (hybrid_next h).
Proof.
  intros bounds bounded nx nu h st f Bv Bt Ef Nx Nu vt m m' xv xn uv alo aup r Vt H Bx Bn Bu Lx Ln Lu La Lb E.
  unfold hybrid_fwd in Ef.
  destruct (all_some (map fin (firstn (h_nx h) (lo_all h)))) as [lo|]; [|discriminate].
  destruct (all_some (map fin (firstn (h_nx h) (up_all h)))) as [up|]; [|discriminate].
  apply Some_inj in Ef. subst f. cbn [f_nx f_nu f_add] in *.
  destruct (hybrid_add_dynamics h xv xn uv vt m) as [m1|] eqn:Ea; [|discriminate].
  apply Some_inj in E. apply pair_equal_spec in E. destruct E as [-> _].
  assert (S1 : step vt st m m' (fun sg => hybrid_next h (map sg xv) (map sg uv) (map sg xn))
                  (fun sg => hybrid_next h (map sg xv) (map sg uv) (map sg xn))).
  { eapply (hybrid_dynamics_step bounds bounded nx nu); eauto; try congruence. apply below_app; auto. }
  eapply step_weaken; [exact S1| |]; tauto.
Qed.
