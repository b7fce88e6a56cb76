(** The linear approximation of a step of the SLIP. *)

Require Import Reals List Lia Lra Bool Arith.
Require Import Verif.Vec Verif.VecFacts Verif.ProofUtils Verif.ModelSlip Verif.SpecSlip Verif.ProofSlip
  Verif.ProofSlipChain Verif.ProofSlipEx Verif.ModelSlipHybrid Verif.SpecSlipHybrid.
Import ListNotations.
Open Scope R_scope.

Lemma someq : forall {A : Type} (x y : A), Some x = Some y -> x = y.
Proof. congruence. Qed.

(** ** Shapes *)
Lemma td_shape : forall p apex a td, apex_to_touchdown_gradient p apex a = Some td ->
  length (td_x td) = 4%nat /\ exists d0 d1 d2, nth 0 (td_dx_dapex td) [] = [d0; d1; d2].
Proof.
  intros p apex a td E. unfold apex_to_touchdown_gradient in E.
  destruct (time_to_touchdown p [at_ apex 0; at_ apex 1; at_ apex 2; 0] (mkStone NInf PInf 0) a); try discriminate.
  apply someq in E. subst td. cbn. split; eauto.
Qed.
Lemma aa_shape : forall p ode apex a o, apex_to_apex_gradient p ode apex a = Some o ->
  length (aa_dx_dapex o) = 3%nat /\ length (aa_dx_dangle o) = 3%nat /\ length (aa_x o) = 3%nat /\
  length (aa_lo_dapex o) = 4%nat /\ length (aa_lo_dangle o) = 4%nat /\ length (aa_lo o) = 4%nat /\
  0 <= nth 3 (aa_lo o) 0.
Proof.
  intros p ode apex a o E. unfold apex_to_apex_gradient in E.
  destruct (apex_to_touchdown_gradient p apex a) as [td|]; [|discriminate].
  destruct (touchdown_transition_gradient p (td_x td) a) as [po pa].
  destruct (touchdown_to_liftoff_gradient p ode (touchdown_transition p (td_x td) a)) as [lo|]; [|discriminate].
  destruct (liftoff_to_apex_gradient p (liftoff_transition p (lo_x lo))) as [ap|] eqn:Eap; [|discriminate].
  unfold liftoff_to_apex_gradient in Eap.
  destruct (Rltb (at_ (liftoff_transition p (lo_x lo)) 3) 0) eqn:Ev; [discriminate|].
  unfold Rltb in Ev. destruct (Rlt_dec (at_ (liftoff_transition p (lo_x lo)) 3) 0) as [|n]; [discriminate|].
  apply someq in Eap. apply someq in E. subst o ap.
  cbn [aa_dx_dapex aa_dx_dangle aa_x aa_lo_dapex aa_lo_dangle aa_lo ap_dx ap_x].
  unfold mm, mv. rewrite !map_length. cbn [length liftoff_transition_gradient].
  repeat (split; [reflexivity|]). unfold at_ in n. lra.
Qed.
Lemma aa_td : forall p ode apex a o, apex_to_apex_gradient p ode apex a = Some o ->
  exists td, apex_to_touchdown_gradient p apex a = Some td.
Proof.
  intros p ode apex a o E. unfold apex_to_apex_gradient in E.
  destruct (apex_to_touchdown_gradient p apex a) as [td|]; [eauto|discriminate].
Qed.

(** ** The next apex is that of the apex map *)
Lemma td_above : forall p apex a td, apex_to_touchdown_gradient p apex a = Some td ->
  0 <= nth 1 apex 0 - l0 p * cos a.
Proof.
  intros p apex a td E. unfold apex_to_touchdown_gradient, time_to_touchdown, at_ in E.
  cbn [nth stone_height] in E. unfold Rltb in E.
  destruct (Rlt_dec (nth 1 apex 0 - l0 p * cos a) 0); [discriminate|lra].
Qed.
Lemma fall_sqrt : forall p z a, 0 < grav p -> 0 <= z - l0 p * cos a ->
  sqrt (2 * (z - l0 p * cos a) / grav p) = fall p z a.
Proof.
  intros p z a G H. unfold fall. apply sqrt_lem_1.
  - apply Rmult_le_pos; [lra|]. left. apply Rinv_0_lt_compat. auto.
  - apply Rmult_le_pos; [apply sqrt_pos|]. left. apply Rinv_0_lt_compat. auto.
  - assert (S : sqrt (2 * grav p * (z - l0 p * cos a)) * sqrt (2 * grav p * (z - l0 p * cos a))
              = 2 * grav p * (z - l0 p * cos a)).
    { apply sqrt_sqrt. apply Rmult_le_pos; lra. }
    transitivity (sqrt (2 * grav p * (z - l0 p * cos a)) * sqrt (2 * grav p * (z - l0 p * cos a)) / (grav p * grav p)).
    { field. lra. }
    rewrite S. field. lra.
Qed.
Lemma legs : forall v a, ~ (0 < v /\ a < 0) /\ ~ (v < 0 /\ 0 < a) ->
  andb (Rltb 0 v) (Rltb a 0) = false /\ andb (Rltb v 0) (Rltb 0 a) = false.
Proof.
  intros v a [H1 H2]. unfold Rltb.
  destruct (Rlt_dec 0 v), (Rlt_dec a 0), (Rlt_dec v 0), (Rlt_dec 0 a); cbn; try tauto; split; auto.
Qed.

Lemma apex_map_gradient : forall p ode apex a o, 0 < grav p -> leg_forward apex a ->
  apex_to_apex_gradient p ode apex a = Some o ->
  apex_map p (stance_of ode) (nth 0 apex 0) (nth 1 apex 0) (nth 2 apex 0) a
  = Some (nth 0 (aa_x o) 0, nth 1 (aa_x o) 0, nth 2 (aa_x o) 0, aa_t o).
Proof.
  intros p ode apex a o G Lg E. destruct (legs _ _ Lg) as [L1 L2].
  unfold apex_to_apex_gradient in E.
  destruct (apex_to_touchdown_gradient p apex a) as [td|] eqn:Etd; [|discriminate].
  assert (H := td_above _ _ _ _ Etd).
  destruct (touchdown_value p apex a G H) as (td' & E' & Tt & Tx). rewrite Etd in E'. apply someq in E'. subst td'.
  destruct (touchdown_transition_gradient p (td_x td) a) as [po pa].
  unfold touchdown_to_liftoff_gradient in E.
  unfold apex_map. rewrite L1, L2. unfold Rltb at 1.
  destruct (Rlt_dec (nth 1 apex 0 - l0 p * cos a) 0); [lra|].
  rewrite (fall_sqrt p _ a G H). rewrite <- Tx. unfold stance_of.
  destruct (ode (touchdown_transition p (td_x td) a)) as [[[z T] M]|]; [|discriminate].
  cbv zeta in *. cbn [lo_x lo_dx lo_dt lo_t] in E.
  destruct (liftoff_to_apex_gradient p (liftoff_transition p z)) as [ap|] eqn:Eap; [|discriminate].
  unfold liftoff_to_apex_gradient in Eap.
  destruct (Rltb (at_ (liftoff_transition p z) 3) 0); [discriminate|].
  apply someq in Eap. apply someq in E. subst o ap. cbn [aa_x aa_t ap_x ap_t nth]. rewrite Tt.
  match goal with |- Some (_, ?x, _, _) = Some (_, ?y, _, _) => replace x with y by (field; lra) end.
  reflexivity.
Qed.

(** ** The value at the point *)
Lemma list3 : forall (s : vec), length s = 3%nat -> s = [nth 0 s 0; nth 1 s 0; nth 2 s 0].
Proof. intros [|a [|b [|c [|]]]] H; try discriminate; reflexivity. Qed.

Lemma approx_value : forall p ode apex st a o, 0 < grav p -> length apex = 3%nat -> leg_forward apex a ->
  apex_map_linear_approximation p ode apex st a = Some o ->
  hop_to p (stance_of ode) (stone_height st) apex a = Some (affine_hop o apex a).
Proof.
  intros p ode apex st a o G La Lg E. unfold apex_map_linear_approximation in E.
  destruct (negb (can_touch_stepping_stone p [at_ apex 0; at_ apex 1; at_ apex 2; 0] st a)); [discriminate|].
  destruct (apex_to_touchdown_gradient p _ a) as [td|] eqn:Etd in E; [|discriminate].
  destruct (apex_to_apex_gradient p ode _ a) as [g|] eqn:Eg in E; [|discriminate].
  apply someq in E. subst o. unfold hop_to, affine_hop. cbn [ax_A ax_B ax_c ax_at ax_bt ax_ct].
  assert (Q := apex_map_gradient p ode [at_ apex 0; at_ apex 1 - stone_height st; at_ apex 2] a g G Lg Eg). unfold at_ in Q. cbn [nth] in Q. rewrite Q. clear Q.
  destruct (aa_shape _ _ _ _ _ Eg) as (S1 & S2 & S3 & _).
  f_equal. set (m := mv (aa_dx_dapex g) apex).
  assert (Lm : length m = 3%nat) by (unfold m, mv; rewrite map_length; auto).
  rewrite (list3 _ Lm), (list3 _ S2), (list3 _ S3).
  cbn [vadd vsub vscale map map2 app nth].
  assert (Cons : forall (x y : R) u v, x = y -> u = v -> x :: u = y :: v) by congruence.
  repeat (apply Cons; [ring|]). reflexivity.
Qed.

(** The approximation exists whenever the step lands on the stone and reaches the next apex. *)
Lemma approx_defined : forall p ode apex st a v, 0 < grav p -> length apex = 3%nat ->
  can_touch_stepping_stone p [nth 0 apex 0; nth 1 apex 0; nth 2 apex 0; 0] st a = true ->
  hop_to p (stance_of ode) (stone_height st) apex a = Some v ->
  apex_map_linear_approximation p ode apex st a <> None.
Proof.
  intros p ode apex st a v G La Ct Hh. unfold apex_map_linear_approximation. unfold at_ in *. rewrite Ct. cbn [negb].
  unfold hop_to, apex_map in Hh.
  destruct (Rltb (nth 1 apex 0 - stone_height st - l0 p * cos a) 0) eqn:E0; [discriminate|].
  destruct (Rltb 0 (nth 2 apex 0) && Rltb a 0)%bool; [discriminate|].
  destruct (Rltb (nth 2 apex 0) 0 && Rltb 0 a)%bool; [discriminate|].
  unfold Rltb in E0. destruct (Rlt_dec (nth 1 apex 0 - stone_height st - l0 p * cos a) 0) as [|n]; [discriminate|].
  set (x := [nth 0 apex 0; nth 1 apex 0 - stone_height st; nth 2 apex 0]).
  assert (H : 0 <= nth 1 x 0 - l0 p * cos a) by (cbn; lra).
  destruct (touchdown_value p x a G H) as (td & Etd & Tt & Tx).
  rewrite (fall_sqrt p _ a G) in Hh by lra.
  cbv zeta in Hh.
  change [nth 0 apex 0 + nth 2 apex 0 * fall p (nth 1 apex 0 - stone_height st) a; l0 p * cos a; nth 2 apex 0;
          - grav p * fall p (nth 1 apex 0 - stone_height st) a]
    with [nth 0 x 0 + nth 2 x 0 * fall p (nth 1 x 0) a; l0 p * cos a; nth 2 x 0; - grav p * fall p (nth 1 x 0) a] in Hh.
  rewrite <- Tx in Hh. unfold apex_to_apex_gradient. rewrite Etd.
  destruct (touchdown_transition_gradient p (td_x td) a) as [po pa].
  unfold touchdown_to_liftoff_gradient, stance_of in *.
  destruct (ode (touchdown_transition p (td_x td) a)) as [[[z T] M]|]; [|discriminate].
  cbn [lo_x]. unfold liftoff_to_apex_gradient.
  destruct (Rltb (at_ (liftoff_transition p z) 3) 0); discriminate.
Qed.

(** Legs that point backwards are approximated although the apex map has no value for them. *)
Lemma backward_leg : forall p stance apex st a,
  0 < nth 2 apex 0 /\ a < 0 \/ nth 2 apex 0 < 0 /\ 0 < a ->
  hop_to p stance (stone_height st) apex a = None.
Proof.
  intros p stance apex st a H. unfold hop_to, apex_map.
  destruct (Rltb (nth 1 apex 0 - stone_height st - l0 p * cos a) 0); auto.
  unfold Rltb. destruct H as [[H1 H2]|[H1 H2]].
  - destruct (Rlt_dec 0 (nth 2 apex 0)); [|lra]. destruct (Rlt_dec a 0); [|lra]. reflexivity.
  - destruct (Rlt_dec 0 (nth 2 apex 0)); [lra|]. cbn [andb].
    destruct (Rlt_dec (nth 2 apex 0) 0); [|lra]. destruct (Rlt_dec 0 a); [|lra]. reflexivity.
Qed.

(** ** Derivatives *)
Lemma shift_curve : forall c x d h, curve 3 c x d ->
  curve 3 (fun t => [nth 0 (c t) 0; nth 1 (c t) 0 - h; nth 2 (c t) 0]) [nth 0 x 0; nth 1 x 0 - h; nth 2 x 0] d.
Proof.
  intros c x d h (C0 & Ld & Lc & D). split; [rewrite C0; reflexivity|]. split; auto. split; [reflexivity|].
  intros i Hi. destruct i as [|[|[|]]]; try lia; cbn [nth]; try (apply D; lia).
  eapply d_eq; [repeat dd; apply D; lia|]. ring.
Qed.

Lemma vle_entries : forall a b, length a = length b ->
  (vle a b <-> forall i, (i < length b)%nat -> nth i a 0 <= nth i b 0).
Proof.
  unfold vle. induction a as [|x a IH]; intros [|y b] L; try discriminate.
  - split; [intros _ i Hi; cbn in Hi; lia|constructor].
  - injection L as L. split.
    + intros F. inversion F; subst. intros [|i] Hi; [auto|]. cbn [nth length] in *. apply IH; auto. lia.
    + intros F. constructor; [apply (F 0%nat); cbn; lia|]. apply IH; auto. intros i Hi. apply (F (S i)). cbn. lia.
Qed.
Lemma all_iff : forall k (P Q : nat -> Prop), (forall i, (i < k)%nat -> (P i <-> Q i)) ->
  ((forall i, (i < k)%nat -> P i) <-> (forall i, (i < k)%nat -> Q i)).
Proof. intros k P Q H. split; intros F i Hi; apply H; auto. Qed.
Lemma le_sub : forall x y z : R, z = y - x -> (x <= y <-> 0 <= z).
Proof. intros. subst. lra. Qed.

Section Point.
Variable p : slip.
Variable ode : vec -> option (vec * R * mat).
Variable apex : vec.
Variable st : stone.
Variable a : R.
Variable td : to_touchdown.
Variable z : vec.
Variable T : R.
Variable M : mat.
Variable psi : R -> vec -> vec.
Hypothesis G : 0 < grav p.
Hypothesis La : length apex = 3%nat.
Let h := stone_height st.
Let low := [nth 0 apex 0; nth 1 apex 0 - h; nth 2 apex 0].
Hypothesis Ab : h < foot_z p apex a.
Hypothesis Etd : apex_to_touchdown_gradient p low a = Some td.
Hypothesis Sf : stance_flow p ode (touchdown_transition p (td_x td) a) z T M psi.
Hypothesis V : 0 < nth 3 (liftoff_transition p z) 0.
Variable o : approx.
Hypothesis Eo : apex_map_linear_approximation p ode apex st a = Some o.

Lemma point_unfold : exists g, apex_to_apex_gradient p ode low a = Some g /\
  ax_A o = aa_dx_dapex g /\ ax_B o = aa_dx_dangle g /\ ax_at o = aa_dt_dapex g /\ ax_bt o = aa_dt_dangle g /\
  jacobian2 3 8 (next_apex_outputs p ode) low a
    (aa_dx_dapex g ++ [aa_dt_dapex g] ++ aa_lo_dapex g) (aa_dx_dangle g ++ [aa_dt_dangle g] ++ aa_lo_dangle g).
Proof.
  assert (E := Eo). unfold apex_map_linear_approximation in E.
  destruct (negb (can_touch_stepping_stone p [at_ apex 0; at_ apex 1; at_ apex 2; 0] st a)); [discriminate|].
  change [at_ apex 0; at_ apex 1 - stone_height st; at_ apex 2] with low in E. rewrite Etd in E.
  destruct (apex_to_apex_gradient p ode low a) as [g|] eqn:Eg; [|discriminate].
  exists g. split; auto. apply someq in E. rewrite <- E. cbn [ax_A ax_B ax_at ax_bt].
  repeat (split; [reflexivity|]).
  apply (apex_to_apex_jacobian p ode low a td z T M psi g G); auto.
  unfold low. cbn [nth]. unfold foot_z in Ab. lra.
Qed.

Lemma hop_gradient : 0 < nth 2 apex 0 * a ->
  jacobian2 3 4 (hop_to p (stance_of ode) h) apex a (ax_A o ++ [ax_at o]) (ax_B o ++ [ax_bt o]).
Proof.
  intros Hs. destruct point_unfold as (g & Eg & -> & -> & -> & -> & (W & Lw & J)).
  destruct (aa_shape _ _ _ _ _ Eg) as (S1 & S2 & S3 & S4 & S5 & S6 & _).
  split; [|split].
  - destruct W as [W1 W2]. split; [rewrite app_length, S1; reflexivity|].
    rewrite !Forall_app in W2. apply Forall_app. tauto.
  - rewrite app_length, S2. reflexivity.
  - intros c d al b C A D. assert (Cs := shift_curve c apex d h C).
    destruct (J _ _ al b Cs A D) as [[e1 [He1 N1]] D1].
    destruct (curve_at _ _ _ _ 2 C ltac:(lia)) as [D2 E2].
    assert (Dm : derivable_pt_lim (fun t => nth 2 (c t) 0 * al t) 0 (nth 2 d 0 * a + nth 2 apex 0 * b)).
    { eapply d_eq; [repeat dd|]. cbv beta. rewrite E2, A. ring. }
    destruct (near_pos _ _ Dm) as [e2 [He2 P2]]; [cbv beta; rewrite E2, A; auto|].
    assert (Val : forall t, Rabs t < e1 -> Rabs t < e2 ->
      exists g', next_apex_outputs p ode [nth 0 (c t) 0; nth 1 (c t) 0 - h; nth 2 (c t) 0] (al t)
        = Some (aa_x g' ++ [aa_t g'] ++ aa_lo g') /\ length (aa_x g') = 3%nat /\
      hop_to p (stance_of ode) h (c t) (al t)
        = Some [nth 0 (aa_x g') 0; nth 1 (aa_x g') 0 + h; nth 2 (aa_x g') 0; aa_t g']).
    { intros t H1 H2. specialize (N1 t H1). specialize (P2 t H2). cbv beta in P2.
      unfold next_apex_outputs in *.
      destruct (apex_to_apex_gradient p ode [nth 0 (c t) 0; nth 1 (c t) 0 - h; nth 2 (c t) 0] (al t)) as [g'|] eqn:E';
        [|congruence].
      destruct (aa_shape _ _ _ _ _ E') as (_ & _ & S3' & _).
      exists g'. split; [reflexivity|]. split; auto.
      assert (Lf : leg_forward [nth 0 (c t) 0; nth 1 (c t) 0 - h; nth 2 (c t) 0] (al t)).
      { split; intros [K1 K2]; cbn [nth] in K1; nra. }
      assert (Q := apex_map_gradient p ode _ _ _ G Lf E'). cbn [nth] in Q.
      unfold hop_to. rewrite Q. reflexivity. }
    set (e := Rmin e1 e2). assert (He : 0 < e) by (apply Rmin_pos; auto).
    assert (Le : e <= e1 /\ e <= e2) by (split; [apply Rmin_l|apply Rmin_r]).
    split.
    + exists e. split; auto. intros t Ht. destruct (Val t) as (g' & _ & _ & ->); try lra. discriminate.
    + intros i Hi.
      assert (Sm : forall t, Rabs (t - 0) < e -> Rabs t < e1 /\ Rabs t < e2).
      { intros t. replace (t - 0) with t by ring. lra. }
      assert (Row : forall k, (k < 4)%nat ->
        derivable_pt_lim (fun t => entry_of (next_apex_outputs p ode
          [nth 0 (c t) 0; nth 1 (c t) 0 - h; nth 2 (c t) 0] (al t)) k) 0
          (dot (nth k (aa_dx_dapex g ++ [aa_dt_dapex g]) []) d + nth k (aa_dx_dangle g ++ [aa_dt_dangle g]) 0 * b)).
      { intros k Hk. eapply d_eq; [apply (D1 k); lia|].
        rewrite !app_assoc. rewrite !(app_nth1 (_ ++ [_])) by (rewrite app_length, ?S1, ?S2; cbn; lia). reflexivity. }
      destruct (Nat.eq_dec i 1) as [->|n1].
      * apply (d_near (fun t => entry_of (next_apex_outputs p ode
          [nth 0 (c t) 0; nth 1 (c t) 0 - h; nth 2 (c t) 0] (al t)) 1 + h) _ 0 _ e He).
        { intros t Ht. destruct (Sm t Ht) as [H1 H2]. destruct (Val t H1 H2) as (g' & -> & L' & ->).
          cbn [entry_of nth]. rewrite app_nth1 by lia. reflexivity. }
        eapply d_eq; [apply (derivable_pt_lim_plus _ (fun _ => h)); [apply (Row 1%nat); lia|apply derivable_pt_lim_const]|].
        ring.
      * apply (d_near (fun t => entry_of (next_apex_outputs p ode
          [nth 0 (c t) 0; nth 1 (c t) 0 - h; nth 2 (c t) 0] (al t)) i) _ 0 _ e He).
        { intros t Ht. destruct (Sm t Ht) as [H1 H2]. destruct (Val t H1 H2) as (g' & -> & L' & ->).
          cbn [entry_of]. rewrite (list3 _ L'). destruct i as [|[|[|[|]]]]; try lia; reflexivity. }
        apply Row. auto.
Qed.

(** ** The conditions *)
Lemma td_margins_jacobian :
  jacobian2 3 5 (touchdown_outputs p) low a (td_dx_dapex td ++ [td_dt_dapex td]) (td_dx_dangle td ++ [td_dt_dangle td]).
Proof. apply apex_touchdown_gradient; auto. unfold low. cbn [nth]. unfold foot_z in Ab. lra. Qed.

Lemma margins_jacobian : exists m Gm hm, margins p ode st apex a = Some m /\
  jacobian2 3 (length (ax_q o)) (margins p ode st) apex a Gm hm /\ length m = length (ax_q o) /\
  forall x u, length x = 3%nat ->
    (vle (mv (ax_P o) (x ++ [u])) (ax_q o) <->
     forall i, (i < length (ax_q o))%nat ->
       0 <= nth i m 0 + dot (nth i Gm []) (vsub x apex) + nth i hm 0 * (u - a)).
Proof.
  destruct point_unfold as (g & Eg & _ & _ & _ & _ & (W & Lw & J)).
  destruct (aa_shape _ _ _ _ _ Eg) as (S1 & S2 & S3 & S4 & S5 & S6 & S7).
  destruct td_margins_jacobian as (Wt & Lt & Jt).
  destruct (td_shape _ _ _ _ Etd) as (Lx & t0 & t1 & t2 & Et).
  assert (Lrow : length (nth 3 (aa_lo_dapex g) []) = 3%nat).
  { destruct W as [_ W]. rewrite !Forall_app in W. destruct W as (_ & _ & W). rewrite Forall_forall in W.
    apply W. apply nth_In. lia. }
  assert (El : exists r0 r1 r2, nth 3 (aa_lo_dapex g) [] = [r0; r1; r2]).
  { rewrite (list3 _ Lrow). eauto. }
  destruct El as (r0 & r1 & r2 & El).
  assert (Ltd : length (td_dx_dapex td) = 4%nat).
  { destruct Wt as [Wt _]. rewrite app_length in Wt. cbn [length] in Wt. lia. }
  assert (Lta : length (td_dx_dangle td) = 4%nat).
  { rewrite app_length in Lt. cbn [length] in Lt. lia. }
  assert (E := Eo). unfold apex_map_linear_approximation in E.
  destruct (negb (can_touch_stepping_stone p [at_ apex 0; at_ apex 1; at_ apex 2; 0] st a)); [discriminate|].
  change [at_ apex 0; at_ apex 1 - stone_height st; at_ apex 2] with low in E. rewrite Etd, Eg in E.
  apply someq in E.
  set (m := [foot_z p apex a - h; nth 3 (aa_lo g) 0]
            ++ match stone_left st with Fin l => [foot_x p (td_x td) a - l] | _ => [] end
            ++ match stone_right st with Fin r => [r - foot_x p (td_x td) a] | _ => [] end).
  set (Gm := [[0; 1; 0]; [r0; r1; r2]]
            ++ match stone_left st with Fin l => [[t0; t1; t2]] | _ => [] end
            ++ match stone_right st with Fin r => [[- t0; - t1; - t2]] | _ => [] end).
  set (ft := nth 0 (td_dx_dangle td) 0 + l0 p * cos a).
  set (hm := [l0 p * sin a; nth 3 (aa_lo_dangle g) 0]
            ++ match stone_left st with Fin l => [ft] | _ => [] end
            ++ match stone_right st with Fin r => [- ft] | _ => [] end).
  exists m, Gm, hm. split; [|split; [|split]].
  - unfold margins. change [nth 0 apex 0; nth 1 apex 0 - stone_height st; nth 2 apex 0] with low.
    rewrite Etd, Eg. reflexivity.
  - assert (Lq : length (ax_q o) = length Gm).
    { rewrite <- E. cbn [ax_q]. unfold Gm. rewrite map_length, !app_length.
      destruct (stone_left st), (stone_right st); reflexivity. }
    rewrite Lq. split; [split; [reflexivity|]|split].
    + unfold Gm. destruct (stone_left st), (stone_right st); cbn [app]; repeat constructor.
    + unfold hm, Gm. rewrite !app_length. destruct (stone_left st), (stone_right st); reflexivity.
    + intros c d al b C A D. assert (Cs := shift_curve c apex d h C).
      destruct (J _ _ al b Cs A D) as [[e1 [He1 N1]] D1].
      destruct (Jt _ _ al b Cs A D) as [[e2 [He2 N2]] D2].
      destruct (curve_at _ _ _ _ 1 C ltac:(lia)) as [Dc1 Ec1].
      assert (Ld : length d = 3%nat) by apply C.
      set (low_ := fun t => [nth 0 (c t) 0; nth 1 (c t) 0 - h; nth 2 (c t) 0]) in *.
      assert (Val : forall t, Rabs t < e1 -> Rabs t < e2 -> exists td' g',
        touchdown_outputs p (low_ t) (al t) = Some (td_x td' ++ [td_t td']) /\ length (td_x td') = 4%nat /\
        next_apex_outputs p ode (low_ t) (al t) = Some (aa_x g' ++ [aa_t g'] ++ aa_lo g') /\
        length (aa_x g') = 3%nat /\
        margins p ode st (c t) (al t) = Some ([foot_z p (c t) (al t) - h; nth 3 (aa_lo g') 0]
            ++ match stone_left st with Fin l => [foot_x p (td_x td') (al t) - l] | _ => [] end
            ++ match stone_right st with Fin r => [r - foot_x p (td_x td') (al t)] | _ => [] end)).
      { intros t H1 H2. specialize (N1 t H1). specialize (N2 t H2).
        change [nth 0 (c t) 0; nth 1 (c t) 0 - h; nth 2 (c t) 0] with (low_ t) in *.
        unfold next_apex_outputs, touchdown_outputs in *. unfold margins.
        change [nth 0 (c t) 0; nth 1 (c t) 0 - stone_height st; nth 2 (c t) 0] with (low_ t).
        destruct (apex_to_apex_gradient p ode (low_ t) (al t)) as [g'|] eqn:E1; [|congruence].
        destruct (apex_to_touchdown_gradient p (low_ t) (al t)) as [td'|] eqn:E2; [|congruence].
        exists td', g'. split; auto. split; [apply (td_shape _ _ _ _ E2)|]. split; auto.
        split; [apply (aa_shape _ _ _ _ _ E1)|]. reflexivity. }
      set (e := Rmin e1 e2). assert (He : 0 < e) by (apply Rmin_pos; auto).
      assert (Le : e <= e1 /\ e <= e2) by (split; [apply Rmin_l|apply Rmin_r]).
      split.
      { exists e. split; auto. intros t Ht. destruct (Val t) as (td' & g' & _ & _ & _ & _ & ->); try lra. discriminate. }
      assert (Sm : forall t, Rabs (t - 0) < e -> Rabs t < e1 /\ Rabs t < e2).
      { intros t. replace (t - 0) with t by ring. lra. }
      assert (K0 : derivable_pt_lim (fun t => foot_z p (c t) (al t) - h) 0 (dot [0; 1; 0] d + l0 p * sin a * b)).
      { unfold foot_z. eapply d_eq; [repeat dd|]. cbv beta. rewrite A, (list3 d Ld). cbn [dot nth]. ring. }
      assert (K1 : derivable_pt_lim (fun t => entry_of (next_apex_outputs p ode (low_ t) (al t)) 7) 0
                     (dot [r0; r1; r2] d + nth 3 (aa_lo_dangle g) 0 * b)).
      { eapply d_eq; [apply (D1 7%nat); lia|].
        rewrite !(app_nth2 (aa_dx_dapex g)), !(app_nth2 (aa_dx_dangle g)) by lia. rewrite S1, S2.
        cbn [Nat.sub app nth]. rewrite El. reflexivity. }
      assert (K2 : derivable_pt_lim (fun t => entry_of (touchdown_outputs p (low_ t) (al t)) 0 + l0 p * sin (al t)) 0
                     (dot [t0; t1; t2] d + ft * b)).
      { eapply d_eq; [apply (derivable_pt_lim_plus _ (fun t => l0 p * sin (al t))); [apply (D2 0%nat); lia|repeat dd]|].
        cbv beta. rewrite !app_nth1 by lia. rewrite Et, A. unfold ft. ring. }
      assert (Foot : forall td', length (td_x td') = 4%nat -> forall t,
        nth 0 (td_x td' ++ [td_t td']) 0 + l0 p * sin (al t) = foot_x p (td_x td') (al t)).
      { intros td' L t. rewrite app_nth1 by lia. reflexivity. }
      intros i Hi.
      destruct i as [|[|i]].
      * apply (d_near (fun t => foot_z p (c t) (al t) - h) _ 0 _ e He); [|exact K0].
        intros t Ht. destruct (Sm t Ht) as [H1 H2]. destruct (Val t H1 H2) as (td' & g' & _ & _ & _ & _ & ->). reflexivity.
      * apply (d_near (fun t => entry_of (next_apex_outputs p ode (low_ t) (al t)) 7) _ 0 _ e He); [|exact K1].
        intros t Ht. destruct (Sm t Ht) as [H1 H2]. destruct (Val t H1 H2) as (td' & g' & _ & _ & -> & L' & ->).
        cbn [entry_of]. rewrite app_nth2 by lia. rewrite L'. reflexivity.
      * assert (KL : forall l, derivable_pt_lim (fun t => entry_of (touchdown_outputs p (low_ t) (al t)) 0 + l0 p * sin (al t) - l) 0
                     (dot [t0; t1; t2] d + ft * b)).
        { intros l. eapply d_eq; [apply (derivable_pt_lim_minus _ (fun _ => l)); [exact K2|apply derivable_pt_lim_const]|]. ring. }
        assert (KR : forall r, derivable_pt_lim (fun t => r - (entry_of (touchdown_outputs p (low_ t) (al t)) 0 + l0 p * sin (al t))) 0
                     (dot [- t0; - t1; - t2] d + - ft * b)).
        { intros r. eapply d_eq; [apply (derivable_pt_lim_minus (fun _ => r)); [apply derivable_pt_lim_const|exact K2]|].
          rewrite (list3 d Ld). cbn [dot]. ring. }
        unfold Gm, hm in Hi |- *.
        destruct (stone_left st) as [|l|] eqn:Esl; destruct (stone_right st) as [|r|] eqn:Esr; cbn [app nth length] in Hi |- *;
          try (destruct i as [|i]; [|try lia; destruct i; try lia]); try lia.
        -- apply (d_near (fun t => r - (entry_of (touchdown_outputs p (low_ t) (al t)) 0 + l0 p * sin (al t))) _ 0 _ e He); [|apply KR].
           intros t Ht. destruct (Sm t Ht) as [H1 H2]. destruct (Val t H1 H2) as (td' & g' & -> & L1 & _ & _ & ->).
           cbn [entry_of app nth]. rewrite (Foot td' L1). reflexivity.
        -- apply (d_near (fun t => entry_of (touchdown_outputs p (low_ t) (al t)) 0 + l0 p * sin (al t) - l) _ 0 _ e He); [|apply KL].
           intros t Ht. destruct (Sm t Ht) as [H1 H2]. destruct (Val t H1 H2) as (td' & g' & -> & L1 & _ & _ & ->).
           cbn [entry_of app nth]. rewrite (Foot td' L1). reflexivity.
        -- apply (d_near (fun t => entry_of (touchdown_outputs p (low_ t) (al t)) 0 + l0 p * sin (al t) - l) _ 0 _ e He); [|apply KL].
           intros t Ht. destruct (Sm t Ht) as [H1 H2]. destruct (Val t H1 H2) as (td' & g' & -> & L1 & _ & _ & ->).
           cbn [entry_of app nth]. rewrite (Foot td' L1). reflexivity.
        -- apply (d_near (fun t => r - (entry_of (touchdown_outputs p (low_ t) (al t)) 0 + l0 p * sin (al t))) _ 0 _ e He); [|apply KR].
           intros t Ht. destruct (Sm t Ht) as [H1 H2]. destruct (Val t H1 H2) as (td' & g' & -> & L1 & _ & _ & ->).
           cbn [entry_of app nth]. rewrite (Foot td' L1). reflexivity.
        -- apply (d_near (fun t => entry_of (touchdown_outputs p (low_ t) (al t)) 0 + l0 p * sin (al t) - l) _ 0 _ e He); [|apply KL].
           intros t Ht. destruct (Sm t Ht) as [H1 H2]. destruct (Val t H1 H2) as (td' & g' & -> & L1 & _ & _ & ->).
           cbn [entry_of app nth]. rewrite (Foot td' L1). reflexivity.
        -- apply (d_near (fun t => r - (entry_of (touchdown_outputs p (low_ t) (al t)) 0 + l0 p * sin (al t))) _ 0 _ e He); [|apply KR].
           intros t Ht. destruct (Sm t Ht) as [H1 H2]. destruct (Val t H1 H2) as (td' & g' & -> & L1 & _ & _ & ->).
           cbn [entry_of app nth]. rewrite (Foot td' L1). reflexivity.
  - rewrite <- E. cbn [ax_q]. unfold m. rewrite map_length, !app_length.
    destruct (stone_left st), (stone_right st); reflexivity.
  - intros x u Lu. rewrite <- E. cbn [ax_P ax_q]. rewrite (list3 x Lu), (list3 apex La), El, Et.
    generalize (nth 0 x 0) (nth 1 x 0) (nth 2 x 0). intros x0 x1 x2.
    assert (Fz : foot_z p apex a = nth 1 apex 0 - l0 p * cos a) by reflexivity.
    assert (Fx : foot_x p (td_x td) a = nth 0 (td_x td) 0 + l0 p * sin a) by reflexivity.
    assert (All2 : forall A B C D : Prop, (A <-> C) -> (B <-> D) -> (A /\ B <-> C /\ D)) by tauto.
    unfold mv, m, Gm, hm. rewrite Fz, Fx. unfold at_.
    generalize (nth 0 apex 0) (nth 1 apex 0) (nth 2 apex 0). intros a0 a1 a2.
    unfold ft, h.
    destruct (stone_left st) as [|l|]; destruct (stone_right st) as [|r|];
      cbn [app map fst snd vscale vsub map2 dot nth length];
      (rewrite vle_entries by reflexivity); apply all_iff; intros i Hi; apply le_sub; clear - Hi;
      do 4 (destruct i as [|i]; [cbn [nth dot]; ring|]); cbn [length] in Hi; lia.
Qed.

End Point.

(** ** The point itself meets the conditions *)
Lemma mm_rows : forall n (A B : mat), Forall (fun r => length r = n) B -> Forall (fun r => length r = n) (mm n A B).
Proof.
  intros n A B F. unfold mm. rewrite Forall_map. apply Forall_forall. intros r _. apply vm_length. auto.
Qed.
Lemma aa_row : forall p ode apex a g, apex_to_apex_gradient p ode apex a = Some g ->
  length (nth 3 (aa_lo_dapex g) []) = 3%nat.
Proof.
  intros p ode apex a g E. assert (S := aa_shape _ _ _ _ _ E).
  assert (F : Forall (fun r => length r = 3%nat) (aa_lo_dapex g)).
  { unfold apex_to_apex_gradient in E.
    destruct (apex_to_touchdown_gradient p apex a) as [td|] eqn:Etd; [|discriminate].
    assert (Ft : Forall (fun r => length r = 3%nat) (td_dx_dapex td)).
    { unfold apex_to_touchdown_gradient in Etd.
      destruct (time_to_touchdown p [at_ apex 0; at_ apex 1; at_ apex 2; 0] (mkStone NInf PInf 0) a); try discriminate.
      apply someq in Etd. subst td. cbn [td_dx_dapex]. repeat constructor. }
    destruct (touchdown_transition_gradient p (td_x td) a) as [po pa].
    destruct (touchdown_to_liftoff_gradient p ode (touchdown_transition p (td_x td) a)) as [lo|]; [|discriminate].
    destruct (liftoff_to_apex_gradient p (liftoff_transition p (lo_x lo))) as [ap|]; [|discriminate].
    apply someq in E. rewrite <- E. cbn [aa_lo_dapex]. do 3 apply mm_rows. exact Ft. }
  rewrite Forall_forall in F. apply F. apply nth_In. rewrite (proj1 (proj2 (proj2 (proj2 S)))). lia.
Qed.
Lemma same_fall : forall p apex st a t, 0 < grav p ->
  lands p [nth 0 apex 0; nth 1 apex 0; nth 2 apex 0; 0] st a t ->
  t = fall p (nth 1 apex 0 - stone_height st) a.
Proof.
  intros p apex st a t G (T & Z & _). unfold foot_z, ballistic in Z. cbn [nth] in Z.
  assert (E : nth 1 apex 0 - stone_height st - l0 p * cos a = grav p * (t * t) / 2) by lra.
  assert (H : 0 <= nth 1 apex 0 - stone_height st - l0 p * cos a).
  { rewrite E. apply Rmult_le_pos; [|lra]. apply Rmult_le_pos; [lra|]. apply Rmult_le_pos; auto. }
  rewrite <- (fall_sqrt p _ a G H). rewrite E. symmetry. apply sqrt_lem_1; auto.
  - replace (2 * (grav p * (t * t) / 2) / grav p) with (t * t) by (field; lra). apply Rmult_le_pos; auto.
  - field. lra.
Qed.
Lemma point_feasible : forall p ode apex st a o, 0 < grav p -> length apex = 3%nat ->
  apex_map_linear_approximation p ode apex st a = Some o ->
  vle (mv (ax_P o) (apex ++ [a])) (ax_q o).
Proof.
  intros p ode apex st a o G La E. unfold apex_map_linear_approximation in E.
  destruct (can_touch_stepping_stone p [at_ apex 0; at_ apex 1; at_ apex 2; 0] st a) eqn:Ct; [|discriminate].
  cbn [negb] in E.
  set (low := [at_ apex 0; at_ apex 1 - stone_height st; at_ apex 2]) in *.
  destruct (apex_to_touchdown_gradient p low a) as [td|] eqn:Etd; [|discriminate].
  destruct (apex_to_apex_gradient p ode low a) as [g|] eqn:Eg; [|discriminate].
  assert (H := td_above _ _ _ _ Etd). unfold low in H. cbn [nth] in H. unfold at_ in *.
  destruct (touchdown_value p low a G ltac:(unfold low; cbn [nth]; lra)) as (td' & E' & _ & Tx).
  rewrite Etd in E'. apply someq in E'. rewrite <- E' in Tx. clear E'.
  destruct (aa_shape _ _ _ _ _ Eg) as (S1 & S2 & S3 & S4 & S5 & S6 & S7).
  destruct (td_shape _ _ _ _ Etd) as (Lx & t0 & t1 & t2 & Et).
  apply can_touch_lands in Ct; [|auto|unfold foot_z; cbn [nth]; lra]. destruct Ct as [t Ld].
  assert (Ft := same_fall _ _ _ _ _ G Ld). destruct Ld as (Tp & Lz & Lv & Ll & Lr).
  unfold foot_x, ballistic in Ll, Lr. cbn [nth] in Ll, Lr.
  assert (Fx : nth 0 (td_x td) 0 = nth 0 apex 0 + nth 2 apex 0 * t).
  { rewrite Tx, Ft. reflexivity. }
  assert (Row := aa_row _ _ _ _ _ Eg).
  apply someq in E. rewrite <- E. cbn [ax_P ax_q]. rewrite Et, (list3 _ Row), (list3 apex La).
  rewrite Fx. unfold vle, mv. 
  destruct (stone_left st) as [|l|]; destruct (stone_right st) as [|r|];
    cbn [app map fst snd vscale map2 dot nth ext_le_r r_le_ext] in *;
    repeat (apply Forall2_cons; [lra|]); apply Forall2_nil.
Qed.
