(** Objective reconstruction (C23). *)

Require Import Reals List Bool Lra Lia.
Require Import Verif.Vec Verif.VecFacts Verif.ModelMip Verif.SpecMip Verif.ModelMilp Verif.SpecMilp
  Verif.ProofUtils Verif.ProofMaxBox Verif.ProofMip Verif.ProofSat Verif.ProofTorch.
Import ListNotations.
Open Scope R_scope.

Lemma NoDup_app' : forall (a b : list nat), NoDup a -> NoDup b ->
  (forall x, In x a -> In x b -> False) -> NoDup (a ++ b).
Proof.
  induction a; simpl; intros b Ha Hb D; auto. inversion Ha; subst. constructor.
  - rewrite in_app_iff. intros [H|H]; [auto|eapply D; eauto].
  - apply IHa; auto. intros x K1 K2. eapply D; eauto.
Qed.

Lemma history_obj : forall strict m, history strict m ->
  NoDup (r_ m) /\ NoDup (zeta_ m) /\ Forall (fun t => known m (snd t) = true) (obj_terms m).
Proof.
  intros strict m H. induction H.
  - repeat split; constructor.
  - destruct IHhistory as (N1 & N2 & K).
    destruct (history_torch _ _ H) as (I & _).
    destruct (addVars bnds vt m) as [m' ids] eqn:E. simpl.
    destruct (addVars_torch _ _ _ _ _ E I) as (_ & J2 & J3 & _).
    assert (F := addVars_fields _ _ _ _ _ E). destruct F as (_ & _ & F3 & _).
    destruct I as [I1 _].
    assert (Fresh : forall x l, (l = r_ m \/ l = zeta_ m) -> In x l -> In x ids -> False).
    { intros x l Hl H1 H2. subst ids. apply in_seq in H2.
      assert (x < nvars m)%nat by (apply I1; destruct Hl; subst; auto). lia. }
    assert (Ni : NoDup ids) by (subst; apply seq_NoDup).
    split; [|split].
    + rewrite J2. destruct vt; rewrite ?app_nil_r; auto.
      apply NoDup_app'; auto. intros x. apply Fresh; auto.
    + rewrite J3. destruct vt; rewrite ?app_nil_r; auto;
        apply NoDup_app'; auto; intros x; apply Fresh; auto.
    + assert (O : obj_terms m' = obj_terms m).
      { unfold addVars in E. destruct vt.
        - destruct (lb_rows (length (rhs_in_ m)) (length (r_ m)) bnds) as [c1 b1].
          destruct (ub_rows (length (rhs_in_ m) + length b1) (length (r_ m)) bnds) as [c2 b2].
          destruct (eq_rows (length (rhs_eq_ m)) (length (r_ m)) bnds) as [c3 b3].
          injection E as E _. subst; auto.
        - injection E as E _. subst; auto.
        - injection E as E _. subst; auto. }
      rewrite O. eapply Forall_impl; [|exact K]. intros t.
      apply (addVars_known _ _ _ _ _ _ E).
  - destruct IHhistory as (N1 & N2 & K). apply addLConstr_inv in H0. destruct H0 as (E & _).
    subst m'. destruct s; unfold push_row; cbn; repeat split; auto.
  - destruct IHhistory as (N1 & N2 & K).
    assert (O : forall A vs s' b' m', obj_terms (push_rows A vs s' b' m') = obj_terms m' /\
       r_ (push_rows A vs s' b' m') = r_ m' /\ zeta_ (push_rows A vs s' b' m') = zeta_ m').
    { induction A; destruct b'; simpl; intros; auto.
      destruct (IHA vs s' b' (push_row (combine a vs) s' r m')) as (O1 & O2 & O3).
      rewrite O1, O2, O3. destruct s'; auto. }
    unfold addMConstr. destruct (O (hcats As) (concat xs) s b m) as (O1 & O2 & O3).
    rewrite O1, O2, O3. repeat split; auto. eapply Forall_impl; [|exact K].
    intros t Ht. rewrite known_push_rows. auto.
  - destruct IHhistory as (N1 & N2 & K). repeat split; auto.
  - destruct IHhistory as (N1 & N2 & K). unfold setObjective in H0.
    destruct (negb (Nat.eqb (length cs) (length vs))); [discriminate|].
    destruct (nodupb (filter (known m) (concat vs))); [|discriminate].
    injection H0 as H0. subst m'. cbn. repeat split; auto.
    apply Forall_forall. intros t Ht. apply filter_In in Ht. apply Ht.
Qed.

(** ** The objective splits into its continuous and binary parts *)

Definition coef (t : list (R * nat)) (v : nat) : R :=
  vsum (map fst (filter (fun p => Nat.eqb (snd p) v) t)).

Lemma coef_cons : forall a v t x,
  coef ((a, v) :: t) x = (if Nat.eqb v x then a else 0) + coef t x.
Proof. intros. unfold coef. simpl. destruct (Nat.eqb v x); simpl; lra. Qed.

Lemma dot_pick : forall a v sg l, NoDup l ->
  dot (map (fun x => if Nat.eqb v x then a else 0) l) (map sg l)
  = if in_dec Nat.eq_dec v l then a * sg v else 0.
Proof.
  induction l; simpl; intros N; auto. inversion N; subst.
  rewrite IHl by auto. destruct (Nat.eqb v a0) eqn:E.
  - apply Nat.eqb_eq in E. subst a0.
    destruct (Nat.eq_dec v v); [|congruence].
    destruct (in_dec Nat.eq_dec v l); [contradiction|]. lra.
  - apply Nat.eqb_neq in E. destruct (Nat.eq_dec a0 v); [congruence|].
    destruct (in_dec Nat.eq_dec v l); lra.
Qed.

Lemma dot_coef : forall sg l t, NoDup l ->
  dot (map (coef t) l) (map sg l)
  = vsum (map (fun p => if in_dec Nat.eq_dec (snd p) l then fst p * sg (snd p) else 0) t).
Proof.
  induction t as [|[a v] t IH]; intros N.
  - simpl. unfold coef. simpl. clear N. induction l; simpl; auto. rewrite IHl. lra.
  - cbn [map vsum fst snd]. rewrite <- IH, <- (dot_pick a v sg l) by auto.
    rewrite <- dot_vadd_l by (rewrite !map_length; auto). f_equal.
    clear. induction l; simpl; auto. rewrite coef_cons, IHl. auto.
Qed.

Lemma objective_split : forall strict m sg, history strict m ->
  objective m sg = dot (c_r m) (map sg (r_ m)) + dot (c_zeta m) (map sg (zeta_ m))
                   + obj_const m.
Proof.
  intros strict m sg H. destruct (history_obj _ _ H) as (N1 & N2 & K).
  destruct (history_torch _ _ H) as ([I1 I2 _] & _).
  unfold objective, c_r, c_zeta.
  change (obj_coeff m) with (coef (obj_terms m)).
  rewrite !dot_coef by auto. unfold eval_terms. f_equal.
  induction (obj_terms m) as [|[a v] t IH]; simpl; [lra|].
  inversion K; subst. rewrite IH by auto. simpl in H2. apply known_spec in H2.
  destruct (in_dec Nat.eq_dec v (r_ m)), (in_dec Nat.eq_dec v (zeta_ m)); try lra.
  - exfalso. eapply I2; eauto.
  - tauto.
Qed.

(** ** The active rows determine r *)

Lemma mv_pick : forall (A : mat) idx x, mv (pick [] idx A) x = map (fun i => dot (nth i A []) x) idx.
Proof. intros. unfold mv, pick. rewrite map_map. auto. Qed.

Lemma dense_row_nth : forall c nr nc i, (i < nr)%nat ->
  nth i (coo_dense c nr nc) [] = coo_row c nc i.
Proof.
  intros. unfold coo_dense.
  rewrite nth_indep with (d' := coo_row c nc 0%nat) by (rewrite map_length, seq_length; auto).
  rewrite map_nth, seq_nth; auto.
Qed.

Lemma active_system : forall m sg active, tinv m -> tfeas m sg ->
  Forall (fun i => (i < length (rhs_in_ m))%nat /\ t_in m sg i = nth i (rhs_in_ m) 0) active ->
  forall A b, get_active_constraints m active (map sg (zeta_ m)) = (A, b) ->
  mv A (map sg (r_ m)) = b /\ Forall (fun r => length r = length (r_ m)) A.
Proof.
  intros m sg active I T F A b E.
  assert (T' := T). apply (tfeas_rows _ _ I) in T'. destruct T' as [_ Teq].
  destruct I as [_ _ _ _ _ _ C1 C2 C3 C4].
  unfold get_active_constraints, get_equality_constraints, get_inequality_constraints in E.
  injection E as E1 E2. subst A b.
  assert (Lr : length (map sg (r_ m)) = length (r_ m)) by apply map_length.
  assert (Lz : length (map sg (zeta_ m)) = length (zeta_ m)) by apply map_length.
  rewrite <- Lr in C1, C3. rewrite <- Lz in C2, C4.
  assert (D1 : forall i, dot (coo_row (Ain_r m) (length (r_ m)) i) (map sg (r_ m))
                         = clhs (Ain_r m) i (map sg (r_ m))).
  { intros i. rewrite <- Lr. apply dense_dot; auto. }
  assert (D2 : forall i, dot (coo_row (Ain_zeta m) (length (zeta_ m)) i) (map sg (zeta_ m))
                         = clhs (Ain_zeta m) i (map sg (zeta_ m))).
  { intros i. rewrite <- Lz. apply dense_dot; auto. }
  assert (D3 : forall i, (i < length (rhs_eq_ m))%nat ->
     nth i (mv (coo_dense (Aeq_r m) (length (rhs_eq_ m)) (length (r_ m))) (map sg (r_ m))) 0
     = clhs (Aeq_r m) i (map sg (r_ m))).
  { intros i Hi. rewrite <- Lr. apply dense_nth; auto. }
  assert (D4 : forall i, (i < length (rhs_eq_ m))%nat ->
     nth i (mv (coo_dense (Aeq_zeta m) (length (rhs_eq_ m)) (length (zeta_ m))) (map sg (zeta_ m))) 0
     = clhs (Aeq_zeta m) i (map sg (zeta_ m))).
  { intros i Hi. rewrite <- Lz. apply dense_nth; auto. }
  split.
  - rewrite mv_app. f_equal.
    + apply vec_ext.
      * rewrite vsub_length; rewrite !mv_length, !coo_dense_length; auto.
      * intros i Hi. rewrite mv_length, coo_dense_length in Hi.
        rewrite nth_vsub by (rewrite mv_length, coo_dense_length; auto).
        rewrite D3, D4 by auto.
        specialize (Teq i Hi). unfold t_eq in Teq. lra.
    + rewrite !mv_pick. unfold pick. induction active as [|i active IH]; simpl; auto.
      inversion F as [|? ? [F1 F2] F3]; subst.
      unfold vsub in *. cbn [map2]. apply cons_eq_iff. split; [|apply IH; auto].
      rewrite !dense_row_nth by auto. rewrite D1, D2. unfold t_in in F2. lra.
  - apply Forall_app. split.
    + unfold coo_dense. apply Forall_forall. intros r Hr. apply in_map_iff in Hr.
      destruct Hr as (i & <- & _). unfold coo_row. rewrite map_length, seq_length. auto.
    + unfold pick. apply Forall_forall. intros r Hr. apply in_map_iff in Hr.
      destruct Hr as (i & <- & Hi). rewrite Forall_forall in F. destruct (F i Hi) as [F1 _].
      rewrite dense_row_nth by auto. unfold coo_row. rewrite map_length, seq_length. auto.
Qed.

Lemma mv_madd : forall A B x, length A = length B ->
  Forall2 (fun r q => length r = length q) A B ->
  mv (madd A B) x = vadd (mv A x) (mv B x).
Proof.
  intros A B x _ H. unfold madd, mv, vadd. induction H; simpl; auto.
  rewrite IHForall2. f_equal. fold (vadd x0 y). apply dot_vadd_l. auto.
Qed.

Lemma Forall2_same_len : forall (A B : mat) n, length A = length B ->
  Forall (fun r => length r = n) A -> Forall (fun r => length r = n) B ->
  Forall2 (fun r q => length r = length q) A B.
Proof.
  induction A; destruct B; simpl; intros n L F1 F2; try discriminate; constructor.
  - inversion F1; inversion F2; subst. congruence.
  - inversion F1; inversion F2; subst. eapply IHA; eauto.
Qed.

Lemma transpose_wf : forall n A, wfm n (length A) (transpose n A).
Proof.
  intros. unfold transpose. split.
  - rewrite map_length, seq_length. auto.
  - apply Forall_forall. intros r Hr. apply in_map_iff in Hr. destruct Hr as (j & <- & _).
    apply map_length.
Qed.

Lemma vscale_0 : forall x, vscale 0 x = zeros (length x).
Proof.
  induction x; auto. change (0 * a :: vscale 0 x = 0 :: zeros (length x)).
  rewrite IHx, Rmult_0_l. auto.
Qed.

Lemma gram_mv : forall n A x, Forall (fun r => length r = n) A -> length x = n ->
  mv (madd (mm n (transpose n A) A) (eyek n 0)) x = mv (transpose n A) (mv A x).
Proof.
  intros n A x F L.
  assert (W : wfm n n (mm n (transpose n A) A)).
  { eapply wfm_mm; [apply transpose_wf|]. split; auto. }
  assert (W2 := wfm_eyek n 0).
  rewrite mv_madd.
  - rewrite mv_mm, mv_eyek, vscale_0 by auto. rewrite L. apply vadd_zeros_r.
    rewrite mv_length. apply transpose_wf.
  - destruct W, W2. lia.
  - destruct W, W2. eapply Forall2_same_len; eauto. lia.
Qed.


Lemma wfm_madd : forall m n A B, wfm m n A -> wfm m n B -> wfm m n (madd A B).
Proof.
  intros m n A B [X1 X2] [Y1 Y2]. unfold madd. revert m B X1 X2 Y1 Y2.
  induction A as [|a A IH]; destruct B as [|b B]; simpl; intros; subst; try discriminate.
  - split; auto.
  - inversion X2; inversion Y2; subst. destruct (IH (length A) B) as [Z1 Z2]; auto.
    split; simpl; [lia|]. constructor; auto. rewrite vadd_length; congruence.
Qed.

Lemma slack_t_in : forall m sg i, tinv m -> (i < length (rhs_in_ m))%nat ->
  row_slack m sg i = t_in m sg i - nth i (rhs_in_ m) 0.
Proof.
  intros m sg i [_ _ _ _ _ _ C1 C2 C3 C4] Hi.
  unfold row_slack, get_inequality_constraints.
  assert (Lr : length (map sg (r_ m)) = length (r_ m)) by apply map_length.
  assert (Lz : length (map sg (zeta_ m)) = length (zeta_ m)) by apply map_length.
  rewrite <- Lr in C1. rewrite <- Lz in C2. rewrite <- Lr, <- Lz at 1.
  rewrite nth_vsub by (rewrite vadd_length; rewrite !mv_length, !coo_dense_length; auto).
  rewrite nth_vadd by (rewrite !mv_length, !coo_dense_length; auto).
  unfold t_in.
  rewrite !dense_nth by auto. lra.
Qed.

Lemma gram_eq : forall m active zs A b, get_active_constraints m active zs = (A, b) ->
  gram m active zs = mm (length (r_ m)) (transpose (length (r_ m)) A) A.
Proof. intros. unfold gram. rewrite H. auto. Qed.

Lemma milp_objective_value : forall inverse ill strict m sg active obj,
  left_inverse inverse -> history strict m -> gfeas m sg ->
  Forall (tight m sg) active ->
  ill (gram m active (map sg (zeta_ m))) = false ->
  milp_objective inverse ill m active (map sg (zeta_ m)) 0 = Some obj ->
  obj = objective m sg.
Proof.
  intros inverse ill strict m sg active obj LI H G F NI E.
  destruct (history_torch _ _ H) as (I & T & _). specialize (T sg G).
  unfold milp_objective in E.
  destruct (get_active_constraints m active (map sg (zeta_ m))) as [A b] eqn:EA.
  rewrite (gram_eq _ _ _ _ _ EA) in NI.
  assert (F' : Forall (fun i => (i < length (rhs_in_ m))%nat /\ t_in m sg i = nth i (rhs_in_ m) 0) active).
  { eapply Forall_impl; [|exact F]. intros i [F1 F2]. split; auto.
    rewrite slack_t_in in F2 by auto. lra. }
  destruct (active_system m sg active I T F' A b EA) as [S W].
  rewrite NI in E.
  destruct (inverse _) as [B|] eqn:EI; [|discriminate]. injection E as E. subst obj.
  rewrite (objective_split strict) by auto. f_equal. f_equal. f_equal.
  rewrite <- S. rewrite <- gram_mv; auto; [|apply map_length].
  eapply (LI (length (r_ m))); [|exact EI|apply map_length].
  apply wfm_madd; [|apply wfm_eyek].
  eapply wfm_mm; [apply transpose_wf|]. split; auto.
Qed.

(** ** The trial loop *)

Lemma match_loop_close : forall inverse ill n m rs zs pool tol p ot v,
  match_loop inverse ill n m rs zs pool tol p ot = Some v -> Rabs (v - pool) <= ot.
Proof.
  induction n; simpl; intros m rs zs pool tol p ot v H;
    destruct (milp_objective _ _ _ _ _ _) as [obj|]; try discriminate;
    destruct (Rltb ot (Rabs (obj - pool))) eqn:E; try discriminate.
  - injection H as H; subst. apply Rltb_false in E. auto.
  - eauto.
  - injection H as H; subst. apply Rltb_false in E. auto.
Qed.

Lemma active_rows_in : forall m sg tol i,
  In i (active_rows m (map sg (r_ m)) (map sg (zeta_ m)) tol) <->
  (i < length (rhs_in_ m))%nat /\ Rabs (row_slack m sg i) < tol.
Proof.
  intros m sg tol i. unfold active_rows, row_slack, get_inequality_constraints.
  rewrite filter_In, in_seq, Rltb_true. simpl. split; intros [A B]; split; auto; lia.
Qed.

Lemma solution_objective : forall inverse ill strict m sg tol ot,
  let active := active_rows m (map sg (r_ m)) (map sg (zeta_ m)) tol in
  left_inverse inverse -> history strict m -> gfeas m sg -> 0 <= ot ->
  (forall i, (i < length (rhs_in_ m))%nat -> Rabs (row_slack m sg i) < tol ->
     row_slack m sg i = 0) ->
  ill (gram m active (map sg (zeta_ m))) = false ->
  inverse (madd (gram m active (map sg (zeta_ m))) (eyek (length (r_ m)) 0)) <> None ->
  objective_from_solution inverse ill m (map sg (r_ m)) (map sg (zeta_ m))
    (objective m sg) tol 0 ot = Some (objective m sg).
Proof.
  intros inverse ill strict m sg tol ot active LI H G Ho F NI NN.
  unfold objective_from_solution. cbn [match_loop]. fold active.
  destruct (milp_objective inverse ill m active (map sg (zeta_ m)) 0) as [obj|] eqn:EO.
  - assert (O : obj = objective m sg).
    { apply (milp_objective_value inverse ill strict m sg active obj); auto.
      apply Forall_forall. intros i Hi.
      apply active_rows_in in Hi. destruct Hi. split; auto. }
    subst obj. replace (objective m sg - objective m sg) with 0 by lra.
    rewrite Rabs_R0. replace (Rltb ot 0) with false by (symmetry; apply Rltb_false; auto).
    auto.
  - exfalso. unfold milp_objective in EO.
    destruct (get_active_constraints m active (map sg (zeta_ m))) as [A b] eqn:EA.
    rewrite (gram_eq _ _ _ _ _ EA) in NI, NN. rewrite NI in EO.
    destruct (inverse _); [discriminate|congruence].
Qed.

(** ** MIQP *)

Lemma mv_map_vscale : forall k A x, mv (map (vscale k) A) x = vscale k (mv A x).
Proof.
  intros. unfold mv, vscale. rewrite !map_map. apply map_ext. intros r.
  apply dot_vscale_l.
Qed.

Lemma firstn_app_exact : forall {A} (a b : list A) n, length a = n -> firstn n (a ++ b) = a.
Proof. intros. subst. rewrite firstn_app, Nat.sub_diag, firstn_all. simpl. apply app_nil_r. Qed.

Lemma kkt_mv : forall n Qr A b r l, wfm n n Qr -> Forall (fun q => length q = n) A ->
  length A = length b -> length r = n -> length l = length b ->
  mv (kkt_matrix n Qr A b 0) (r ++ l)
  = vadd (vscale 2 (mv Qr r)) (mv (transpose n A) l) ++ mv A r.
Proof.
  intros n Qr A b r l W F L Lr Ll. unfold kkt_matrix. rewrite mv_app.
  assert (W' : wfm n n (map (vscale 2) Qr)).
  { destruct W. split; [rewrite map_length; auto|]. apply Forall_forall. intros q Hq.
    apply in_map_iff in Hq. destruct Hq as (q' & <- & Hq). rewrite vscale_length.
    rewrite Forall_forall in H0. auto. }
  assert (W2 := wfm_eyek n 0).
  assert (W3 := wfm_madd _ _ _ _ W' W2).
  assert (W4 := transpose_wf n A).
  rewrite (mv_hcat _ _ _ _ n); [|destruct W3, W4; congruence|apply W3|auto].
  rewrite (mv_hcat A _ _ _ n); [|destruct (wfm_eyek (length b) 0); congruence|auto|auto].
  rewrite mv_madd; [|destruct W', W2; congruence|].
  2:{ destruct W', W2. eapply Forall2_same_len; eauto. congruence. }
  rewrite !mv_eyek, mv_map_vscale, !vscale_0 by auto.
  f_equal.
  - f_equal. rewrite Lr. apply vadd_zeros_r. rewrite vscale_length, mv_length. apply W.
  - rewrite Ll, <- L. apply vadd_zeros_r. apply mv_length.
Qed.

Lemma wfm_hcat : forall m n1 n2 A B, wfm m n1 A -> wfm m n2 B -> wfm m (n1 + n2) (hcat A B).
Proof.
  intros m n1 n2 A B [X1 X2] [Y1 Y2]. unfold hcat. revert m B X1 X2 Y1 Y2.
  induction A as [|a A IH]; destruct B as [|b B]; simpl; intros; subst; try discriminate.
  - split; auto.
  - inversion X2; inversion Y2; subst. destruct (IH (length A) B) as [Z1 Z2]; auto.
    split; simpl; [lia|]. constructor; auto. rewrite app_length; congruence.
Qed.

Lemma kkt_wf : forall n Qr A b p, wfm n n Qr -> wfm (length b) n A ->
  wfm (n + length b) (n + length b) (kkt_matrix n Qr A b p).
Proof.
  intros n Qr A b p W WA. unfold kkt_matrix. apply wfm_app.
  - apply wfm_hcat.
    + apply wfm_madd; [|apply wfm_eyek]. destruct W. split; [rewrite map_length; auto|].
      apply Forall_forall. intros q Hq. apply in_map_iff in Hq.
      destruct Hq as (q' & <- & Hq). rewrite vscale_length. rewrite Forall_forall in H0. auto.
    + destruct WA as [E _]. rewrite <- E. apply transpose_wf.
  - apply wfm_hcat; auto. apply wfm_eyek.
Qed.

Lemma miqp_value : forall inverse n Qr Qz Qrz cr cz k A b z r l v,
  left_inverse inverse -> wfm n n Qr -> wfm (length b) n A -> length cr = n ->
  length r = n -> length l = length b -> length Qrz = n ->
  mv A r = b -> mv Qrz z = zeros n ->
  vadd (quad_grad Qr Qrz cr r z) (mv (transpose n A) l) = zeros n ->
  miqp_objective inverse n Qr Qz Qrz cr cz k A b z 0 = Some v ->
  v = quad_value Qr Qz Qrz cr cz k r z.
Proof.
  intros inverse n Qr Qz Qrz cr cz k A b z r l v LI W WA Lc Lr Ll Lq Ab Z K E.
  unfold miqp_objective in E.
  destruct (inverse (kkt_matrix n Qr A b 0)) as [G|] eqn:EI; [|discriminate].
  assert (R : mv G (vneg cr ++ b) = r ++ l).
  { assert (M : vneg cr ++ b = mv (kkt_matrix n Qr A b 0) (r ++ l)).
    { rewrite kkt_mv; auto; try apply WA. rewrite Ab. f_equal.
      unfold quad_grad in K. rewrite Z in K.
      assert (L1 : length (vscale 2 (mv Qr r)) = n).
      { rewrite vscale_length, mv_length. apply W. }
      rewrite vadd_zeros_r in K by auto.
      assert (L2 : length (mv (transpose n A) l) = n).
      { rewrite mv_length. apply transpose_wf. }
      revert L1 L2 Lc K. generalize (vscale 2 (mv Qr r)) (mv (transpose n A) l).
      clear. intros a. revert n cr. induction a; destruct cr, v, n; simpl; intros;
        try discriminate; auto.
      unfold vadd in *. simpl in *. apply cons_eq_iff in K. destruct K as [K1 K2].
      apply cons_eq_iff. split; [lra|]. apply (IHa n); auto. }
    rewrite M. apply (LI (n + length b)%nat (kkt_matrix n Qr A b 0)); auto.
    - apply kkt_wf; auto.
    - rewrite app_length. congruence. }
  rewrite R, firstn_app_exact in E by auto. injection E as E. subst v. reflexivity.
Qed.

(** 1x1 inverse. *)
Definition inv1 (G : mat) : option mat :=
  match G with
  | [[a]] => if Reqb a 0 then None else Some [[/ a]]
  | _ => None
  end.
Lemma inv1_left : left_inverse inv1.
Proof.
  intros n G B [W1 W2] E v L. destruct G as [|[|a [|? ?]] [|? ?]]; simpl in E; try discriminate.
  destruct (Reqb a 0) eqn:Z; [discriminate|]. injection E as E. subst B.
  apply Reqb_false in Z. simpl in W1. subst n. destruct v as [|x [|? ?]]; try discriminate.
  unfold mv. simpl. apply cons_eq_iff. split; auto. field. auto.
Qed.

(** min r^2 + r*z at z = 1 is -1/4; the reconstruction answers 0. *)
Lemma miqp_cross_refuted : exists Qr Qz Qrz cr cz k z r v,
  miqp_objective inv1 1 Qr Qz Qrz cr cz k [] [] z 0 = Some v /\
  quad_grad Qr Qrz cr r z = zeros 1 /\
  (forall r', length r' = 1%nat ->
     quad_value Qr Qz Qrz cr cz k r z <= quad_value Qr Qz Qrz cr cz k r' z) /\
  v <> quad_value Qr Qz Qrz cr cz k r z.
Proof.
  exists [[1]], [[0]], [[1]], [0], [0], 0, [1], [-1/2], 0.
  split; [|split; [|split]].
  - unfold miqp_objective, kkt_matrix. cbn -[inv1].
    unfold inv1. replace (Reqb (2 * 1 + 0) 0) with false by (symmetry; apply Reqb_false; lra).
    cbn. f_equal. field.
  - unfold quad_grad, zeros. cbn. apply cons_eq_iff. split; auto. field.
  - intros [|x [|? ?]] L; try discriminate. unfold quad_value. cbn.
    assert (0 <= (x + 1/2) * (x + 1/2)) by (apply Rle_0_sqr). lra.
  - unfold quad_value. cbn. lra.
Qed.

(** One variable fixed to 1 by an equality, objective x. *)
Definition fixed_one : mip :=
  mkMip [mkVar false NInf PInf] [mkRow [(1, 0%nat)] SEq 1] [0%nat] []
        [] [] [] [(0%nat, 0%nat, 1 * 1)] [] [1] [(1, 0%nat)] 0 false.
Lemma fixed_one_history : history true fixed_one.
Proof.
  assert (H0 : history true (fst (addVars [(NInf, PInf)] VCont init_mip))).
  { apply h_vars; [constructor|]. intros _ _. constructor; simpl; auto. }
  assert (H1 : history true (push_row [(1, 0%nat)] SEq 1 (fst (addVars [(NInf, PInf)] VCont init_mip)))).
  { apply (h_lconstr true [[1]] [[0%nat]] SEq 1 _ _ H0). reflexivity. }
  apply (h_obj true [[1]] [[0%nat]] 0 false _ _ H1). reflexivity.
Qed.
Lemma fixed_one_feas : gfeas fixed_one (fun _ => 1).
Proof.
  split.
  - intros [|[|i]] v Hv; simpl in Hv; try discriminate. injection Hv as Hv. subst v.
    unfold var_ok. simpl. split; [discriminate|auto].
  - constructor; [|constructor]. unfold row_ok, eval_terms. cbn. lra.
Qed.
Lemma milp_case :
  milp_objective inv1 (fun _ => false) fixed_one [] (map (fun _ => 1) (zeta_ fixed_one)) 0
  = Some 1.
Proof.
  unfold milp_objective. cbn -[inv1]. unfold coo_entry; cbn -[inv1]. unfold inv1.
  replace (Reqb _ 0) with false by (symmetry; apply Reqb_false; lra).
  cbn. unfold obj_coeff. cbn. f_equal. field.
Qed.
(** A positive penalty biases the answer. *)
Lemma milp_penalty_refuted : exists m sg p v, history true m /\ gfeas m sg /\ 0 < p /\
  Forall (tight m sg) [] /\
  milp_objective inv1 (fun _ => false) m [] (map sg (zeta_ m)) p = Some v /\
  v <> objective m sg.
Proof.
  exists fixed_one, (fun _ => 1), 1, (1/2). split; [apply fixed_one_history|].
  split; [apply fixed_one_feas|]. split; [lra|]. split; [constructor|]. split.
  - unfold milp_objective. cbn -[inv1]. unfold coo_entry; cbn -[inv1]. unfold inv1.
    replace (Reqb _ 0) with false by (symmetry; apply Reqb_false; lra).
    cbn. unfold obj_coeff. cbn. f_equal. field.
  - unfold objective, eval_terms. cbn. lra.
Qed.
