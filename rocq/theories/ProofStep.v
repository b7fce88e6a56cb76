(** Composing construction steps. *)

Require Import Reals List Lia Lra Bool Arith.
Require Import Verif.Vec Verif.VecFacts Verif.ModelMip Verif.SpecMip Verif.SpecCore
  Verif.SpecStep Verif.ProofMip Verif.ProofSat Verif.ProofConcat Verif.ProofTorch Verif.ProofNetBounds.
Import ListNotations.
Open Scope R_scope.

Lemma history_known : forall st m v, history st m ->
  (known m v = true <-> (v < nvars m)%nat).
Proof.
  intros st m v H. apply history_torch in H. destruct H as [T _].
  rewrite known_spec. symmetry. apply (ti_part m T).
Qed.
Lemma history_allk : forall st m l, history st m -> (allk m l <-> below (nvars m) l).
Proof.
  intros st m l H. unfold allk, below. split; intros F; eapply Forall_impl; try exact F;
    intros v; apply (history_known st m v H).
Qed.

Lemma history_wf : forall st m, history st m -> wf_mip m.
Proof.
  intros st m H. induction H.
  - constructor.
  - destruct (addVars bnds vt m) as [m' ids] eqn:E. apply (wf_addVars _ _ _ _ _ E); auto.
  - assert (K := H0). apply addLConstr_inv in H0. destruct H0 as (E & _ & F & _). subst m'.
    apply wf_push_row; auto. apply combine_below. apply Forall_forall. intros v Hv.
    apply (history_known st m v H). rewrite forallb_forall in F. auto.
  - apply wf_addMConstr; auto. apply (history_allk st m _ H). exact H0.
  - apply wf_set_var_bound; auto.
  - unfold setObjective in H0. destruct (negb _); [discriminate|].
    destruct (nodupb _); [|discriminate]. injection H0 as H0. subst m'. exact IHhistory.
Qed.

Lemma history_zeta : forall st m, history st m -> below (nvars m) (zeta_ m).
Proof.
  intros st m H. apply history_torch in H. destruct H as [T _].
  apply Forall_forall. intros v Hv. apply (ti_part m T). auto.
Qed.
Lemma feas_bin : forall m sg, feas VBin m sg <-> gfeas m sg.
Proof. intros. unfold feas. split; [tauto|]. split; auto. discriminate. Qed.

(** [D] only looks at the variables of [m]. *)
Definition local (m : mip) (D : assignment -> Prop) : Prop :=
  forall s1 s2, agree m s1 s2 -> D s1 -> D s2.
Lemma feas_local : forall vt st m, history st m -> local m (feas vt m).
Proof.
  intros vt st m H s1 s2 A [G B]. split.
  - apply (gfeas_agree m s1 s2); auto. eapply history_wf; eauto.
  - intros E. rewrite <- (map_agree (nvars m) s1 s2 (zeta_ m)); auto. eapply history_zeta; eauto.
Qed.

Section Step.
Variable vt : vtype.

Lemma step_refl : forall st m, history st m ->
  step vt st m m (fun _ => True) (fun _ => True).
Proof.
  intros st m H. split; auto. split; auto. split; [auto|].
  intros sg G _. exists sg. split; auto. intros i _. auto.
Qed.

Lemma step_weaken : forall st m m' (D Q D' Q' : assignment -> Prop),
  step vt st m m' D Q -> (forall sg, feas vt m sg -> D' sg -> D sg) ->
  (forall sg, feas vt m' sg -> Q sg -> Q' sg) -> step vt st m m' D' Q'.
Proof.
  intros st m m' D Q D' Q' (A & B & C & E) H1 H2. split; auto. split; auto. split.
  - intros sg G. destruct (C sg G). auto.
  - auto.
Qed.

Lemma step_trans : forall st m m1 m2 (D D1 Q1 D2 Q2 Q : assignment -> Prop),
  step vt st m m1 D1 Q1 -> step vt st m1 m2 D2 Q2 -> local m D ->
  (forall sg, feas vt m sg -> D sg -> D1 sg) ->
  (forall sg, feas vt m1 sg -> D sg -> Q1 sg -> D2 sg) ->
  (forall sg, feas vt m2 sg -> Q1 sg -> Q2 sg -> Q sg) ->
  step vt st m m2 D Q.
Proof.
  intros st m m1 m2 D D1 Q1 D2 Q2 Q (A1 & A2 & A3 & A4) (B1 & B2 & B3 & B4) L H1 H2 H3.
  split; [lia|]. split; auto. split.
  - intros sg G. destruct (B3 sg G) as [G1 K2]. destruct (A3 sg G1). split; auto.
  - intros sg G K. destruct (A4 sg G (H1 sg G K)) as (s1 & G1 & E1).
    destruct (B4 s1 G1) as (s2 & G2 & E2).
    { apply H2; auto; [apply (L sg s1); auto|]. apply A3. auto. }
    exists s2. split; auto. eapply agree_trans; eauto.
Qed.

Lemma step_seq : forall st m m1 m2 (D Q1 D2 Q2 : assignment -> Prop),
  step vt st m m1 D Q1 -> step vt st m1 m2 D2 Q2 -> local m D ->
  (forall sg, feas vt m1 sg -> D sg -> Q1 sg -> D2 sg) ->
  step vt st m m2 D (fun sg => Q1 sg /\ Q2 sg).
Proof. intros. eapply step_trans; eauto. Qed.
Lemma step_iff : forall st m m' (Q : assignment -> Prop), history st m' -> nvars m' = nvars m ->
  (forall sg, feas vt m' sg <-> feas vt m sg /\ Q sg) -> step vt st m m' Q Q.
Proof.
  intros st m m' Q H Nv K. split; [lia|]. split; auto. split; [apply K|].
  intros sg G HQ. exists sg. split; [apply K; auto|]. intros i _; auto.
Qed.

Lemma local_map : forall m l (P : vec -> Prop), below (nvars m) l ->
  local m (fun sg => P (map sg l)).
Proof.
  intros m l P B s1 s2 A H. rewrite <- (map_agree (nvars m) s1 s2 l B); auto.
Qed.
Lemma local_map2 : forall m l k (P : vec -> vec -> Prop), below (nvars m) l -> below (nvars m) k ->
  local m (fun sg => P (map sg l) (map sg k)).
Proof.
  intros m l k P B B' s1 s2 A H.
  rewrite <- (map_agree (nvars m) s1 s2 l B), <- (map_agree (nvars m) s1 s2 k B'); auto.
Qed.
Lemma local_and : forall m D E, local m D -> local m E -> local m (fun sg => D sg /\ E sg).
Proof. intros m D E H K s1 s2 A [X Y]. split; [eapply H|eapply K]; eauto. Qed.
Lemma local_true : forall m, local m (fun _ => True).
Proof. intros m s1 s2 A H. exact H. Qed.

(** ** addVars *)

Lemma zeta_addVars : forall bnds v m m' ids, addVars bnds v m = (m', ids) ->
  zeta_ m' = zeta_ m ++ (match v with VCont => [] | _ => ids end).
Proof.
  intros bnds v m m' ids E. unfold addVars in E. destruct v.
  - destruct (lb_rows _ _ _) as [c1 b1]. destruct (ub_rows _ _ _) as [c2 b2].
    destruct (eq_rows _ _ _) as [c3 b3]. injection E as <- <-. cbn. rewrite app_nil_r. auto.
  - injection E as <- <-. auto.
  - injection E as <- <-. auto.
Qed.

Lemma step_addVars : forall st bnds v m m' ids, addVars bnds v m = (m', ids) ->
  history st m -> (st = true -> v = VCont -> Forall bnd_fine bnds) ->
  forall x, vars_ok v bnds x -> (v <> VCont -> bins x) ->
  step vt st m m' (fun _ => True)
    (fun sg => vars_ok v bnds (map sg ids) /\
               (vt = VBinRelax -> v <> VCont -> bins (map sg ids))) /\
  ids = seq (nvars m) (length bnds) /\ nvars m' = (nvars m + length bnds)%nat /\
  (forall sg x, feas vt m sg -> vars_ok v bnds x -> (v <> VCont -> bins x) ->
     exists sg', feas vt m' sg' /\ agree m sg sg' /\ map sg' ids = x).
Proof.
  intros st bnds v m m' ids E H S x0 V0 B0.
  assert (W := history_wf _ _ H).
  destruct (addVars_fields _ _ _ _ _ E) as (_ & _ & F3 & F4).
  assert (Z := zeta_addVars _ _ _ _ _ E).
  assert (X : forall sg x, feas vt m sg -> vars_ok v bnds x -> (v <> VCont -> bins x) ->
     exists sg', feas vt m' sg' /\ agree m sg sg' /\ map sg' ids = x).
  { intros sg x [G B] V Bx.
    destruct (addVars_extend _ _ _ _ _ _ _ E W G V) as (X1 & X2 & X3).
    eexists. split; [split; [exact X1|]|split; [exact X2|exact X3]].
    intros Ev. rewrite Z, map_app. apply Forall_app. split.
    - rewrite <- (map_agree (nvars m) sg _ _ (history_zeta _ _ H) X2). apply B; auto.
    - destruct v; [constructor|rewrite X3; apply Bx; discriminate|rewrite X3; apply Bx; discriminate]. }
  split; [|split; [auto|split; [lia|auto]]].
  split; [lia|]. split.
  { replace m' with (fst (addVars bnds v m)) by (rewrite E; auto). apply h_vars; auto. }
  split.
  - intros sg [G B]. apply (gfeas_addVars _ _ _ _ _ sg E) in G. destruct G as [G V].
    assert (K : vt = VBinRelax -> bins (map sg (zeta_ m)) /\ (v <> VCont -> bins (map sg ids))).
    { intros Ev. specialize (B Ev). rewrite Z, map_app in B. apply Forall_app in B.
      destruct B as [B1 B2]. split; auto. intros Hv. destruct v; [congruence|auto|auto]. }
    split; [split; auto; intros Ev; apply K; auto|]. split; auto. intros Ev; apply K; auto.
  - intros sg G _. destruct (X sg x0 G V0 B0) as (sg' & G' & A & _). eauto.
Qed.

(** Free continuous variables. *)
Lemma step_free : forall st k m m' ids, addVars (repeat (NInf, PInf) k) VCont m = (m', ids) ->
  history st m ->
  ids = seq (nvars m) k /\ nvars m' = (nvars m + k)%nat /\ history st m' /\
  (forall sg, feas vt m' sg -> feas vt m sg) /\
  (forall sg x, feas vt m sg -> length x = k ->
     exists sg', feas vt m' sg' /\ agree m sg sg' /\ map sg' ids = x).
Proof.
  intros st k m m' ids E H.
  assert (V : forall x, length x = k -> vars_ok VCont (repeat (NInf, PInf) k) x).
  { intros x Lx. apply (vars_ok_free_iff k x). auto. }
  destruct (step_addVars st _ _ _ _ _ E H) with (x := zeros k) as (S1 & S2 & S3 & S4).
  - intros _ _. apply Forall_forall. intros b Hb. apply repeat_spec in Hb. subst b. exact I.
  - apply V. apply zeros_length.
  - congruence.
  - rewrite repeat_length in *. split; auto. split; auto. split; [apply S1|].
    split; [intros sg G; apply S1; auto|].
    intros sg x G Lx. apply S4; auto. congruence.
Qed.

(** ** Rows *)

Lemma zeta_push_row : forall t s r m, zeta_ (push_row t s r m) = zeta_ m.
Proof. intros. destruct s; reflexivity. Qed.
Lemma step_addLConstr : forall st cs vs s r m, history st m ->
  length cs = length vs -> Forall2 (fun (c : vec) v => length c = length v) cs vs ->
  below (nvars m) (concat vs) -> NoDup (concat vs) ->
  exists m', addLConstr cs vs s r m = Some m' /\ nvars m' = nvars m /\
    (forall sg, feas vt m' sg <-> feas vt m sg /\
       sense_ok s [dot (concat cs) (map sg (concat vs))] [r]) /\ history st m' /\
    (forall sg, gfeas m' sg <-> gfeas m sg /\
       sense_ok s [dot (concat cs) (map sg (concat vs))] [r]).
Proof.
  intros st cs vs s r m H L F B N.
  assert (E : exists m', addLConstr cs vs s r m = Some m').
  { unfold addLConstr. rewrite L, Nat.eqb_refl. cbn [negb].
    assert (K : forallb (known m) (concat vs) = true).
    { apply forallb_forall. intros v Hv. apply (history_known st m v H).
      unfold below in B. rewrite Forall_forall in B. auto. }
    rewrite K, nodupb_NoDup by auto. eexists; reflexivity. }
  destruct E as [m' E]. exists m'. split; auto.
  assert (H' : history st m') by (eapply h_lconstr; eauto).
  assert (K := E). apply addLConstr_inv in K. destruct K as (K & _). subst m'.
  destruct (push_row_fields (combine (concat cs) (concat vs)) s r m) as (P3 & P4 & _).
  split; [unfold nvars; rewrite P3; auto|].
  assert (Q : forall sg, gfeas (push_row (combine (concat cs) (concat vs)) s r m) sg <->
    gfeas m sg /\ sense_ok s [dot (concat cs) (map sg (concat vs))] [r]).
  { intros sg. rewrite gfeas_push_row. unfold row_ok. cbn [row_sense row_terms row_rhs].
    rewrite eval_combine. unfold sense_ok, vle. destruct s.
    - split; intros [G X]; (split; [exact G|]); [constructor; auto|]. inversion X; auto.
    - split; intros [G X]; (split; [exact G|]); [congruence|]. injection X; auto.
    - split; intros [G X]; (split; [exact G|]); [constructor; auto; lra|].
      inversion X; subst. lra. }
  split; [|split; auto].
  intros sg. unfold feas. rewrite Q, zeta_push_row. tauto.
Qed.

Lemma zeta_addMConstr : forall As xs s b m, zeta_ (addMConstr As xs s b m) = zeta_ m.
Proof.
  intros As xs s b m. unfold addMConstr. generalize (hcats As). intros M. revert M m.
  induction b as [|r b IH]; intros M m; destruct M as [|a M]; simpl; auto.
  rewrite IH, zeta_push_row. auto.
Qed.
Lemma zeta_set_var_bound : forall vs lo up m, zeta_ (set_var_bound vs lo up m) = zeta_ m.
Proof.
  intros. reflexivity.
Qed.

Lemma zeta_add_mic : forall c iv ov m m' sl bi,
  vt <> VCont -> add_mic c iv ov NewBinary vt m = (m', sl, bi) -> zeta_ m' = zeta_ m ++ bi.
Proof.
  intros c iv ov m m' sl bi V E. unfold add_mic in E.
  set (m1 := set_var_bound iv (input_lo c) (input_up c) m) in *.
  assert (Z1 : zeta_ m1 = zeta_ m) by apply zeta_set_var_bound.
  destruct (match slack_size c with O => _ | _ => _ end) as [m2 sl2] eqn:E2.
  assert (Z2 : zeta_ m2 = zeta_ m).
  { destruct (slack_size c); [injection E2 as <- <-; auto|].
    destruct (addVars (repeat (NInf, PInf) (Datatypes.S n)) VCont m1) as [ma s] eqn:Ea.
    injection E2 as <- <-. rewrite zeta_set_var_bound, (zeta_addVars _ _ _ _ _ Ea), app_nil_r. auto. }
  destruct (match binary_size c with O => _ | _ => _ end) as [m3 b3] eqn:E3.
  assert (Z3 : zeta_ m3 = zeta_ m ++ b3).
  { destruct (binary_size c); [injection E3 as <- <-; rewrite app_nil_r; auto|].
    destruct (addVars (repeat (Fin 0, Fin 1) (Datatypes.S n)) vt m2) as [ma s] eqn:Ea.
    injection E3 as <- <-. rewrite zeta_set_var_bound, (zeta_addVars _ _ _ _ _ Ea), Z2.
    destruct vt; [congruence|auto|auto]. }
  injection E as <- <- <-. rewrite <- Z3. unfold add_block.
  destruct ov; rewrite ?zeta_addMConstr;
    (destruct (rhs_eq c) as [[|]|]; rewrite ?zeta_addMConstr;
     destruct (rhs_in c) as [[|]|]; rewrite ?zeta_addMConstr; auto).
Qed.

(** ** add_mixed_integer_linear_constraints *)

Lemma step_mic : forall st c iv ov m m' sl bi,
  add_mic c iv ov NewBinary vt m = (m', sl, bi) -> mic_ok c -> history st m ->
  below (nvars m) iv -> length iv = nin c -> ov_wf (nvars m) (num_out c) ov ->
  vt <> VCont ->
  (st = true -> input_lo c = None /\ input_up c = None /\ slack_lo c = None /\
                slack_up c = None) ->
  sl = seq (nvars m) (nsl c) /\ bi = seq (nvars m + nsl c) (nbin c) /\
  nvars m' = (nvars m + nsl c + nbin c)%nat /\
  step vt st m m'
    (fun sg => exists s b, bins b /\ mic_sat c (map sg iv) s b /\
                           out_ok c ov sg (map sg iv) s b)
    (fun sg => bins (map sg bi) /\
               mic_sat c (map sg iv) (map sg sl) (map sg bi) /\
               out_ok c ov sg (map sg iv) (map sg sl) (map sg bi)) /\
  (forall sg s b, feas vt m sg -> bins b -> mic_sat c (map sg iv) s b ->
     out_ok c ov sg (map sg iv) s b ->
     exists sg', feas vt m' sg' /\ agree m sg sg' /\ map sg' sl = s /\ map sg' bi = b).
Proof.
  intros st c iv ov m m' sl bi E Ok H B L O V S. assert (W := history_wf _ _ H).
  destruct (add_mic_new _ _ _ _ _ _ _ _ E Ok W B L O) as (Q1 & Q2 & Q3 & Q4 & Q5).
  assert (Z := zeta_add_mic _ _ _ _ _ _ _ V E).
  assert (X : forall sg s b, feas vt m sg -> bins b -> mic_sat c (map sg iv) s b ->
     out_ok c ov sg (map sg iv) s b ->
     exists sg', feas vt m' sg' /\ agree m sg sg' /\ map sg' sl = s /\ map sg' bi = b).
  { intros sg s b [G Bz] D Sa Oa.
    destruct (add_mic_extend _ _ _ _ _ _ _ _ _ _ _ E Ok W B L O G (bins_dom vt b D) Sa Oa)
      as (sg' & G' & A & E1 & E2).
    exists sg'. split; [split; [exact G'|]|auto]. intros Ev. rewrite Z, map_app.
    apply Forall_app. split; [|rewrite E2; auto].
    rewrite <- (map_agree (nvars m) sg _ _ (history_zeta _ _ H) A). apply Bz; auto. }
  split; auto. split; auto. split; auto. split; auto.
  split; [lia|]. split.
  { apply (history_mic st c iv ov NewBinary vt m m' sl bi H); [| | | |exact E].
    - apply (history_allk st); auto.
    - apply (history_allk st); auto. destruct ov; simpl in O; [apply O|constructor].
    - constructor.
    - intros Es. destruct (S Es) as (K1 & K2 & K3 & K4).
      repeat match goal with |- _ /\ _ => split end; auto. }
  split.
  - intros sg [G Bz]. apply Q5 in G. destruct G as (G & D & G').
    assert (K : vt = VBinRelax -> bins (map sg (zeta_ m)) /\ bins (map sg bi)).
    { intros Ev. specialize (Bz Ev). rewrite Z, map_app in Bz. apply Forall_app in Bz. auto. }
    split; [split; auto; intros Ev; apply K; auto|]. split; auto.
    destruct vt; [congruence|exact D|apply K; auto].
  - intros sg G (s & b & D & Sa & Oa). destruct (X sg s b G D Sa Oa) as (sg' & G' & A & _).
    eauto.
Qed.

(** ** The objective *)

Lemma eval_combine_concat : forall cs vs (sg : assignment),
  Forall2 (fun (c : vec) (v : list nat) => length c = length v) cs vs ->
  dot (concat cs) (map sg (concat vs))
  = vsum (map2 (fun c v => dot c (map sg v)) cs vs).
Proof.
  intros cs vs sg H. induction H; simpl; auto.
  rewrite map_app, dot_app by (rewrite map_length; auto). rewrite IHForall2. auto.
Qed.

Lemma setObjective_step : forall st cs vs k mx m, history st m ->
  Forall2 (fun (c : vec) (v : list nat) => length c = length v) cs vs ->
  below (nvars m) (concat vs) -> NoDup (concat vs) ->
  exists m', setObjective cs vs k mx m = Some m' /\ obj_max m' = mx /\ nvars m' = nvars m /\
    history st m' /\ (forall sg, feas vt m' sg <-> feas vt m sg) /\
    (forall sg, objective m' sg = vsum (map2 (fun c v => dot c (map sg v)) cs vs) + k).
Proof.
  intros st cs vs k mx m H F B N.
  assert (K : allk m (concat vs)) by (apply (history_allk st); auto).
  assert (E : exists m', setObjective cs vs k mx m = Some m').
  { unfold setObjective. rewrite (Forall2_len _ _ _ F), Nat.eqb_refl. cbn [negb].
    rewrite filter_all by exact K. rewrite nodupb_NoDup by auto. eexists; reflexivity. }
  destruct E as [m' E]. exists m'. split; auto.
  assert (H' : history st m') by (eapply h_obj; eauto).
  unfold setObjective in E. rewrite (Forall2_len _ _ _ F), Nat.eqb_refl in E. cbn [negb] in E.
  rewrite filter_all in E by exact K. rewrite nodupb_NoDup in E by auto. injection E as E. subst m'.
  split; auto. split; auto. split; auto. split; [intros; reflexivity|].
  intros sg. unfold objective. cbn [obj_terms obj_const]. rewrite filter_all.
  - rewrite eval_combine, eval_combine_concat by auto. auto.
  - apply Forall_forall. intros [c v] Hv. apply in_combine_r in Hv.
    unfold allk in K. rewrite Forall_forall in K. apply K; auto.
Qed.

End Step.

(** ** Fresh variables *)

Definition fresh (a b : nat) (l : list nat) : Prop :=
  NoDup l /\ Forall (fun v => (a <= v < b)%nat) l.
Lemma fresh_seq : forall a k b, (a + k <= b)%nat -> fresh a b (seq a k).
Proof.
  intros. split; [apply seq_NoDup|]. apply Forall_forall. intros v Hv. apply in_seq in Hv. lia.
Qed.
Lemma fresh_nil : forall a b, fresh a b [].
Proof. split; constructor. Qed.
Lemma fresh_app : forall a b c d l1 l2, fresh a b l1 -> fresh c d l2 -> (b <= c)%nat ->
  (a <= c)%nat -> (b <= d)%nat -> fresh a d (l1 ++ l2).
Proof.
  intros a b c d l1 l2 [N1 F1] [N2 F2] H Hac Hbd. split.
  - clear - N1 F1 N2 F2 H. induction N1; simpl; auto. inversion F1; subst. constructor; auto.
    rewrite in_app_iff. intros [I|I]; auto. rewrite Forall_forall in F2. specialize (F2 _ I). lia.
  - apply Forall_app. split; eapply Forall_impl; try eassumption; intros; simpl in *; lia.
Qed.
Lemma fresh_app' : forall a b c d l1 l2, fresh a b l1 -> fresh c d l2 -> (d <= a)%nat ->
  (c <= b)%nat -> fresh (Nat.min a c) (Nat.max b d) (l1 ++ l2).
Proof.
  intros a b c d l1 l2 [N1 F1] [N2 F2] H Hbd. split.
  - clear - N1 F1 N2 F2 H. induction N1; simpl; auto. inversion F1; subst. constructor; auto.
    rewrite in_app_iff. intros [I|I]; auto. rewrite Forall_forall in F2. specialize (F2 _ I). lia.
  - apply Forall_app. split; eapply Forall_impl; try eassumption; intros; simpl in *; lia.
Qed.
Lemma fresh_below : forall a b l, fresh a b l -> below b l.
Proof. intros a b l [_ F]. eapply Forall_impl; try exact F. intros; simpl in *; lia. Qed.
Lemma fresh_weaken : forall a b a' b' l, fresh a b l -> (a' <= a)%nat -> (b <= b')%nat ->
  fresh a' b' l.
Proof.
  intros a b a' b' l [N F] H1 H2. split; auto. eapply Forall_impl; try exact F.
  intros; simpl in *; lia.
Qed.
(** Two lists from disjoint ranges, in any order. *)
Lemma fresh_disj : forall a b c d l1 l2, fresh a b l1 -> fresh c d l2 ->
  (b <= c)%nat \/ (d <= a)%nat -> NoDup (l1 ++ l2).
Proof.
  intros a b c d l1 l2 [N1 F1] [N2 F2] H.
  induction N1; simpl; auto. inversion F1; subst. constructor; auto.
  rewrite in_app_iff. intros [I|I]; auto. rewrite Forall_forall in F2. specialize (F2 _ I).
  lia.
Qed.

(** ** transform_input *)

Lemma transform_fields : forall n A b c c', transform_input n A b c = Some c' -> mic_wf c ->
  Ain_input c' = option_map (fun M => mm n M A) (Ain_input c) /\
  Aeq_input c' = option_map (fun M => mm n M A) (Aeq_input c) /\
  Aout_input c' = option_map (fun M => mm n M A) (Aout_input c) /\
  Ain_slack c' = Ain_slack c /\ Ain_binary c' = Ain_binary c /\
  Aeq_slack c' = Aeq_slack c /\ Aeq_binary c' = Aeq_binary c /\
  Aout_slack c' = Aout_slack c /\ Aout_binary c' = Aout_binary c /\
  option_map (@length R) (rhs_in c') = option_map (@length R) (rhs_in c) /\
  option_map (@length R) (rhs_eq c') = option_map (@length R) (rhs_eq c) /\
  (Aout_input c = None -> Cout c' = Cout c) /\
  (forall M, Aout_input c = Some M -> exists k, Cout c' = Some k /\ length k = length M).
Proof.
  intros n A b c c' H W.
  destruct W as (O1 & O2 & O3 & O4 & P1 & P2 & P3 & (N1 & N2 & N3) & E1 & E2 & E3 &
                 (M1 & M2 & M3) & _).
  unfold transform_input in H. unfold num_ineq, num_eq, num_out in *.
  destruct (Ain_input c) as [Mi|] eqn:Ei, (rhs_in c) as [ri|] eqn:Ri; try discriminate;
  destruct (Aeq_input c) as [Me|] eqn:Ee, (rhs_eq c) as [re|] eqn:Re; try discriminate;
  destruct (Aout_input c) as [Mo|] eqn:Eo; injection H as H; subst c';
  cbn [option_map owf olen olen_is none_if Aout_input Aout_slack Aout_binary Cout Ain_input Ain_slack
         Ain_binary rhs_in Aeq_input Aeq_slack Aeq_binary rhs_eq] in *;
  repeat match goal with |- _ /\ _ => split end; auto; try congruence;
  try (f_equal; apply vsub_length; rewrite mv_length; symmetry; first [apply P1|apply E1]);
  try (intros M EM; injection EM as EM; subst M; eexists; split; [reflexivity|]; 
       destruct (Cout c); [rewrite vadd_length; rewrite ?mv_length; auto|apply mv_length]).
Qed.

Lemma transform_ok : forall n A b c c', transform_input n A b c = Some c' -> mic_ok c ->
  wfm (nin c) n A -> length b = nin c -> input_lo c = None -> input_up c = None ->
  mic_ok c' /\ nin c' = n /\ nsl c' = nsl c /\ nbin c' = nbin c /\
  input_lo c' = None /\ input_up c' = None /\ slack_lo c' = slack_lo c /\
  slack_up c' = slack_up c /\ num_out c' = num_out c.
Proof.
  intros n A b c c' H Ok WA Lb I1 I2.
  assert (Wc : mic_wf c) by apply Ok.
  destruct (transform_bounds _ _ _ _ _ H) as (B0 & B1 & B2 & B3 & B4 & B5 & B6 & B7 & B8).
  destruct (transform_fields _ _ _ _ _ H Wc) as (F1 & F2 & F3 & F4 & F5 & F6 & F7 & F8 & F9 &
    F10 & F11 & F12 & F13).
  assert (No : num_out c' = num_out c).
  { unfold num_out. rewrite F3, F8, F9. destruct (Aout_input c) as [M|]; simpl.
    - unfold mm. rewrite map_length. auto.
    - rewrite F12; auto. }
  assert (Ni : num_ineq c' = num_ineq c).
  { unfold num_ineq. destruct (rhs_in c'), (rhs_in c); simpl in F10; congruence. }
  assert (Ne : num_eq c' = num_eq c).
  { unfold num_eq. destruct (rhs_eq c'), (rhs_eq c); simpl in F11; congruence. }
  assert (OM : forall k M, owf k (nin c) M -> owf k n (option_map (fun M => mm n M A) M)).
  { intros k M Hk. destruct M; simpl in *; auto. eapply wfm_mm; eauto. }
  assert (NI : forall T (o : option T), none_if (rhs_in c) o -> none_if (rhs_in c') o).
  { intros T o Hn. destruct (rhs_in c'), (rhs_in c); simpl in *; try discriminate; auto. }
  assert (NE : forall T (o : option T), none_if (rhs_eq c) o -> none_if (rhs_eq c') o).
  { intros T o Hn. destruct (rhs_eq c'), (rhs_eq c); simpl in *; try discriminate; auto. }
  assert (NM : forall B (o : option B) M, none_if o M ->
     none_if o (option_map (fun M => mm n M A) M)).
  { intros B o M Hn. destruct o; simpl in *; auto. subst; auto. }
  split; [|repeat match goal with |- _ /\ _ => split end; congruence].
  destruct Ok as ((O1 & O2 & O3 & O4 & P1 & P2 & P3 & (N1 & N2 & N3) & E1 & E2 & E3 &
                 (M1 & M2 & M3) & X1 & X2 & X3 & X4 & X5 & X6) & S1 & S2 & R1 & R2).
  split.
  { unfold mic_wf. rewrite No, Ni, Ne, B0, B1, B2, F1, F2, F3, F4, F5, F6, F7, F8, F9,
      B3, B4, B5, B6, B7, B8, I1, I2.
    repeat match goal with |- _ /\ _ => split end; simpl; auto.
    destruct (Aout_input c) as [M|] eqn:EM.
    - destruct (F13 M eq_refl) as (k & -> & Lk). simpl. simpl in O1. destruct O1; congruence.
    - rewrite F12; auto. }
  split; [unfold slack_size in *; rewrite F4, F6, B5, B6, B1; auto|].
  split; [unfold binary_size in *; rewrite F5, F7, B7, B8, B2; auto|].
  split; intros r rs Hr; unfold some_of3 in *.
  - rewrite F1, F4, F5. rewrite Hr in F10. destruct (rhs_in c) as [[|r0 rr]|]; try discriminate.
    destruct (R1 _ _ eq_refl) as [K|[K|K]]; auto. left. destruct (Ain_input c); simpl; congruence.
  - rewrite F2, F6, F7. rewrite Hr in F11. destruct (rhs_eq c) as [[|r0 rr]|]; try discriminate.
    destruct (R2 _ _ eq_refl) as [K|[K|K]]; auto. left. destruct (Aeq_input c); simpl; congruence.
Qed.
