(** Lemmas for ModelDerivList.v: the gradients of a network and of V. *)

Require Import Reals List Lra Lia Bool Arith.
Require Import Verif.Vec Verif.VecFacts Verif.ModelMip Verif.SpecMip Verif.SpecCore Verif.ModelUtils Verif.SpecUtils
  Verif.ModelGrad Verif.ModelNet Verif.SpecNet Verif.ModelPattern Verif.SpecPattern Verif.ModelLyapunov
  Verif.SpecLyapunov Verif.SpecContinuous Verif.ModelHybrid Verif.ModelContHybrid Verif.ModelDerivList Verif.SpecDerivList
  Verif.ProofGrad Verif.ProofPattern Verif.ProofLyapunov Verif.ProofLoss Verif.ProofContinuous Verif.ProofContinuous5.
Import ListNotations.
Open Scope R_scope.

(** ** Rows of the network gradient *)

Lemma scale_row_length : forall c i A, length (scale_row c i A) = length A.
Proof. intros c i A. revert i. induction A as [|r A IH]; intros [|i]; simpl; auto. Qed.
Lemma scale_row_wf : forall m n c i A, wfm m n A -> wfm m n (scale_row c i A).
Proof.
  intros m n c i A [L F]. split; [rewrite scale_row_length; auto|]. clear L. revert i.
  induction F as [|r A Hr F IH]; intros [|i]; simpl; try constructor; auto.
  rewrite vscale_length. auto.
Qed.

Fixpoint scale_units (c : R) (i : nat) (pat : list bool) (A : mat) : mat :=
  match pat with
  | [] => A
  | b :: pat' => scale_units c (S i) pat' (if b then A else scale_row c i A)
  end.
Lemma scale_units_wf : forall m n c pat i A, wfm m n A -> wfm m n (scale_units c i pat A).
Proof.
  intros m n c pat. induction pat as [|b pat IH]; intros i A W; simpl; auto.
  apply IH. destruct b; auto. apply scale_row_wf. auto.
Qed.
Lemma scale_row_mv : forall c (A1 : mat) r A2 d,
  mv (scale_row c (length A1) (A1 ++ r :: A2)) d = mv A1 d ++ c * dot r d :: mv A2 d.
Proof.
  intros c A1. induction A1 as [|a A1 IH]; intros r A2 d; simpl.
  - f_equal. apply dot_vscale_l.
  - f_equal. apply IH.
Qed.
Lemma scale_row_app : forall c (A1 : mat) r A2,
  scale_row c (length A1) (A1 ++ r :: A2) = A1 ++ vscale c r :: A2.
Proof. intros c A1. induction A1 as [|a A1 IH]; intros; simpl; auto. f_equal. apply IH. Qed.
Lemma scale_units_mv : forall c pat (A1 A2 : mat) d, length A2 = length pat ->
  mv (scale_units c (length A1) pat (A1 ++ A2)) d = mv A1 d ++ scale_by c pat (mv A2 d).
Proof.
  intros c pat. induction pat as [|b pat IH]; intros A1 A2 d L; destruct A2 as [|r A2]; try discriminate; simpl.
  - rewrite !app_nil_r. auto.
  - simpl in L. assert (L' : length A2 = length pat) by lia.
    destruct b.
    + replace (A1 ++ r :: A2) with ((A1 ++ [r]) ++ A2) by (rewrite <- app_assoc; auto).
      replace (S (length A1)) with (length (A1 ++ [r])) by (rewrite app_length; simpl; lia).
      rewrite IH by auto. rewrite mv_app, <- app_assoc. unfold scale_by. cbn [mv map map2 app]. f_equal. f_equal. lra.
    + rewrite scale_row_app.
      replace (A1 ++ vscale c r :: A2) with ((A1 ++ [vscale c r]) ++ A2) by (rewrite <- app_assoc; auto).
      replace (S (length A1)) with (length (A1 ++ [vscale c r])) by (rewrite app_length; simpl; lia).
      rewrite IH by auto. rewrite mv_app, <- app_assoc. unfold scale_by. cbn [mv map map2 app]. f_equal. f_equal. apply dot_vscale_l.
Qed.

Lemma units_in : forall tol c p i G g, 0 <= tol ->
  (In g (units_gradients tol c i p G) <->
   exists g0 pat, In g0 G /\ Forall2 (flag_tol tol) pat p /\ g = scale_units c i pat g0).
Proof.
  intros tol c p. induction p as [|v p IH]; intros i G g T; simpl.
  - split.
    + intros H. exists g, []. auto.
    + intros (g0 & pat & H & F & ->). inversion F; subst. auto.
  - rewrite IH by auto. split.
    + intros (g0 & pat & H & F & ->). unfold unit_gradients in H.
      destruct (Rltb tol v) eqn:E1; [|destruct (Rltb v (- tol)) eqn:E2].
      * exists g0, (true :: pat). split; auto. apply Rltb_true in E1. split; auto.
        constructor; [simpl; lra|auto].
      * apply Rltb_true in E2. apply in_map_iff in H. destruct H as (g1 & <- & H).
        exists g1, (false :: pat). split; auto. split; auto. constructor; [simpl; lra|auto].
      * apply Rltb_false in E1, E2. apply in_app_iff in H. destruct H as [H|H].
        -- exists g0, (true :: pat). split; [auto|split; [constructor; auto|reflexivity]].
        -- apply in_map_iff in H. destruct H as (g1 & <- & H).
           exists g1, (false :: pat). split; [auto|split; [constructor; auto|reflexivity]].
    + intros (g0 & pat & H & F & ->). inversion F as [|b ? pat' ? Hb F']; subst. clear F.
      exists (if b then g0 else scale_row c i g0), pat'. split; [|split; auto].
      unfold unit_gradients. destruct (Rltb tol v) eqn:E1; [|destruct (Rltb v (- tol)) eqn:E2].
      * apply Rltb_true in E1. destruct b; auto. simpl in Hb. lra.
      * apply Rltb_true in E2. destruct b; [simpl in Hb; lra|]. apply in_map; auto.
      * apply in_app_iff. destruct b; auto. right. apply in_map; auto.
Qed.

(** The product of the layers for a pattern. *)
Fixpoint jac_loop (n : nat) (hs : list (linear * act)) (pats : list (list bool)) (A : mat) : mat :=
  match hs, pats with
  | (l, a) :: hs', pat :: pats' => jac_loop n hs' pats' (scale_units (slope_of a) 0 pat (mm n (weight l) A))
  | _, _ => A
  end.
Lemma jac_spec : forall n hs k out pats A, hidden_wf k hs out -> wfm k n A -> pattern_shape hs pats ->
  wfm out n (jac_loop n hs pats A) /\
  forall d, length d = n -> mv (jac_loop n hs pats A) d = last (tangents hs pats (mv A d)) (mv A d).
Proof.
  intros n hs. induction hs as [|[l a] hs IH]; intros k out pats A W WA Sh.
  - inversion Sh; subst. simpl in W. subst. split; auto.
  - inversion Sh as [|? pat ? pats' Sp Sh']; subst. cbn [fst] in Sp. destruct W as [W1 W2].
    cbn [jac_loop].
    assert (Wm : wfm (out_features l) n (mm n (weight l) A)).
    { destruct W1 as (_ & W1 & _). eapply wfm_mm; eauto. }
    assert (Wu := scale_units_wf _ _ (slope_of a) pat 0 _ Wm).
    destruct (IH _ out pats' _ W2 Wu Sh') as [I1 I2]. split; auto.
    intros d Ld. rewrite I2 by auto. rewrite tangents_cons, last_cons.
    assert (E : mv (scale_units (slope_of a) 0 pat (mm n (weight l) A)) d
                = scale_by (slope_of a) pat (mv (weight l) (mv A d))).
    { change (mm n (weight l) A) with ([] ++ mm n (weight l) A).
      change 0%nat with (length (@nil vec)). rewrite scale_units_mv.
      - simpl. f_equal. destruct WA as [LA FA]. destruct W1 as (_ & [LW FW] & _).
        apply mv_mm; auto.
      - destruct Wm as [Wm _]. unfold vec, mat in *. congruence. }
    rewrite E. auto.
Qed.
Lemma loop_in : forall n tol hs k out x G g, hidden_wf k hs out -> length x = k -> 0 <= tol ->
  (In g (gradient_loop n tol hs x G) <->
   exists g0 pats, In g0 G /\ consistent_tol tol pats (pre_acts hs x) /\ g = jac_loop n hs pats g0).
Proof.
  intros n tol hs. induction hs as [|[l a] hs IH]; intros k out x G g W L T; cbn [gradient_loop pre_acts].
  - split.
    + intros H. exists g, []. split; auto. split; auto. constructor.
    + intros (g0 & pats & H & F & ->). inversion F; subst. auto.
  - destruct W as [W1 W2]. rewrite (pre_bias k) by auto. rewrite act_forward_map.
    assert (Lm : length (map (act_fun a) (lin_eval l x)) = out_features l)
      by (rewrite map_length; eapply lin_len; eauto).
    rewrite (IH _ out _ _ g W2 Lm T). split.
    + intros (g0 & pats & H & F & ->). apply units_in in H; auto.
      destruct H as (g1 & pat & H & F1 & ->). apply in_map_iff in H. destruct H as (g2 & <- & H).
      exists g2, (pat :: pats). split; auto. split; auto. constructor; auto.
    + intros (g0 & pats & H & F & ->). inversion F as [|pat ? pats' ? F1 F2]; subst.
      eexists _, pats'. split; [|split; [exact F2|reflexivity]]. apply units_in; auto.
      exists (mm n (weight l) g0), pat. split; auto. apply in_map; auto.
Qed.

Lemma F2_impl : forall {A B} (P Q : A -> B -> Prop) l m, (forall a b, P a b -> Q a b) ->
  Forall2 P l m -> Forall2 Q l m.
Proof. intros A B P Q l m H F. induction F; constructor; auto. Qed.
Lemma shape_of_pres : forall (P : bool -> R -> Prop) hs n out x pats, hidden_wf n hs out -> length x = n ->
  Forall2 (Forall2 P) pats (pre_acts hs x) -> pattern_shape hs pats.
Proof.
  intros P hs. induction hs as [|[l a] hs IH]; intros n out x pats W L F; cbn [pre_acts] in F.
  - inversion F; subst. constructor.
  - destruct W as [W1 W2]. inversion F as [|pat ? pats' ? F1 F2]; subst. constructor.
    + cbn [fst]. apply Forall2_len in F1. rewrite F1. eapply lin_len; eauto.
    + eapply IH; eauto. rewrite map_length. eapply lin_len; eauto.
Qed.
Lemma x_size_net : forall n N, net_wf n N -> x_size N = n.
Proof.
  intros n N (H & W & _). unfold x_size. destruct (hidden N) as [|[l a] hs]; [contradiction|].
  destruct W as [(E & _) _]. auto.
Qed.

Lemma network_gradient : forall n N tol x, net_wf n N -> length x = n -> 0 <= tol ->
  exists G, relu_network_gradient N tol x = Some G /\ G <> [] /\
    (forall g, In g G -> exists pats, consistent_tol tol pats (pre_acts (hidden N) x) /\ is_jacobian N n pats g) /\
    (forall pats, consistent_tol tol pats (pre_acts (hidden N) x) -> exists g, In g G /\ is_jacobian N n pats g).
Proof.
  intros n N tol x W L T. assert (Ex := x_size_net _ _ W). destruct W as (Hn & Wh & Wl).
  unfold relu_network_gradient. rewrite Ex, L, Nat.eqb_refl.
  assert (Et : Rleb 0 tol = true) by (apply Rleb_true; auto). rewrite Et. cbn [andb].
  eexists. split; [reflexivity|].
  assert (J : forall pats, consistent_tol tol pats (pre_acts (hidden N) x) ->
     is_jacobian N n pats (mm n (weight (last_layer N)) (jac_loop n (hidden N) pats (eye n)))).
  { intros pats C. assert (Sh := shape_of_pres _ _ _ _ _ _ Wh L C).
    destruct (jac_spec n (hidden N) n _ pats (eye n) Wh (wfm_eyek n 1) Sh) as [J1 J2].
    destruct Wl as (El & Wl & Bl). split; [eapply wfm_mm; eauto|].
    intros d Ld. destruct Wl as [LW FW]. destruct J1 as [LJ FJ].
    rewrite mv_mm by auto. rewrite J2 by auto. rewrite mv_eye by auto. reflexivity. }
  assert (I : forall pats, consistent_tol tol pats (pre_acts (hidden N) x) ->
     In (mm n (weight (last_layer N)) (jac_loop n (hidden N) pats (eye n)))
       (map (mm n (weight (last_layer N))) (gradient_loop n tol (hidden N) x [eye n]))).
  { intros pats C. apply in_map. apply (loop_in n tol _ n _ x _ _ Wh L T).
    exists (eye n), pats. split; [left; auto|]. auto. }
  split; [|split].
  - assert (C : consistent_tol tol (activation_pattern (hidden N) x) (pre_acts (hidden N) x)).
    { destruct (own_pattern_prop n N x) as [C _]; auto; [split; auto|].
      unfold consistent in C. unfold consistent_tol.
      refine (F2_impl _ _ _ _ _ C). intros a b K. refine (F2_impl _ _ _ _ _ K).
      intros [] v; simpl; lra. }
    specialize (I _ C). intros K. rewrite K in I. destruct I.
  - intros g H. apply in_map_iff in H. destruct H as (g1 & <- & H).
    apply (loop_in n tol _ n _ x _ _ Wh L T) in H. destruct H as (g0 & pats & [<-|[]] & C & ->).
    exists pats. split; auto.
  - intros pats C. eexists. split; [apply I; eauto|]. auto.
Qed.
