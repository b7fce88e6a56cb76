(** Activation patterns (C16-C18) — lemmas. *)

Require Import Reals List Bool Arith Lra Lia.
Require Import Verif.Vec Verif.VecFacts Verif.ModelMip Verif.SpecMip
  Verif.ModelUtils Verif.ModelNet Verif.SpecCore Verif.SpecUtils Verif.SpecNet
  Verif.ModelPattern Verif.SpecPattern
  Verif.ProofUtils Verif.ProofMaxBox Verif.ProofMip Verif.ProofConcat Verif.ProofBounds
  Verif.ProofNet Verif.ProofNetBounds.
Import ListNotations.
Open Scope R_scope.

(** ** Enumeration *)

Definition ext {A} (cs : list A) (q : list (list A)) : list (list A) :=
  flat_map (fun p => map (fun c => p ++ [c]) cs) q.

Lemma in_ext : forall {A} (cs : list A) q p,
  In p (ext cs q) <-> exists p' c, In p' q /\ In c cs /\ p = p' ++ [c].
Proof.
  intros A cs q p. unfold ext. rewrite in_flat_map. split.
  - intros [p' [H1 H2]]. apply in_map_iff in H2. destruct H2 as [c [<- H2]]. eauto.
  - intros [p' [c [H1 [H2 ->]]]]. exists p'. split; auto. apply in_map_iff. eauto.
Qed.
Lemma nodup_app : forall {A} (a b : list A), NoDup a -> NoDup b ->
  (forall x, In x a -> In x b -> False) -> NoDup (a ++ b).
Proof.
  intros A a. induction a; intros b Ha Hb H; simpl; auto.
  inversion Ha; subst. constructor.
  - rewrite in_app_iff. intros [K|K]; auto. apply (H a); simpl; auto.
  - apply IHa; auto. intros x K. apply H. simpl. auto.
Qed.
Lemma nodup_ext : forall {A} (cs : list A) q, NoDup cs -> NoDup q -> NoDup (ext cs q).
Proof.
  intros A cs q Hc Hq. induction Hq as [|p q Hp Hq IH]; [constructor|].
  cbn [ext flat_map]. fold (ext cs q). apply nodup_app; auto.
  - apply FinFun.Injective_map_NoDup; auto.
    intros c c' E. apply app_inj_tail in E. apply E.
  - intros x H1 H2. apply in_map_iff in H1. destruct H1 as [c [<- _]].
    apply in_ext in H2. destruct H2 as [p' [c' [H2 [_ E]]]].
    apply app_inj_tail in E. destruct E as [-> _]. auto.
Qed.

Lemma choices_nodup : forall v, NoDup (unit_choices v).
Proof.
  intros v. unfold unit_choices. destruct (Rltb 0 v), (Rltb v 0);
    repeat constructor; simpl; intuition congruence.
Qed.
Lemma choices_iff : forall v b, In b (unit_choices v) <-> flag_ok b v.
Proof.
  intros v b. unfold unit_choices, flag_ok.
  destruct (Rltb 0 v) eqn:E1; [apply Rltb_true in E1|apply Rltb_false in E1];
    destruct (Rltb v 0) eqn:E2;
    try (apply Rltb_true in E2); try (apply Rltb_false in E2);
    destruct b; simpl; try lra; intuition (try congruence; try lra).
Qed.

Lemma layer_patterns_gen : forall p q, NoDup q ->
  NoDup (fold_left (fun q v => extend_unit v q) p q) /\
  (forall pat, In pat (fold_left (fun q v => extend_unit v q) p q) <->
     exists pre suf, pat = pre ++ suf /\ In pre q /\ Forall2 flag_ok suf p).
Proof.
  induction p as [|v p IH]; intros q Hq; simpl.
  - split; auto. intros pat. split.
    + intros H. exists pat, []. rewrite app_nil_r. split; auto.
    + intros [pre [suf [-> [H F]]]]. inversion F; subst. rewrite app_nil_r. auto.
  - assert (Hn : NoDup (extend_unit v q)) by (apply (nodup_ext (unit_choices v)); auto; apply choices_nodup).
    destruct (IH _ Hn) as [I1 I2]. split; auto. intros pat. rewrite I2. split.
    + intros [pre [suf [-> [H F]]]]. apply (in_ext (unit_choices v)) in H.
      destruct H as [p' [c [H1 [H2 ->]]]]. exists p', (c :: suf).
      rewrite <- app_assoc. split; auto. split; auto. constructor; auto. apply choices_iff; auto.
    + intros [pre [suf [-> [H F]]]]. inversion F; subst.
      exists (pre ++ [x]), l. rewrite <- app_assoc. split; auto. split; auto.
      apply (in_ext (unit_choices v)). exists pre, x. split; auto. split; auto. apply choices_iff; auto.
Qed.
Lemma layer_patterns_spec : forall p, NoDup (layer_patterns p) /\
  (forall pat, In pat (layer_patterns p) <-> Forall2 flag_ok pat p).
Proof.
  intros p. destruct (layer_patterns_gen p [[]]) as [H1 H2].
  { repeat constructor. auto. }
  split; auto. intros pat. unfold layer_patterns. rewrite H2. split.
  - intros [pre [suf [-> [[<-|[]] F]]]]. auto.
  - intros F. exists [], pat. simpl. auto.
Qed.

Lemma act_forward_map : forall a (v : vec), map (act_forward a) v = map (act_fun a) v.
Proof. intros. apply map_ext. intros. apply act_forward_fun. Qed.
Lemma pre_bias : forall n l x, lin_wf n l -> length x = n ->
  vadd (mv (weight l) x) (bias_of l) = lin_eval l x.
Proof.
  intros n l x W L. symmetry. apply lin_eval_bias. rewrite L. apply W.
Qed.

Lemma all_patterns_gen : forall hs n out x ps, hidden_wf n hs out -> length x = n ->
  NoDup ps ->
  NoDup (all_patterns_loop hs x ps) /\
  (forall pat, In pat (all_patterns_loop hs x ps) <->
     exists pre suf, pat = pre ++ suf /\ In pre ps /\ consistent suf (pre_acts hs x)).
Proof.
  induction hs as [|[l a] hs IH]; intros n out x ps W L Hn; cbn [all_patterns_loop pre_acts].
  - split; auto. intros pat. split.
    + intros H. exists pat, []. rewrite app_nil_r. split; auto. split; auto. constructor.
    + intros [pre [suf [-> [H F]]]]. inversion F; subst. rewrite app_nil_r. auto.
  - destruct W as [W1 W2]. rewrite (pre_bias n) by auto. rewrite act_forward_map.
    destruct (layer_patterns_spec (lin_eval l x)) as [P1 P2].
    assert (He : NoDup (extend_patterns (layer_patterns (lin_eval l x)) ps))
      by (apply (nodup_ext (layer_patterns (lin_eval l x))); auto).
    assert (Lm : length (map (act_fun a) (lin_eval l x)) = out_features l)
      by (rewrite map_length; eapply lin_eval_length; eauto).
    destruct (IH (out_features l) out _ _ W2 Lm He) as [I1 I2].
    split; auto. intros pat. rewrite I2. split.
    + intros [pre [suf [-> [H F]]]]. apply (in_ext (layer_patterns (lin_eval l x))) in H.
      destruct H as [p' [c [H1 [H2 ->]]]]. exists p', (c :: suf).
      rewrite <- app_assoc. split; auto. split; auto. constructor; auto. apply P2; auto.
    + intros [pre [suf [-> [H F]]]]. inversion F; subst.
      exists (pre ++ [x0]), l0. rewrite <- app_assoc. split; auto. split; auto.
      apply (in_ext (layer_patterns (lin_eval l x))). exists pre, x0. split; auto. split; auto.
      apply P2; auto.
Qed.
Lemma all_patterns_prop : forall n N x, net_wf n N -> length x = n ->
  NoDup (compute_all_relu_activation_patterns N x) /\
  (forall pats, In pats (compute_all_relu_activation_patterns N x) <->
     consistent pats (pre_acts (hidden N) x)).
Proof.
  intros n N x [_ [W _]] L.
  destruct (all_patterns_gen (hidden N) n _ x [[]] W L) as [H1 H2].
  { repeat constructor. auto. }
  split; auto. intros pats. unfold compute_all_relu_activation_patterns. rewrite H2. split.
  - intros [pre [suf [-> [[<-|[]] F]]]]. auto.
  - intros F. exists [], pats. simpl. auto.
Qed.

(** ** Flat binaries *)

Lemma split_layers_spec : forall hs off b, length b = (off + num_units hs)%nat ->
  pattern_shape hs (split_layers hs off b) /\
  concat (split_layers hs off b) = map (fun v => Reqb v 1) (skipn off b).
Proof.
  induction hs as [|[l a] hs IH]; intros off b L; cbn [split_layers num_units concat] in *.
  - split; [constructor|]. rewrite skipn_all2 by lia. auto.
  - destruct (IH (off + out_features l)%nat b) as [I1 I2]; [lia|]. split.
    + constructor; auto. rewrite map_length. cbn [fst]. apply slice_length. lia.
    + rewrite I2, <- map_app. f_equal. unfold slice. rewrite <- skipn_skipn'.
      apply firstn_skipn.
Qed.
Lemma binary_flags : forall b, bins b <-> forallb (fun v => Reqb v 1 || Reqb v 0) b = true.
Proof.
  intros b. unfold bins. rewrite forallb_forall, Forall_forall.
  split; intros H v Hv; specialize (H v Hv).
  - apply orb_true_iff. rewrite !Reqb_true. destruct H; auto.
  - apply orb_true_iff in H. rewrite !Reqb_true in H. destruct H; [right|left]; auto.
Qed.
Lemma flat_flags : forall b, bins b ->
  map (fun f : bool => if f then 1 else 0) (map (fun v => Reqb v 1) b) = b.
Proof.
  intros b H. induction H as [|v b [->| ->] H IH]; auto; cbn [map]; rewrite IH; f_equal.
  - destruct (Reqb 0 1) eqn:E; auto. apply Reqb_true in E. lra.
  - destruct (Reqb 1 1) eqn:E; auto. apply Reqb_false in E. lra.
Qed.
Lemma binary_to_pattern_prop : forall N b,
  (~ (bins b /\ length b = num_units (hidden N)) ->
   relu_activation_binary_to_pattern N b = None) /\
  (bins b -> length b = num_units (hidden N) ->
   exists pats, relu_activation_binary_to_pattern N b = Some pats /\
     pattern_shape (hidden N) pats /\ flat pats = b).
Proof.
  intros N b. unfold relu_activation_binary_to_pattern. split.
  - intros H. destruct (forallb _ b) eqn:E1; auto.
    destruct (Nat.eqb (length b) (num_units (hidden N))) eqn:E2; auto.
    exfalso. apply H. split; [apply binary_flags; auto|apply Nat.eqb_eq; auto].
  - intros H1 H2. rewrite (proj1 (binary_flags b)) by auto. rewrite H2, Nat.eqb_refl. simpl.
    destruct (split_layers_spec (hidden N) 0 b) as [I1 I2]; [auto|].
    eexists. split; [reflexivity|]. split; auto. unfold flat. rewrite I2. cbn [skipn].
    apply flat_flags; auto.
Qed.
(** [flat] loses nothing: the pattern is the only one with these binaries. *)
Lemma flat_inj : forall hs p1 p2, pattern_shape hs p1 -> pattern_shape hs p2 ->
  flat p1 = flat p2 -> p1 = p2.
Proof.
  intros hs p1 p2 H1. revert p2. induction H1 as [|la a hs p1 Ha H1 IH]; intros p2 H2 E;
    inversion H2; subst; auto.
  unfold flat in E. cbn [concat] in E. rewrite !map_app in E.
  apply app_eq_iff in E; [|rewrite !map_length; congruence]. destruct E as [E1 E2].
  f_equal.
  - assert (length a = length y) by congruence. clear - E1 H. revert y E1 H.
    induction a; intros y E L; destruct y; try discriminate; auto.
    cbn [map] in E. apply cons_eq_iff in E. destruct E as [E1 E2]. simpl in L. f_equal.
    + destruct a, b; auto; lra.
    + apply IHa; auto.
  - apply IH; auto.
Qed.

(** ** The affine map of a pattern *)

Definition scale_by (s : R) (pat : list bool) (v : vec) : vec :=
  map2 (fun (b : bool) v => (if b then 1 else s) * v) pat v.

Lemma scale_length : forall s pat v, length pat = length v ->
  length (scale_by s pat v) = length v.
Proof. intros. unfold scale_by. rewrite map2_length. lia. Qed.
Lemma scale_vadd : forall s pat a b, length a = length b ->
  scale_by s pat (vadd a b) = vadd (scale_by s pat a) (scale_by s pat b).
Proof.
  intros s pat. unfold scale_by, vadd. induction pat; intros x y L; destruct x, y; simpl;
    auto; try discriminate. simpl in L. rewrite IHpat by lia. f_equal. ring.
Qed.

Lemma pattern_units_spec : forall n s pat A b, wfm (length pat) n A -> length b = length pat ->
  exists A2 b2 P q, pattern_units s pat A b = Some (A2, b2, P, q) /\
    wfm (length pat) n A2 /\ length b2 = length pat /\ wfm (length q) n P /\
    length q = length pat /\
    b2 = scale_by s pat b /\
    (forall x, mv A2 x = scale_by s pat (mv A x)) /\
    (forall x, vle (mv P x) q <-> Forall2 flag_ok pat (vadd (mv A x) b)).
Proof.
  intros n s pat. induction pat as [|p pat IH]; intros A b [LA FA] Lb.
  - destruct A; [|discriminate]. destruct b; [|discriminate].
    exists [], [], [], []. split; auto. split; [split; constructor|]. split; auto.
    split; [split; constructor|]. split; auto. split; auto. split; auto.
    intros x. split; constructor.
  - destruct A as [|r A]; [discriminate|]. destruct b as [|k b]; [discriminate|].
    inversion FA; subst. cbn [length] in *.
    destruct (IH A b) as (A2 & b2 & P & q & E & [WA1 WA2] & Lb2 & [WP1 WP2] & Lq & Eb & EA & EP);
      [split; auto|lia|].
    cbn [pattern_units]. rewrite E. destruct p.
    + exists (r :: A2), (k :: b2), (vneg r :: P), (k :: q).
      split; auto. split; [split; [simpl; lia|constructor; auto]|]. split; [simpl; lia|].
      split; [split; [simpl; lia|constructor; auto; apply vneg_length]|].
      split; [simpl; lia|]. split; [subst b2; unfold scale_by; cbn [map2]; f_equal; lra|]. split.
      * intros x. unfold scale_by. cbn [mv map map2]. f_equal; [ring|]. apply EA.
      * intros x. cbn [mv map vadd map2]. rewrite vle_cons, F2_cons, dot_vneg_l.
        fold (mv P x). fold (mv A x). fold (vadd (mv A x) b). rewrite EP.
        unfold flag_ok at 2. intuition lra.
    + exists (vscale s r :: A2), (s * k :: b2), (r :: P), (- k :: q).
      split; auto. split; [split; [simpl; lia|constructor; auto; apply vscale_length]|]. split; [simpl; lia|].
      split; [split; [simpl; lia|constructor; auto]|].
      split; [simpl; lia|]. split; [subst b2; reflexivity|]. split.
      * intros x. unfold scale_by. cbn [mv map map2]. f_equal; [apply dot_vscale_l|]. apply EA.
      * intros x. cbn [mv map vadd map2]. rewrite vle_cons, F2_cons.
        fold (mv P x). fold (mv A x). fold (vadd (mv A x) b). rewrite EP.
        unfold flag_ok at 2. intuition lra.
Qed.
Lemma pattern_units_none : forall s pat A b, length A = length b ->
  (pattern_units s pat A b = None <-> length pat <> length A).
Proof.
  intros s pat. induction pat as [|p pat IH]; intros A b L; destruct A, b; try discriminate; simpl.
  - split; [discriminate|lia].
  - split; [lia|auto].
  - split; [lia|auto].
  - simpl in L. specialize (IH A b ltac:(lia)).
    destruct (pattern_units s pat A b) as [[[[? ?] ?] ?]|].
    + split; [destruct p; discriminate|]. intros H.
      assert (K : length pat <> length A) by lia. apply IH in K. discriminate.
    + split; auto. intros _. assert (K : length pat <> length A) by (apply IH; auto). lia.
Qed.

Lemma scale_act : forall a pat v, Forall2 flag_ok pat v ->
  scale_by (slope_of a) pat v = map (act_fun a) v.
Proof.
  intros a pat v F. unfold scale_by. induction F as [|b x pat v H F IH]; auto.
  cbn [map map2]. rewrite IH. f_equal. destruct b; simpl in H.
  - rewrite act_nonneg by auto. ring.
  - rewrite act_nonpos by auto. reflexivity.
Qed.

Lemma affine_spec : forall k n l A b, lin_wf k l -> wfm k n A -> length b = k ->
  wfm (out_features l) n (fst (affine_linear n l A b)) /\
  length (snd (affine_linear n l A b)) = out_features l /\
  (forall x, length x = n ->
     mv (fst (affine_linear n l A b)) x = mv (weight l) (mv A x) /\
     vadd (mv (fst (affine_linear n l A b)) x) (snd (affine_linear n l A b))
     = lin_eval l (vadd (mv A x) b)).
Proof.
  intros k n l A b W WA Lb. assert (Lbi := bias_length). specialize (Lbi k l W).
  destruct W as [W1 [W2 W3]]. unfold affine_linear. cbn [fst snd].
  split; [eapply wfm_mm; eauto|]. split.
  { rewrite vadd_length; rewrite mv_length; auto. }
  intros x Lx. destruct WA as [LA FA]. destruct W2 as [LW FW].
  assert (E : mv (mm n (weight l) A) x = mv (weight l) (mv A x)).
  { apply mv_mm; auto. }
  split; auto. rewrite E.
  rewrite (lin_eval_bias l).
  2:{ rewrite vadd_length; rewrite mv_length; [rewrite LA; split; auto|]. congruence. }
  rewrite mv_vadd by (rewrite mv_length; congruence).
  apply vadd_assoc3.
Qed.

Lemma act_slope_of : forall a b, act_slope a b = if b then 1 else slope_of a.
Proof. intros a []; auto. Qed.
Lemma tangents_cons : forall l a hs pat pats y,
  tangents ((l, a) :: hs) (pat :: pats) y
  = scale_by (slope_of a) pat (mv (weight l) y)
    :: tangents hs pats (scale_by (slope_of a) pat (mv (weight l) y)).
Proof. reflexivity. Qed.
Lemma last_cons : forall {A} (l : list A) x d, last (x :: l) d = last l x.
Proof.
  intros A l. induction l as [|y l IH]; intros; auto.
  change (last (x :: y :: l) d) with (last (y :: l) d). rewrite !IH. auto.
Qed.

Lemma pattern_loop_spec : forall n hs k out pats A b P q,
  hidden_wf k hs out -> wfm k n A -> length b = k -> pattern_shape hs pats ->
  exists A' b' P' q', pattern_loop n hs pats A b P q = Some (A', b', P ++ P', q ++ q') /\
    wfm out n A' /\ length b' = out /\ wfm (length q') n P' /\
    (forall x, length x = n ->
       (vle (mv P' x) q' <-> consistent pats (pre_acts hs (vadd (mv A x) b))) /\
       (consistent pats (pre_acts hs (vadd (mv A x) b)) ->
        vadd (mv A' x) b' = hidden_eval hs (vadd (mv A x) b)) /\
       mv A' x = last (tangents hs pats (mv A x)) (mv A x)).
Proof.
  intros n hs. induction hs as [|[l a] hs IH]; intros k out pats A b P q W WA Lb S.
  - inversion S; subst. simpl in W. subst out. exists A, b, [], [].
    rewrite !app_nil_r. split; auto. split; auto. split; auto. split; [split; constructor|].
    intros x Lx. cbn. split; [split; constructor|]. split; auto.
  - destruct W as [W1 W2]. inversion S as [|? pat ? pats' Sp S']; subst. cbn [fst] in Sp.
    cbn [pattern_loop].
    destruct (affine_spec _ n l A b W1 WA eq_refl) as (WA1 & Lb1 & Ex).
    destruct (affine_linear n l A b) as [A1 b1]. cbn [fst snd] in *.
    rewrite <- Sp in WA1, Lb1.
    destruct (pattern_units_spec n (slope_of a) pat A1 b1 WA1 Lb1)
      as (A2 & b2 & P2 & q2 & E & WA2 & Lb2 & WP2 & Lq2 & Eb & EA & EP).
    rewrite E. rewrite Sp in WA2, Lb2.
    destruct (IH _ _ pats' A2 b2 (P ++ P2) (q ++ q2) W2 WA2 Lb2 S')
      as (A' & b' & P' & q' & E' & WA' & Lb' & WP' & H).
    exists A', b', (P2 ++ P'), (q2 ++ q'). rewrite E', !app_assoc.
    split; auto. split; auto. split; auto.
    split; [rewrite app_length; apply wfm_app; auto|].
    intros x Lx. destruct (H x Lx) as [H1 [H2 H3]]. destruct (Ex x Lx) as [X1 X2].
    assert (Ev : vadd (mv A2 x) b2 = scale_by (slope_of a) pat (lin_eval l (vadd (mv A x) b))).
    { rewrite EA, Eb, <- X2, scale_vadd; auto. rewrite mv_length. destruct WA1. congruence. }
    assert (C : vle (mv (P2 ++ P') x) (q2 ++ q') <->
                consistent (pat :: pats') (pre_acts ((l, a) :: hs) (vadd (mv A x) b))).
    { rewrite mv_app, vle_app_iff by (rewrite mv_length; apply WP2).
      rewrite EP, H1, X2, Ev. unfold consistent. cbn [pre_acts]. rewrite F2_cons.
      split; intros [C1 C2]; (split; [exact C1|]);
        rewrite (scale_act a _ _ C1) in * || rewrite <- (scale_act a _ _ C1); auto. }
    split; auto. split.
    + intros K. unfold consistent in K. cbn [pre_acts] in K. apply F2_cons in K.
      destruct K as [K1 K2]. rewrite Ev, (scale_act a _ _ K1) in H2. cbn [hidden_eval].
      apply H2. auto.
    + rewrite H3, tangents_cons, last_cons, EA, X1. auto.
Qed.

Lemma pattern_loop_none : forall n hs k out pats A b P q,
  hidden_wf k hs out -> wfm k n A -> length b = k ->
  (pattern_loop n hs pats A b P q = None <-> ~ pattern_shape hs (firstn (length hs) pats)).
Proof.
  intros n hs. induction hs as [|[l a] hs IH]; intros k out pats A b P q W WA Lb.
  - simpl. split; [discriminate|]. intros H. exfalso. apply H. constructor.
  - destruct W as [W1 W2]. destruct pats as [|pat pats]; simpl.
    + split; auto. intros _ H. inversion H.
    + destruct (affine_spec _ n l A b W1 WA Lb) as (WA1 & Lb1 & _).
      unfold affine_linear in WA1, Lb1. cbn [fst snd] in *.
      set (A1 := mm n (weight l) A) in *. set (b1 := vadd (mv (weight l) b) (bias_of l)) in *.
      assert (L1 : length A1 = length b1) by (destruct WA1; congruence).
      destruct (pattern_units (slope_of a) pat A1 b1) as [[[[A2 b2] P2] q2]|] eqn:E.
      * assert (Lp : length pat = out_features l).
        { destruct (Nat.eq_dec (length pat) (out_features l)); auto. exfalso.
          assert (K : pattern_units (slope_of a) pat A1 b1 = None)
            by (apply pattern_units_none; [auto|destruct WA1; congruence]). congruence. }
        rewrite <- Lp in WA1, Lb1.
        destruct (pattern_units_spec n (slope_of a) pat A1 b1 WA1 Lb1)
          as (A3 & b3 & P3 & q3 & E3 & WA3 & Lb3 & _). rewrite E in E3.
        injection E3 as <- <- <- <-. rewrite Lp in WA3, Lb3.
        rewrite (IH _ _ pats A2 b2 _ _ W2 WA3 Lb3).
        unfold pattern_shape. rewrite F2_cons. cbn [fst]. tauto.
      * split; auto. intros _ K. inversion K; subst. cbn [fst] in *.
        apply pattern_units_none in E; auto. destruct WA1. congruence.
Qed.

Lemma nth_vm : forall m x B i, Forall (fun b => length b = m) B -> (i < m)%nat ->
  nth i (vm m x B) 0 = dot x (map (fun r => nth i r 0) B).
Proof.
  intros m x. induction x as [|a x IH]; intros B i F Hi; simpl.
  - apply nth_zeros.
  - destruct F as [|b B Hb F]; simpl; [apply nth_zeros|].
    rewrite nth_vadd by (rewrite vscale_length, vm_length; auto).
    rewrite nth_vscale, IH by auto. auto.
Qed.
Lemma seq_nth_id : forall (r : vec), map (fun j => nth j r 0) (seq 0 (length r)) = r.
Proof.
  intros r. apply vec_ext; [rewrite map_length, seq_length; auto|].
  intros i Hi. rewrite map_length, seq_length in Hi.
  rewrite (nth_indep _ 0 (nth (length r) r 0)) by (rewrite map_length, seq_length; auto).
  rewrite (map_nth (fun j => nth j r 0)). rewrite seq_nth by auto. auto.
Qed.
Lemma vm_transpose : forall n m A x, wfm m n A -> length x = n ->
  vm m x (transpose n A) = mv A x.
Proof.
  intros n m A x [LA FA] Lx.
  assert (FT : Forall (fun r => length r = m) (transpose n A)).
  { unfold transpose. apply Forall_forall. intros r Hr.
    apply in_map_iff in Hr. destruct Hr as [j [<- _]]. rewrite map_length. auto. }
  apply vec_ext.
  - rewrite vm_length, mv_length; auto.
  - intros i Hi. rewrite vm_length in Hi by auto. rewrite nth_vm by auto.
    rewrite nth_mv by lia. rewrite dot_comm. f_equal.
    unfold transpose. rewrite map_map.
    assert (Lr : length (nth i A []) = n).
    { rewrite Forall_forall in FA. apply FA. apply nth_In. lia. }
    rewrite <- (seq_nth_id (nth i A [])) at 1. rewrite Lr. apply map_ext. intros j.
    rewrite (nth_indep _ 0 (nth j [] 0)) by (rewrite map_length; lia).
    rewrite (map_nth (fun r => nth j r 0)). auto.
Qed.

Lemma linearisation_prop : forall n N pats, net_wf n N -> pattern_shape (hidden N) pats ->
  exists g h P q, relu_given_activation_pattern N n pats = Some (g, h, P, q) /\
    (forall x, length x = n ->
       (vle (mv P x) q <-> consistent pats (pre_acts (hidden N) x)) /\
       (vle (mv P x) q ->
        net_eval N x = vadd (vm (out_features (last_layer N)) x g) h) /\
       vm (out_features (last_layer N)) x g = jvp N pats x).
Proof.
  intros n N pats [_ [W Wl]] S. unfold relu_given_activation_pattern.
  destruct (pattern_loop_spec n (hidden N) n _ pats (eye n) (zeros n) [] [] W)
    as (A & b & P & q & E & WA & Lb & WP & H); auto.
  { apply wfm_eyek. } { apply zeros_length. }
  cbn [app] in E. rewrite E.
  destruct (affine_spec _ n (last_layer N) A b Wl WA Lb) as (WA1 & Lb1 & Ex).
  destruct (affine_linear n (last_layer N) A b) as [A1 b1]. cbn [fst snd] in *.
  exists (transpose n A1), b1, P, q. split; auto. intros x Lx.
  destruct (H x Lx) as [H1 [H2 H3]]. rewrite mv_eye in H1, H2, H3 by auto.
  rewrite vadd_zeros_r in H1, H2 by auto.
  destruct (Ex x Lx) as [X1 X2]. rewrite vm_transpose by auto.
  split; auto. split.
  - intros K. apply H1 in K. rewrite X2, (H2 K). auto.
  - rewrite X1, H3. auto.
Qed.
Lemma linearisation_none : forall n N pats, net_wf n N ->
  (relu_given_activation_pattern N n pats = None <->
   ~ pattern_shape (hidden N) (firstn (length (hidden N)) pats)).
Proof.
  intros n N pats [_ [W Wl]]. unfold relu_given_activation_pattern.
  rewrite <- (pattern_loop_none n (hidden N) n _ pats (eye n) (zeros n) [] [] W);
    [|apply wfm_eyek|apply zeros_length].
  destruct (pattern_loop n (hidden N) pats (eye n) (zeros n) [] []) as [[[[A b] P] q]|].
  - destruct (affine_linear n (last_layer N) A b). split; discriminate.
  - tauto.
Qed.

Lemma own_pattern : forall hs n out x, hidden_wf n hs out -> length x = n ->
  consistent (activation_pattern hs x) (pre_acts hs x) /\
  pattern_shape hs (activation_pattern hs x).
Proof.
  induction hs as [|[l a] hs IH]; intros n out x W L; cbn [activation_pattern pre_acts].
  - split; constructor.
  - destruct W as [W1 W2]. rewrite (pre_bias n) by auto. rewrite act_forward_map.
    assert (Lp := lin_eval_length n l x W1 L).
    destruct (IH (out_features l) out (map (act_fun a) (lin_eval l x)) W2) as [I1 I2].
    { rewrite map_length. auto. }
    split.
    + constructor; auto. clear. induction (lin_eval l x); constructor; auto.
      destruct (Rleb 0 a) eqn:E; simpl; [apply Rleb_true in E|apply Rleb_false in E]; lra.
    + constructor; auto. cbn [fst]. rewrite map_length. auto.
Qed.
Lemma own_pattern_prop : forall n N x, net_wf n N -> length x = n ->
  consistent (activation_pattern (hidden N) x) (pre_acts (hidden N) x) /\
  pattern_shape (hidden N) (activation_pattern (hidden N) x).
Proof. intros n N x [_ [W _]] L. eapply own_pattern; eauto. Qed.

(** ** Mixed radix index *)

Lemma alpha_spec : forall ws idx k, Forall2 lt idx ws ->
  exists j, alpha_loop ws idx k = Some j /\
    (k * prod_list ws <= j)%nat /\ (j < (k + 1) * prod_list ws)%nat.
Proof.
  intros ws idx k F. revert k. induction F as [|i w idx ws Hi F IH]; intros k; simpl.
  - exists k. split; auto. lia.
  - apply Nat.ltb_lt in Hi. rewrite Hi. apply Nat.ltb_lt in Hi.
    destruct (IH (k * w + i)%nat) as [j [E [H1 H2]]]. exists j. split; auto. split; nia.
Qed.
Lemma alpha_none : forall ws idx k, ~ Forall2 lt idx ws -> alpha_loop ws idx k = None.
Proof.
  induction ws as [|w ws IH]; intros idx k H; destruct idx as [|i idx]; simpl; auto.
  - exfalso. apply H. constructor.
  - destruct (Nat.ltb i w) eqn:E; auto. apply IH. intros F. apply H.
    constructor; auto. apply Nat.ltb_lt; auto.
Qed.
Lemma alpha_inj : forall ws i1 i2 k1 k2 j, alpha_loop ws i1 k1 = Some j ->
  alpha_loop ws i2 k2 = Some j -> k1 = k2 /\ i1 = i2.
Proof.
  induction ws as [|w ws IH]; intros i1 i2 k1 k2 j H1 H2; destruct i1 as [|x i1], i2 as [|y i2];
    simpl in *; try discriminate.
  - split; auto. congruence.
  - destruct (Nat.ltb x w) eqn:E1; [|discriminate]. destruct (Nat.ltb y w) eqn:E2; [|discriminate].
    destruct (IH _ _ _ _ _ H1 H2) as [E ->]. apply Nat.ltb_lt in E1. apply Nat.ltb_lt in E2.
    assert (k1 = k2) by nia. subst k2. split; auto. f_equal. lia.
Qed.
Lemma alpha_surj : forall ws k j, (k * prod_list ws <= j)%nat ->
  (j < (k + 1) * prod_list ws)%nat ->
  exists idx, alpha_loop ws idx k = Some j.
Proof.
  induction ws as [|w ws IH]; intros k j H1 H2; simpl in *.
  - exists []. f_equal. lia.
  - set (P := prod_list ws) in *.
    assert (P <> 0)%nat by (intros Z; rewrite Z in *; lia).
    assert (D := Nat.div_mod j P ltac:(auto)). assert (M := Nat.mod_upper_bound j P ltac:(auto)).
    set (qq := (j / P)%nat) in *. set (r := (j mod P)%nat) in *.
    assert (k * w <= qq)%nat.
    { destruct (le_lt_dec (k * w) qq); auto. exfalso. nia. }
    assert (qq < k * w + w)%nat.
    { destruct (le_lt_dec (k * w + w) qq); auto. exfalso. nia. }
    destruct (IH qq j) as [idx E]; [nia|nia|].
    exists ((qq - k * w)%nat :: idx).
    assert (L : Nat.ltb (qq - k * w) w = true) by (apply Nat.ltb_lt; lia).
    rewrite L. replace (k * w + (qq - k * w))%nat with qq by lia. auto.
Qed.
Lemma alpha_prop : forall ws,
  (forall idx, ~ Forall2 lt idx ws -> compute_alpha_index ws idx = None) /\
  (forall idx, Forall2 lt idx ws -> exists j, compute_alpha_index ws idx = Some j /\
     (j < prod_list ws)%nat) /\
  (forall i1 i2 j, compute_alpha_index ws i1 = Some j -> compute_alpha_index ws i2 = Some j ->
     i1 = i2) /\
  (forall j, (j < prod_list ws)%nat -> exists idx, Forall2 lt idx ws /\
     compute_alpha_index ws idx = Some j).
Proof.
  intros ws. unfold compute_alpha_index. split; [intros; apply alpha_none; auto|]. split.
  - intros idx F. destruct (alpha_spec ws idx 0 F) as [j [E [H1 H2]]]. exists j. split; auto. lia.
  - split.
    + intros i1 i2 j H1 H2. eapply alpha_inj; eauto.
    + intros j H. destruct (alpha_surj ws 0 j) as [idx E]; [lia|lia|].
      exists idx. split; auto.
      assert (K : Forall2 lt idx ws \/ ~ Forall2 lt idx ws).
      { clear. revert ws. induction idx; intros ws; destruct ws.
        - left; constructor.
        - right; intros K; inversion K.
        - right; intros K; inversion K.
        - destruct (le_lt_dec n a); [right; intros K; inversion K; lia|].
          destruct (IHidx ws); [left; constructor; auto|right; intros K; inversion K; auto]. }
      destruct K as [K|K]; auto. apply alpha_none with (k := 0%nat) in K. congruence.
Qed.
