(** Which quadratic objectives are accepted. *)

Require Import Reals List Lia Lra Bool Arith.
Require Import Verif.Vec Verif.VecFacts Verif.ModelMip Verif.SpecMip Verif.ProofTorch Verif.ModelMiqp Verif.SpecMiqp Verif.ProofMiqp.
Import ListNotations.
Open Scope R_scope.

Definition free (l : cells) (i : nat) : Prop := nth_error l i = Some None.
Lemma put_free : forall l i v l', put i v l = Some l' -> free l i /\ forall j, free l' j <-> free l j /\ j <> i.
Proof.
  unfold free. induction l as [|c l IH]; intros i v l' E; [destruct i; discriminate|]. destruct i as [|i].
  - destruct c; [discriminate|]. cbn in E. assert (Q : Some v :: l = l') by congruence. subst l'. split; [reflexivity|].
    intros [|j]; cbn; [split; [discriminate|intros [_ H]; congruence]|]. split; [intros H; split; [auto|lia]|tauto].
  - assert (E' : match put i v l with Some l'' => Some (c :: l'') | None => None end = Some l') by (destruct c; exact E).
    destruct (put i v l) as [l2|] eqn:Ep; [|discriminate]. assert (Q : c :: l2 = l') by congruence. subst l'.
    destruct (IH i v l2 Ep) as [A B]. split; [exact A|]. intros [|j]; cbn.
    + split; [intros H; split; [auto|lia]|tauto].
    + rewrite B. split; intros [H1 H2]; split; auto.
Qed.
Lemma put_ok : forall l i v, free l i -> exists l', put i v l = Some l'.
Proof.
  unfold free. induction l as [|c l IH]; intros i v F; [destruct i; discriminate|]. destruct i as [|i].
  - cbn in F. assert (c = None) by congruence. subst. eexists. reflexivity.
  - destruct (IH i v F) as [l' E]. exists (c :: l'). cbn. rewrite E. destruct c; reflexivity.
Qed.
Definition free2 (M : list cells) (i j : nat) : Prop := exists row, nth_error M i = Some row /\ free row j.
Lemma put2_free : forall M i j v M', put2 i j v M = Some M' ->
  free2 M i j /\ forall a b, free2 M' a b <-> free2 M a b /\ (a, b) <> (i, j).
Proof.
  unfold free2. induction M as [|row M IH]; intros i j v M' E; [destruct i; discriminate|]. destruct i as [|i]; cbn [put2] in E.
  - destruct (put j v row) as [row'|] eqn:Ep; [|discriminate]. assert (Q : row' :: M = M') by congruence. subst M'.
    destruct (put_free _ _ _ _ Ep) as [A B]. split; [exists row; auto|]. intros [|a] b; cbn [nth_error].
    + split.
      * intros (x & Hx & F). assert (x = row') by congruence. subst. apply B in F. destruct F as [F N]. split; [exists row; auto|congruence].
      * intros [(x & Hx & F) N]. assert (x = row) by congruence. subst. exists row'. split; [auto|]. apply B. split; [auto|congruence].
    + split; [intros H; split; [exact H|congruence]|tauto].
  - destruct (put2 i j v M) as [M2|] eqn:Ep; [|discriminate]. assert (Q : row :: M2 = M') by congruence. subst M'.
    destruct (IH i j v M2 Ep) as [A B]. split; [exact A|]. intros [|a] b; cbn [nth_error].
    + split; [intros H; split; [exact H|congruence]|tauto].
    + rewrite B. split; intros [H N]; split; auto; congruence.
Qed.
Lemma put2_ok : forall M i j v, free2 M i j -> exists M', put2 i j v M = Some M'.
Proof.
  unfold free2. induction M as [|row M IH]; intros i j v (x & Hx & F); [destruct i; discriminate|]. destruct i as [|i]; cbn in *.
  - assert (x = row) by congruence. subst. destruct (put_ok row j v F) as [row' E]. rewrite E. eexists; reflexivity.
  - destruct (IH i j v) as [M' E]; [exists x; auto|]. rewrite E. eexists; reflexivity.
Qed.

Section Accepted.
Variable rs zs : list nat.
Notation knownv := (knownv rs zs).

Lemma index_inj : forall l v w i, index_of v l = Some i -> index_of w l = Some i -> v = w.
Proof. intros l v w i A B. apply index_of_nth in A, B. destruct A as [_ A], B as [_ B]. congruence. Qed.
Lemma index_ex : forall l v, In v l -> exists i, index_of v l = Some i.
Proof. intros l v H. destruct (index_of v l) as [i|] eqn:E; [eauto|]. apply index_of_none in E. contradiction. Qed.
Lemma index_dec : forall l v, (In v l /\ exists i, index_of v l = Some i) \/ (~ In v l /\ index_of v l = None).
Proof.
  intros l v. destruct (index_of v l) as [i|] eqn:E; [left; split; [eapply index_of_in; eauto|eauto]|right]. split; [apply index_of_none|]; auto.
Qed.

(** ** Linear terms *)
Definition lfree (k : quad_cells) (v : nat) : Prop :=
  match index_of v rs with
  | Some i => free (k_cr k) i
  | None => match index_of v zs with Some i => free (k_cz k) i | None => False end
  end.
Definition same_quad (k k' : quad_cells) : Prop := k_Qr k' = k_Qr k /\ k_Qz k' = k_Qz k /\ k_Qrz k' = k_Qrz k.
Lemma put_linear_free : forall v c k k', knownv v -> put_linear rs zs v (Some c) k = Some k' ->
  lfree k v /\ (forall w, lfree k' w <-> lfree k w /\ w <> v) /\ same_quad k k'.
Proof.
  intros v c k k' Kn E. unfold put_linear in E. unfold lfree at 1.
  destruct (index_of v rs) as [i|] eqn:Ev.
  - destruct (put i c (k_cr k)) as [l|] eqn:Ep; [|discriminate]. destruct (put_free _ _ _ _ Ep) as [A B].
    match goal with H : Some ?x = Some ?y |- _ => assert (QQ : x = y) by congruence end. subst k'.
    split; [auto|]. split; [|repeat split]. intros w. unfold lfree. cbn [k_cr k_cz].
    destruct (index_of w rs) as [j|] eqn:Ew.
    + rewrite B. split; intros [H N]; split; auto; intros C; apply N; [subst; congruence|].
      subst j. apply (index_inj rs w v i); auto.
    + split; [intros H; split; [exact H|intros C; subst; congruence]|tauto].
  - destruct (index_of v zs) as [i|] eqn:Ez.
    + destruct (put i c (k_cz k)) as [l|] eqn:Ep; [|discriminate]. destruct (put_free _ _ _ _ Ep) as [A B].
      match goal with H : Some ?x = Some ?y |- _ => assert (QQ : x = y) by congruence end. subst k'.
      split; [auto|]. split; [|repeat split]. intros w. unfold lfree. cbn [k_cr k_cz].
      destruct (index_of w rs) as [j|] eqn:Ew; [split; [intros H; split; [exact H|intros C; subst; congruence]|tauto]|].
      destruct (index_of w zs) as [j|] eqn:Ewz; [|tauto].
      rewrite B. split; intros [H N]; split; auto; intros C; apply N; [subst; congruence|].
      subst j. apply (index_inj zs w v i); auto.
    + exfalso. apply index_of_none in Ev, Ez. destruct Kn; auto.
Qed.
Lemma put_linear_ok : forall v c k, lfree k v -> exists k', put_linear rs zs v (Some c) k = Some k'.
Proof.
  intros v c k F. unfold lfree in F. unfold put_linear. destruct (index_of v rs) as [i|].
  - destruct (put_ok _ _ c F) as [l E]. rewrite E. eauto.
  - destruct (index_of v zs) as [i|]; [|contradiction]. destruct (put_ok _ _ c F) as [l E]. rewrite E. eauto.
Qed.
Lemma linear_block_free : forall vars coeff k, length coeff = length vars -> Forall knownv vars ->
  (forall k', linear_block rs zs coeff vars k = Some k' ->
     NoDup vars /\ Forall (lfree k) vars /\ (forall w, lfree k' w <-> lfree k w /\ ~ In w vars) /\ same_quad k k') /\
  (NoDup vars -> Forall (lfree k) vars -> exists k', linear_block rs zs coeff vars k = Some k').
Proof.
  induction vars as [|v vars IH]; intros coeff k L Kn.
  - split; [|intros _ _; exists k; reflexivity]. intros k' E. cbn in E. assert (k = k') by congruence. subst.
    split; [constructor|]. split; [constructor|]. split; [intros w; cbn; tauto|repeat split].
  - destruct coeff as [|c coeff]; [cbn in L; lia|]. cbn in L. inversion Kn as [|? ? K1 K2]; subst. cbn [linear_block hd_error tl]. split.
    + intros k' E. destruct (put_linear rs zs v (Some c) k) as [k1|] eqn:Ep; [|discriminate].
      destruct (put_linear_free _ _ _ _ K1 Ep) as (A & B & S1). destruct (IH coeff k1 ltac:(lia) K2) as [H _].
      destruct (H k' E) as (N & F & W & S2).
      assert (F' : Forall (fun w => lfree k w /\ w <> v) vars) by (eapply Forall_impl; [|exact F]; intros w Hw; apply B; auto).
      split; [constructor; [|auto]|].
      { intros Hv. rewrite Forall_forall in F'. destruct (F' v Hv). congruence. }
      split; [constructor; [auto|]; eapply Forall_impl; [|exact F']; cbv beta; tauto|].
      split; [intros w; rewrite W, B; cbn [In]; split; intros H0; [destruct H0 as [[H1 H2] H3]; split; [auto|intros [C|C]; [congruence|auto]]|]|].
      { destruct H0 as [H1 H2]. split; [split; [auto|intros C; subst; apply H2; left; auto]|intros C; apply H2; right; auto]. }
      destruct S1 as (S1a & S1b & S1c), S2 as (S2a & S2b & S2c). repeat split; congruence.
    + intros N F. inversion N as [|? ? N1 N2]; subst. inversion F as [|? ? F1 F2]; subst.
      destruct (put_linear_ok v c k F1) as [k1 Ep]. rewrite Ep. destruct (put_linear_free _ _ _ _ K1 Ep) as (A & B & S1).
      destruct (IH coeff k1 ltac:(lia) K2) as [_ H]. apply H; [auto|]. rewrite Forall_forall in *. intros w Hw.
      apply B. split; [auto|]. intros C. subst. contradiction.
Qed.
Lemma linear_blocks_free : forall coeffs vars k, Forall2 (fun (c : vec) (v : list nat) => length c = length v) coeffs vars -> Forall (Forall knownv) vars ->
  (forall k', linear_blocks rs zs coeffs vars k = Some k' ->
     NoDup (concat vars) /\ Forall (lfree k) (concat vars) /\ same_quad k k') /\
  (NoDup (concat vars) -> Forall (lfree k) (concat vars) -> exists k', linear_blocks rs zs coeffs vars k = Some k').
Proof.
  intros coeffs vars k F2. revert k. induction F2 as [|c v coeffs vars L F2 IH]; intros k Kn.
  - split; [|intros _ _; exists k; reflexivity]. intros k' E. cbn in E. assert (k = k') by congruence. subst.
    cbn. split; [constructor|]. split; [constructor|repeat split].
  - inversion Kn as [|? ? K1 K2]; subst. cbn [linear_blocks concat]. destruct (linear_block_free v c k L K1) as [P1 P2]. split.
    + intros k' E. destruct (linear_block rs zs c v k) as [k1|] eqn:Ep; [|discriminate].
      destruct (P1 k1 eq_refl) as (N & F & W & S1). destruct (IH k1 K2) as [H _]. destruct (H k' E) as (N' & F' & S2).
      assert (F'' : Forall (fun w => lfree k w /\ ~ In w v) (concat vars)) by (eapply Forall_impl; [|exact F']; intros w Hw; apply W; auto).
      rewrite Forall_forall in F''. split.
      { clear - N N' F''. induction N as [|x v Hx N IHv]; [auto|]. cbn. constructor.
        - intros H. apply in_app_or in H. destruct H as [H|H]; [contradiction|]. destruct (F'' x H) as [_ C]. apply C. left; auto.
        - apply IHv. intros y Hy. destruct (F'' y Hy) as [A B]. split; [auto|]. intros C. apply B. right; auto. }
      split; [apply Forall_app; split; [auto|]; apply Forall_forall; intros w Hw; apply F''; auto|].
      destruct S1 as (S1a & S1b & S1c), S2 as (S2a & S2b & S2c). repeat split; congruence.
    + intros N F. apply Forall_app in F. destruct F as [Fv Fc].
      assert (Nv : NoDup v /\ NoDup (concat vars) /\ forall x, In x v -> ~ In x (concat vars)).
      { clear - N. induction v as [|x v IHv]; [cbn in *; repeat split; auto; constructor|]. cbn in N. inversion N as [|? ? N1 N2]; subst.
        destruct (IHv N2) as (A & B & C). split; [constructor; [intros H; apply N1; apply in_or_app; auto|auto]|]. split; [auto|].
        intros y [->|Hy]; [intros H; apply N1; apply in_or_app; auto|auto]. }
      destruct Nv as (Nv & Nc & Nd). destruct (P2 Nv Fv) as [k1 Ep]. rewrite Ep. destruct (P1 k1 Ep) as (_ & _ & W & _).
      destruct (IH k1 K2) as [_ H]. apply H; [auto|]. rewrite Forall_forall in *. intros w Hw. apply W. split; [auto|].
      intros C. apply (Nd w C Hw).
Qed.

(** ** Quadratic terms *)
Definition qfree (k : quad_cells) (p : nat * nat) : Prop :=
  match index_of (fst p) rs, index_of (snd p) rs with
  | Some i, Some j => free2 (k_Qr k) i j
  | Some i, None => match index_of (snd p) zs with Some j => free2 (k_Qrz k) i j | None => False end
  | None, Some i => match index_of (fst p) zs with Some j => free2 (k_Qrz k) i j | None => False end
  | None, None => match index_of (fst p) zs, index_of (snd p) zs with Some i, Some j => free2 (k_Qz k) i j | _, _ => False end
  end.
Lemma oriented_cases : forall v w, oriented rs (v, w) =
  match index_of v rs, index_of w rs with None, Some _ => (w, v) | _, _ => (v, w) end.
Proof.
  intros v w. unfold oriented. cbn [fst snd].
  destruct (in_dec Nat.eq_dec v rs) as [Hv|Hv].
  - destruct (index_ex rs v Hv) as [i ->]. destruct (index_of w rs); reflexivity.
  - apply index_of_none in Hv. rewrite Hv. destruct (in_dec Nat.eq_dec w rs) as [Hw|Hw].
    + destruct (index_ex rs w Hw) as [i ->]. reflexivity.
    + apply index_of_none in Hw. rewrite Hw. reflexivity.
Qed.
Lemma put_quad_free : forall v w c k k', put_quad rs zs v w c k = Some k' ->
  qfree k (v, w) /\ forall p, qfree k' p <-> qfree k p /\ oriented rs p <> oriented rs (v, w).
Proof.
  intros v w c k k' E. unfold put_quad in E. rewrite (oriented_cases v w). unfold qfree at 1. cbn [fst snd].
  destruct (index_of v rs) as [i|] eqn:Ev, (index_of w rs) as [j|] eqn:Ew.
  - destruct (put2 i j c (k_Qr k)) as [Q|] eqn:Ep; [|discriminate]. destruct (put2_free _ _ _ _ _ Ep) as [A B].
    match goal with H : Some ?x = Some ?y |- _ => assert (QQ : x = y) by congruence end. subst k'. split; [auto|].
    intros [a b]. rewrite oriented_cases. unfold qfree. cbn [fst snd k_Qr k_Qz k_Qrz].
    destruct (index_of a rs) as [i'|] eqn:Ea, (index_of b rs) as [j'|] eqn:Eb.
    + rewrite B. split; intros [H N]; split; auto; intros C; apply N; [congruence|].
      assert (a = v) by (apply (index_inj rs a v i); congruence). assert (b = w) by (apply (index_inj rs b w j); congruence). congruence.
    + split; [intros H; split; [exact H|intros C; congruence]|tauto].
    + split; [intros H; split; [exact H|intros C]|tauto]. assert (a = w) by congruence. congruence.
    + split; [intros H; split; [exact H|intros C; congruence]|tauto].
  - destruct (index_of w zs) as [j|] eqn:Ez; [|discriminate].
    destruct (put2 i j c (k_Qrz k)) as [Q|] eqn:Ep; [|discriminate]. destruct (put2_free _ _ _ _ _ Ep) as [A B].
    match goal with H : Some ?x = Some ?y |- _ => assert (QQ : x = y) by congruence end. subst k'. split; [auto|].
    intros [a b]. rewrite oriented_cases. unfold qfree. cbn [fst snd k_Qr k_Qz k_Qrz].
    destruct (index_of a rs) as [i'|] eqn:Ea, (index_of b rs) as [j'|] eqn:Eb.
    + split; [intros H; split; [exact H|intros C; congruence]|tauto].
    + destruct (index_of b zs) as [jb|] eqn:Ebz; [|tauto].
      rewrite B. split; intros [H N]; split; auto; intros C; apply N; [congruence|].
      assert (a = v) by (apply (index_inj rs a v i); congruence). assert (b = w) by (apply (index_inj zs b w j); congruence). congruence.
    + destruct (index_of a zs) as [ja|] eqn:Eaz; [|tauto].
      rewrite B. split; intros [H N]; split; auto; intros C; apply N; [congruence|].
      assert (b = v) by (apply (index_inj rs b v i); congruence). assert (a = w) by (apply (index_inj zs a w j); congruence). congruence.
    + split; [intros H; split; [exact H|intros C; congruence]|tauto].
  - destruct (index_of v zs) as [i|] eqn:Ez; [|discriminate].
    destruct (put2 j i c (k_Qrz k)) as [Q|] eqn:Ep; [|discriminate]. destruct (put2_free _ _ _ _ _ Ep) as [A B].
    match goal with H : Some ?x = Some ?y |- _ => assert (QQ : x = y) by congruence end. subst k'. split; [auto|].
    intros [a b]. rewrite oriented_cases. unfold qfree. cbn [fst snd k_Qr k_Qz k_Qrz].
    destruct (index_of a rs) as [i'|] eqn:Ea, (index_of b rs) as [j'|] eqn:Eb.
    + split; [intros H; split; [exact H|intros C; congruence]|tauto].
    + destruct (index_of b zs) as [jb|] eqn:Ebz; [|tauto].
      rewrite B. split; intros [H N]; split; auto; intros C; apply N; [congruence|].
      assert (a = w) by (apply (index_inj rs a w j); congruence). assert (b = v) by (apply (index_inj zs b v i); congruence). congruence.
    + destruct (index_of a zs) as [ja|] eqn:Eaz; [|tauto].
      rewrite B. split; intros [H N]; split; auto; intros C; apply N; [congruence|].
      assert (b = w) by (apply (index_inj rs b w j); congruence). assert (a = v) by (apply (index_inj zs a v i); congruence). congruence.
    + split; [intros H; split; [exact H|intros C; congruence]|tauto].
  - destruct (index_of v zs) as [i|] eqn:Ez1; [|discriminate]. destruct (index_of w zs) as [j|] eqn:Ez2; [|discriminate].
    destruct (put2 i j c (k_Qz k)) as [Q|] eqn:Ep; [|discriminate]. destruct (put2_free _ _ _ _ _ Ep) as [A B].
    match goal with H : Some ?x = Some ?y |- _ => assert (QQ : x = y) by congruence end. subst k'. split; [auto|].
    intros [a b]. rewrite oriented_cases. unfold qfree. cbn [fst snd k_Qr k_Qz k_Qrz].
    destruct (index_of a rs) as [i'|] eqn:Ea, (index_of b rs) as [j'|] eqn:Eb.
    + split; [intros H; split; [exact H|intros C; congruence]|tauto].
    + split; [intros H; split; [exact H|intros C; congruence]|tauto].
    + split; [intros H; split; [exact H|intros C]|tauto]. assert (b = v) by congruence. congruence.
    + destruct (index_of a zs) as [ja|] eqn:Eaz; [|tauto]. destruct (index_of b zs) as [jb|] eqn:Ebz; [|tauto].
      rewrite B. split; intros [H N]; split; auto; intros C; apply N; [congruence|].
      assert (a = v) by (apply (index_inj zs a v i); congruence). assert (b = w) by (apply (index_inj zs b w j); congruence). congruence.
Qed.
Lemma put_quad_ok : forall v w c k, qfree k (v, w) -> exists k', put_quad rs zs v w c k = Some k'.
Proof.
  intros v w c k F. unfold qfree in F. unfold put_quad. cbn [fst snd] in F.
  destruct (index_of v rs) as [i|], (index_of w rs) as [j|].
  - destruct (put2_ok _ _ _ c F) as [Q ->]. eauto.
  - destruct (index_of w zs); [|contradiction]. destruct (put2_ok _ _ _ c F) as [Q ->]. eauto.
  - destruct (index_of v zs); [|contradiction]. destruct (put2_ok _ _ _ c F) as [Q ->]. eauto.
  - destruct (index_of v zs); [|contradiction]. destruct (index_of w zs); [|contradiction]. destruct (put2_ok _ _ _ c F) as [Q ->]. eauto.
Qed.
(** The loops as one over the pairs. *)
Fixpoint put_all (es : list (nat * nat * R)) (k : quad_cells) : option quad_cells :=
  match es with
  | [] => Some k
  | (v, w, c) :: es' => match put_quad rs zs v w c k with Some k' => put_all es' k' | None => None end
  end.
Lemma put_all_app : forall a b k, put_all (a ++ b) k = match put_all a k with Some k' => put_all b k' | None => None end.
Proof.
  induction a as [|[[v w] c] a IH]; intros b k; [reflexivity|]. cbn [app put_all]. destruct (put_quad rs zs v w c k); auto.
Qed.
Lemma put_all_free : forall es k,
  (forall k', put_all es k = Some k' -> NoDup (map (oriented rs) (map fst es)) /\ Forall (qfree k) (map fst es)) /\
  (NoDup (map (oriented rs) (map fst es)) -> Forall (qfree k) (map fst es) -> exists k', put_all es k = Some k').
Proof.
  induction es as [|[[v w] c] es IH]; intros k; [split; [intros; split; constructor|intros; exists k; reflexivity]|].
  cbn [put_all map fst]. split.
  - intros k' E. destruct (put_quad rs zs v w c k) as [k1|] eqn:Ep; [|discriminate].
    destruct (put_quad_free _ _ _ _ _ Ep) as [A B]. destruct (IH k1) as [H _]. destruct (H k' E) as [N F].
    assert (F' : forall p, In p (map fst es) -> qfree k p /\ oriented rs p <> oriented rs (v, w)).
    { rewrite Forall_forall in F. intros p Hp. apply B, F, Hp. }
    split; [constructor; [|auto]|constructor; [auto|apply Forall_forall; intros p Hp; apply F'; auto]].
    intros C. apply in_map_iff in C. destruct C as (p & Ep' & Hp). destruct (F' p Hp). congruence.
  - intros N F. inversion N as [|? ? N1 N2]; subst. inversion F as [|? ? F1 F2]; subst.
    destruct (put_quad_ok v w c k F1) as [k1 Ep]. rewrite Ep. destruct (put_quad_free _ _ _ _ _ Ep) as [A B].
    destruct (IH k1) as [_ H]. apply H; [auto|]. rewrite Forall_forall in *. intros p Hp. apply B. split; [auto|].
    intros C. apply N1. rewrite <- C. apply in_map. auto.
Qed.
Definition row_entries (v : nat) (row : vec) (right : list nat) : list (nat * nat * R) :=
  map2 (fun c w => (v, w, c)) row right.
Definition block_entries (coeff : mat) (left right : list nat) : list (nat * nat * R) :=
  concat (map2 (fun row v => row_entries v row right) coeff left).
Lemma quad_row_all : forall row right v k, quad_row rs zs v row right k = put_all (row_entries v row right) k.
Proof.
  induction row as [|c row IH]; intros [|w right] v k; try reflexivity. cbn [quad_row row_entries map2 put_all].
  destruct (put_quad rs zs v w c k); [apply IH|reflexivity].
Qed.
Lemma quad_block_all : forall coeff left right k, quad_block rs zs coeff left right k = put_all (block_entries coeff left right) k.
Proof.
  unfold block_entries. induction coeff as [|row coeff IH]; intros [|v left] right k; try reflexivity.
  cbn [quad_block map2 concat]. rewrite put_all_app, <- quad_row_all. destruct (quad_row rs zs v row right k); auto.
Qed.
Definition all_entries (coeffs : list mat) (vars : list (list nat * list nat)) : list (nat * nat * R) :=
  concat (map2 (fun c v => block_entries c (fst v) (snd v)) coeffs vars).
Lemma shape_ok_shaped : forall c v, shape_ok c v = true <-> shaped c v.
Proof.
  intros c v. unfold shape_ok, shaped. rewrite andb_true_iff, Nat.eqb_eq, forallb_forall, Forall_forall.
  split; intros [A B]; split; auto; intros row Hr; apply Nat.eqb_eq; auto.
Qed.
Lemma quad_blocks_all : forall coeffs vars k, Forall2 shaped coeffs vars ->
  quad_blocks rs zs coeffs vars k = put_all (all_entries coeffs vars) k.
Proof.
  intros coeffs vars k F. revert k. unfold all_entries. induction F as [|c v coeffs vars S F IH]; intros k; [reflexivity|].
  cbn [quad_blocks map2 concat]. apply shape_ok_shaped in S. rewrite S, put_all_app, quad_block_all.
  destruct (put_all (block_entries c (fst v) (snd v)) k); auto.
Qed.
Lemma row_pairs : forall v row right, length row = length right -> map fst (row_entries v row right) = map (fun w => (v, w)) right.
Proof.
  unfold row_entries. induction row as [|c row IH]; intros [|w right] L; cbn in *; try lia; auto. f_equal. apply IH. lia.
Qed.
Lemma block_pairs : forall coeff left right, length coeff = length left -> Forall (fun row => length row = length right) coeff ->
  map fst (block_entries coeff left right) = list_prod left right.
Proof.
  unfold block_entries. induction coeff as [|row coeff IH]; intros [|v left] right L F; cbn [length] in *; try lia; [reflexivity|].
  inversion F as [|? ? F1 F2]; subst. cbn [map2 concat list_prod]. rewrite map_app, row_pairs by auto. rewrite IH by (auto; lia). reflexivity.
Qed.
Lemma all_pairs : forall coeffs vars, Forall2 shaped coeffs vars -> map fst (all_entries coeffs vars) = pairs vars.
Proof.
  intros coeffs vars F. unfold all_entries, pairs. induction F as [|c v coeffs vars [S1 S2] F IH]; [reflexivity|].
  cbn [map2 concat flat_map]. rewrite map_app, block_pairs, IH by auto. reflexivity.
Qed.
Lemma quad_blocks_shaped : forall coeffs vars k k', length coeffs = length vars ->
  quad_blocks rs zs coeffs vars k = Some k' -> Forall2 shaped coeffs vars.
Proof.
  induction coeffs as [|c coeffs IH]; intros [|v vars] k k' L E; cbn in L; try lia; [constructor|].
  cbn [quad_blocks] in E. destruct (shape_ok c v) eqn:S; [|discriminate].
  destruct (quad_block rs zs c (fst v) (snd v) k) as [k1|]; [|discriminate]. constructor; [apply shape_ok_shaped; auto|]. eapply IH; [lia|eauto].
Qed.

(** ** The fresh cells *)
Lemma nth_error_rep : forall {A : Type} (x : A) n i, (i < n)%nat -> nth_error (repeat x n) i = Some x.
Proof. intros A x n. induction n as [|n IH]; intros i H; [lia|]. destruct i; [reflexivity|]. cbn. apply IH. lia. Qed.
Lemma free_none : forall n i, (i < n)%nat -> free (repeat None n) i.
Proof. intros. apply nth_error_rep. auto. Qed.
Lemma free2_none : forall n m i j, (i < n)%nat -> (j < m)%nat -> free2 (repeat (repeat None m) n) i j.
Proof. intros n m i j Hi Hj. exists (repeat None m). split; [apply nth_error_rep; auto|apply free_none; auto]. Qed.
Lemma fresh_linear : forall v, knownv v -> lfree (no_cells (length rs) (length zs)) v.
Proof.
  intros v Kn. unfold lfree, no_cells. cbn [k_cr k_cz]. destruct (index_of v rs) as [i|] eqn:Ei.
  - apply free_none. apply index_of_nth in Ei. tauto.
  - destruct (index_of v zs) as [i|] eqn:Ez; [apply free_none; apply index_of_nth in Ez; tauto|].
    apply index_of_none in Ei, Ez. destruct Kn; auto.
Qed.
Lemma fresh_quad : forall k p, same_quad (no_cells (length rs) (length zs)) k ->
  (qfree k p <-> knownv (fst p) /\ knownv (snd p)).
Proof.
  intros k [v w] (S1 & S2 & S3). unfold qfree, no_cells in *. cbn [fst snd k_Qr k_Qz k_Qrz] in *. rewrite S1, S2, S3. unfold ProofMiqp.knownv.
  assert (B : forall l x i, index_of x l = Some i -> (i < length l)%nat) by (intros l x i H; apply index_of_nth in H; tauto).
  destruct (index_dec rs v) as [[Iv [i Ev]]|[Nv Ev]], (index_dec rs w) as [[Iw [j Ew]]|[Nw Ew]]; rewrite Ev, Ew.
  - split; [tauto|]. intros _. apply free2_none; eauto.
  - destruct (index_dec zs w) as [[Zw [j Ez]]|[Zw Ez]]; rewrite Ez; [|tauto]. split; [tauto|]. intros _. apply free2_none; eauto.
  - destruct (index_dec zs v) as [[Zv [i Ez]]|[Zv Ez]]; rewrite Ez; [|tauto]. split; [tauto|]. intros _. apply free2_none; eauto.
  - destruct (index_dec zs v) as [[Zv [i Ez]]|[Zv Ez]]; rewrite Ez; [|tauto].
    destruct (index_dec zs w) as [[Zw [j Ez2]]|[Zw Ez2]]; rewrite Ez2; [|tauto]. split; [tauto|]. intros _. apply free2_none; eauto.
Qed.

(** Accepted exactly if the shapes fit, every variable of the quadratic part is known and nothing is given twice. *)
Lemma accepted : forall qc qv lc lv c mx, Forall2 (fun (a : vec) (b : list nat) => length a = length b) lc lv -> Forall (Forall knownv) lv ->
  ((exists o, set_quad_objective rs zs qc qv lc lv c mx = Some o) <->
   Forall2 shaped qc qv /\ NoDup (concat lv) /\
   Forall (fun p => knownv (fst p) /\ knownv (snd p)) (pairs qv) /\ NoDup (map (oriented rs) (pairs qv))).
Proof.
  intros qc qv lc lv c mx Fl Kn. unfold set_quad_objective.
  assert (Ll : @length vec lc = length lv) by (clear - Fl; induction Fl; cbn; congruence). rewrite Ll, Nat.eqb_refl. cbn [negb].
  destruct (linear_blocks_free lc lv (no_cells (length rs) (length zs)) Fl Kn) as [P1 P2]. split.
  - intros [o E]. destruct (Nat.eqb (length qc) (length qv)) eqn:Lq; [|discriminate]. apply Nat.eqb_eq in Lq. cbn [negb] in E.
    destruct (linear_blocks rs zs lc lv (no_cells (length rs) (length zs))) as [k1|] eqn:E1; [|discriminate].
    destruct (P1 k1 eq_refl) as (N & _ & S). destruct (quad_blocks rs zs qc qv k1) as [k|] eqn:E2; [|discriminate].
    assert (Sh := quad_blocks_shaped _ _ _ _ Lq E2). rewrite quad_blocks_all in E2 by auto.
    destruct (put_all_free (all_entries qc qv) k1) as [H _]. destruct (H k E2) as [N2 F2]. rewrite all_pairs in N2, F2 by auto.
    split; [auto|]. split; [auto|]. split; [|auto]. eapply Forall_impl; [|exact F2]. intros p Hp. apply (fresh_quad k1 p S). auto.
  - intros (Sh & N & F & N2). assert (Lq : @length mat qc = length qv) by (clear - Sh; induction Sh; cbn; congruence). rewrite Lq, Nat.eqb_refl. cbn [negb].
    destruct P2 as [k1 E1]; [auto| |].
    { apply Forall_forall. intros v Hv. apply fresh_linear. apply in_concat in Hv. destruct Hv as (l & Hl & Hv).
      rewrite Forall_forall in Kn. specialize (Kn l Hl). rewrite Forall_forall in Kn. auto. }
    rewrite E1. destruct (P1 k1 E1) as (_ & _ & S). rewrite quad_blocks_all by auto.
    destruct (put_all_free (all_entries qc qv) k1) as [_ H]. rewrite all_pairs in H by auto.
    destruct H as [k E2]; [auto| |rewrite E2; eexists; reflexivity].
    eapply Forall_impl; [|exact F]. intros p Hp. apply (fresh_quad k1 p S). auto.
Qed.
End Accepted.

(** ** Instances *)
Definition ex_rs : list nat := [0; 2]%nat.
Definition ex_zs : list nat := [1]%nat.
Definition ex_qc : list mat := [[[1; 2]; [0; 3]]; [[4; 5]]].
Definition ex_qv : list (list nat * list nat) := [([0; 2], [0; 2]); ([1], [1; 2])]%nat.
Definition ex_lc : list vec := [[6]; [7; 8]].
Definition ex_lv : list (list nat) := [[2]; [0; 1]]%nat.
Lemma ex_known : Forall (Forall (knownv ex_rs ex_zs)) ex_lv.
Proof. unfold knownv, ex_lv, ex_rs, ex_zs. repeat constructor; cbn; tauto. Qed.
Lemma ex_accepted : exists o, set_quad_objective ex_rs ex_zs ex_qc ex_qv ex_lc ex_lv 9 false = Some o /\
  qo_Qr o = [[1; 2]; [0; 3]] /\ qo_Qz o = [[4]] /\ qo_Qrz o = [[0]; [5]] /\ qo_cr o = [7; 6] /\ qo_cz o = [8].
Proof.
  eexists. split; [cbv -[quad_terms IZR]; reflexivity|]. cbn [qo_Qr qo_Qz qo_Qrz qo_cr qo_cz]. repeat split.
Qed.
(** The mixed pair again, the other way round. *)
Lemma ex_rejected : set_quad_objective ex_rs ex_zs (ex_qc ++ [[[1]]]) (ex_qv ++ [([2], [1])])%nat ex_lc ex_lv 9 false = None.
Proof. reflexivity. Qed.
Lemma dropped : exists rs zs lc lv o sg,
  Forall2 (fun (a : vec) (b : list nat) => length a = length b) lc lv /\
  set_quad_objective rs zs [] [] lc lv 0 false = Some o /\
  gurobi_value (qo_gquad o) (qo_glin o) (qo_k o) sg <> written [] [] lc lv 0 sg.
Proof.
  exists [0%nat], [1%nat], [[1; 1]], [[0; 2]]%nat. eexists. exists (fun _ => 1). split; [repeat constructor|]. split; [cbn -[quad_terms IZR]; reflexivity|].
  cbn [qo_gquad qo_glin qo_k]. unfold gurobi_value, written, quad_terms, values, cell_value.
  cbn [map map2 concat repeat app fst snd combine k_cr k_cz k_Qr k_Qz k_Qrz no_cells length].
  assert (T : Reqb 0 0 = true) by (apply Reqb_true; reflexivity). rewrite T.
  cbn [map map2 concat app fst snd combine lin_sum vsum]. lra.
Qed.
(** The same terms minimise what Gurobi is given and what was written. *)
Lemma same_optimum : forall rs zs qc qv lc lv c mx o (feasible : assignment -> Prop) sg,
  Forall (Forall (knownv rs zs)) lv -> set_quad_objective rs zs qc qv lc lv c mx = Some o ->
  ((forall sg', feasible sg' -> gurobi_value (qo_gquad o) (qo_glin o) (qo_k o) sg <= gurobi_value (qo_gquad o) (qo_glin o) (qo_k o) sg') <->
   (forall sg', feasible sg' -> written qc qv lc lv c sg <= written qc qv lc lv c sg')).
Proof.
  intros rs zs qc qv lc lv c mx o feasible sg Kn E.
  assert (G : forall s, gurobi_value (qo_gquad o) (qo_glin o) (qo_k o) s = written qc qv lc lv c s)
    by (intros s; apply (objective_written rs zs s qc qv lc lv c mx o Kn E)).
  split; intros H sg' F; specialize (H sg' F); rewrite !G in *; auto.
Qed.
