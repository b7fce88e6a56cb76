(** A feasible mixed-integer linear program with a bounded objective has an
    optimum (Fourier-Motzkin elimination), so solvers as assumed by [solver_ok]
    and [solver_total] exist. *)

Require Import Reals List Lia Lra Bool Arith.
Require Import Verif.Vec Verif.VecFacts Verif.ModelMip Verif.SpecMip.
Import ListNotations.
Open Scope R_scope.

Definition ineq := (list (R * nat) * R)%type.
Definition sat (sg : assignment) (c : ineq) : Prop := eval_terms (fst c) sg <= snd c.
Definition upd (sg : assignment) (i : nat) (x : R) : assignment :=
  fun j => if Nat.eqb j i then x else sg j.
Fixpoint coef (i : nat) (t : list (R * nat)) : R :=
  match t with [] => 0 | (a, j) :: t' => (if Nat.eqb j i then a else 0) + coef i t' end.
Definition drop (i : nat) (t : list (R * nat)) := filter (fun p => negb (Nat.eqb (snd p) i)) t.
Definition scale (k : R) (t : list (R * nat)) := map (fun p => (k * fst p, snd p)) t.

Lemma eval_cons : forall p t sg, eval_terms (p :: t) sg = fst p * sg (snd p) + eval_terms t sg.
Proof. reflexivity. Qed.
Lemma eval_app : forall a b sg, eval_terms (a ++ b) sg = eval_terms a sg + eval_terms b sg.
Proof.
  induction a as [|p a IH]; intros b sg; cbn [app]; rewrite ?eval_cons, ?IH; [|ring].
  replace (eval_terms [] sg) with 0 by reflexivity. ring.
Qed.
Lemma eval_scale : forall k t sg, eval_terms (scale k t) sg = k * eval_terms t sg.
Proof.
  intros k. induction t as [|p t IH]; intros sg; cbn [scale map].
  - replace (eval_terms [] sg) with 0 by reflexivity. ring.
  - rewrite !eval_cons. unfold scale in IH. rewrite IH. cbn. ring.
Qed.
Lemma eval_upd : forall i x t sg,
  eval_terms t (upd sg i x) = coef i t * x + eval_terms (drop i t) sg.
Proof.
  intros i x. induction t as [|[a j] t IH]; intros sg; cbn [coef drop filter].
  - replace (eval_terms [] (upd sg i x)) with 0 by reflexivity.
    replace (eval_terms [] sg) with 0 by reflexivity. ring.
  - rewrite eval_cons, IH. cbn [fst snd]. unfold upd at 1. destruct (Nat.eqb j i); cbn [negb].
    + unfold drop. ring.
    + rewrite eval_cons. cbn [fst snd]. unfold drop. ring.
Qed.
Lemma eval_ext : forall t s1 s2, Forall (fun p => s1 (snd p) = s2 (snd p)) t ->
  eval_terms t s1 = eval_terms t s2.
Proof. induction 1 as [|p t H F IH]; auto. rewrite !eval_cons, H, IH. auto. Qed.
Lemma eval_self : forall i t sg, eval_terms t sg = coef i t * sg i + eval_terms (drop i t) sg.
Proof.
  intros. rewrite <- eval_upd. apply eval_ext. apply Forall_forall. intros p _.
  unfold upd. destruct (Nat.eqb_spec (snd p) i) as [->|]; auto.
Qed.

(** ** Elimination of one variable *)

Definition zero_row i (c : ineq) : bool := if Req_EM_T (coef i (fst c)) 0 then true else false.
Definition pos_row i (c : ineq) : bool := if Rlt_dec 0 (coef i (fst c)) then true else false.
Definition neg_row i (c : ineq) : bool := if Rlt_dec (coef i (fst c)) 0 then true else false.
Definition rest i (c : ineq) : ineq := (drop i (fst c), snd c).
(** (positive row) * - coef(negative) + (negative row) * coef(positive) *)
Definition combine_rows i (p q : ineq) : ineq :=
  (scale (- coef i (fst q)) (drop i (fst p)) ++ scale (coef i (fst p)) (drop i (fst q)),
   - coef i (fst q) * snd p + coef i (fst p) * snd q).
Definition elim (i : nat) (C : list ineq) : list ineq :=
  map (rest i) (filter (zero_row i) C) ++
  flat_map (fun p => map (combine_rows i p) (filter (neg_row i) C)) (filter (pos_row i) C).

(** The largest of finitely many lower bounds is below the smallest of finitely
    many upper bounds. *)
Lemma between : forall ls us, (forall l u, In l ls -> In u us -> l <= u) ->
  exists x : R, (forall l, In l ls -> l <= x) /\ (forall u, In u us -> x <= u).
Proof.
  intros ls us H. destruct ls as [|l ls].
  - induction us as [|u us IH].
    + exists 0. split; intros ? [].
    + destruct IH as (x & _ & Hx). { intros ? ? []. }
      exists (Rmin x u). split; [intros ? []|]. intros w [<-|K]; [apply Rmin_r|].
      eapply Rle_trans; [apply Rmin_l|auto].
  - assert (M : exists x, In x (l :: ls) /\ forall y, In y (l :: ls) -> y <= x).
    { clear H. revert l. induction ls as [|k ls IH]; intros l.
      - exists l. split; [left; auto|]. intros y [<-|[]]. lra.
      - destruct (IH k) as (x & Ix & Hx). destruct (Rle_dec l x) as [K|K].
        + exists x. split; [right; auto|]. intros y [<-|Hy]; auto.
        + exists l. split; [left; auto|]. intros y [<-|Hy]; [lra|]. specialize (Hx y Hy). lra. }
    destruct M as (x & Ix & Hx). exists x. split; auto.
Qed.

Lemma elim_spec : forall i C sg,
  (Forall (sat sg) (elim i C) <-> exists x, Forall (sat (upd sg i x)) C).
Proof.
  intros i C sg. unfold elim. rewrite Forall_app, !Forall_forall. split.
  - intros [Hz Hp].
    destruct (between
      (map (fun q => (snd q - eval_terms (drop i (fst q)) sg) / coef i (fst q)) (filter (neg_row i) C))
      (map (fun p => (snd p - eval_terms (drop i (fst p)) sg) / coef i (fst p)) (filter (pos_row i) C)))
      as (x & Hl & Hu).
    { intros l u Il Iu. apply in_map_iff in Il. destruct Il as (q & <- & Iq).
      apply in_map_iff in Iu. destruct Iu as (p & <- & Ip).
      assert (K : sat sg (combine_rows i p q)).
      { apply Hp. apply in_flat_map. exists p. split; auto. apply in_map. auto. }
      apply filter_In in Iq. destruct Iq as [_ Nq]. apply filter_In in Ip. destruct Ip as [_ Pp].
      unfold neg_row in Nq. destruct (Rlt_dec (coef i (fst q)) 0) as [Q|]; [|discriminate].
      unfold pos_row in Pp. destruct (Rlt_dec 0 (coef i (fst p))) as [P|]; [|discriminate].
      unfold sat, combine_rows in K. cbn [fst snd] in K. rewrite eval_app, !eval_scale in K.
      set (a := coef i (fst p)) in *. set (b := coef i (fst q)) in *.
      set (u := eval_terms (drop i (fst p)) sg) in *. set (v := eval_terms (drop i (fst q)) sg) in *.
      apply Rmult_le_reg_r with (a * - b); [nra|].
      replace ((snd q - v) / b * (a * - b)) with (- (a * (snd q - v))) by (field; lra).
      replace ((snd p - u) / a * (a * - b)) with (- b * (snd p - u)) by (field; lra). lra. }
    exists x. apply Forall_forall. intros c Ic. unfold sat. rewrite eval_upd.
    destruct (Rtotal_order (coef i (fst c)) 0) as [K|[K|K]].
    + assert (L : (snd c - eval_terms (drop i (fst c)) sg) / coef i (fst c) <= x).
      { apply Hl. apply in_map_iff. exists c. split; auto. apply filter_In. split; auto.
        unfold neg_row. destruct (Rlt_dec _ _); auto. }
      set (a := coef i (fst c)) in *. set (u := eval_terms (drop i (fst c)) sg) in *.
      assert (E : (snd c - u) / a * a = snd c - u) by (field; lra). nra.
    + assert (L : sat sg (rest i c)).
      { apply Hz. apply in_map. apply filter_In. split; auto.
        unfold zero_row. destruct (Req_EM_T _ _); auto. }
      unfold sat, rest in L. cbn [fst snd] in L. rewrite K. lra.
    + assert (L : x <= (snd c - eval_terms (drop i (fst c)) sg) / coef i (fst c)).
      { apply Hu. apply in_map_iff. exists c. split; auto. apply filter_In. split; auto.
        unfold pos_row. destruct (Rlt_dec _ _); auto. }
      set (a := coef i (fst c)) in *. set (u := eval_terms (drop i (fst c)) sg) in *.
      assert (E : (snd c - u) / a * a = snd c - u) by (field; lra). nra.
  - intros (x & H). rewrite Forall_forall in H. split.
    + intros c Ic. apply in_map_iff in Ic. destruct Ic as (d & <- & Id). apply filter_In in Id.
      destruct Id as [Id Z]. unfold zero_row in Z. destruct (Req_EM_T _ _) as [Z0|]; [|discriminate].
      specialize (H d Id). unfold sat in *. rewrite eval_upd in H. cbn [rest fst snd]. rewrite Z0 in H. lra.
    + intros c Ic. apply in_flat_map in Ic. destruct Ic as (p & Ip & Ic). apply in_map_iff in Ic.
      destruct Ic as (q & <- & Iq). apply filter_In in Ip. destruct Ip as [Ip Pp].
      apply filter_In in Iq. destruct Iq as [Iq Nq].
      unfold neg_row in Nq. destruct (Rlt_dec (coef i (fst q)) 0) as [Q|]; [|discriminate].
      unfold pos_row in Pp. destruct (Rlt_dec 0 (coef i (fst p))) as [P|]; [|discriminate].
      assert (Sp := H p Ip). assert (Sq := H q Iq). unfold sat in *. rewrite eval_upd in Sp, Sq.
      cbn [combine_rows fst snd]. rewrite eval_app, !eval_scale.
      set (a := coef i (fst p)) in *. set (b := coef i (fst q)) in *.
      set (u := eval_terms (drop i (fst p)) sg) in *. set (v := eval_terms (drop i (fst q)) sg) in *.
      assert (- b * (a * x + u) <= - b * snd p) by (apply Rmult_le_compat_l; lra).
      assert (a * (b * x + v) <= a * snd q) by (apply Rmult_le_compat_l; lra). lra.
Qed.

(** Variables of the rows. *)
Definition within (n : nat) (P : nat -> Prop) (c : ineq) : Prop :=
  Forall (fun p => (snd p < n)%nat /\ P (snd p)) (fst c).
Lemma drop_within : forall i t (P : nat -> Prop), Forall (fun p : R * nat => P (snd p)) t ->
  Forall (fun p : R * nat => P (snd p) /\ snd p <> i) (drop i t).
Proof.
  intros i t P H. rewrite Forall_forall in *. intros p Hp. apply filter_In in Hp. destruct Hp as [I N].
  split; auto. destruct (Nat.eqb_spec (snd p) i); [discriminate|auto].
Qed.
Lemma scale_within : forall k t (P : nat -> Prop), Forall (fun p : R * nat => P (snd p)) t ->
  Forall (fun p : R * nat => P (snd p)) (scale k t).
Proof.
  intros k t P H. rewrite Forall_forall in *. intros p Hp. apply in_map_iff in Hp.
  destruct Hp as (q & <- & I). cbn. auto.
Qed.
Definition uses (P : nat -> Prop) (c : ineq) : Prop := Forall (fun p => P (snd p)) (fst c).
Lemma elim_uses : forall i C (P : nat -> Prop), Forall (uses P) C ->
  Forall (uses (fun j => P j /\ j <> i)) (elim i C).
Proof.
  intros i C P H. unfold elim. rewrite Forall_forall in H. apply Forall_app. split.
  - apply Forall_forall. intros c Ic. apply in_map_iff in Ic. destruct Ic as (d & <- & Id).
    apply filter_In in Id. apply drop_within. apply H. tauto.
  - apply Forall_forall. intros c Ic. apply in_flat_map in Ic. destruct Ic as (p & Ip & Ic).
    apply in_map_iff in Ic. destruct Ic as (q & <- & Iq). apply filter_In in Ip. apply filter_In in Iq.
    unfold uses, combine_rows. cbn [fst]. apply Forall_app.
    split; apply (scale_within _ _ (fun j => P j /\ j <> i)); apply drop_within; apply H; tauto.
Qed.

Fixpoint elims (n : nat) (C : list ineq) : list ineq :=
  match n with O => C | S k => elims k (elim k C) end.
Lemma elims_spec : forall n C sg,
  (Forall (sat sg) (elims n C) <->
   exists s, (forall j, (n <= j)%nat -> s j = sg j) /\ Forall (sat s) C).
Proof.
  induction n as [|k IH]; intros C sg; cbn [elims].
  - split.
    + intros H. exists sg. auto.
    + intros (s & E & H). eapply Forall_impl; [|exact H]. intros c K. unfold sat in *.
      rewrite (eval_ext (fst c) sg s); auto. apply Forall_forall. intros p _. rewrite E; auto. lia.
  - rewrite IH. split.
    + intros (s & E & H). apply elim_spec in H. destruct H as (x & H). exists (upd s k x).
      split; auto. intros j Hj. unfold upd. destruct (Nat.eqb_spec j k); [lia|]. apply E. lia.
    + intros (s & E & H). exists (upd s k (sg k)). split.
      * intros j Hj. unfold upd. destruct (Nat.eqb_spec j k) as [->|]; auto. apply E. lia.
      * apply elim_spec. exists (s k). eapply Forall_impl; [|exact H]. intros c K. unfold sat in *.
        rewrite (eval_ext (fst c) _ s); auto. apply Forall_forall. intros p _. unfold upd.
        destruct (Nat.eqb_spec (snd p) k) as [->|]; auto.
Qed.
Lemma elims_uses : forall n C (P : nat -> Prop), Forall (uses P) C ->
  Forall (uses (fun j => P j /\ (n <= j)%nat)) (elims n C).
Proof.
  induction n as [|k IH]; intros C P H; cbn [elims].
  - eapply Forall_impl; [|exact H]. intros c K. unfold uses in *. eapply Forall_impl; [|exact K].
    cbv beta. intros. split; auto. lia.
  - assert (Q := IH _ _ (elim_uses k C P H)). eapply Forall_impl; [|exact Q].
    intros c K. unfold uses in *. eapply Forall_impl; [|exact K].
    cbv beta. intros p [[A B] D]. split; auto. lia.
Qed.

(** A closed set of numbers that is bounded above has a largest element. *)
Lemma interval_max : forall (C : list (R * R)) K, (exists t, Forall (fun c => fst c * t <= snd c) C) ->
  (forall t, Forall (fun c => fst c * t <= snd c) C -> t <= K) ->
  exists t, Forall (fun c => fst c * t <= snd c) C /\
    forall s, Forall (fun c => fst c * s <= snd c) C -> s <= t.
Proof.
  intros C K [t0 H0] HK. set (P := filter (fun c : R * R => if Rlt_dec 0 (fst c) then true else false) C).
  assert (Min : P = [] \/ exists c, In c P /\ forall d, In d P -> snd c / fst c <= snd d / fst d).
  { generalize P. clear. intros P. induction P as [|c P IH]; [left; auto|]. right.
    destruct IH as [->|(d & Id & Hd)].
    - exists c. split; [left; auto|]. intros d [<-|[]]. lra.
    - destruct (Rle_dec (snd c / fst c) (snd d / fst d)) as [Q|Q].
      + exists c. split; [left; auto|]. intros e [<-|He]; [lra|]. specialize (Hd e He). lra.
      + exists d. split; [right; auto|]. intros e [<-|He]; [lra|auto]. }
  assert (Up : forall s, t0 <= s -> (forall d, In d P -> s <= snd d / fst d) ->
               Forall (fun c => fst c * s <= snd c) C).
  { intros s Hs Hd. apply Forall_forall. intros c Ic. rewrite Forall_forall in H0.
    specialize (H0 c Ic). destruct (Rlt_dec 0 (fst c)) as [Q|Q]; [|nra].
    assert (L : s <= snd c / fst c).
    { apply Hd. apply filter_In. split; auto. destruct (Rlt_dec 0 (fst c)); auto. }
    assert (E : snd c / fst c * fst c = snd c) by (field; lra). nra. }
  assert (Lw : forall s, Forall (fun c => fst c * s <= snd c) C -> forall d, In d P -> s <= snd d / fst d).
  { intros s Hs d Id. apply filter_In in Id. destruct Id as [Id Q].
    destruct (Rlt_dec 0 (fst d)) as [Q'|]; [|discriminate]. rewrite Forall_forall in Hs.
    specialize (Hs d Id). assert (E : snd d / fst d * fst d = snd d) by (field; lra). nra. }
  destruct Min as [E|(c & Ic & Hc)].
  - exfalso. assert (Q : Rmax t0 (K + 1) <= K).
    { apply HK. apply Up; [apply Rmax_l|]. rewrite E. intros d []. }
    assert (K + 1 <= Rmax t0 (K + 1)) by apply Rmax_r. lra.
  - exists (snd c / fst c). split.
    + apply Up; auto.
    + intros s Hs. auto.
Qed.

Lemma eval_only : forall n t sg, Forall (fun p => snd p = n) t -> eval_terms t sg = coef n t * sg n.
Proof.
  intros n t sg. induction 1 as [|[a j] t H F IH]; cbn [coef].
  - replace (eval_terms [] sg) with 0 by reflexivity. ring.
  - cbn in H. subst j. rewrite eval_cons, IH, Nat.eqb_refl. cbn. ring.
Qed.

(** ** A linear program that is feasible and bounded above attains its maximum *)

Lemma vars_bound : forall C : list ineq, exists n, Forall (uses (fun j => (j < n)%nat)) C.
Proof.
  assert (T : forall t : list (R * nat), exists n, Forall (fun p => (snd p < n)%nat) t).
  { induction t as [|p t [n IH]]; [exists O; constructor|]. exists (Nat.max n (S (snd p))).
    constructor; [lia|]. eapply Forall_impl; [|exact IH]. cbv beta. intros. lia. }
  induction C as [|c C [n IH]]; [exists O; constructor|]. destruct (T (fst c)) as [k Hk].
  exists (Nat.max n k). constructor.
  - unfold uses. eapply Forall_impl; [|exact Hk]. cbv beta. intros. lia.
  - eapply Forall_impl; [|exact IH]. intros d. unfold uses. intros Hd.
    eapply Forall_impl; [|exact Hd]. cbv beta. intros. lia.
Qed.

Lemma lp_attains : forall C obj K, (exists sg, Forall (sat sg) C) ->
  (forall sg, Forall (sat sg) C -> eval_terms obj sg <= K) ->
  exists sg, Forall (sat sg) C /\ forall s, Forall (sat s) C -> eval_terms obj s <= eval_terms obj sg.
Proof.
  intros C obj K [s0 H0] HK.
  destruct (vars_bound ((obj, 0) :: C)) as [n Hn]. apply Forall_inv in Hn as Ho.
  apply Forall_inv_tail in Hn. unfold uses in Ho. cbn in Ho.
  set (D := ((-1, n) :: obj, 0) :: ((1, n) :: scale (-1) obj, 0) :: C).
  assert (SD : forall s, Forall (sat s) D <-> (s n = eval_terms obj s /\ Forall (sat s) C)).
  { intros s. unfold D. split.
    - intros H. assert (A := Forall_inv H). assert (B := Forall_inv (Forall_inv_tail H)).
      split; [|exact (Forall_inv_tail (Forall_inv_tail H))]. unfold sat in A, B. cbn [fst snd] in A, B.
      rewrite eval_cons in A, B. rewrite eval_scale in B. cbn [fst snd] in A, B. lra.
    - intros [E H]. constructor; [|constructor; auto]; unfold sat; cbn [fst snd];
      rewrite eval_cons, ?eval_scale; cbn [fst snd]; lra. }
  assert (UD : Forall (uses (fun j => (j <= n)%nat)) D).
  { unfold D. constructor; [|constructor].
    - unfold uses. cbn [fst]. constructor; [cbn; lia|]. eapply Forall_impl; [|exact Ho]. cbv beta. intros; lia.
    - unfold uses. cbn [fst]. constructor; [cbn; lia|]. apply (scale_within _ _ (fun j => (j <= n)%nat)).
      eapply Forall_impl; [|exact Ho]. cbv beta. intros; lia.
    - eapply Forall_impl; [|exact Hn]. intros d Hd. unfold uses in *. eapply Forall_impl; [|exact Hd].
      cbv beta. intros; lia. }
  assert (SE := elims_spec n D). assert (UE := elims_uses n D _ UD).
  set (E := elims n D) in *.
  set (I := map (fun c : ineq => (coef n (fst c), snd c)) E).
  assert (SI : forall t, Forall (fun c => fst c * t <= snd c) I <-> Forall (sat (upd s0 n t)) E).
  { intros t. unfold I. clear - UE. induction UE as [|c E H F IH]; cbn [map].
    - split; constructor.
    - assert (Q : sat (upd s0 n t) c <-> coef n (fst c) * t <= snd c).
      { unfold sat. rewrite (eval_only n (fst c)).
        - unfold upd. rewrite Nat.eqb_refl. tauto.
        - unfold uses in H. eapply Forall_impl; [|exact H]. cbv beta. intros; lia. }
      split; intros G; constructor.
      + apply Q. exact (Forall_inv G).
      + apply IH. exact (Forall_inv_tail G).
      + apply Q. exact (Forall_inv G).
      + apply IH. exact (Forall_inv_tail G). }
  assert (Lift : forall s, Forall (sat s) C -> Forall (fun c => fst c * eval_terms obj s <= snd c) I).
  { intros s Hs. apply SI. apply SE. exists (fun j => if Nat.ltb j n then s j else upd s0 n (eval_terms obj s) j).
    split.
    - intros j Hj. destruct (Nat.ltb_spec j n); [lia|auto].
    - apply SD. assert (Eo : forall t : list (R * nat), Forall (fun p => (snd p < n)%nat) t ->
        eval_terms t (fun j => if Nat.ltb j n then s j else upd s0 n (eval_terms obj s) j) = eval_terms t s).
      { intros t Ht. apply eval_ext. eapply Forall_impl; [|exact Ht]. cbv beta. intros p Hp.
        destruct (Nat.ltb_spec (snd p) n); [auto|lia]. }
      split.
      + rewrite (Eo obj Ho). destruct (Nat.ltb_spec n n); [lia|]. unfold upd. rewrite Nat.eqb_refl. auto.
      + rewrite Forall_forall in *. intros c Ic. unfold sat. rewrite Eo; [apply Hs; auto|].
        apply (Hn c Ic). }
  assert (Down : forall t, Forall (fun c => fst c * t <= snd c) I ->
            exists s, Forall (sat s) C /\ eval_terms obj s = t).
  { intros t Ht. apply SI in Ht. apply SE in Ht. destruct Ht as (s & Es & Hs). apply SD in Hs.
    destruct Hs as [Hs1 Hs2]. exists s. split; auto. rewrite <- Hs1, Es by lia.
    unfold upd. rewrite Nat.eqb_refl. auto. }
  destruct (interval_max I K) as (t & Ht & Mt).
  - exists (eval_terms obj s0). auto.
  - intros t Ht. destruct (Down t Ht) as (s & Hs & <-). auto.
  - destruct (Down t Ht) as (s & Hs & Es). exists s. split; auto. intros s' Hs'. rewrite Es. auto.
Qed.

(** ** The same with binary variables *)

Lemma milp_attains : forall B C obj K,
  (exists sg, Forall (sat sg) C /\ Forall (fun i => is_bin (sg i)) B) ->
  (forall sg, Forall (sat sg) C -> Forall (fun i => is_bin (sg i)) B -> eval_terms obj sg <= K) ->
  exists sg, (Forall (sat sg) C /\ Forall (fun i => is_bin (sg i)) B) /\
    forall s, Forall (sat s) C -> Forall (fun i => is_bin (s i)) B ->
      eval_terms obj s <= eval_terms obj sg.
Proof.
  induction B as [|i B IH]; intros C obj K Hf HK.
  - destruct (lp_attains C obj K) as (sg & H1 & H2).
    + destruct Hf as (sg & H & _). eauto.
    + intros. apply HK; auto.
    + exists sg. split; auto.
  - set (Cv := fun v : R => ([(1, i)], v) :: ([(-1, i)], - v) :: C).
    assert (SC : forall v s, Forall (sat s) (Cv v) <-> s i = v /\ Forall (sat s) C).
    { intros v s. unfold Cv. split.
      - intros H. assert (A := Forall_inv H). assert (D := Forall_inv (Forall_inv_tail H)).
        split; [|exact (Forall_inv_tail (Forall_inv_tail H))]. unfold sat in A, D. cbn in A, D. lra.
      - intros [E H]. constructor; [|constructor; auto]; unfold sat; cbn; lra. }
    assert (Case : forall v, is_bin v ->
      (forall s, Forall (sat s) (Cv v) -> Forall (fun i => is_bin (s i)) B -> False) \/
      exists sg, (Forall (sat sg) (Cv v) /\ Forall (fun i => is_bin (sg i)) B) /\
        forall s, Forall (sat s) (Cv v) -> Forall (fun i => is_bin (s i)) B ->
          eval_terms obj s <= eval_terms obj sg).
    { intros v Hv. destruct (Classical_Prop.classic
        (exists s, Forall (sat s) (Cv v) /\ Forall (fun i => is_bin (s i)) B)) as [Y|Y].
      - right. apply (IH (Cv v) obj K); auto. intros s Hs Hb. apply SC in Hs. destruct Hs as [E Hs].
        apply HK; auto. constructor; auto. rewrite E. auto.
      - left. intros s Hs Hb. apply Y. eauto. }
    assert (Get : forall v sg, is_bin v -> (Forall (sat sg) (Cv v) /\ Forall (fun i => is_bin (sg i)) B) ->
      Forall (sat sg) C /\ Forall (fun i => is_bin (sg i)) (i :: B)).
    { intros v sg Hv [H1 H2]. apply SC in H1. destruct H1 as [E H1]. split; auto. constructor; auto.
      rewrite E. auto. }
    assert (B0 : is_bin 0) by (left; auto). assert (B1 : is_bin 1) by (right; auto).
    destruct (Case 0 B0) as [N0|(s0 & G0 & M0)]; destruct (Case 1 B1) as [N1|(s1 & G1 & M1)].
    + exfalso. destruct Hf as (sg & H & Hb). assert (Hi := Forall_inv Hb). assert (Ht := Forall_inv_tail Hb).
      cbv beta in Hi. destruct Hi as [E|E]; [apply (N0 sg)|apply (N1 sg)]; auto; apply SC; auto.
    + exists s1. split; [eauto|]. intros s Hs Hb. assert (Hi := Forall_inv Hb). assert (Ht := Forall_inv_tail Hb).
      cbv beta in Hi. destruct Hi as [E|E]; [exfalso; apply (N0 s)|apply M1]; auto; apply SC; auto.
    + exists s0. split; [eauto|]. intros s Hs Hb. assert (Hi := Forall_inv Hb). assert (Ht := Forall_inv_tail Hb).
      cbv beta in Hi. destruct Hi as [E|E]; [apply M0|exfalso; apply (N1 s)]; auto; apply SC; auto.
    + destruct (Rle_dec (eval_terms obj s0) (eval_terms obj s1)) as [L|L].
      * exists s1. split; [eauto|]. intros s Hs Hb. assert (Hi := Forall_inv Hb).
        assert (Ht := Forall_inv_tail Hb). cbv beta in Hi. destruct Hi as [E|E].
        -- apply Rle_trans with (eval_terms obj s0); auto. apply M0; auto; apply SC; auto.
        -- apply M1; auto; apply SC; auto.
      * exists s0. split; [eauto|]. intros s Hs Hb. assert (Hi := Forall_inv Hb).
        assert (Ht := Forall_inv_tail Hb). cbv beta in Hi. destruct Hi as [E|E].
        -- apply M0; auto; apply SC; auto.
        -- apply Rle_trans with (eval_terms obj s1); [|lra]. apply M1; auto; apply SC; auto.
Qed.

(** ** Gurobi programs *)

Definition row_ineqs (g : grow) : list ineq :=
  match row_sense g with
  | SLe => [(row_terms g, row_rhs g)]
  | SGe => [(scale (-1) (row_terms g), - row_rhs g)]
  | SEq => [(row_terms g, row_rhs g); (scale (-1) (row_terms g), - row_rhs g)]
  end.
Lemma row_ineqs_ok : forall sg g, Forall (sat sg) (row_ineqs g) <-> row_ok sg g.
Proof.
  intros sg g. unfold row_ineqs, row_ok. destruct (row_sense g); split; intros H.
  - exact (Forall_inv H).
  - constructor; auto.
  - assert (A := Forall_inv H). assert (B := Forall_inv (Forall_inv_tail H)).
    unfold sat in A, B. cbn [fst snd] in A, B. rewrite eval_scale in B. lra.
  - constructor; [|constructor; auto]; unfold sat; cbn [fst snd]; rewrite ?eval_scale; lra.
  - assert (A := Forall_inv H). unfold sat in A. cbn [fst snd] in A. rewrite eval_scale in A. lra.
  - constructor; auto; unfold sat; cbn [fst snd]; rewrite eval_scale; lra.
Qed.
Definition var_ineqs (i : nat) (v : gvar) : list ineq :=
  match v_lb v with Fin a => [([(-1, i)], - a)] | NInf => [] | PInf => [([], -1)] end ++
  match v_ub v with Fin a => [([(1, i)], a)] | PInf => [] | NInf => [([], -1)] end.
Lemma var_ineqs_ok : forall sg i v,
  Forall (sat sg) (var_ineqs i v) <-> ext_le_r (v_lb v) (sg i) /\ r_le_ext (sg i) (v_ub v).
Proof.
  intros sg i v. unfold var_ineqs. rewrite Forall_app.
  assert (S1 : forall c, Forall (sat sg) [c] <-> sat sg c).
  { intros c. split; intros H; [exact (Forall_inv H)|constructor; auto]. }
  assert (S0 : Forall (sat sg) [] <-> True) by (split; auto).
  destruct (v_lb v), (v_ub v); cbn [ext_le_r r_le_ext]; rewrite ?S1, ?S0; unfold sat; cbn;
    split; intros [? ?]; split; auto; lra.
Qed.
Fixpoint vars_ineqs (i : nat) (vs : list gvar) : list ineq :=
  match vs with [] => [] | v :: vs' => var_ineqs i v ++ vars_ineqs (S i) vs' end.
Fixpoint bin_vars (i : nat) (vs : list gvar) : list nat :=
  match vs with [] => [] | v :: vs' => (if v_bin v then [i] else []) ++ bin_vars (S i) vs' end.
Lemma vars_ineqs_ok : forall sg vs k,
  (Forall (sat sg) (vars_ineqs k vs) /\ Forall (fun i => is_bin (sg i)) (bin_vars k vs)) <->
  (forall i v, nth_error vs i = Some v -> var_ok v (sg (k + i)%nat)).
Proof.
  intros sg. induction vs as [|v vs IH]; intros k; cbn [vars_ineqs bin_vars].
  - split; auto. intros _ i w E. destruct i; discriminate.
  - rewrite !Forall_app, var_ineqs_ok. split.
    + intros [[A B] [C D]] i w E. destruct i as [|i]; cbn in E.
      * injection E as <-. rewrite Nat.add_0_r. split; auto. intros Hb. rewrite Hb in C.
        exact (Forall_inv C).
      * replace (k + S i)%nat with (S k + i)%nat by lia. apply (proj1 (IH (S k))); auto.
    + intros H. assert (H0 := H O v eq_refl). rewrite Nat.add_0_r in H0. destruct H0 as (Hb & Hl & Hu).
      assert (HT : Forall (sat sg) (vars_ineqs (S k) vs) /\
                   Forall (fun i => is_bin (sg i)) (bin_vars (S k) vs)).
      { apply IH. intros i w E. replace (S k + i)%nat with (k + S i)%nat by lia. apply H. auto. }
      destruct HT. repeat split; auto. destruct (v_bin v); constructor; auto.
Qed.
Definition mip_ineqs (m : mip) : list ineq := vars_ineqs 0 (gvars m) ++ flat_map row_ineqs (grows m).
Lemma mip_ineqs_ok : forall m sg,
  (Forall (sat sg) (mip_ineqs m) /\ Forall (fun i => is_bin (sg i)) (bin_vars 0 (gvars m))) <->
  gfeas m sg.
Proof.
  intros m sg. unfold mip_ineqs, gfeas. rewrite Forall_app.
  assert (Q := vars_ineqs_ok sg (gvars m) 0). cbn [plus] in Q.
  assert (F : Forall (sat sg) (flat_map row_ineqs (grows m)) <-> Forall (row_ok sg) (grows m)).
  { induction (grows m) as [|g gs IH]; cbn [flat_map]; [split; auto|].
    rewrite Forall_app, IH, row_ineqs_ok. split.
    - intros [? ?]. constructor; auto.
    - intros H. split; [exact (Forall_inv H)|exact (Forall_inv_tail H)]. }
  tauto.
Qed.

Lemma abs_between : forall x k, Rabs x <= k -> - k <= x <= k.
Proof. intros x k. unfold Rabs. destruct (Rcase_abs x); lra. Qed.

Lemma optimum_exists : forall m, (exists sg, gfeas m sg) ->
  (exists K, forall sg, gfeas m sg -> Rabs (objective m sg) <= K) ->
  exists sg, gfeas m sg /\
    forall s, gfeas m s ->
      if obj_max m then objective m s <= objective m sg else objective m sg <= objective m s.
Proof.
  intros m [s0 G0] [K HK].
  assert (A : forall obj K', (forall sg, gfeas m sg -> eval_terms obj sg <= K') ->
    exists sg, gfeas m sg /\ forall s, gfeas m s -> eval_terms obj s <= eval_terms obj sg).
  { intros obj K' Ho. destruct (milp_attains (bin_vars 0 (gvars m)) (mip_ineqs m) obj K') as (sg & G & M).
    - exists s0. apply mip_ineqs_ok. auto.
    - intros sg H1 H2. apply Ho. apply mip_ineqs_ok. auto.
    - exists sg. split; [apply mip_ineqs_ok; auto|]. intros s Gs. apply mip_ineqs_ok in Gs.
      destruct Gs. apply M; auto. }
  unfold objective in *. destruct (obj_max m).
  - destruct (A (obj_terms m) (K - obj_const m)) as (sg & G & M).
    + intros sg G. specialize (HK sg G). apply abs_between in HK. lra.
    + exists sg. split; auto. intros s Gs. specialize (M s Gs). lra.
  - destruct (A (scale (-1) (obj_terms m)) (K + obj_const m)) as (sg & G & M).
    + intros sg G. specialize (HK sg G). apply abs_between in HK. rewrite eval_scale. lra.
    + exists sg. split; auto. intros s Gs. specialize (M s Gs). rewrite !eval_scale in M. lra.
Qed.
