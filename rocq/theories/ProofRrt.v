(** Proofs about the tree. *)

Require Import Reals List Bool Arith Lia Lra Permutation.
Require Import Verif.Vec Verif.VecFacts Verif.SpecExt Verif.ModelValueIter Verif.ModelRrt Verif.SpecRrt
  Verif.ProofBounds Verif.ProofValueIter.
Import ListNotations.
Open Scope R_scope.

(** ** Assignment *)
Lemma set_nth_nth : forall A i (v : A) l l' d, set_nth i v l = Some l' ->
  (i < length l)%nat /\ length l' = length l /\ forall k, nth k l' d = if Nat.eqb k i then v else nth k l d.
Proof.
  intros A i v l l' d H. assert (Hi : (i < length l)%nat).
  { unfold set_nth in H. destruct (Nat.ltb_spec i (length l)); [auto|discriminate]. }
  destruct (set_nth_some A i v l Hi) as (l2 & E & L & G & O). assert (l2 = l') by congruence. subst.
  split; auto. split; auto. intros k. destruct (Nat.eqb_spec k i) as [->|N].
  - apply nth_error_nth with (d := d) in G. auto.
  - assert (Q := O k N). destruct (nth_error l k) as [x|] eqn:K.
    + rewrite (nth_error_nth _ _ d Q), (nth_error_nth _ _ d K). auto.
    + apply nth_error_None in K. apply nth_error_None in Q. rewrite !nth_overflow by auto. auto.
Qed.
Lemma set_nth_ok : forall A i (v : A) l, (i < length l)%nat -> exists l', set_nth i v l = Some l'.
Proof. intros A i v l H. destruct (set_nth_some A i v l H) as (l' & E & _). eauto. Qed.
Lemma nth_error_lt : forall A (l : list A) i x, nth_error l i = Some x -> (i < length l)%nat.
Proof. intros A l i x H. apply nth_error_Some. congruence. Qed.
Lemma nth_error_val : forall A (l : list A) i x d, nth_error l i = Some x -> nth i l d = x.
Proof. intros. apply nth_error_nth. auto. Qed.

(** ** Following parents *)
Section Graph.
  Variable par : nat -> option nat.
  Inductive reach : nat -> nat -> Prop :=
  | reach0 : reach 0 0
  | reachS : forall i p d, par i = Some p -> reach p d -> reach i (S d).
  Inductive avoid (v : nat) : nat -> Prop :=
  | avoid0 : v <> 0%nat -> avoid v 0
  | avoidS : forall i p, i <> v -> par i = Some p -> avoid v p -> avoid v i.
  Hypothesis root : par 0%nat = None.
  Lemma reach_unique : forall i d, reach i d -> forall d', reach i d' -> d = d'.
  Proof.
    induction 1 as [|i p d E R IH]; intros d' H'.
    - inversion H'; subst; auto. congruence.
    - inversion H'; subst; [congruence|]. f_equal. apply IH. congruence.
  Qed.
  Lemma reach_neq : forall i p d, reach p d -> par i = Some p -> i <> p.
  Proof.
    intros i p d R E ->. assert (R' := reachS p p d E R). assert (Q := reach_unique _ _ R _ R'). lia.
  Qed.
  (** A node that is not avoided on the way has a way through it. *)
  Lemma avoid_or : forall v i d, reach i d -> avoid v i \/ exists d', (d' <= d)%nat /\ reach v d' /\
     (forall r e, (forall k q, par k = Some q -> r k = r q + e k) -> (forall k : nat, par k <> None -> 0 <= e k) -> r v <= r i).
  Proof.
    intros v. induction 1 as [|i p d E R IH].
    - destruct (Nat.eq_dec v 0) as [->|N]; [right|left; constructor; auto].
      exists 0%nat. split; auto. split; [constructor|]. intros. lra.
    - destruct (Nat.eq_dec i v) as [->|N].
      + right. exists (S d). split; auto. split; [econstructor; eauto|]. intros. lra.
      + destruct IH as [A|(d' & L & R' & K)]; [left; econstructor; eauto|].
        right. exists d'. split; [lia|]. split; auto. intros r e Hr He.
        specialize (K r e Hr He). rewrite (Hr i p E). assert (0 <= e i) by (apply He; congruence). lra.
  Qed.
End Graph.

(** Redirecting v to q, when q's way avoids v. *)
Definition redirect (par : nat -> option nat) (v q : nat) (k : nat) : option nat :=
  if Nat.eqb k v then Some q else par k.
Lemma avoid_redirect : forall par v q i, avoid par v i -> avoid (redirect par v q) v i.
Proof.
  intros par v q. induction 1 as [|i p N E A IH]; [constructor; auto|].
  apply avoidS with p; auto. unfold redirect. destruct (Nat.eqb_spec i v); [contradiction|auto].
Qed.
Lemma avoid_reach : forall par v i, avoid par v i -> exists d, reach par i d.
Proof.
  induction 1 as [|i p N E A (d & IH)]; [exists 0%nat; constructor|exists (S d); econstructor; eauto].
Qed.
Lemma reach_redirect : forall par v q, avoid par v q -> forall i d, reach par i d ->
  exists d', reach (redirect par v q) i d'.
Proof.
  intros par v q A. assert (A' := avoid_redirect par v q q A). destruct (avoid_reach _ _ _ A') as (dq & Rq).
  induction 1 as [|i p d E R (d' & IH)].
  - exists 0%nat. constructor.
  - destruct (Nat.eq_dec i v) as [->|N].
    + exists (S dq). apply reachS with q; auto. unfold redirect. rewrite Nat.eqb_refl. auto.
    + exists (S d'). apply reachS with p; auto. unfold redirect. destruct (Nat.eqb_spec i v); [contradiction|auto].
Qed.

(** ** The descent *)
Section Descent.
  Variables (n : nat) (par : list (option nat)) (chi : list (list nat)) (ctp : list R).
  Hypothesis Lp : length par = n.
  Hypothesis Lc : length chi = n.
  Hypothesis Le : length ctp = n.
  Let P (i : nat) : option nat := nth i par None.
  Let C (i : nat) : list nat := nth i chi [].
  Let e (i : nat) : R := nth i ctp 0.
  Hypothesis root : P 0%nat = None.
  Hypothesis all_reach : forall i, (i < n)%nat -> exists d, reach P i d.
  Hypothesis in_range : forall i p, P i = Some p -> (p < n)%nat.
  Hypothesis kids_ok : forall p c, (p < n)%nat -> (In c (C p) <-> P c = Some p).
  Definition eqn (r : nat -> R) (i : nat) : Prop := forall p, P i = Some p -> r i = r p + e i.
  Definition cost_at (ctr : list R) (i : nat) : R := nth i ctr 0.

  Lemma P_lt : forall i p, P i = Some p -> (i < n)%nat.
  Proof.
    intros i p H. destruct (Nat.lt_ge_cases i n) as [|G]; auto. unfold P in H.
    rewrite nth_overflow in H by lia. discriminate.
  Qed.
  Lemma visit_spec : forall (D : nat -> Prop), (forall c i, D c -> P i = Some c -> D i) ->
    forall cs ctr queue, length ctr = n ->
    (forall c, In c cs -> exists p, P c = Some p) ->
    (forall c, In c cs -> D c) ->
    (forall i, eqn (cost_at ctr) i \/ In i cs \/ exists s, In s queue /\ In i s) ->
    exists ctr', visit par chi ctp cs ctr queue = Some (ctr', queue ++ map C cs) /\ length ctr' = n /\
      (forall i, eqn (cost_at ctr') i \/ exists s, In s (queue ++ map C cs) /\ In i s) /\
      (forall i, ~ D i -> cost_at ctr' i = cost_at ctr i).
  Proof.
    intros D HD. induction cs as [|c cs IH]; intros ctr queue L HP HDc H.
    - exists ctr. cbn [visit map]. rewrite app_nil_r. split; auto. split; auto. split; auto.
      intros i. destruct (H i) as [?|[[]|?]]; auto.
    - cbn [visit]. destruct (HP c) as (p & Ep); [left; auto|].
      assert (Hc := P_lt c p Ep). assert (Hp := in_range c p Ep).
      rewrite (nth_error_nth' par None) by lia. change (nth c par None) with (P c). rewrite Ep.
      rewrite (nth_error_nth' ctr 0) by lia. rewrite (nth_error_nth' ctp 0) by lia.
      destruct (set_nth_ok _ c (nth p ctr 0 + nth c ctp 0) ctr) as (ctr1 & E1); [lia|]. rewrite E1.
      rewrite (nth_error_nth' chi []) by lia. change (nth c chi []) with (C c).
      destruct (set_nth_nth _ _ _ _ _ 0 E1) as (_ & L1 & G1).
      destruct (all_reach p Hp) as (dp & Rp). assert (Ncp := reach_neq P root c p dp Rp Ep).
      destruct (IH ctr1 (queue ++ [C c])) as (ctr' & E' & L' & Q' & F').
      + lia.
      + intros k Hk. apply HP. right. auto.
      + intros k Hk. apply HDc. right. auto.
      + intros i. destruct (Nat.eq_dec i c) as [->|Ni].
        { left. intros p' Ep'. assert (p' = p) by congruence. subst p'. unfold cost_at. rewrite !G1, Nat.eqb_refl.
          destruct (Nat.eqb_spec p c); [congruence|]. auto. }
        destruct (P i) as [k|] eqn:Ei; [|left; intros p' Ep'; congruence].
        destruct (Nat.eq_dec k c) as [->|Nk].
        { right. right. exists (C c). split; [apply in_or_app; right; left; auto|]. apply kids_ok; auto. }
        destruct (H i) as [Hi|[Hi|(s & Hs & Hi)]].
        * left. intros p' Ep'. assert (p' = k) by congruence. subst p'. specialize (Hi k Ei). unfold cost_at in *.
          rewrite !G1. destruct (Nat.eqb_spec i c); [congruence|]. destruct (Nat.eqb_spec k c); [congruence|]. auto.
        * destruct Hi as [->|Hi]; [congruence|]. auto.
        * right. right. exists s. split; [apply in_or_app; auto|auto].
      + exists ctr'. rewrite <- app_assoc in E', Q'. cbn [app map] in *. split; auto. split; auto. split; auto.
        intros i Hi. rewrite F' by auto. unfold cost_at. rewrite G1. destruct (Nat.eqb_spec i c) as [->|]; auto.
        exfalso. apply Hi. apply HDc. left. auto.
  Qed.

  (** The number of sets that are taken off the queue. *)
  Inductive fits : list nat -> nat -> Prop :=
  | fits_nil : fits [] 1
  | fits_cons : forall c s w w', fits s w -> fits (C c) w' -> fits (c :: s) (w + w').
  Lemma fits_perm : forall s s', Permutation s s' -> forall w, fits s w -> fits s' w.
  Proof.
    induction 1; intros w F; auto.
    - inversion F; subst. constructor; auto.
    - inversion F as [|c1 s1 a1 b1 F1 G1 E1 E2]; subst. inversion F1 as [|c2 s2 a2 b2 F2 G2 E3 E4]; subst.
      replace (a2 + b2 + b1)%nat with (a2 + b1 + b2)%nat by lia. constructor; auto. constructor; auto.
  Qed.
  Lemma fits_kids : forall s w, fits s w -> exists ws, Forall2 fits (map C s) ws /\ w = S (list_sum ws).
  Proof.
    induction 1 as [|c s w w' F (ws & G & E) F' _].
    - exists []. split; [constructor|auto].
    - exists (w' :: ws). split; [cbn [map]; constructor; auto|]. subst. change (list_sum (w' :: ws)) with (w' + list_sum ws)%nat. lia.
  Qed.
  Lemma fits_list : forall s, (forall c, In c s -> exists w, fits (C c) w) -> exists w, fits s w.
  Proof.
    induction s as [|c s IH]; intros H; [exists 1%nat; constructor|].
    destruct IH as (w & F); [intros; apply H; right; auto|]. destruct (H c) as (w' & F'); [left; auto|].
    exists (w + w')%nat. constructor; auto.
  Qed.
  Lemma depth_bound : exists K, forall i d, (i < n)%nat -> reach P i d -> (d <= K)%nat.
  Proof.
    assert (G : forall m, (m <= n)%nat -> exists K, forall i d, (i < m)%nat -> reach P i d -> (d <= K)%nat); [|apply (G n); auto].
    induction m as [|m IH]; intros Hm; [exists 0%nat; intros; lia|].
    destruct IH as (K & HK); [lia|]. destruct (all_reach m) as (dm & Rm); [lia|].
    exists (Nat.max K dm). intros i d Hi Ri. destruct (Nat.eq_dec i m) as [->|N].
    - assert (d = dm) by (apply (reach_unique P root m); auto). lia.
    - assert (d <= K)%nat by (apply (HK i); auto; lia). lia.
  Qed.
  Lemma fits_all : forall x, (x < n)%nat -> exists w, fits (C x) w.
  Proof.
    destruct depth_bound as (K & HK).
    assert (G : forall j x d, (x < n)%nat -> reach P x d -> (K - d <= j)%nat -> exists w, fits (C x) w).
    { induction j as [|j IH]; intros x d Hx R Hj.
      - apply fits_list. intros c Hc. exfalso. apply kids_ok in Hc; auto.
        assert (S d <= K)%nat; [|lia]. apply (HK c); [apply (P_lt c x); auto|econstructor; eauto].
      - apply fits_list. intros c Hc. apply kids_ok in Hc; auto. assert (Hcn := P_lt c x Hc).
        assert (Rc := reachS P c x d Hc R). assert (S d <= K)%nat by (apply (HK c); auto).
        apply (IH c (S d)); auto. lia. }
    intros x Hx. destruct (all_reach x Hx) as (d & R). apply (G (K - d)%nat x d); auto.
  Qed.
  Lemma descend_spec : forall (ord : list nat -> list nat) (D : nat -> Prop), (forall l, Permutation l (ord l)) ->
    (forall c i, D c -> P i = Some c -> D i) ->
    forall fuel queue ws ctr, length ctr = n -> Forall2 fits queue ws -> (list_sum ws <= fuel)%nat ->
    (forall s, In s queue -> forall c, In c s -> D c /\ exists p, P c = Some p) ->
    (forall i, eqn (cost_at ctr) i \/ exists s, In s queue /\ In i s) ->
    exists ctr', descend fuel ord par chi ctp queue ctr = Ok ctr' /\ length ctr' = n /\
      (forall i, eqn (cost_at ctr') i) /\ (forall i, ~ D i -> cost_at ctr' i = cost_at ctr i).
  Proof.
    intros ord D Hord HD. induction fuel as [|fuel IH]; intros queue ws ctr L F W HQ H.
    - destruct F as [|s w queue ws Fs F].
      + exists ctr. split; [reflexivity|]. split; auto. split; auto. intros i. destruct (H i) as [?|(s & [] & _)]; auto.
      + exfalso. apply fits_kids in Fs. destruct Fs as (v & _ & ->).
        change (list_sum (S (list_sum v) :: ws)) with (S (list_sum v) + list_sum ws)%nat in W. lia.
    - destruct F as [|s w queue ws Fs F].
      + exists ctr. split; [reflexivity|]. split; auto. split; auto. intros i. destruct (H i) as [?|(s & [] & _)]; auto.
      + cbn [descend]. 
        destruct (visit_spec D HD (ord s) ctr queue) as (ctr1 & E1 & L1 & Q1 & F1); auto.
        * intros c Hc. apply (HQ s); [left; auto|]. apply Permutation_in with (2 := Hc). apply Permutation_sym. auto.
        * intros c Hc. apply (HQ s); [left; auto|]. apply Permutation_in with (2 := Hc). apply Permutation_sym. auto.
        * intros i. destruct (H i) as [?|(s' & [->|Hs] & Hi)]; auto.
          -- right. left. apply Permutation_in with (1 := Hord s'). auto.
          -- right. right. exists s'. auto.
        * rewrite E1. apply (fits_perm _ _ (Hord s)) in Fs. apply fits_kids in Fs. destruct Fs as (v & Fv & Ew).
          change (list_sum (w :: ws)) with (w + list_sum ws)%nat in W.
          destruct (IH (queue ++ map C (ord s)) (ws ++ v) ctr1) as (ctr' & E' & L' & Q' & F'); auto.
          -- apply Forall2_app; auto.
          -- rewrite list_sum_app. lia.
          -- intros t Ht c Hc. apply in_app_or in Ht. destruct Ht as [Ht|Ht]; [apply (HQ t); [right; auto|auto]|].
             apply in_map_iff in Ht. destruct Ht as (x & <- & Hx).
             assert (HxS : In x s) by (apply Permutation_in with (2 := Hx); apply Permutation_sym; auto).
             destruct (HQ s (or_introl eq_refl) x HxS) as (Dx & p & Ex).
             apply kids_ok in Hc; [|apply (P_lt x p); auto]. split; [apply (HD x); auto|eauto].
          -- exists ctr'. split; auto. split; auto. split; auto. intros i Hi. rewrite F', F1 by auto. auto.
  Qed.
End Descent.

(** ** The invariant *)
Record inv (T : tree) : Prop := {
  iv_par : length (parents T) = nodes T;
  iv_chi : length (children T) = nodes T;
  iv_ctr : length (to_root T) = nodes T;
  iv_ctp : length (to_parent T) = nodes T;
  iv_pth : length (paths T) = nodes T;
  iv_pos : (0 < nodes T)%nat;
  iv_root : parent T 0 = None;
  iv_zero : root_cost T 0 = 0;
  iv_reach : forall i, (i < nodes T)%nat -> exists d, reach (parent T) i d;
  iv_range : forall i p, parent T i = Some p -> (p < nodes T)%nat;
  iv_kids : forall p c, (p < nodes T)%nat -> (In c (kids T p) <-> parent T c = Some p);
  iv_nodup : forall p, NoDup (kids T p);
  iv_nonneg : forall i, (i < nodes T)%nat -> 0 <= edge_cost T i;
  iv_eqn : forall i p, parent T i = Some p -> root_cost T i = root_cost T p + edge_cost T i }.

Lemma inv_lt : forall T, inv T -> forall i p, parent T i = Some p -> (i < nodes T)%nat.
Proof.
  intros T V i p H. destruct (Nat.lt_ge_cases i (nodes T)) as [|G]; auto. unfold parent in H.
  rewrite nth_overflow in H by (rewrite (iv_par T V); lia). discriminate.
Qed.
Lemma inv_leads : forall T, inv T -> forall i d, reach (parent T) i d -> leads_to_goal T i (root_cost T i).
Proof.
  intros T V. induction 1 as [|i p d E R IH].
  - rewrite (iv_zero T V). constructor.
  - rewrite (iv_eqn T V i p E), Rplus_comm. apply by_parent with p; auto.
Qed.
Lemma inv_ok : forall T, inv T -> tree_ok T.
Proof.
  intros T V. destruct (V). constructor; auto.
  intros i Hi. destruct (iv_reach0 i Hi) as (d & R). apply (inv_leads T V i d R).
Qed.
Lemma leads_reach : forall T i c, leads_to_goal T i c -> exists d, reach (parent T) i d.
Proof.
  induction 1 as [|i p c E L (d & R)]; [exists 0%nat; constructor|exists (S d); econstructor; eauto].
Qed.
Lemma leads_unique : forall T, parent T 0 = None -> forall i c, leads_to_goal T i c -> forall c', leads_to_goal T i c' -> c = c'.
Proof.
  intros T H0. induction 1 as [|i p c E L IH]; intros c' L'.
  - inversion L'; subst; auto. congruence.
  - inversion L' as [|i' p' c2 E' L2]; subst; [congruence|]. f_equal. apply IH. congruence.
Qed.
Lemma ok_inv : forall T, tree_ok T -> inv T.
Proof.
  intros T [(L1 & L2 & L3 & L4 & L5) (Pos & Root) Costs Kids ND NN].
  assert (Lt : forall i p, parent T i = Some p -> (i < nodes T)%nat).
  { intros i p H. destruct (Nat.lt_ge_cases i (nodes T)) as [|G]; auto. unfold parent in H.
    rewrite nth_overflow in H by lia. discriminate. }
  assert (LL : forall i p, parent T i = Some p -> exists c, leads_to_goal T p c).
  { intros i p H. assert (C := Costs i (Lt i p H)). inversion C as [|i' p' c E L]; subst; [congruence|].
    exists c. replace p with p' by congruence. auto. }
  assert (Rg : forall i p, parent T i = Some p -> (p < nodes T)%nat).
  { intros i p H. destruct (LL i p H) as (c & L). inversion L; subst; eauto. }
  constructor; auto.
  - assert (C := Costs 0%nat Pos). apply (leads_unique T Root 0%nat _ C). constructor.
  - intros i Hi. apply (leads_reach T i (root_cost T i)). auto.
  - intros i p E. apply (leads_unique T Root i); [apply Costs; eauto|]. rewrite Rplus_comm. apply by_parent with p; auto.
    apply Costs. eauto.
Qed.

Lemma in_set_add : forall a s c, In c (set_add a s) <-> In c s \/ c = a.
Proof.
  intros a s c. unfold set_add. destruct (in_dec Nat.eq_dec a s) as [H|H].
  - split; [auto|intros [?| ->]; auto].
  - rewrite in_app_iff. cbn. intuition.
Qed.
Lemma nodup_set_add : forall a s, NoDup s -> NoDup (set_add a s).
Proof.
  intros a s H. unfold set_add. destruct (in_dec Nat.eq_dec a s) as [G|G]; auto.
  apply Permutation_NoDup with (a :: s); [apply Permutation_cons_append|]. constructor; auto.
Qed.
Lemma nodup_remove : forall a s, NoDup s -> NoDup (remove Nat.eq_dec a s).
Proof.
  induction s as [|b s IH]; intros H; cbn [remove]; auto. inversion H; subst.
  destruct (Nat.eq_dec a b); auto. constructor; auto. intros G. apply in_remove in G. tauto.
Qed.
Lemma in_remove_iff : forall a s c, In c (remove Nat.eq_dec a s) <-> In c s /\ c <> a.
Proof. intros. split; [apply in_remove|intros (H & N); apply in_in_remove; auto]. Qed.

Lemma descend_more : forall ord par chi ctp fuel queue ctr r, descend fuel ord par chi ctp queue ctr = Ok r ->
  forall fuel', (fuel <= fuel')%nat -> descend fuel' ord par chi ctp queue ctr = Ok r.
Proof.
  intros ord par chi ctp. induction fuel as [|fuel IH]; intros queue ctr r E fuel' H.
  - destruct queue; [|discriminate]. destruct fuel'; auto.
  - destruct queue as [|s queue]; [destruct fuel'; auto|]. destruct fuel' as [|fuel']; [lia|].
    cbn [descend] in E |- *. destruct (visit par chi ctp (ord s) ctr queue) as [[a b]|]; auto. apply IH; auto. lia.
Qed.

(** ** update_parent *)
Lemma update_spec : forall ord T v q cost path, (forall l, Permutation l (ord l)) -> inv T ->
  (v < nodes T)%nat -> v <> 0%nat -> (q < nodes T)%nat -> avoid (parent T) v q -> 0 <= cost ->
  exists N T', (forall fuel, (N <= fuel)%nat -> update_parent fuel ord T v q cost path = Ok T') /\
    inv T' /\ states T' = states T /\ (forall k, parent T' k = redirect (parent T) v q k) /\
    (forall k, edge_cost T' k = if Nat.eqb k v then cost else edge_cost T k) /\
    (forall k, nth k (paths T') None = if Nat.eqb k v then path else nth k (paths T) None) /\
    (forall i, avoid (parent T) v i -> root_cost T' i = root_cost T i).
Proof.
  intros ord T v q cost path Hord V Hv Hv0 Hq Ha Hc.
  assert (Lt := inv_lt T V).
  destruct V as [Lp Lc Lr Le Lh Pos Root Zero Reach Range Kids ND NN Eqn].
  destruct (Reach v Hv) as (dv & Rv). inversion Rv as [E0|v' old d Ev Ro E1]; subst; [congruence|].
  assert (Ho := Range v old Ev).
  destruct (set_nth_ok _ old (remove Nat.eq_dec v (kids T old)) (children T)) as (chi1 & E1); [lia|].
  destruct (set_nth_ok _ v (Some q) (parents T)) as (par & E2); [lia|].
  destruct (set_nth_nth _ _ _ _ _ [] E1) as (_ & L1 & G1).
  destruct (set_nth_nth _ _ _ _ _ None E2) as (_ & L2 & G2).
  destruct (set_nth_ok _ q (set_add v (nth q chi1 [])) chi1) as (chi & E3); [lia|].
  destruct (set_nth_nth _ _ _ _ _ [] E3) as (_ & L3 & G3).
  destruct (set_nth_ok _ v cost (to_parent T)) as (ctp & E4); [lia|].
  destruct (set_nth_nth _ _ _ _ _ 0 E4) as (_ & L4 & G4).
  destruct (set_nth_ok _ v (root_cost T q + cost) (to_root T)) as (ctr & E5); [lia|].
  destruct (set_nth_nth _ _ _ _ _ 0 E5) as (_ & L5 & G5).
  destruct (set_nth_ok _ v path (paths T)) as (pth & E6); [lia|].
  destruct (set_nth_nth _ _ _ _ _ None E6) as (_ & L6 & G6).
  assert (Gp : forall k, nth k par None = redirect (parent T) v q k) by (intros k; rewrite G2; auto).
  assert (Root' : nth 0 par None = None).
  { rewrite Gp. unfold redirect. destruct (Nat.eqb_spec 0 v); [congruence|auto]. }
  assert (Reach' : forall i, (i < nodes T)%nat -> exists d, reach (fun k => nth k par None) i d).
  { intros i Hi. destruct (Reach i Hi) as (di & Ri). destruct (reach_redirect _ v q Ha i di Ri) as (d' & R').
    exists d'. clear -R' Gp. induction R' as [|i p d' E R IH]; [constructor|]. econstructor; eauto. rewrite Gp. auto. }
  assert (Range' : forall i p, nth i par None = Some p -> (p < nodes T)%nat).
  { intros i p H. rewrite Gp in H. unfold redirect in H. destruct (Nat.eqb i v); [congruence|eauto]. }
  assert (Kids' : forall p c, (p < nodes T)%nat -> (In c (nth p chi []) <-> nth c par None = Some p)).
  { intros p c Hp. rewrite Gp. unfold redirect. rewrite G3.
    assert (K1 : In c (nth p chi1 []) <-> In c (kids T p) /\ c <> v).
    { rewrite G1. destruct (Nat.eqb_spec p old) as [->|N]; [apply in_remove_iff|].
      split; [|tauto]. intros H. split; auto. intros ->. apply Kids in H; auto. congruence. }
    destruct (Nat.eqb_spec p q) as [->|N].
    - rewrite in_set_add, K1, Kids by auto. destruct (Nat.eqb_spec c v) as [->|Nc]; [tauto|].
      split; [intros [[? ?]|?]; [auto|contradiction]|auto].
    - rewrite K1, Kids by auto. destruct (Nat.eqb_spec c v) as [->|Nc].
      + split; [tauto|intros [= ->]; congruence].
      + tauto. }
  assert (ND' : forall p, NoDup (nth p chi [])).
  { assert (ND1 : forall p, NoDup (nth p chi1 [])).
    { intros p. rewrite G1. destruct (Nat.eqb p old); [apply nodup_remove; apply ND|apply ND]. }
    intros p. rewrite G3. destruct (Nat.eqb p q); [apply nodup_set_add|]; auto. }
  set (D := fun i => ~ avoid (fun k => nth k par None) v i).
  assert (Qv : ~ avoid (fun k => nth k par None) v v).
  { intros A. inversion A; subst; congruence. }
  assert (HD : forall c i, D c -> nth i par None = Some c -> D i).
  { intros c i Hc' Ei A. apply Hc'. inversion A as [|i' p' N' E' A']; subst; [congruence|].
    replace c with p' by congruence. auto. }
  assert (Av : forall i, avoid (parent T) v i -> avoid (fun k => nth k par None) v i).
  { intros i A. apply (avoid_redirect _ v q) in A. clear -A Gp. induction A as [|i p N E A IH]; [constructor; auto|].
    apply avoidS with p; auto. rewrite Gp. auto. }
  assert (M1 : length par = nodes T) by congruence. assert (M2 : length chi = nodes T) by congruence.
  assert (M3 : length ctp = nodes T) by congruence.
  destruct (fits_all (nodes T) par chi ctp M1 M2 M3 Root' Reach' Kids' v Hv) as (w & Fw).
  destruct (descend_spec (nodes T) par chi ctp M1 M2 M3 Root' Reach' Range' Kids' ord D Hord HD
    w [nth v chi []] [w] ctr) as (ctr' & ED & LD & QD & FD).
  - lia.
  - constructor; [auto|constructor].
  - change (list_sum [w]) with (w + 0)%nat. lia.
  - intros s [<-|[]] c Hc'. apply Kids' in Hc'; auto. split; [|eauto]. apply (HD v); auto.
  - intros i. destruct (Nat.eq_dec i v) as [->|Ni].
    + left. intros p Ep. rewrite Gp in Ep. unfold redirect in Ep. rewrite Nat.eqb_refl in Ep.
      assert (p = q) by congruence. subst p. unfold cost_at. rewrite !G5, G4, Nat.eqb_refl.
      destruct (Nat.eqb_spec q v) as [->|]; auto. exfalso. apply Qv. auto.
    + destruct (nth i par None) as [p|] eqn:Ep; [|left; intros p Ep'; congruence].
      destruct (Nat.eq_dec p v) as [->|Np].
      * right. exists (nth v chi []). split; [left; auto|]. apply Kids'; auto.
      * left. intros p' Ep'. assert (p' = p) by congruence. subst p'. unfold cost_at. rewrite !G5, G4.
        destruct (Nat.eqb_spec i v); [congruence|]. destruct (Nat.eqb_spec p v); [congruence|].
        apply Eqn. rewrite Gp in Ep. unfold redirect in Ep. destruct (Nat.eqb_spec i v); [congruence|auto].
  - exists w, (mkTree (states T) par chi ctr' ctp pth).
    split; [|split; [|split; [|split; [|split; [|split]]]]].
    + intros fuel Hf. unfold update_parent.
      rewrite (nth_error_nth' (parents T) None) by lia. change (nth v (parents T) None) with (parent T v). rewrite Ev.
      rewrite (nth_error_nth' (children T) []) by lia. change (nth old (children T) []) with (kids T old).
      unfold set_remove. destruct (in_dec Nat.eq_dec v (kids T old)) as [_|N]; [|exfalso; apply N; apply Kids; auto].
      rewrite E1, E2. rewrite (nth_error_nth' chi1 []) by lia. rewrite E3, E4.
      rewrite (nth_error_nth' (to_root T) 0) by lia. change (nth q (to_root T) 0) with (root_cost T q).
      rewrite E5, E6. rewrite (nth_error_nth' chi []) by lia.
      rewrite (descend_more _ _ _ _ _ _ _ _ ED fuel Hf). auto.
    + constructor; unfold nodes, parent, kids, edge_cost, root_cost in *; cbn [states parents children to_root to_parent paths] in *; auto; try lia.
      * assert (A0 : avoid (fun k => nth k par None) v 0) by (constructor; auto).
        assert (F0 := FD 0%nat). unfold cost_at in F0. rewrite F0 by (intros N; apply N; auto).
        rewrite G5. destruct (Nat.eqb_spec 0 v); [congruence|auto].
      * intros i Hi. rewrite G4. destruct (Nat.eqb i v); auto.
    + auto.
    + intros k. unfold parent. cbn [parents]. auto.
    + intros k. unfold edge_cost. cbn [to_parent]. auto.
    + intros k. cbn [paths]. auto.
    + intros i A. unfold root_cost. cbn [to_root]. assert (F0 := FD i). unfold cost_at in F0.
      rewrite F0 by (intros N; apply N; auto). rewrite G5. destruct (Nat.eqb_spec i v) as [->|]; auto.
      exfalso. apply Qv. auto.
Qed.

Lemma update_improves : forall T T' v q cost, inv T -> inv T' -> states T' = states T ->
  (forall k, parent T' k = redirect (parent T) v q k) ->
  (forall k, edge_cost T' k = if Nat.eqb k v then cost else edge_cost T k) ->
  root_cost T q + cost <= root_cost T v ->
  forall i, (i < nodes T)%nat -> root_cost T' i <= root_cost T i.
Proof.
  intros T T' v q cost V V' ES EP EE H i Hi.
  assert (Hi' : (i < nodes T')%nat) by (unfold nodes in *; rewrite ES; auto).
  destruct (iv_reach T' V' i Hi') as (d & R). clear Hi Hi'.
  induction R as [|i p d E R IH].
  - rewrite (iv_zero T V), (iv_zero T' V'). lra.
  - rewrite (iv_eqn T' V' i p E), EE. rewrite EP in E. unfold redirect in E.
    destruct (Nat.eqb_spec i v) as [->|N].
    + assert (p = q) by congruence. subst. lra.
    + rewrite (iv_eqn T V i p E). lra.
Qed.
Lemma root_nonneg : forall T, inv T -> forall i, (i < nodes T)%nat -> 0 <= root_cost T i.
Proof.
  intros T V i Hi. destruct (iv_reach T V i Hi) as (d & R). clear Hi. induction R as [|i p d E R IH].
  - rewrite (iv_zero T V). lra.
  - rewrite (iv_eqn T V i p E). assert (0 <= edge_cost T i) by (apply (iv_nonneg T V), (inv_lt T V i p E)). lra.
Qed.

(** ** add_node *)
Lemma nth_snoc : forall A (l : list A) a d k, nth k (l ++ [a]) d =
  if Nat.eqb k (length l) then a else nth k l d.
Proof.
  intros. destruct (Nat.eqb_spec k (length l)) as [->|N].
  - rewrite app_nth2, Nat.sub_diag by lia. auto.
  - destruct (Nat.lt_ge_cases k (length l)); [rewrite app_nth1 by lia; auto|].
    rewrite !nth_overflow; rewrite ?app_length; cbn; auto; lia.
Qed.
Lemma add_spec : forall T x p c path, inv T -> (p < nodes T)%nat -> 0 <= c ->
  exists T', add_node T x p c path = Ok (T', nodes T) /\ inv T' /\ states T' = states T ++ [x] /\
    (forall k, parent T' k = if Nat.eqb k (nodes T) then Some p else parent T k) /\
    (forall k, root_cost T' k = if Nat.eqb k (nodes T) then c + root_cost T p else root_cost T k) /\
    (forall k, edge_cost T' k = if Nat.eqb k (nodes T) then c else edge_cost T k) /\
    (forall k, nth k (paths T') None = if Nat.eqb k (nodes T) then path else nth k (paths T) None).
Proof.
  intros T x p c path V Hp Hc. assert (Lt := inv_lt T V).
  destruct V as [Lp Lc Lr Le Lh Pos Root Zero Reach Range Kids ND NN Eqn].
  destruct (set_nth_ok _ p (set_add (nodes T) (kids T p)) (children T)) as (chi & E1); [lia|].
  destruct (set_nth_nth _ _ _ _ _ [] E1) as (_ & L1 & G1).
  eexists. split.
  { unfold add_node. rewrite (nth_error_nth' (children T) []) by lia.
    change (nth p (children T) []) with (kids T p). change (length (states T)) with (nodes T). rewrite E1.
    rewrite (nth_error_nth' (to_root T) 0) by lia. change (nth p (to_root T) 0) with (root_cost T p). reflexivity. }
  set (T' := mkTree _ _ _ _ _ _).
  assert (EP : forall k, parent T' k = if Nat.eqb k (nodes T) then Some p else parent T k).
  { intros k. unfold parent, T'. cbn [parents]. rewrite nth_snoc, Lp. auto. }
  assert (ER : forall k, root_cost T' k = if Nat.eqb k (nodes T) then c + root_cost T p else root_cost T k).
  { intros k. unfold root_cost, T'. cbn [to_root]. rewrite nth_snoc, Lr. auto. }
  assert (EE : forall k, edge_cost T' k = if Nat.eqb k (nodes T) then c else edge_cost T k).
  { intros k. unfold edge_cost, T'. cbn [to_parent]. rewrite nth_snoc, Le. auto. }
  assert (EH : forall k, nth k (paths T') None = if Nat.eqb k (nodes T) then path else nth k (paths T) None).
  { intros k. unfold T'. cbn [paths]. rewrite nth_snoc, Lh. auto. }
  assert (EN : nodes T' = S (nodes T)).
  { unfold nodes, T'. cbn [states]. rewrite app_length. cbn. lia. }
  assert (EK : forall k, kids T' k = if Nat.eqb k (nodes T) then [] else
    if Nat.eqb k p then set_add (nodes T) (kids T p) else kids T k).
  { intros k. unfold kids, T'. cbn [children]. rewrite nth_snoc, L1, Lc. rewrite G1. auto. }
  assert (Pout : forall k, (nodes T <= k)%nat -> parent T k = None).
  { intros k Hk. unfold parent. apply nth_overflow. lia. }
  assert (R1 : forall i d, reach (parent T) i d -> reach (parent T') i d).
  { induction 1 as [|i q d E R IH]; [constructor|]. apply reachS with q; auto. rewrite EP.
    destruct (Nat.eqb_spec i (nodes T)) as [->|]; auto. rewrite Pout in E by auto. discriminate. }
  split; [|split; [reflexivity|auto]].
  constructor; try (rewrite EN; unfold T'; cbn [parents children to_root to_parent paths]; rewrite app_length; cbn [length]; lia).
  - lia.
  - rewrite EP. destruct (Nat.eqb_spec 0 (nodes T)); [lia|auto].
  - rewrite ER. destruct (Nat.eqb_spec 0 (nodes T)); [lia|auto].
  - intros i Hi. rewrite EN in Hi. destruct (Nat.eq_dec i (nodes T)) as [->|N].
    + destruct (Reach p Hp) as (d & R). exists (S d). apply reachS with p; auto. rewrite EP, Nat.eqb_refl. auto.
    + destruct (Reach i) as (d & R); [lia|]. eauto.
  - intros i q. rewrite EP, EN. destruct (Nat.eqb_spec i (nodes T)).
    + intros [= <-]. lia.
    + intros E. apply Range in E. lia.
  - intros q i Hq. rewrite EN in Hq. rewrite EK, EP. destruct (Nat.eqb_spec q (nodes T)) as [->|Nq].
    + destruct (Nat.eqb_spec i (nodes T)); split; intros H; try contradiction.
      * assert (p = nodes T) by congruence. lia.
      * apply Range in H. lia.
    + destruct (Nat.eqb_spec q p) as [->|Np].
      * rewrite in_set_add, Kids by auto. destruct (Nat.eqb_spec i (nodes T)) as [->|Ni]; [tauto|].
        split; [intros [?|?]; [auto|contradiction]|auto].
      * rewrite Kids by lia. destruct (Nat.eqb_spec i (nodes T)) as [->|Ni]; [|tauto].
        rewrite Pout by auto. split; [discriminate|intros [= <-]; congruence].
  - intros q. rewrite EK. destruct (Nat.eqb q (nodes T)); [constructor|].
    destruct (Nat.eqb q p); [apply nodup_set_add|]; apply ND.
  - intros i Hi. rewrite EE. destruct (Nat.eqb_spec i (nodes T)); auto. apply NN. lia.
  - intros i q. rewrite EP, !ER, EE. destruct (Nat.eqb_spec i (nodes T)) as [->|Ni].
    + intros [= <-]. destruct (Nat.eqb_spec p (nodes T)); [lia|]. lra.
    + intros E. assert (Hq := Range i q E). destruct (Nat.eqb_spec q (nodes T)); [lia|]. auto.
Qed.

(** ** Paths stored with the edges *)
Definition state (T : tree) (i : nat) : vec := nth i (states T) [].
Definition paths_ok (Q : vec -> vec -> option tpath -> Prop) (T : tree) : Prop :=
  forall i p, parent T i = Some p -> Q (state T i) (state T p) (nth i (paths T) None).

(** ** The rewiring loop *)
Lemma rewire_spec : forall ord Q new new_root, (forall l, Permutation l (ord l)) ->
  forall todo T, inv T -> paths_ok Q T -> (new < nodes T)%nat -> root_cost T new = new_root ->
  Forall (fun t => (fst t < nodes T)%nat /\ forall c p, snd t = Some (c, p) -> 0 <= c /\
    Q (state T (fst t)) (state T new) (Some (flip p))) todo ->
  exists N T', (forall fuel, (N <= fuel)%nat -> rewire fuel ord new new_root todo T = Ok T') /\
    inv T' /\ paths_ok Q T' /\ states T' = states T /\ root_cost T' new = new_root /\
    (forall i, (i < nodes T)%nat -> root_cost T' i <= root_cost T i) /\
    (forall i c p, In (i, Some (c, p)) todo -> root_cost T' i <= c + new_root) /\
    (forall i, parent T' i = parent T i \/ parent T' i = Some new /\ root_cost T' i < root_cost T i).
Proof.
  intros ord Q new new_root Hord. induction todo as [|[i f] todo IH]; intros T V PQ Hnew Er F.
  - exists 0%nat, T. cbn [rewire]. repeat (split; [solve [auto]|]).
    split; [intros; lra|]. split; [intros ? ? ? []|auto].
  - inversion F as [|t l (Hi & Hf) F' E1]; subst. cbn [fst snd] in *.
    assert (Ei : nth_error (to_root T) i = Some (root_cost T i)).
    { apply nth_error_nth'. rewrite (iv_ctr T V). auto. }
    destruct (eltb (eadd (found_cost f) (Fin (root_cost T new))) (Fin (root_cost T i))) eqn:C.
    + destruct f as [[c p]|]; [|apply eltb_true in C; cbn in C; tauto].
      destruct (Hf c p eq_refl) as (Hc & HQ). apply eltb_true in C. cbn in C.
      assert (Lt : c + root_cost T new < root_cost T i) by lra. clear C.
      assert (N0 := root_nonneg T V new Hnew).
      assert (Hi0 : i <> 0%nat) by (intros ->; rewrite (iv_zero T V) in Lt; lra).
      assert (A : avoid (parent T) i new).
      { destruct (iv_reach T V new Hnew) as (d & R).
        destruct (avoid_or (parent T) i new d R) as [A|(_ & _ & _ & K)]; auto. exfalso.
        assert (root_cost T i <= root_cost T new); [|lra]. apply (K _ (edge_cost T)).
        - intros k q E. apply (iv_eqn T V). auto.
        - intros k Hk. destruct (parent T k) as [q|] eqn:E; [|congruence].
          apply (iv_nonneg T V), (inv_lt T V k q E). }
      destruct (update_spec ord T i new c (Some (flip p)) Hord V Hi Hi0 Hnew A Hc)
        as (N1 & T1 & EU & V1 & ES1 & EP1 & EE1 & EH1 & EA1).
      assert (En : nodes T1 = nodes T) by (unfold nodes; rewrite ES1; auto).
      assert (St : forall k, state T1 k = state T k) by (intros; unfold state; rewrite ES1; auto).
      assert (Imp := update_improves T T1 i new c V V1 ES1 EP1 EE1 ltac:(lra)).
      assert (Ri : root_cost T1 i = root_cost T new + c).
      { rewrite (iv_eqn T1 V1 i new).
        - rewrite EA1 by auto. rewrite EE1, Nat.eqb_refl. auto.
        - rewrite EP1. unfold redirect. rewrite Nat.eqb_refl. auto. }
      destruct (IH T1) as (N2 & T2 & ER2 & V2 & PQ2 & ES2 & En2 & Imp2 & Opt2 & Par2); auto.
      * intros k q E. rewrite EP1 in E. unfold redirect in E. rewrite EH1, !St.
        destruct (Nat.eqb_spec k i) as [->|Nk]; [|apply PQ; auto]. assert (q = new) by congruence. subst. auto.
      * lia.
      * eapply Forall_impl; [|exact F']. intros [k g] (Hk & Hg). cbn [fst snd] in *. rewrite En. split; auto.
        intros c' p' E. rewrite !St. auto.
      * exists (Nat.max N1 N2), T2. split.
        { intros fuel Hf'. cbn [rewire]. rewrite Ei. cbn [found_cost eadd eltb].
          unfold Rltb. destruct (Rlt_dec _ _); [|lra]. rewrite EU by lia. apply ER2. lia. }
        split; auto. split; auto. split; [congruence|]. split; [exact En2|].
        rewrite En in Imp2. split.
        { intros k Hk. specialize (Imp k Hk). specialize (Imp2 k Hk). lra. }
        split.
        { intros k c' p' [E|H].
          - assert (k = i /\ c' = c) by (split; congruence). destruct H; subst. specialize (Imp2 i Hi). lra.
          - apply (Opt2 k c' p' H). }
        { intros k. destruct (Par2 k) as [E|(E & L)].
          - rewrite E, EP1. unfold redirect. destruct (Nat.eqb_spec k i) as [->|]; [right|auto]. split; auto.
            specialize (Imp2 i Hi). lra.
          - right. split; auto. assert (Hk : (k < nodes T)%nat).
            { assert (G := inv_lt T2 V2 k new E). unfold nodes in *. rewrite ES2, ES1 in G. auto. }
            specialize (Imp k Hk). lra. }
    + destruct (IH T) as (N2 & T2 & ER2 & V2 & PQ2 & ES2 & En2 & Imp2 & Opt2 & Par2); auto.
      exists N2, T2. split; [intros fuel Hf'; cbn [rewire]; rewrite Ei, C; apply ER2; auto|].
      repeat (split; [solve [auto]|]). split; auto.
      intros k c p [E|H]; [|apply (Opt2 k c p H)].
      assert (k = i /\ f = Some (c, p)) by (split; congruence). destruct H; subst.
      apply eltb_false in C. cbn in C. specialize (Imp2 i Hi). lra.
Qed.

(** ** connect_state_extend *)
Lemma find_all_spec : forall find T x nbrs, Forall (fun i => (i < nodes T)%nat) nbrs ->
  find_all find T x nbrs = Some (map (fun i => find x (state T i)) nbrs).
Proof.
  induction nbrs as [|i nbrs IH]; intros F; auto. inversion F; subst. cbn [find_all map].
  rewrite (nth_error_nth' (states T) []) by auto. rewrite IH by auto. auto.
Qed.
Lemma find_all_range : forall find T x nbrs fs, find_all find T x nbrs = Some fs ->
  Forall (fun i => (i < nodes T)%nat) nbrs.
Proof.
  induction nbrs as [|i nbrs IH]; intros fs E; [constructor|]. cbn [find_all] in E.
  destruct (nth_error (states T) i) eqn:Ei; [|discriminate]. apply nth_error_lt in Ei.
  destruct (find_all find T x nbrs); [|discriminate]. constructor; eauto.
Qed.
Lemma gather_spec : forall T nbrs, inv T -> Forall (fun i => (i < nodes T)%nat) nbrs ->
  gather (to_root T) nbrs = Some (map (root_cost T) nbrs).
Proof.
  intros T nbrs V. induction nbrs as [|i nbrs IH]; intros F; auto. inversion F; subst. cbn [gather map].
  rewrite (nth_error_nth' (to_root T) 0) by (rewrite (iv_ctr T V); auto). rewrite IH by auto. auto.
Qed.
Lemma nth_error_map2 : forall (a b : list ext) k x y, nth_error a k = Some x -> nth_error b k = Some y ->
  nth_error (map2 eadd a b) k = Some (eadd x y).
Proof.
  induction a as [|u a IH]; intros b k x y Ea Eb; [destruct k; discriminate|].
  destruct b as [|w b]; [destruct k; discriminate|]. destruct k as [|k]; cbn in *; [congruence|auto].
Qed.
Lemma nth_error_map2_inv : forall (a b : list ext) k z, nth_error (map2 eadd a b) k = Some z ->
  exists x y, nth_error a k = Some x /\ nth_error b k = Some y /\ z = eadd x y.
Proof.
  induction a as [|u a IH]; intros b k z E; [destruct k; discriminate|].
  destruct b as [|w b]; [destruct k; discriminate|]. destruct k as [|k]; cbn in *; [|auto].
  exists u, w. repeat split; congruence.
Qed.
Definition finds (Q : vec -> vec -> option tpath -> Prop) (find : vec -> vec -> find_result) : Prop :=
  forall x y c p, find x y = Some (c, p) -> 0 <= c /\ Q x y (Some p) /\ Q y x (Some (flip p)).
Lemma connect_spec : forall ord Q find T x nbrs, (forall l, Permutation l (ord l)) -> inv T -> paths_ok Q T ->
  finds Q find -> Forall (fun i => (i < nodes T)%nat) nbrs ->
  exists N T' idx, (forall fuel, (N <= fuel)%nat -> connect fuel ord find T x nbrs = Ok (T', idx)) /\
    inv T' /\ paths_ok Q T' /\
    match idx with
    | None => T' = T /\ forall i, In i nbrs -> find x (state T i) = None
    | Some new => new = nodes T /\ states T' = states T ++ [x] /\
        (forall i, (i < nodes T)%nat -> root_cost T' i <= root_cost T i) /\
        (exists i c p, In i nbrs /\ find x (state T i) = Some (c, p) /\ root_cost T' new = c + root_cost T i) /\
        (forall i c p, In i nbrs -> find x (state T i) = Some (c, p) -> root_cost T' new <= c + root_cost T i) /\
        (forall i c p, In i nbrs -> find x (state T i) = Some (c, p) -> root_cost T' i <= c + root_cost T' new) /\
        (forall i, (i < nodes T)%nat -> parent T' i = parent T i \/
          parent T' i = Some new /\ root_cost T' i < root_cost T i)
    end.
Proof.
  intros ord Q find T x nbrs Hord V PQ HF Fn.
  set (fs := map (fun i => find x (state T i)) nbrs).
  set (roots := map (root_cost T) nbrs).
  assert (E1 := find_all_spec find T x nbrs Fn). fold fs in E1.
  assert (E2 := gather_spec T nbrs V Fn). fold roots in E2.
  destruct (existsb is_finite (map found_cost fs)) eqn:Ex.
  - apply existsb_exists in Ex. destruct Ex as (a & Ha & Fa).
    apply in_map_iff in Ha. destruct Ha as (f0 & <- & Hf0). apply In_nth_error in Hf0. destruct Hf0 as (k0 & Ek0).
    assert (G : forall k i, nth_error nbrs k = Some i -> nth_error (map found_cost fs) k = Some (found_cost (find x (state T i))) /\
       nth_error (map Fin roots) k = Some (Fin (root_cost T i)) /\ nth_error fs k = Some (find x (state T i)) /\
       nth_error roots k = Some (root_cost T i)).
    { intros k i E. unfold fs, roots.
      assert (A : nth_error (map (fun i => find x (state T i)) nbrs) k = Some (find x (state T i)))
        by (apply (map_nth_error (fun i => find x (state T i))); auto).
      assert (B : nth_error (map (root_cost T) nbrs) k = Some (root_cost T i)) by (apply map_nth_error; auto).
      split; [apply map_nth_error; auto|]. split; [apply map_nth_error; auto|]. auto. }
    assert (Gk : forall k f, nth_error fs k = Some f -> exists i, nth_error nbrs k = Some i /\ f = find x (state T i)).
    { intros k f E. assert (k < length nbrs)%nat.
      { apply nth_error_lt in E. unfold fs in E. rewrite map_length in E. auto. }
      destruct (nth_error nbrs k) as [i|] eqn:Ei; [|apply nth_error_None in Ei; lia].
      exists i. split; auto. destruct (G k i Ei) as (_ & _ & E' & _). congruence. }
    set (row := map2 eadd (map found_cost fs) (map Fin roots)).
    destruct (Gk k0 f0 Ek0) as (i0 & Ei0 & Ef0). destruct (G k0 i0 Ei0) as (A0 & B0 & _ & _).
    assert (Er0 := nth_error_map2 _ _ _ _ _ A0 B0). fold row in Er0.
    destruct (argmin_spec row) as (best & b & Eb & Erb & Min).
    { intros E. rewrite E in Er0. destruct k0; discriminate. }
    assert (Gb := Erb). apply nth_error_map2_inv in Gb. destruct Gb as (fb & rb & Ea & Ec & Eb').
    assert (Hb : (best < length nbrs)%nat).
    { apply nth_error_lt in Ea. unfold fs in Ea. rewrite !map_length in Ea. auto. }
    destruct (nth_error nbrs best) as [par|] eqn:Ep; [|apply nth_error_None in Ep; lia].
    destruct (G best par Ep) as (Ga & Gc & Gf & Gr).
    assert (Hpar : (par < nodes T)%nat).
    { rewrite Forall_forall in Fn. apply Fn. apply nth_error_In with best. auto. }
    assert (Efin : exists c p, find x (state T par) = Some (c, p)).
    { destruct (find x (state T par)) as [[c p]|] eqn:Q0; [eauto|]. exfalso.
      specialize (Min k0 _ Er0). assert (fb = Inf) by (cbn in Ga; congruence). subst fb b.
      rewrite Ef0 in Fa. destruct (found_cost (find x (state T i0))); [|discriminate]. cbn in Min. auto. }
    destruct Efin as (c & p & Efp). destruct (HF _ _ _ _ Efp) as (Hc & HQ1 & HQ2).
    destruct (add_spec T x par c (Some p) V Hpar Hc) as (T1 & EA & V1 & ES1 & EP1 & ER1 & EE1 & EH1).
    assert (En1 : nodes T1 = S (nodes T)) by (unfold nodes; rewrite ES1, app_length; cbn; lia).
    assert (Sold : forall k, (k < nodes T)%nat -> state T1 k = state T k).
    { intros k Hk. unfold state. rewrite ES1. apply app_nth1. auto. }
    assert (Snew : state T1 (nodes T) = x).
    { unfold state, nodes. rewrite ES1, app_nth2, Nat.sub_diag; auto. }
    assert (Rnew : root_cost T1 (nodes T) = c + root_cost T par) by (rewrite ER1, Nat.eqb_refl; auto).
    assert (Rold : forall k, (k < nodes T)%nat -> root_cost T1 k = root_cost T k).
    { intros k Hk. rewrite ER1. destruct (Nat.eqb_spec k (nodes T)); [lia|auto]. }
    assert (Ecomb : combine nbrs fs = map (fun i => (i, find x (state T i))) nbrs).
    { unfold fs. clear. induction nbrs as [|i nbrs IH]; cbn; auto. f_equal. auto. }
    destruct (rewire_spec ord Q (nodes T) (c + root_cost T par) Hord (combine nbrs fs) T1)
      as (N & T2 & EW & V2 & PQ2 & ES2 & Enew & Imp & Opt & Par); auto.
    + intros i q E. rewrite EP1 in E. rewrite EH1. destruct (Nat.eqb_spec i (nodes T)) as [->|Ni].
      * assert (q = par) by congruence. subst q. rewrite Snew, Sold by auto. auto.
      * assert (Hi := inv_lt T V i q E). assert (Hq := iv_range T V i q E). rewrite !Sold by auto. apply PQ. auto.
    + lia.
    + rewrite Ecomb. apply Forall_forall. intros t Ht. apply in_map_iff in Ht. destruct Ht as (i & <- & Hi).
      cbn [fst snd]. assert (Hin : (i < nodes T)%nat) by (rewrite Forall_forall in Fn; auto). split; [lia|].
      intros c' p' E. destruct (HF _ _ _ _ E) as (Hc' & _ & HQ'). rewrite Snew, Sold by auto. auto.
    + exists N, T2, (Some (nodes T)). split; [|split; [auto|split; [auto|]]].
      { intros fuel Hf. unfold connect. rewrite E1.
        assert (Ex : existsb is_finite (map found_cost fs) = true).
        { apply existsb_exists. exists (found_cost f0). split; auto. apply in_map. apply nth_error_In with k0. auto. }
        rewrite Ex, E2. fold row. rewrite Eb, Gf, Ep, Gr, Efp, EA. rewrite EW by auto. auto. }
      split; auto. split; [congruence|]. rewrite Enew. split; [|split; [|split; [|split]]].
      * intros i Hi. specialize (Imp i ltac:(lia)). rewrite Rold in Imp by auto. auto.
      * exists par, c, p. split; [apply nth_error_In with best; auto|auto].
      * intros i c' p' Hi E. apply In_nth_error in Hi. destruct Hi as (k & Ek).
        destruct (G k i Ek) as (A & B & _ & _). assert (M := Min k _ (nth_error_map2 _ _ _ _ _ A B)).
        rewrite Eb' in M. rewrite Ga in Ea. rewrite Gc in Ec.
        assert (fb = found_cost (Some (c, p))) by congruence. assert (rb = Fin (root_cost T par)) by congruence. subst.
        rewrite E in M. cbn in M. auto.
      * intros i c' p' Hi E. apply (Opt i c' p'). rewrite Ecomb. apply in_map_iff. exists i. rewrite E. auto.
      * intros i Hi. destruct (Par i) as [E|(E & L)].
        -- left. rewrite E, EP1. destruct (Nat.eqb_spec i (nodes T)); [lia|auto].
        -- right. rewrite Rold in L by auto. auto.
  - exists 0%nat, T, None. split; [intros; unfold connect; rewrite E1, Ex; auto|]. split; auto. split; auto. split; auto.
    intros i Hi. destruct (find x (state T i)) as [[c p]|] eqn:E; auto. exfalso.
    assert (existsb is_finite (map found_cost fs) = true); [|congruence]. apply existsb_exists.
    exists (Fin c). split; auto. apply in_map_iff. exists (Some (c, p)). split; auto. unfold fs.
    apply in_map_iff. exists i. auto.
Qed.

(** ** Histories *)
Definition call_finds (Q : vec -> vec -> option tpath -> Prop) (c : call) : Prop :=
  match c with
  | AddNode _ _ cost _ => 0 <= cost
  | Connect find _ _ => finds Q find
  | Grow find _ => finds Q find
  end.
Definition added_path (Q : vec -> vec -> option tpath -> Prop) (T : tree) (c : call) : Prop :=
  match c with AddNode x p _ path => Q x (state T p) path | _ => True end.
Lemma neighbours_range : forall T x r, Forall (fun i => (i < nodes T)%nat) (neighbours T x r).
Proof.
  intros. apply Forall_forall. intros i Hi. unfold neighbours in Hi. apply filter_In in Hi. destruct Hi as (Hi & _).
  apply in_seq in Hi. unfold nodes. lia.
Qed.
Lemma prefix_snoc : forall A (l : list A) a, firstn (length l) (l ++ [a]) = l.
Proof. intros. rewrite firstn_app, Nat.sub_diag, firstn_all. apply app_nil_r. Qed.
Lemma connect_improves : forall ord Q find T x nbrs, (forall l, Permutation l (ord l)) -> inv T -> paths_ok Q T ->
  finds Q find -> Forall (fun i => (i < nodes T)%nat) nbrs ->
  exists N T' idx, (forall fuel, (N <= fuel)%nat -> connect fuel ord find T x nbrs = Ok (T', idx)) /\
    inv T' /\ paths_ok Q T' /\ improves T T'.
Proof.
  intros ord Q find T x nbrs Hord V PQ HF Fn.
  destruct (connect_spec ord Q find T x nbrs Hord V PQ HF Fn) as (N & T' & idx & E & V' & PQ' & R).
  exists N, T', idx. split; auto. split; auto. split; auto. destruct idx as [new|].
  - destruct R as (_ & ES & Imp & _). split; [rewrite ES; apply prefix_snoc|auto].
  - destruct R as (-> & _). split; [apply firstn_all|intros; lra].
Qed.
Lemma call_spec : forall ord Q T c, (forall l, Permutation l (ord l)) -> inv T -> paths_ok Q T ->
  call_finds Q c -> added_path Q T c -> call_in_range T c ->
  exists N T', (forall fuel, (N <= fuel)%nat -> run_call fuel ord T c = Ok T') /\ inv T' /\ paths_ok Q T' /\ improves T T'.
Proof.
  intros ord Q T c Hord V PQ HF HA HR. destruct c as [x p cost path|find x nbrs|find x]; cbn [call_finds added_path call_in_range] in *.
  - destruct (add_spec T x p cost path V HR HF) as (T1 & EA & V1 & ES1 & EP1 & ER1 & EE1 & EH1).
    exists 0%nat, T1. split; [intros; cbn [run_call]; rewrite EA; auto|]. split; auto. split.
    + intros i q E. rewrite EP1 in E. rewrite EH1. unfold state in *. rewrite ES1.
      destruct (Nat.eqb_spec i (nodes T)) as [->|Ni].
      * assert (q = p) by congruence. subst. unfold nodes. rewrite app_nth2, Nat.sub_diag by lia.
        rewrite app_nth1 by auto. auto.
      * assert (Hi := inv_lt T V i q E). assert (Hq := iv_range T V i q E). unfold nodes in *.
        rewrite !app_nth1 by auto. apply PQ. auto.
    + split; [rewrite ES1; apply prefix_snoc|]. intros i Hi. rewrite ER1. destruct (Nat.eqb_spec i (nodes T)); [lia|lra].
  - destruct (connect_improves ord Q find T x nbrs Hord V PQ HF HR) as (N & T' & idx & E & R).
    exists N, T'. split; auto. intros fuel Hf. cbn [run_call]. rewrite E by auto. auto.
  - destruct (connect_improves ord Q find T x _ Hord V PQ HF (neighbours_range T x (2 / 10))) as (N & T' & idx & E & R).
    cbn [run_call]. unfold grow_step. destruct (neighbours T x (2 / 10)) as [|a l].
    + exists 0%nat, T. split; auto. split; auto. split; auto. split; [apply firstn_all|intros; lra].
    + exists N, T'. split; auto. intros fuel Hf. rewrite E by auto. auto.
Qed.

(** ** More fuel gives the same answer *)
Lemma update_more : forall ord T v q cost path fuel T', update_parent fuel ord T v q cost path = Ok T' ->
  forall fuel', (fuel <= fuel')%nat -> update_parent fuel' ord T v q cost path = Ok T'.
Proof.
  intros ord T v q cost path fuel T' E fuel' H. unfold update_parent in *.
  repeat match goal with
  | E : context [match ?x with _ => _ end] |- _ =>
    match x with
    | descend _ _ _ _ _ _ _ => fail 1
    | _ => destruct x; try discriminate
    end
  end.
  destruct (descend fuel ord _ _ _ _ _) as [ctrD| |] eqn:D; try discriminate.
  rewrite (descend_more _ _ _ _ _ _ _ _ D fuel' H). auto.
Qed.
Lemma rewire_more : forall ord new nr fuel todo T T', rewire fuel ord new nr todo T = Ok T' ->
  forall fuel', (fuel <= fuel')%nat -> rewire fuel' ord new nr todo T = Ok T'.
Proof.
  intros ord new nr fuel. induction todo as [|[i f] todo IH]; intros T T' E fuel' H; cbn [rewire] in *; auto.
  destruct (nth_error (to_root T) i); [|discriminate]. destruct (eltb _ _); [|auto].
  destruct f as [[c p]|]; [|discriminate].
  destruct (update_parent fuel ord T i new c (Some (flip p))) as [T1| |] eqn:U; try discriminate.
  rewrite (update_more _ _ _ _ _ _ _ _ U fuel' H). auto.
Qed.
Lemma connect_more : forall ord find fuel T x nbrs r, connect fuel ord find T x nbrs = Ok r ->
  forall fuel', (fuel <= fuel')%nat -> connect fuel' ord find T x nbrs = Ok r.
Proof.
  intros ord find fuel T x nbrs r E fuel' H. unfold connect in *.
  destruct (find_all find T x nbrs) as [fs|]; [|discriminate].
  destruct (existsb _ _); [|auto]. destruct (gather _ _) as [roots|]; [|discriminate].
  destruct (np_argmin _) as [best|]; [|discriminate].
  destruct (nth_error fs best) as [[[c p]|]|]; try discriminate.
  destruct (nth_error nbrs best) as [par|]; try discriminate.
  destruct (nth_error roots best) as [rt|]; try discriminate.
  destruct (add_node T x par c (Some p)) as [[T1 idx]| |]; try discriminate.
  destruct (rewire fuel ord idx (c + rt) (combine nbrs fs) T1) as [T2| |] eqn:W; try discriminate.
  rewrite (rewire_more _ _ _ _ _ _ _ W fuel' H). auto.
Qed.
Lemma call_more : forall ord fuel T c r, run_call fuel ord T c = Ok r ->
  forall fuel', (fuel <= fuel')%nat -> run_call fuel' ord T c = Ok r.
Proof.
  intros ord fuel T c r E fuel' H. destruct c as [x p cost path|find x nbrs|find x]; cbn [run_call] in *; auto.
  - destruct (connect fuel ord find T x nbrs) as [[T1 i]| |] eqn:C; try discriminate.
    rewrite (connect_more _ _ _ _ _ _ _ C fuel' H). auto.
  - unfold grow_step in *. destruct (neighbours T x (2 / 10)) as [|a l]; auto.
    destruct (connect fuel ord find T x (a :: l)) as [[T1 i]| |] eqn:C; try discriminate.
    rewrite (connect_more _ _ _ _ _ _ _ C fuel' H). auto.
Qed.
Lemma call_range : forall ord fuel T c r, inv T -> run_call fuel ord T c = Ok r -> call_in_range T c.
Proof.
  intros ord fuel T c r V E. destruct c as [x p cost path|find x nbrs|find x]; cbn [run_call call_in_range] in *; auto.
  - unfold add_node in E. destruct (nth_error (children T) p) eqn:C; [|discriminate].
    apply nth_error_lt in C. rewrite (iv_chi T V) in C. auto.
  - unfold connect in E. destruct (find_all find T x nbrs) as [fs|] eqn:F; [|discriminate].
    apply (find_all_range find T x nbrs fs F).
Qed.

Lemma inv_init : forall x, inv (rrt_init x).
Proof.
  intros x. assert (P : forall i, parent (rrt_init x) i = None) by (intros [|[|i]]; auto).
  constructor; auto; unfold nodes; cbn [states rrt_init length] in *; try lia.
  - intros i Hi. exists 0%nat. replace i with 0%nat by lia. constructor.
  - intros i p H. rewrite P in H. discriminate.
  - intros p c Hp. rewrite P. replace p with 0%nat by lia. cbn. split; [tauto|discriminate].
  - intros [|[|p]]; constructor.
  - intros i Hi. replace i with 0%nat by lia. cbn. lra.
  - intros i p H. rewrite P in H. discriminate.
Qed.

(** ** The statements *)
Definition anything (x y : vec) (p : option tpath) : Prop := True.
Lemma anything_ok : forall T, paths_ok anything T. Proof. intros T i p _. exact I. Qed.
Lemma nonneg_finds : forall find, nonneg_costs find -> finds anything find.
Proof. intros find H x y c p E. split; [eapply H; eauto|split; exact I]. Qed.
Lemma nonneg_call_finds : forall c, nonneg_call c -> call_finds anything c.
Proof. intros [x p cost path|find x nbrs|find x] H; cbn in *; auto; apply nonneg_finds; auto. Qed.
Lemma call_total : forall ord T c, (forall l, Permutation l (ord l)) -> tree_ok T -> nonneg_call c -> call_in_range T c ->
  exists N T', (forall fuel, (N <= fuel)%nat -> run_call fuel ord T c = Ok T') /\ tree_ok T' /\ improves T T'.
Proof.
  intros ord T c Hord V H R. apply ok_inv in V.
  destruct (call_spec ord anything T c Hord V (anything_ok T) (nonneg_call_finds c H)) as (N & T' & E & V' & _ & I); auto.
  { destruct c; exact I. }
  exists N, T'. split; auto. split; auto. apply inv_ok. auto.
Qed.
Lemma call_once : forall ord fuel T c T', (forall l, Permutation l (ord l)) -> tree_ok T -> nonneg_call c ->
  run_call fuel ord T c = Ok T' -> tree_ok T' /\ improves T T'.
Proof.
  intros ord fuel T c T' Hord V H E. assert (R := call_range ord fuel T c T' (ok_inv T V) E).
  destruct (call_total ord T c Hord V H R) as (N & T2 & E2 & V2 & I2).
  assert (A := call_more ord fuel T c T' E (Nat.max N fuel) ltac:(lia)). rewrite E2 in A by lia.
  assert (T2 = T') by congruence. subst. auto.
Qed.
Lemma improves_refl : forall T, improves T T.
Proof. intros T. split; [apply firstn_all|intros; lra]. Qed.
Lemma improves_nodes : forall T T', improves T T' -> (nodes T <= nodes T')%nat.
Proof.
  intros T T' (H & _). assert (L := f_equal (@length vec) H). rewrite firstn_length in L. unfold nodes in *. lia.
Qed.
Lemma improves_trans : forall A B C, improves A B -> improves B C -> improves A C.
Proof.
  intros A B C H1 H2. assert (L := improves_nodes A B H1). destruct H1 as (P1 & I1), H2 as (P2 & I2). split.
  - rewrite <- P1, <- P2, firstn_firstn. rewrite Nat.min_l by auto. auto.
  - intros i Hi. specialize (I1 i Hi). specialize (I2 i ltac:(lia)). lra.
Qed.
Lemma history : forall ord fuel cs T T', (forall l, Permutation l (ord l)) -> tree_ok T -> Forall nonneg_call cs ->
  run_calls fuel ord T cs = Ok T' -> tree_ok T' /\ improves T T'.
Proof.
  intros ord fuel cs T T' Hord. revert T. induction cs as [|c cs IH]; intros T V F E; cbn [run_calls] in E.
  - assert (T = T') by congruence. subst. split; auto. apply improves_refl.
  - inversion F; subst. destruct (run_call fuel ord T c) as [T1| |] eqn:C; try discriminate.
    destruct (call_once ord fuel T c T1 Hord V H1 C) as (V1 & I1).
    destruct (IH T1 V1 H2 E) as (V' & I'). split; auto. apply improves_trans with T1; auto.
Qed.
Lemma init_ok : forall x, tree_ok (rrt_init x).
Proof. intros. apply inv_ok, inv_init. Qed.
Lemma from_goal : forall ord fuel cs x T, (forall l, Permutation l (ord l)) -> Forall nonneg_call cs ->
  run_calls fuel ord (rrt_init x) cs = Ok T -> tree_ok T.
Proof. intros ord fuel cs x T Hord F E. apply (history ord fuel cs (rrt_init x) T Hord (init_ok x) F E). Qed.
Lemma connect_statement : forall ord find T x nbrs, (forall l, Permutation l (ord l)) -> tree_ok T ->
  nonneg_costs find -> Forall (fun i => (i < nodes T)%nat) nbrs ->
  exists N T' idx, (forall fuel, (N <= fuel)%nat -> connect fuel ord find T x nbrs = Ok (T', idx)) /\ tree_ok T' /\
    match idx with
    | None => T' = T /\ forall i, In i nbrs -> find x (nth i (states T) []) = None
    | Some new => new = nodes T /\ states T' = states T ++ [x] /\
        (forall i, (i < nodes T)%nat -> root_cost T' i <= root_cost T i) /\
        (exists i c p, In i nbrs /\ find x (nth i (states T) []) = Some (c, p) /\ root_cost T' new = c + root_cost T i) /\
        (forall i c p, In i nbrs -> find x (nth i (states T) []) = Some (c, p) ->
          root_cost T' new <= c + root_cost T i /\ root_cost T' i <= c + root_cost T' new) /\
        (forall i, (i < nodes T)%nat -> parent T' i = parent T i \/
          parent T' i = Some new /\ root_cost T' i < root_cost T i)
    end.
Proof.
  intros ord find T x nbrs Hord V H R.
  destruct (connect_spec ord anything find T x nbrs Hord (ok_inv T V) (anything_ok T) (nonneg_finds find H) R)
    as (N & T' & idx & E & V' & _ & S).
  exists N, T', idx. split; auto. split; [apply inv_ok; auto|]. destruct idx as [new|]; auto.
  destruct S as (A & B & C & D & E1 & E2 & F). repeat (split; [solve [auto]|]). split; [|auto].
  intros i c p Hi Ef. split; eauto.
Qed.
Lemma not_above_avoid : forall T v i, not_above T v i -> avoid (parent T) v i.
Proof. induction 1; [constructor; auto|econstructor; eauto]. Qed.
Lemma update_statement : forall ord T v q cost path, (forall l, Permutation l (ord l)) -> tree_ok T ->
  (v < nodes T)%nat -> v <> 0%nat -> (q < nodes T)%nat -> not_above T v q -> 0 <= cost ->
  exists N T', (forall fuel, (N <= fuel)%nat -> update_parent fuel ord T v q cost path = Ok T') /\
    tree_ok T' /\ states T' = states T /\
    (forall k, parent T' k = if Nat.eqb k v then Some q else parent T k) /\
    (forall k, edge_cost T' k = if Nat.eqb k v then cost else edge_cost T k).
Proof.
  intros ord T v q cost path Hord V Hv Hv0 Hq A Hc.
  destruct (update_spec ord T v q cost path Hord (ok_inv T V) Hv Hv0 Hq (not_above_avoid T v q A) Hc)
    as (N & T' & E & V' & ES & EP & EE & _). exists N, T'. split; auto. split; [apply inv_ok; auto|]. auto.
Qed.

(** ** Paths *)
Definition both_ends (x y : vec) (p : option tpath) : Prop := exists q, p = Some q /\ ends x y q.
Lemma ends_flip : forall x y p, ends x y p -> ends y x (flip p).
Proof. intros x y [[xs us] dts] (A & B). unfold ends, flip in *. cbn [fst snd] in *. rewrite rev_involutive. auto. Qed.
Lemma plans_finds : forall find, plans find -> finds both_ends find.
Proof.
  intros find H x y c p E. destruct (H x y c p E) as (A & B & _). split; auto.
  split; [exists p; auto|exists (flip p)]. split; auto. apply ends_flip. auto.
Qed.
Lemma stored_both : forall T, inv T -> (paths_ok both_ends T <-> stored_paths ends T).
Proof.
  intros T V. split; intros H i p E; assert (Hi := inv_lt T V i p E).
  - destruct (H i p E) as (q & Eq & K). exists q. split; auto. rewrite <- Eq. apply nth_error_nth'. rewrite (iv_pth T V). auto.
  - destruct (H i p E) as (q & Eq & K). exists q. split; auto. apply nth_error_nth. auto.
Qed.
Lemma stored_once : forall ord fuel T c T', (forall l, Permutation l (ord l)) -> tree_ok T -> stored_paths ends T ->
  planned_call T c -> run_call fuel ord T c = Ok T' -> tree_ok T' /\ stored_paths ends T'.
Proof.
  intros ord fuel T c T' Hord V S H E. assert (V0 := ok_inv T V). assert (R := call_range ord fuel T c T' V0 E).
  apply (stored_both T V0) in S.
  destruct (call_spec ord both_ends T c Hord V0 S) as (N & T2 & E2 & V2 & P2 & _); auto.
  - destruct c; cbn in *; try (apply plans_finds; auto); tauto.
  - destruct c as [x p cost path| |]; cbn in *; auto. destruct H as (_ & q & Q). exists q. auto.
  - assert (A := call_more ord fuel T c T' E (Nat.max N fuel) ltac:(lia)). rewrite E2 in A by lia.
    assert (T2 = T') by congruence. subst. split; [apply inv_ok; auto|]. apply stored_both; auto.
Qed.
Lemma stored_init : forall x, stored_paths ends (rrt_init x).
Proof. intros x [|[|i]] p E; discriminate. Qed.
