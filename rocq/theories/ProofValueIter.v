(** Proofs about value iteration. *)

Require Import Reals List Bool Arith Lia Lra.
Require Import Verif.Vec Verif.VecFacts Verif.ProofBounds Verif.SpecExt Verif.ModelValueIter Verif.SpecValueIter.
Import ListNotations.
Open Scope R_scope.

(** ** Extended costs *)
Lemma ele_refl : forall a, ele a a.
Proof. intros [x|]; cbn; auto. lra. Qed.
Lemma ele_trans : forall a b c, ele a b -> ele b c -> ele a c.
Proof. intros [x|] [y|] [z|]; cbn; intros; auto; try lra; contradiction. Qed.
Lemma ele_antisym : forall a b, ele a b -> ele b a -> a = b.
Proof. intros [x|] [y|]; cbn; intros; auto; try contradiction. f_equal. lra. Qed.
Lemma eltb_true : forall a b, eltb a b = true -> ele a b /\ ~ ele b a.
Proof.
  intros [x|] [y|]; cbn; intros H; try discriminate; [|auto].
  apply Rltb_true in H. lra.
Qed.
Lemma eltb_false : forall a b, eltb a b = false -> ele b a.
Proof.
  intros [x|] [y|]; cbn; intros H; try discriminate; auto.
  unfold Rltb in H. destruct (Rlt_dec x y); [discriminate|lra].
Qed.
Lemma eadd_mono : forall a b c d, ele a b -> ele c d -> ele (eadd a c) (eadd b d).
Proof. intros [x|] [y|] [z|] [w|]; cbn; intros; auto; try lra; contradiction. Qed.
Lemma escale_mono : forall k a b, 0 < k -> ele a b -> ele (escale k a) (escale k b).
Proof. intros k [x|] [y|]; cbn; intros; auto; try contradiction. apply Rmult_le_compat_l; lra. Qed.
Lemma eadd_nonneg : forall a b, ele (Fin 0) a -> ele (Fin 0) b -> ele (Fin 0) (eadd a b).
Proof. intros [x|] [y|]; cbn; intros; auto; lra. Qed.
Lemma escale_nonneg : forall k a, 0 < k -> ele (Fin 0) a -> ele (Fin 0) (escale k a).
Proof. intros k [x|]; cbn; intros; auto. apply Rmult_le_pos; lra. Qed.

(** ** argmin *)
Lemma argmin_from_spec : forall l best ib i L, 
  nth_error L ib = Some best -> (ib < i)%nat -> (forall k x, nth_error l k = Some x -> nth_error L (i + k)%nat = Some x) ->
  (forall k x, (k < i)%nat -> nth_error L k = Some x -> ele best x) -> length L = (i + length l)%nat ->
  exists b, nth_error L (argmin_from best ib i l) = Some b /\ forall k x, nth_error L k = Some x -> ele b x.
Proof.
  induction l as [|y l IH]; intros best ib i L E Hi Hl Hb HL; cbn [argmin_from].
  - exists best. split; auto. intros k x Hk. apply (Hb k); auto.
    assert (k < length L)%nat by (apply nth_error_Some; congruence). cbn in HL. lia.
  - assert (Ey : nth_error L i = Some y).
    { specialize (Hl 0%nat y eq_refl). rewrite Nat.add_0_r in Hl. auto. }
    assert (Hl' : forall k x, nth_error l k = Some x -> nth_error L (S i + k)%nat = Some x).
    { intros k x Hk. specialize (Hl (S k) x Hk). replace (S i + k)%nat with (i + S k)%nat by lia. auto. }
    destruct (eltb y best) eqn:C.
    + apply IH; auto; [| cbn in HL; lia].
      apply eltb_true in C. intros k x Hk Ek. destruct (Nat.eq_dec k i) as [->|N].
      * assert (x = y) by congruence. subst. apply ele_refl.
      * apply ele_trans with best; [tauto|]. apply (Hb k); auto. lia.
    + apply IH; auto; [|cbn in HL; lia].
      apply eltb_false in C. intros k x Hk Ek. destruct (Nat.eq_dec k i) as [->|N].
      * assert (x = y) by congruence. subst. auto.
      * apply (Hb k); auto. lia.
Qed.
Lemma argmin_spec : forall l, l <> [] -> exists j b, np_argmin l = Some j /\ nth_error l j = Some b /\
  forall k x, nth_error l k = Some x -> ele b x.
Proof.
  intros [|y l] H; [congruence|]. destruct (argmin_from_spec l y 0 1 (y :: l)) as (b & E & B); auto.
  - intros [|k] x Hk Ek; [|lia]. cbn in Ek. assert (x = y) by congruence. subst. apply ele_refl.
  - exists (argmin_from y 0 1 l), b. auto.
Qed.

(** ** Assignment *)
Lemma set_nth_some : forall A i (v : A) l, (i < length l)%nat -> exists l', set_nth i v l = Some l' /\
  length l' = length l /\ nth_error l' i = Some v /\ (forall k, k <> i -> nth_error l' k = nth_error l k).
Proof.
  intros A i v l H. unfold set_nth. destruct (Nat.ltb_spec i (length l)); [|lia].
  eexists. split; [reflexivity|]. 
  assert (Lf : length (firstn i l) = i) by (rewrite firstn_length; lia).
  split; [|split].
  - rewrite app_length, Lf. cbn [length]. rewrite skipn_length. lia.
  - rewrite nth_error_app2 by lia. rewrite Lf, Nat.sub_diag. auto.
  - intros k N. destruct (Nat.lt_ge_cases k i).
    + rewrite nth_error_app1 by lia. rewrite <- (firstn_skipn i l) at 2. rewrite nth_error_app1 by lia. auto.
    + rewrite nth_error_app2 by lia. rewrite Lf. destruct (k - i)%nat as [|m] eqn:E; [lia|]. cbn [nth_error].
      rewrite <- (firstn_skipn (S i) l) at 2. rewrite nth_error_app2; rewrite firstn_length; [|lia].
      f_equal. lia.
Qed.
Lemma value_error : forall V i, (i < length V)%nat -> nth_error V i = Some (value V i).
Proof. intros. unfold value. apply nth_error_nth'. auto. Qed.
Lemma value_some : forall V i x, nth_error V i = Some x -> value V i = x.
Proof. intros V i x H. unfold value. apply nth_error_nth with (d := Inf) in H. auto. Qed.

Section Table.
  Variables (nx : nat) (g : R) (r : list (list ext)) (u : list (list vec)).
  Hypothesis Hg : 0 < g.
  Hypothesis Hr : cost_table nx r.
  Hypothesis Hu : action_table nx u.

  Definition via (V : list ext) (i j : nat) : ext := eadd (cost r i j) (escale g (value V j)).
  Definition action (i j : nat) : vec := nth j (nth i u []) [].

  Lemma cost_nonneg : forall i j, (i < nx)%nat -> (j < nx)%nat -> ele (Fin 0) (cost r i j).
  Proof.
    intros i j Hi Hj. destruct Hr as (L & F). unfold cost.
    assert (In (nth i r []) r) by (apply nth_In; lia).
    rewrite Forall_forall in F. destruct (F _ H) as (Lr & Fr). rewrite Forall_forall in Fr.
    apply Fr. apply nth_In. lia.
  Qed.
  Lemma lookahead : forall V i, length V = nx -> (i < nx)%nat ->
    exists j, (j < nx)%nat /\ one_step_lookahead g V r i = Some (j, via V i j) /\
      forall k, (k < nx)%nat -> ele (via V i j) (via V i k).
  Proof.
    intros V i LV Hi. destruct Hr as (L & F).
    assert (Ei : nth_error r i = Some (nth i r [])) by (apply nth_error_nth'; lia).
    assert (Lr : length (nth i r []) = nx).
    { rewrite Forall_forall in F. apply F. apply nth_In. lia. }
    unfold one_step_lookahead. rewrite Ei. replace (Nat.eqb (length (nth i r [])) (length V)) with true
      by (symmetry; apply Nat.eqb_eq; lia). cbn [negb].
    set (row := map2 eadd (nth i r []) (map (escale g) V)).
    assert (Lrow : length row = nx) by (unfold row; rewrite map2_length, map_length; lia).
    assert (Erow : forall k, (k < nx)%nat -> nth_error row k = Some (via V i k)).
    { intros k Hk. rewrite (nth_error_nth' row Inf) by lia. f_equal. unfold row.
      rewrite (nth_map2 eadd _ _ k Inf (escale g Inf) Inf) by (rewrite ?map_length; lia).
      rewrite map_nth. auto. }
    assert (Ne : row <> []) by (intros E; rewrite E in Lrow; cbn in Lrow; lia).
    destruct (argmin_spec row Ne) as (j & b & Ej & Eb & B).
    assert (Hj : (j < nx)%nat) by (rewrite <- Lrow; apply nth_error_Some; congruence).
    rewrite Ej. rewrite (nth_error_nth' (nth i r []) Inf) by lia. rewrite (value_error V j) by lia.
    exists j. split; auto. split; [auto|].
    intros k Hk. rewrite Erow in Eb by auto. assert (b = via V i j) by congruence. subst b.
    apply (B k). auto.
  Qed.

  (** A value function below its own Bellman update. *)
  Definition sub (V : list ext) : Prop :=
    forall i j, (i < nx)%nat -> (j < nx)%nat -> ele (value V i) (via V i j).
  Definition below (V W : list ext) : Prop := forall i, (i < nx)%nat -> ele (value V i) (value W i).
  Lemma via_mono : forall V W i j, below V W -> (j < nx)%nat -> ele (via V i j) (via W i j).
  Proof. intros V W i j B Hj. apply eadd_mono; [apply ele_refl|]. apply escale_mono; auto. Qed.

  Definition new_delta (v old delta : ext) : ext :=
    if negb (eeqb v old) then (if eltb delta (edist v old) then edist v old else delta) else delta.
  Lemma update : forall V P d i, length V = nx -> length P = nx -> (i < nx)%nat ->
    exists j V' P', (j < nx)%nat /\
      update_state g r u i (Some (V, P, d)) = Some (V', P', new_delta (via V i j) (value V i) d) /\
      length V' = nx /\ length P' = nx /\
      value V' i = via V i j /\ (forall k, k <> i -> value V' k = value V k) /\
      nth_error P' i = Some (action i j) /\ (forall k, k <> i -> nth_error P' k = nth_error P k) /\
      (forall k, (k < nx)%nat -> ele (via V i j) (via V i k)).
  Proof.
    intros V P d i LV LP Hi. destruct (lookahead V i LV Hi) as (j & Hj & E & B).
    destruct Hu as (Lu & Fu).
    destruct (set_nth_some _ i (via V i j) V) as (V' & EV & LV' & GV & OV); [lia|].
    destruct (set_nth_some _ i (action i j) P) as (P' & EP & LP' & GP & OP); [lia|].
    exists j, V', P'. split; auto. split.
    - cbn [update_state]. rewrite E. rewrite (value_error V i) by lia. rewrite EV.
      rewrite (nth_error_nth' u []) by lia.
      rewrite (nth_error_nth' (nth i u []) []).
      2: { rewrite Forall_forall in Fu. rewrite (Fu (nth i u [])); auto. apply nth_In. lia. }
      change (nth j (nth i u []) []) with (action i j). rewrite EP. auto.
    - split; [lia|]. split; [lia|]. split; [apply value_some; auto|]. split; [|auto].
      intros k N. unfold value.
      assert (Q := OV k N). destruct (nth_error V k) as [x|] eqn:K.
      + rewrite (nth_error_nth V' k Inf Q), (nth_error_nth V k Inf K). auto.
      + apply nth_error_None in K. apply nth_error_None in Q. rewrite !nth_overflow by auto. auto.
  Qed.

  Definition preserved (I : list ext -> Prop) : Prop := forall V V' i j, length V = nx -> sub V -> I V ->
    (i < nx)%nat -> (j < nx)%nat -> (forall k, (k < nx)%nat -> ele (via V i j) (via V i k)) ->
    value V' i = via V i j -> (forall k, k <> i -> value V' k = value V k) -> I V'.

  Lemma update_sub : forall V V' i j, sub V -> (i < nx)%nat -> (j < nx)%nat ->
    (forall k, (k < nx)%nat -> ele (via V i j) (via V i k)) ->
    value V' i = via V i j -> (forall k, k <> i -> value V' k = value V k) -> below V V' /\ sub V'.
  Proof.
    intros V V' i j S Hi Hj B E O.
    assert (U : below V V').
    { intros k Hk. destruct (Nat.eq_dec k i) as [->|N]; [rewrite E; apply S; auto|rewrite O by auto; apply ele_refl]. }
    split; auto. intros a b Ha Hb. apply ele_trans with (via V a b); [|apply via_mono; auto].
    destruct (Nat.eq_dec a i) as [->|N]; [rewrite E; auto|rewrite O by auto; apply S; auto].
  Qed.
  Lemma sweep_over_app : forall a b s, sweep_over g r u (a ++ b) s = sweep_over g r u b (sweep_over g r u a s).
  Proof. induction a; intros; cbn [app sweep_over]; auto. Qed.

  Lemma eeqb_true : forall a b, eeqb a b = true -> a = b.
  Proof.
    intros [x|] [y|]; cbn; intros H; auto; try discriminate. unfold Reqb in H.
    destruct (Req_EM_T x y); [subst; auto|discriminate].
  Qed.
  Lemma eeqb_false : forall a b, eeqb a b = false -> a <> b.
  Proof.
    intros [x|] [y|]; cbn; intros H; try discriminate. unfold Reqb in H.
    destruct (Req_EM_T x y); [discriminate|congruence].
  Qed.
  Lemma edist_cover : forall v old, ele old v -> v <> old -> ele v (eadd old (edist v old)).
  Proof.
    intros [x|] [y|]; cbn; intros H N; auto. assert (A := Rle_abs (x - y)). lra.
  Qed.
  Lemma new_delta_spec : forall v old d, ele (Fin 0) d -> ele old v ->
    ele d (new_delta v old d) /\ ele v (eadd old (new_delta v old d)) /\
    (new_delta v old d = d \/ new_delta v old d = edist v old /\ v <> old).
  Proof.
    intros v old d D H. unfold new_delta. destruct (eeqb v old) eqn:Q; cbn [negb].
    - apply eeqb_true in Q. subst. split; [apply ele_refl|]. split; auto.
      destruct old as [x|], d as [y|]; cbn in *; auto; lra.
    - apply eeqb_false in Q. assert (K := edist_cover v old H Q).
      destruct (eltb d (edist v old)) eqn:C.
      + apply eltb_true in C. split; [tauto|]. split; auto.
      + apply eltb_false in C. split; [apply ele_refl|]. split; auto.
        apply ele_trans with (1 := K). apply eadd_mono; [apply ele_refl|auto].
  Qed.

  Record swept (I : list ext -> Prop) (V0 : list ext) (m : nat) (V : list ext) (P : list vec) (d : ext) : Prop := {
    sw_V : length V = nx;
    sw_P : length P = nx;
    sw_I : I V;
    sw_sub : sub V;
    sw_below : below V0 V;
    sw_rest : forall k, (m <= k)%nat -> value V k = value V0 k;
    sw_d : ele (Fin 0) d;
    sw_close : forall k, (k < m)%nat -> ele (value V k) (eadd (value V0 k) d);
    sw_policy : forall k, (k < m)%nat -> exists j, (j < nx)%nat /\ nth_error P k = Some (action k j) /\
      ele (via V0 k j) (value V k);
    sw_tight : d = Fin 0 \/ exists k, (k < m)%nat /\ d = edist (value V k) (value V0 k) /\ value V k <> value V0 k }.
  Lemma sweep_prefix : forall I V0 P0, preserved I -> I V0 -> length V0 = nx -> length P0 = nx -> sub V0 ->
    forall m, (m <= nx)%nat -> exists V P d,
    sweep_over g r u (seq 0 m) (Some (V0, P0, Fin 0)) = Some (V, P, d) /\ swept I V0 m V P d.
  Proof.
    intros I V0 P0 HI I0 L0 LP0 S0. induction m as [|m IH]; intros Hm.
    - exists V0, P0, (Fin 0). split; [auto|]. constructor; auto; try (intros; lia).
      + intros k Hk. apply ele_refl.
      + apply ele_refl.
    - destruct IH as (V & P & d & E & W); [lia|]. destruct W.
      rewrite seq_S, sweep_over_app, E. cbn [sweep_over plus].
      destruct (update V P d m) as (j & V' & P' & Hj & EU & LV' & LP' & G & O & GP & OP & B); auto.
      exists V', P', (new_delta (via V m j) (value V m) d). split; [exact EU|].
      destruct (update_sub V V' m j) as (U & S'); auto.
      destruct (new_delta_spec (via V m j) (value V m) d) as (D1 & D2 & D3); auto.
      assert (Em : value V m = value V0 m) by (apply sw_rest0; lia).
      constructor; auto.
      + apply (HI V V' m j); auto.
      + intros k Hk. apply ele_trans with (value V k); auto.
      + intros k Hk. rewrite O by lia. apply sw_rest0. lia.
      + apply ele_trans with d; auto.
      + intros k Hk. destruct (Nat.eq_dec k m) as [->|N].
        * rewrite G, <- Em. auto.
        * rewrite O by auto. apply ele_trans with (eadd (value V0 k) d); [apply sw_close0; lia|].
          apply eadd_mono; [apply ele_refl|auto].
      + intros k Hk. destruct (Nat.eq_dec k m) as [->|N].
        * exists j. split; auto. split; auto. rewrite G. apply via_mono; auto.
        * destruct (sw_policy0 k) as (j' & Hj' & Ep & Q); [lia|]. exists j'. split; auto.
          rewrite OP, O by auto. auto.
      + destruct D3 as [-> | (-> & N)].
        * destruct sw_tight0 as [ -> | (k & Hk & Ek & Nk)]; auto. right. exists k. split; [lia|].
          rewrite O by lia. auto.
        * right. exists m. split; [lia|]. rewrite G, <- Em. auto.
  Qed.
  Lemma sweep_spec : forall I V0 P0, preserved I -> I V0 -> length V0 = nx -> length P0 = nx -> sub V0 ->
    exists V P d, sweep nx g r u V0 P0 = Some (V, P, d) /\ swept I V0 nx V P d.
  Proof. intros. apply sweep_prefix; auto. Qed.

  (** ** All passes *)
  Lemma value_start : forall i, (i < nx)%nat -> value (repeat (Fin 0) nx) i = Fin 0.
  Proof.
    intros i Hi. apply value_some. rewrite (nth_error_nth' _ Inf) by (rewrite repeat_length; auto).
    f_equal. apply repeat_spec with (n := nx). apply nth_In. rewrite repeat_length. auto.
  Qed.
  Lemma start_sub : sub (repeat (Fin 0) nx).
  Proof.
    intros i j Hi Hj. unfold via. rewrite !value_start by auto.
    apply eadd_nonneg; [apply cost_nonneg; auto|]. apply escale_nonneg; auto. apply ele_refl.
  Qed.
  Lemma after_spec : forall I, preserved I -> I (repeat (Fin 0) nx) -> forall n, exists V P,
    after_sweeps n nx g r u = Some (V, P) /\ length V = nx /\ length P = nx /\ sub V /\ I V.
  Proof.
    intros I HI I0. induction n as [|n (V & P & E & LV & LP & S & IV)].
    - exists (repeat (Fin 0) nx), (repeat (zeros 2) nx). cbn [after_sweeps].
      rewrite !repeat_length. repeat split; auto. apply start_sub.
    - destruct (sweep_spec I V P) as (V' & P' & d & E' & W); auto. exists V', P'.
      cbn [after_sweeps]. rewrite E, E'. destruct W. auto.
  Qed.
  Lemma after_mono : forall n, exists V P V' P',
    after_sweeps n nx g r u = Some (V, P) /\ after_sweeps (S n) nx g r u = Some (V', P') /\
    length V = nx /\ length V' = nx /\ forall i, (i < nx)%nat -> ele (value V i) (value V' i).
  Proof.
    intros n. destruct (after_spec (fun _ => True)) with (n := n) as (V & P & E & LV & LP & S & _); auto.
    { intros ? ? ? ? ? ? ? ? ? ? ? ?. auto. }
    destruct (sweep_spec (fun _ => True) V P) as (V' & P' & d & E' & W); auto.
    { intros ? ? ? ? ? ? ? ? ? ? ? ?. auto. }
    exists V, P, V', P'. cbn [after_sweeps]. rewrite E, E'. destruct W. auto.
  Qed.

  (** ** Paths *)
  Definition lower (V : list ext) : Prop := forall p C, path nx p -> path_cost_at_most g r p C ->
    ele (value V (p 0%nat)) (Fin C).
  Lemma lower_preserved : preserved lower.
  Proof.
    intros V V' i j LV SV L Hi Hj B E O p C Hp HC.
    destruct (Nat.eq_dec (p 0%nat) i) as [Q|N]; [|rewrite O by auto; apply L; auto].
    rewrite Q, E. apply ele_trans with (via V i (p 1%nat)); [auto|].
    rewrite <- Q. unfold via.
    assert (K1 := HC 1%nat). cbn [path_cost] in K1.
    destruct (cost r (p 0%nat) (p 1%nat)) as [c|] eqn:Ec; [|contradiction].
    assert (T : ele (value V (p 1%nat)) (Fin ((C - c) / g))).
    { apply (L (fun t => p (S t))); [intros t; apply Hp|]. intros k. specialize (HC (S k)).
      cbn [path_cost] in HC. rewrite Ec in HC.
      destruct (path_cost g r k (fun t => p (S t))) as [s|]; cbn in HC |- *; auto.
      apply (Rmult_le_reg_l g); auto. replace (g * ((C - c) / g)) with (C - c) by (field; lra). lra. }
    destruct (value V (p 1%nat)) as [w|]; cbn in T |- *; auto.
    apply (Rmult_le_compat_l g) in T; [|lra]. replace (g * ((C - c) / g)) with (C - c) in T by (field; lra). lra.
  Qed.
  Lemma start_lower : lower (repeat (Fin 0) nx).
  Proof. intros p C Hp HC. rewrite value_start by apply Hp. exact (HC 0%nat). Qed.
  Lemma after_path : forall n V P p C, after_sweeps n nx g r u = Some (V, P) ->
    path nx p -> path_cost_at_most g r p C -> ele (value V (p 0%nat)) (Fin C).
  Proof.
    intros n V P p C E Hp HC.
    destruct (after_spec lower lower_preserved start_lower n) as (V' & P' & E' & _ & _ & _ & L).
    assert (V = V') by congruence. subst. auto.
  Qed.

  (** ** Termination of the loop and the returned value *)
  Lemma loop_returned : forall eps fuel V0 P0 V P, 0 < g ->
    length V0 = nx -> length P0 = nx -> sub V0 -> lower V0 ->
    vi_loop fuel nx g eps r u V0 P0 = Returned V P ->
    exists V1 P1 d, length V1 = nx /\ sub V1 /\ swept lower V1 nx V P d /\ eltb d (Fin eps) = true /\
      sweep nx g r u V1 P1 = Some (V, P, d).
  Proof.
    intros eps. induction fuel as [|fuel IH]; intros V0 P0 V P Hg' LV LP S L E; cbn [vi_loop] in E; [discriminate|].
    destruct (sweep_spec lower V0 P0 lower_preserved L LV LP S) as (V' & P' & d & E' & W).
    rewrite E' in E. destruct (eltb d (Fin eps)) eqn:C.
    - assert (V' = V /\ P' = P) by (split; congruence). destruct H; subst. exists V0, P0, d. auto.
    - apply (IH V' P' V P); auto; apply W.
  Qed.
  Lemma returned_spec : forall fuel eps V P, value_iteration fuel nx r u eps g = Returned V P ->
    length V = nx /\ length P = nx /\ lower V /\
    exists e, 0 <= e /\ e < eps /\ sub V /\
    forall i, (i < nx)%nat -> exists j, (j < nx)%nat /\ nth_error P i = Some (action i j) /\
      ele (via V i j) (eadd (value V i) (Fin (g * e))).
  Proof.
    intros fuel eps V P E. unfold value_iteration in E.
    apply loop_returned in E; auto; try (rewrite repeat_length; auto); [|apply start_sub|apply start_lower].
    destruct E as (V1 & P1 & d & L1 & S1 & W & C & _). destruct W.
    split; auto. split; auto. split; auto.
    apply eltb_true in C. destruct C as (C1 & C2). destruct d as [e|]; [|cbn in C1; contradiction].
    exists e. cbn in sw_d0, C1, C2. split; auto. split; [lra|]. split; auto.
    intros i Hi. destruct (sw_policy0 i Hi) as (j & Hj & Ep & Q). exists j. split; auto. split; auto.
    specialize (sw_close0 j Hj). apply ele_trans with (eadd (via V1 i j) (Fin (g * e))).
    - unfold via. destruct (cost r i j) as [c|]; cbn; auto.
      destruct (value V j) as [v|], (value V1 j) as [w|]; cbn in *; auto.
      apply (Rmult_le_compat_l g) in sw_close0; lra.
    - apply eadd_mono; auto. apply ele_refl.
  Qed.
End Table.

(** ** The statements *)
Lemma vi_residual : forall fuel nx r u eps g V P, 0 < g -> cost_table nx r -> action_table nx u ->
  value_iteration fuel nx r u eps g = Returned V P ->
  length V = nx /\ forall i b, (i < nx)%nat -> bellman nx g r V i b ->
  (value V i = Inf /\ b = Inf) \/
  exists v w, value V i = Fin v /\ b = Fin w /\ v <= w < v + g * eps.
Proof.
  intros fuel nx r u eps g V P Hg Hr Hu E.
  destruct (returned_spec nx g r u Hg Hr Hu fuel eps V P E) as (LV & LP & _ & e & He & Hee & S & Q).
  split; auto. intros i b Hi (B1 & j & Hj & Eb). destruct (Q i Hi) as (j' & Hj' & _ & Q').
  assert (U := ele_trans _ _ _ (B1 j' Hj') Q').
  assert (L : ele (value V i) b) by (rewrite Eb; apply S; auto).
  assert (g * e < g * eps) by (apply Rmult_lt_compat_l; auto).
  destruct (value V i) as [v|], b as [w|]; cbn in U, L; try contradiction; auto.
  right. exists v, w. split; auto. split; auto. lra.
Qed.

Lemma loop_preserved : forall nx g r u eps V P I, 0 < g -> cost_table nx r -> action_table nx u ->
  preserved nx g r I -> forall fuel V0 P0, I V0 -> length V0 = nx -> length P0 = nx -> sub nx g r V0 ->
  vi_loop fuel nx g eps r u V0 P0 = Returned V P -> I V.
Proof.
  intros nx g r u eps V P I Hg Hr Hu HI. induction fuel as [|fuel IH]; intros V0 P0 I0 L0 LP S E; cbn [vi_loop] in E; [discriminate|].
  destruct (sweep_spec nx g r u Hg Hr Hu I V0 P0 HI I0 L0 LP S) as (V' & P' & d & E' & W).
  rewrite E' in E. destruct (eltb d (Fin eps)).
  - assert (V' = V) by congruence. subst. apply W.
  - apply (IH V' P'); auto; apply W.
Qed.
Lemma nonneg_preserved : forall nx g r, 0 < g -> cost_table nx r ->
  preserved nx g r (fun V => forall i, (i < nx)%nat -> ele (Fin 0) (value V i)).
Proof.
  intros nx g r Hg Hr W W' a b LW SW HW Ha Hb B Ew O k Hk. destruct (Nat.eq_dec k a) as [->|Nk].
  - rewrite Ew. apply eadd_nonneg; [apply (cost_nonneg nx r Hr); auto|]. apply escale_nonneg; auto.
  - rewrite O by auto. auto.
Qed.
Lemma vi_nonneg : forall fuel nx r u eps g V P, 0 < g -> cost_table nx r -> action_table nx u ->
  value_iteration fuel nx r u eps g = Returned V P -> forall i, (i < nx)%nat -> ele (Fin 0) (value V i).
Proof.
  intros fuel nx r u eps g V P Hg Hr Hu E.
  refine (loop_preserved nx g r u eps V P _ Hg Hr Hu (nonneg_preserved nx g r Hg Hr) fuel _ _ _ _ _ _ E).
  - intros k Hk. rewrite value_start by auto. apply ele_refl.
  - apply repeat_length.
  - apply repeat_length.
  - apply start_sub; auto.
Qed.

Lemma finite_choice : forall (A : nat -> nat -> Prop) n, (forall i, (i < n)%nat -> exists j, A i j) ->
  exists s, forall i, (i < n)%nat -> A i (s i).
Proof.
  intros A. induction n as [|n IH]; intros H.
  - exists (fun i => i). intros; lia.
  - destruct IH as (s & Hs); [intros; apply H; lia|]. destruct (H n) as (j & Hj); [lia|].
    exists (fun i => if Nat.eqb i n then j else s i). intros i Hi. destruct (Nat.eqb_spec i n); [subst; auto|].
    apply Hs. lia.
Qed.
Lemma path_cost_ext : forall g r k p q, (forall t, p t = q t) -> path_cost g r k p = path_cost g r k q.
Proof.
  intros g r. induction k as [|k IH]; intros p q H; cbn [path_cost]; auto. rewrite !H. f_equal. f_equal.
  apply IH. intros t. apply H.
Qed.
Lemma vi_policy : forall fuel nx r u eps g V P, 0 < g < 1 -> cost_table nx r -> action_table nx u ->
  value_iteration fuel nx r u eps g = Returned V P ->
  exists s, (forall i, (i < nx)%nat -> (s i < nx)%nat /\ nth_error P i = Some (nth (s i) (nth i u []) [])) /\
  forall i v, (i < nx)%nat -> value V i = Fin v ->
  path_cost_at_most g r (fun t => iterate s t i) (v + g * eps / (1 - g)).
Proof.
  intros fuel nx r u eps g V P (Hg & Hg1) Hr Hu E.
  destruct (returned_spec nx g r u Hg Hr Hu fuel eps V P E) as (LV & LP & Lo & e & He & Hee & S & Q).
  destruct (finite_choice _ nx Q) as (s & Hs). exists s.
  split. { intros i Hi. destruct (Hs i Hi) as (A & B & _). auto. }
  set (D := g * eps / (1 - g)).
  assert (HD : g * e + g * D <= D).
  { assert (Ed : g * eps = D * (1 - g)) by (unfold D; field; lra).
    assert (g * e <= g * eps) by (apply Rmult_le_compat_l; lra). lra. }
  assert (D0 : 0 <= D).
  { unfold D. apply Rmult_le_pos; [apply Rmult_le_pos; lra|]. apply Rlt_le, Rinv_0_lt_compat. lra. }
  assert (N := vi_nonneg fuel nx r u eps g V P Hg Hr Hu E).
  intros i v Hi Ev k. revert i v Hi Ev. induction k as [|k IH]; intros i v Hi Ev.
  - cbn. specialize (N i Hi). rewrite Ev in N. cbn in N. lra.
  - cbn [path_cost]. destruct (Hs i Hi) as (A & B & C).
    change (iterate s 0 i) with i. change (iterate s 1 i) with (s i).
    rewrite (path_cost_ext g r k _ (fun t => iterate s t (s i))) by auto.
    unfold via in C. rewrite Ev in C. destruct (cost r i (s i)) as [c|]; [|contradiction].
    destruct (value V (s i)) as [w|] eqn:Ew; [|contradiction].
    specialize (IH (s i) w A Ew). cbn in C.
    destruct (path_cost g r k _) as [q|]; cbn in IH |- *; [|contradiction].
    apply (Rmult_le_compat_l g) in IH; lra.
Qed.

(** ** The loop ends *)
Fixpoint tot (f : nat -> R) (n : nat) : R := match n with O => 0 | S n => tot f n + f n end.
Lemma tot_le : forall f f' n, (forall i, (i < n)%nat -> f i <= f' i) -> tot f n <= tot f' n.
Proof. induction n as [|n IH]; intros H; cbn [tot]; [lra|]. assert (f n <= f' n) by (apply H; lia). 
  assert (tot f n <= tot f' n) by (apply IH; intros; apply H; lia). lra. Qed.
Lemma tot_gain : forall f f' e n k, (forall i, (i < n)%nat -> f i <= f' i) -> (k < n)%nat -> f k + e <= f' k ->
  tot f n + e <= tot f' n.
Proof.
  induction n as [|n IH]; intros k H Hk G; [lia|]. cbn [tot].
  destruct (Nat.eq_dec k n) as [->|N].
  - assert (tot f n <= tot f' n) by (apply tot_le; intros; apply H; lia). lra.
  - assert (f n <= f' n) by (apply H; lia).
    assert (tot f n + e <= tot f' n) by (apply (IH k); [intros; apply H; lia|lia|auto]). lra.
Qed.
Lemma tot_const : forall c n, tot (fun _ => c) n = INR n * c.
Proof. induction n as [|n IH]; [cbn; ring|]. cbn [tot]. rewrite S_INR, IH. ring. Qed.

Definition finite_at_most (M : R) (a : ext) : Prop := match a with Fin x => x <= M | Inf => True end.
Lemma row_bound : forall row, exists M, 0 <= M /\ Forall (finite_at_most M) row.
Proof.
  induction row as [|a row (M & M0 & F)]; [exists 0; split; [lra|auto]|].
  destruct a as [x|].
  - exists (Rmax M x). assert (A := Rmax_l M x). assert (B := Rmax_r M x). split; [lra|]. constructor; [exact B|].
    apply Forall_impl with (2 := F). intros [y|]; cbn; auto. lra.
  - exists M. split; auto. constructor; [exact I|auto].
Qed.
Lemma table_bound : forall r, exists M, 0 <= M /\ Forall (Forall (finite_at_most M)) r.
Proof.
  induction r as [|row r (M & M0 & F)]; [exists 0; split; [lra|auto]|].
  destruct (row_bound row) as (N & N0 & G). exists (Rmax M N). assert (A := Rmax_l M N). assert (B := Rmax_r M N).
  split; [lra|]. constructor.
  - apply Forall_impl with (2 := G). intros [y|]; cbn; auto. lra.
  - apply Forall_impl with (2 := F). intros row' H. apply Forall_impl with (2 := H). intros [y|]; cbn; auto. lra.
Qed.
Lemma cost_bound : forall r M i j, Forall (Forall (finite_at_most M)) r -> finite_at_most M (cost r i j).
Proof.
  intros r M i j F. unfold cost. destruct (nth_in_or_default i r []) as [H|H].
  - rewrite Forall_forall in F. specialize (F _ H). rewrite Forall_forall in F.
    destruct (nth_in_or_default j (nth i r []) Inf) as [H'|H']; [auto|rewrite H'; exact I].
  - rewrite H. destruct j; exact I.
Qed.
Definition bounded (nx : nat) (B : R) (V : list ext) : Prop :=
  forall i, (i < nx)%nat -> finite_at_most B (value V i) /\ ele (Fin 0) (value V i).
Lemma bounded_preserved : forall nx g r M, 0 < g < 1 -> cost_table nx r -> Forall (Forall (finite_at_most M)) r ->
  preserved nx g r (bounded nx (M / (1 - g))).
Proof.
  intros nx g r M (Hg & Hg1) Hr F W W' a b LW SW HW Ha Hb B Ew O k Hk.
  destruct (Nat.eq_dec k a) as [->|Nk]; [|rewrite O by auto; auto].
  rewrite Ew. split.
  - unfold via. assert (C := cost_bound r M a b F). destruct (HW b Hb) as (D & _).
    destruct (cost r a b) as [c|]; cbn in *; auto. destruct (value W b) as [w|]; cbn in *; auto.
    apply (Rmult_le_compat_l g) in D; [|lra].
    replace (M / (1 - g)) with (M + g * (M / (1 - g))) by (field; lra). lra.
  - apply eadd_nonneg; [apply (cost_nonneg nx r Hr); auto|]. apply escale_nonneg; auto. apply HW. auto.
Qed.
Definition level (top : R) (a : ext) : R := match a with Fin x => x | Inf => top end.
Lemma loop_ends : forall nx g r u eps M, 0 < g < 1 -> 0 < eps -> cost_table nx r -> action_table nx u -> 0 <= M ->
  Forall (Forall (finite_at_most M)) r ->
  forall fuel V0 P0, bounded nx (M / (1 - g)) V0 -> length V0 = nx -> length P0 = nx -> sub nx g r V0 ->
  INR nx * (M / (1 - g) + eps) - tot (fun i => level (M / (1 - g) + eps) (value V0 i)) nx < INR fuel * eps ->
  exists V P, vi_loop fuel nx g eps r u V0 P0 = Returned V P.
Proof.
  intros nx g r u eps M Hg He Hr Hu HM F. set (B := M / (1 - g)).
  assert (HB : 0 <= B).
  { unfold B. apply Rmult_le_pos; auto. apply Rlt_le, Rinv_0_lt_compat. lra. }
  induction fuel as [|fuel IH]; intros V0 P0 I0 L0 LP S T.
  - exfalso. assert (tot (fun i => level (B + eps) (value V0 i)) nx <= INR nx * (B + eps)).
    { rewrite <- tot_const. apply tot_le. intros i Hi. destruct (I0 i Hi) as (A & _).
      destruct (value V0 i); cbn in *; lra. }
    cbn [INR] in T. lra.
  - cbn [vi_loop].
    destruct (sweep_spec nx g r u (proj1 Hg) Hr Hu (bounded nx B) V0 P0 (bounded_preserved nx g r M Hg Hr F) I0 L0 LP S)
      as (V' & P' & d & E' & W). rewrite E'. destruct (eltb d (Fin eps)) eqn:C; [eauto|].
    destruct W. apply IH; auto.
    assert (G : tot (fun i => level (B + eps) (value V0 i)) nx + eps <= tot (fun i => level (B + eps) (value V' i)) nx).
    { apply eltb_false in C. destruct sw_tight0 as [ -> | (k & Hk & Ed & Nk)]; [cbn in C; lra|].
      apply (tot_gain _ _ eps nx k); auto.
      - intros i Hi. specialize (sw_below0 i Hi). destruct (I0 i Hi) as (A & _). destruct (sw_I0 i Hi) as (A' & _).
        destruct (value V0 i), (value V' i); cbn in *; lra.
      - subst d. specialize (sw_below0 k Hk). destruct (I0 k Hk) as (A & _).
        destruct (value V0 k) as [x|], (value V' k) as [y|]; cbn in *; try lra; try contradiction; try congruence.
        rewrite Rabs_right in C by lra. lra. }
    rewrite S_INR in T. lra.
Qed.
Lemma vi_ends : forall nx r u eps g, 0 < g < 1 -> 0 < eps -> cost_table nx r -> action_table nx u ->
  exists N, forall fuel, (N <= fuel)%nat -> exists V P, value_iteration fuel nx r u eps g = Returned V P.
Proof.
  intros nx r u eps g Hg He Hr Hu. destruct (table_bound r) as (M & M0 & F).
  set (K := INR nx * (M / (1 - g) + eps) - tot (fun i => level (M / (1 - g) + eps) (value (repeat (Fin 0) nx) i)) nx).
  assert (EN : exists N, K < INR N * eps).
  { destruct (archimed (Rabs K / eps)) as (A & _).
    assert (P : 0 <= Rabs K / eps).
    { apply Rmult_le_pos; [apply Rabs_pos|]. apply Rlt_le, Rinv_0_lt_compat. auto. }
    exists (Z.to_nat (up (Rabs K / eps))). rewrite INR_IZR_INZ, Z2Nat.id.
    - apply (Rmult_lt_compat_r eps) in A; auto. replace (Rabs K / eps * eps) with (Rabs K) in A by (field; lra).
      assert (B := Rle_abs K). lra.
    - apply le_IZR. lra. }
  destruct EN as (N & HN). exists N. intros fuel Hf.
  apply (loop_ends nx g r u eps M); auto; try apply repeat_length.
  - intros i Hi. rewrite value_start by auto. split; [|apply ele_refl]. cbn.
    apply Rmult_le_pos; auto. apply Rlt_le, Rinv_0_lt_compat. lra.
  - apply start_sub; [apply Hg|auto].
  - fold K. apply Rlt_le_trans with (1 := HN). apply Rmult_le_compat_r; [lra|]. apply le_INR. auto.
Qed.

(** ** A case: 2 -> 1 -> 0, the goal 0 with a free loop. *)
Lemma chain_ok : cost_table 3 chain_r /\ action_table 3 chain_u.
Proof.
  split; (split; [reflexivity|]).
  - repeat constructor; cbn; lra.
  - repeat constructor.
Qed.
Ltac decide_real := match goal with
  | |- context [Rltb ?a ?b] => unfold Rltb at 1; destruct (Rlt_dec a b); [try lra|try lra]
  | |- context [Reqb ?a ?b] => unfold Reqb at 1; destruct (Req_EM_T a b); [try lra|try lra]
  end.
Lemma chain_run : exists V, value_iteration 2 3 chain_r chain_u (1 / 10) (1 / 2) = Returned V [[0]; [3]; [7]] /\
  V = [Fin 0; Fin 1; Fin (3 / 2)].
Proof.
  cbn -[Rltb Reqb Rabs Rplus Rmult Rminus]. 
  repeat (decide_real; cbn -[Rltb Reqb Rabs Rplus Rmult Rminus]).
  all: first
    [ eexists; split; [reflexivity|]; repeat (f_equal; try lra)
    | exfalso; unfold Rabs in *; repeat destruct Rcase_abs; lra ].
Qed.

(** ** Paths that end at a free loop *)
Lemma path_cost_absorbed : forall g r k p, cost r (p k) (p k) = Fin 0 -> (forall t, (k <= t)%nat -> p t = p k) ->
  forall m, path_cost g r (k + m) p = path_cost g r k p.
Proof.
  intros g r. induction k as [|k IH]; intros p Hc Hp m.
  - cbn [plus]. revert p Hc Hp. induction m as [|m IHm]; intros p Hc Hp; auto. cbn [path_cost].
    rewrite (Hp 1%nat) by lia. rewrite Hc.
    rewrite IHm.
    + cbn. f_equal. ring.
    + rewrite (Hp 1%nat) by lia. auto.
    + intros t Ht. rewrite (Hp (S t)), (Hp 1%nat) by lia. auto.
  - cbn [plus path_cost]. f_equal. f_equal. apply (IH (fun t => p (S t))); auto.
    intros t Ht. apply Hp. lia.
Qed.
Lemma path_cost_le : forall nx g r, 0 < g -> cost_table nx r -> forall k m p, path nx p ->
  ele (path_cost g r k p) (path_cost g r (k + m) p).
Proof.
  intros nx g r Hg Hr. induction k as [|k IH]; intros m p Hp.
  - cbn [plus]. assert (H : forall q, path nx q -> ele (Fin 0) (path_cost g r m q)); [|apply H; auto].
    clear p Hp. induction m as [|m IHm]; intros q Hq; cbn [path_cost]; [apply ele_refl|].
    apply eadd_nonneg; [apply (cost_nonneg nx r Hr); apply Hq|]. apply escale_nonneg; auto. apply IHm.
    intros t. apply Hq.
  - cbn [plus path_cost]. apply eadd_mono; [apply ele_refl|]. apply escale_mono; auto. apply IH. intros t. apply Hp.
Qed.
Lemma goal_path : forall nx r u g n V P p k, 0 < g -> cost_table nx r -> action_table nx u ->
  after_sweeps n nx g r u = Some (V, P) -> path nx p -> cost r (p k) (p k) = Fin 0 ->
  (forall t, (k <= t)%nat -> p t = p k) ->
  ele (value V (p 0%nat)) (path_cost g r k p).
Proof.
  intros nx r u g n V P p k Hg Hr Hu E Hp Hc Ht.
  destruct (path_cost g r k p) as [C|] eqn:EC; [|destruct (value V (p 0%nat)); exact I].
  apply (after_path nx g r u Hg Hr Hu n V P); auto. intros m. rewrite <- EC.
  destruct (Nat.le_ge_cases m k) as [H|H].
  - replace k with (m + (k - m))%nat by lia. apply (path_cost_le nx); auto.
  - replace m with (k + (m - k))%nat by lia. rewrite path_cost_absorbed by auto. apply ele_refl.
Qed.
Lemma returned_path : forall fuel nx r u eps g V P p C, 0 < g -> cost_table nx r -> action_table nx u ->
  value_iteration fuel nx r u eps g = Returned V P -> path nx p -> path_cost_at_most g r p C ->
  ele (value V (p 0%nat)) (Fin C).
Proof.
  intros fuel nx r u eps g V P p C Hg Hr Hu E Hp HC.
  destruct (returned_spec nx g r u Hg Hr Hu fuel eps V P E) as (_ & _ & L & _). apply L; auto.
Qed.
Lemma returned_sweeps : forall nx g eps r u fuel n V0 P0 V P, after_sweeps n nx g r u = Some (V0, P0) ->
  vi_loop fuel nx g eps r u V0 P0 = Returned V P -> exists m, after_sweeps m nx g r u = Some (V, P).
Proof.
  intros nx g eps r u. induction fuel as [|fuel IH]; intros n V0 P0 V P A E; cbn [vi_loop] in E; [discriminate|].
  destruct (sweep nx g r u V0 P0) as [[[V' P'] d]|] eqn:Es; [|discriminate].
  assert (A' : after_sweeps (S n) nx g r u = Some (V', P')) by (cbn [after_sweeps]; rewrite A, Es; auto).
  destruct (eltb d (Fin eps)).
  - exists (S n). assert (V' = V /\ P' = P) by (split; congruence). destruct H; subst. auto.
  - apply (IH (S n) V' P'); auto.
Qed.
Lemma vi_sweeps : forall fuel nx r u eps g V P, value_iteration fuel nx r u eps g = Returned V P ->
  exists n, after_sweeps n nx g r u = Some (V, P).
Proof. intros. apply (returned_sweeps nx g eps r u fuel 0 (repeat (Fin 0) nx) (repeat (zeros 2) nx)); auto. Qed.
