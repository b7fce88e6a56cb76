(** Proofs about choosing the nearest. *)

Require Import Reals List Lia Lra.
Require Import Verif.Vec Verif.VecFacts Verif.SpecExt Verif.SpecCore Verif.ModelValueIter Verif.ProofValueIter Verif.ModelSampling
  Verif.SpecSampling Verif.ProofSampling Verif.ModelRrt Verif.ModelNearest Verif.SpecNearest.
Import ListNotations.
Open Scope R_scope.

Section Argmin.
Context {A : Type} (dist : A -> R).
Local Notation F := (fun a => Fin (dist a)).
(** The loop of argmin, started after the prefix [pre] with its first nearest entry. *)
Lemma argmin_from_first : forall l pre a ib,
  nth_error pre ib = Some a -> (forall b, In b pre -> dist a <= dist b) ->
  (forall k b, (k < ib)%nat -> nth_error pre k = Some b -> dist a < dist b) ->
  first_nearest dist (pre ++ l) (argmin_from (F a) ib (length pre) (map F l)).
Proof.
  induction l as [|y l IH]; intros pre a ib E M St; cbn [map argmin_from].
  - rewrite app_nil_r. exists a. auto.
  - assert (Hi : (ib < length pre)%nat) by (apply nth_error_Some; congruence).
    replace (pre ++ y :: l) with ((pre ++ [y]) ++ l) by (rewrite <- app_assoc; reflexivity).
    replace (S (length pre)) with (length (pre ++ [y])) by (rewrite app_length; cbn; lia).
    destruct (eltb (F y) (F a)) eqn:C.
    + apply eltb_true in C. cbn in C. assert (Hya : dist y < dist a).
      { destruct C as [C1 C2]. apply Rnot_le_lt. exact C2. }
      apply IH.
      * rewrite nth_error_app2 by lia. rewrite Nat.sub_diag. reflexivity.
      * intros b Hb. apply in_app_or in Hb. destruct Hb as [Hb|[<-|[]]]; [specialize (M b Hb); lra|lra].
      * intros k b Hk Ek. rewrite nth_error_app1 in Ek by lia. specialize (M b (nth_error_In _ _ Ek)). lra.
    + apply eltb_false in C. cbn in C. apply IH.
      * rewrite nth_error_app1 by lia. exact E.
      * intros b Hb. apply in_app_or in Hb. destruct Hb as [Hb|[<-|[]]]; [exact (M b Hb)|exact C].
      * intros k b Hk Ek. rewrite nth_error_app1 in Ek by lia. exact (St k b Hk Ek).
Qed.
Lemma argmin_first : forall l, l <> [] -> exists i, np_argmin (map F l) = Some i /\ first_nearest dist l i.
Proof.
  intros [|y l] H; [congruence|]. exists (argmin_from (F y) 0 1 (map F l)). split; [reflexivity|].
  apply (argmin_from_first l [y] y 0); [reflexivity| |].
  - intros b [<-|[]]. lra.
  - intros k b Hk. lia.
Qed.
End Argmin.

Lemma find_nearest_ok : forall array value, array <> [] -> exists a i, find_nearest array value = Some a /\
  nth_error array i = Some a /\ first_nearest (fun b => Rabs (b - value)) array i.
Proof.
  intros l v H. destruct (argmin_first (fun b => Rabs (b - v)) l H) as (i & E & N).
  destruct N as (a & Ea & N). exists a, i. unfold find_nearest. rewrite E. split; [exact Ea|split; [exact Ea|]].
  exists a. auto.
Qed.

Lemma distance_is : forall p q, length p = 3%nat -> length q = 3%nat -> state_distance p q = pose_distance p q.
Proof.
  intros [|a [|b [|c [|]]]] [|d [|e [|f [|]]]] Hp Hq; try discriminate.
  unfold state_distance, pose_distance, diag. cbn. field.
Qed.
Lemma nearest_row_ok : forall rows x, rows <> [] -> Forall (fun s => length s = 3%nat) rows -> length x = 3%nat ->
  exists i, nearest_row rows x = Some i /\ first_nearest (fun s => pose_distance s x) rows i.
Proof.
  intros rows x H L Lx. destruct (argmin_first (fun s => state_distance s x) rows H) as (i & E & a & Ea & M & St).
  rewrite Forall_forall in L.
  exists i. split; [exact E|]. exists a. split; [exact Ea|].
  assert (D : forall s, In s rows -> state_distance s x = pose_distance s x) by (intros s Hs; apply distance_is; auto).
  pose proof (nth_error_In _ _ Ea) as Ia. split.
  - intros b Hb. rewrite <- !D by auto. auto.
  - intros k b Hk Ek. pose proof (nth_error_In _ _ Ek) as Ib. rewrite <- !D by auto. exact (St k b Hk Ek).
Qed.
Lemma nearest_node_ok : forall T x, states T <> [] -> Forall (fun s => length s = 3%nat) (states T) -> length x = 3%nat ->
  exists i, nearest_node T x = Some i /\ first_nearest (fun s => pose_distance s x) (states T) i.
Proof. intros T x. apply nearest_row_ok. Qed.

Lemma extend_ok : forall sim u_lo u_up T i x0 U dt x,
  (forall dt u s, length s = 3%nat -> length (sim dt u s) = 3%nat) ->
  nth_error (states T) i = Some x0 -> length x0 = 3%nat -> length x = 3%nat -> vle u_lo u_up -> U <> [] ->
  Forall (fun r => length r = length u_lo /\ unit_interval r) U ->
  exists us u, uniform_sample_in_box u_lo u_up U = Some us /\ length us = length U /\ In u us /\ in_box u_lo u_up u /\
    extend_node sim u_lo u_up T i U dt x = Some (sim dt u x0) /\
    forall u', In u' us -> pose_distance (sim dt u x0) x <= pose_distance (sim dt u' x0) x.
Proof.
  intros sim lo up T i x0 U dt x Hs E0 L0 Lx Hb HU HF.
  destruct (sample_in_box lo up U Hb HF) as (us & Eu & Lu & Bu). rewrite Forall_forall in Bu.
  set (xs := map (fun u => sim dt u x0) us).
  assert (Nx : xs <> []).
  { unfold xs. destruct us; [|discriminate]. destruct U; [congruence|discriminate]. }
  destruct (nearest_row_ok xs x Nx) as (j & Ej & a & Ea & M & _); [|exact Lx|].
  { apply Forall_forall. intros s Hin. unfold xs in Hin. apply in_map_iff in Hin. destruct Hin as (u & <- & _). auto. }
  pose proof (nth_error_In _ _ Ea) as Ia. unfold xs in Ia. apply in_map_iff in Ia. destruct Ia as (u & Q & Iu).
  exists us, u. split; [exact Eu|]. split; [exact Lu|]. split; [exact Iu|]. split; [exact (Bu u Iu)|]. split.
  - unfold extend_node. rewrite Eu, E0. cbv zeta. change (map (fun u0 => sim dt u0 x0) us) with xs. rewrite Ej, Ea, Q. reflexivity.
  - intros u' Iu'. rewrite Q. apply M. unfold xs. apply in_map_iff. exists u'. auto.
Qed.

Lemma sample_region_iff : forall x, sample_region x <-> exists r, length r = 3%nat /\ unit_interval r /\ x = sample_state r.
Proof.
  pose proof PI_RGT_0 as P. intros x. split.
  - intros (a & b & c & -> & Ha & Hb & Hc). exists [(a + 5) / 10; (b + 5) / 10; (c + 6 / 5 * PI) / (12 / 5 * PI)].
    split; [reflexivity|]. split.
    + apply Forall_cons; [split; lra|]. apply Forall_cons; [split; lra|]. apply Forall_cons; [split|apply Forall_nil].
      * apply Rmult_le_pos; [lra|]. left. apply Rinv_0_lt_compat. lra.
      * apply (Rmult_le_reg_r (12 / 5 * PI)); [lra|]. unfold Rdiv at 1. rewrite Rmult_assoc, Rinv_l by (intros Q; lra). lra.
    + cbn. apply (f_equal2 (@cons R)); [field|apply (f_equal2 (@cons R)); [field|apply (f_equal2 (@cons R)); [|reflexivity]]].
      field. intros Q. lra.
  - intros (r & L & I & ->). destruct r as [|a [|b [|c [|]]]]; try discriminate.
    unfold unit_interval in I. inversion I as [|? ? Ia I1]; subst. inversion I1 as [|? ? Ib I2]; subst.
    inversion I2 as [|? ? Ic I3]; subst. clear I I1 I2 I3.
    unfold sample_region. cbn. eexists _, _, _. split; [reflexivity|]. split; [lra|]. split; [lra|].
    pose proof (Rmult_le_compat_r PI 0 c ltac:(lra) ltac:(lra)). pose proof (Rmult_le_compat_r PI c 1 ltac:(lra) ltac:(lra)).
    split; lra.
Qed.
Lemma sample_length : forall r, length r = 3%nat -> length (sample_state r) = 3%nat.
Proof. intros [|a [|b [|c [|]]]] H; try discriminate. reflexivity. Qed.

Lemma propose_ok : forall sim u_lo u_up T r U,
  (forall dt u s, length s = 3%nat -> length (sim dt u s) = 3%nat) ->
  states T <> [] -> Forall (fun s => length s = 3%nat) (states T) -> length r = 3%nat -> vle u_lo u_up -> U <> [] ->
  Forall (fun w => length w = length u_lo /\ unit_interval w) U ->
  exists x0 u, In x0 (states T) /\ (forall s, In s (states T) ->
      pose_distance x0 (sample_state r) <= pose_distance s (sample_state r)) /\
    in_box u_lo u_up u /\ propose sim u_lo u_up T r U = Some (sim (1 / 20) u x0).
Proof.
  intros sim lo up T r U Hs HT HL Lr Hb HU HF. pose proof (sample_length r Lr) as Lx.
  destruct (nearest_node_ok T (sample_state r) HT HL Lx) as (i & Ei & x0 & E0 & M & _).
  pose proof (nth_error_In _ _ E0) as I0. pose proof HL as HL'. rewrite Forall_forall in HL'.
  destruct (extend_ok sim lo up T i x0 U (5 / 100) (sample_state r) Hs E0 (HL' x0 I0) Lx Hb HU HF) as
    (us & u & _ & _ & _ & B & E & _).
  exists x0, u. split; [exact I0|]. split; [exact M|]. split; [exact B|].
  unfold propose. cbv zeta. rewrite Ei, E. replace (5 / 100) with (1 / 20) by field. reflexivity.
Qed.

Lemma nearest_case : find_nearest [3; 1; -1] 0 = Some 1 /\ find_nearest [] 0 = None.
Proof.
  split; [|reflexivity]. unfold find_nearest. cbn [map np_argmin argmin_from].
  replace (Rabs (3 - 0)) with 3 by (symmetry; rewrite Rabs_right; lra).
  replace (Rabs (1 - 0)) with 1 by (symmetry; rewrite Rabs_right; lra).
  replace (Rabs (-1 - 0)) with 1 by (symmetry; rewrite Rabs_left; lra).
  unfold eltb. destruct (Rltb 1 3) eqn:A.
  - destruct (Rltb 1 1) eqn:B; [|reflexivity]. apply Rltb_true in B. lra.
  - apply Rltb_false in A. lra.
Qed.

(** A tree of two nodes, and a car that drives straight on. *)
Definition two_nodes : tree := mkTree [[0; 0; 0]; [1; 0; 0]] [None; Some 0%nat] [[1%nat]; []] [0; 1] [0; 1] [None; None].
Definition drive (dt : R) (u s : vec) : vec := [nth 0 s 0 + dt * nth 0 u 0; nth 1 s 0; nth 2 s 0].
Lemma two_nodes_case : nearest_node two_nodes [2; 0; 0] = Some 1%nat /\
  (forall dt u s, length s = 3%nat -> length (drive dt u s) = 3%nat) /\
  extend_node drive [0; 0] [4; 1] two_nodes 1 [[0; 1]; [1 / 2; 0]] (1 / 4) [2; 0; 0] = Some [3 / 2; 0; 0].
Proof.
  split; [|split; [reflexivity|]].
  - unfold nearest_node, nearest_row, two_nodes. cbn [states map np_argmin argmin_from].
    rewrite !distance_is by reflexivity. unfold pose_distance, eltb. cbn [nth].
    destruct (Rltb _ _) eqn:C; [reflexivity|]. apply Rltb_false in C. lra.
  - unfold extend_node, two_nodes, uniform_sample_in_box, diag. cbn -[np_argmin state_distance Rdiv].
    unfold nearest_row. cbn [map np_argmin argmin_from]. rewrite !distance_is by reflexivity.
    unfold pose_distance, eltb, drive. cbn [nth].
    destruct (Rltb _ _) eqn:C.
    + cbn [nth_error]. apply f_equal. apply (f_equal2 (@cons R)); [field|reflexivity].
    + apply Rltb_false in C. exfalso. lra.
Qed.
