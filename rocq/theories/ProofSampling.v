(** Proofs about the sampling helpers. *)

Require Import Reals List Bool Arith Lia Lra ZArith.
Require Import Verif.Vec Verif.VecFacts Verif.SpecCore Verif.SpecUtils Verif.ModelROptions Verif.ProofROptions
  Verif.ModelGrad Verif.ProofUtils Verif.ModelSampling Verif.SpecSampling.
Import ListNotations.
Open Scope R_scope.

(** ** Boxes *)
Lemma map2_maps : forall (A B C D : Type) (h : B -> C -> D) (f : A -> B) (g : A -> C) l,
  map2 h (map f l) (map g l) = map (fun x => h (f x) (g x)) l.
Proof. induction l; cbn; auto. rewrite IHl. auto. Qed.
Lemma nth_map_seq : forall (f : nat -> R) n i, (i < n)%nat -> nth i (map f (seq 0 n)) 0 = f i.
Proof.
  intros f n i H. rewrite (nth_indep _ 0 (f O)) by (rewrite map_length, seq_length; auto).
  rewrite map_nth, seq_nth; auto.
Qed.
Lemma vm_units : forall n (f : nat -> R) r s, 
  vm n r (map (fun j => unit_row n j (f j)) (seq s (length r)))
  = map (fun i => if (Nat.leb s i && Nat.ltb i (s + length r))%bool then nth (i - s) r 0 * f i else 0) (seq 0 n).
Proof.
  intros n f. induction r as [|a r IH]; intros s.
  - cbn [length seq map vm]. unfold zeros. transitivity (map (fun _ : nat => 0) (seq 0 n)).
    + rewrite <- (seq_length n 0) at 1. generalize (seq 0 n). intros l. induction l; cbn; congruence.
    + apply map_ext. intros i. destruct (Nat.leb_spec s i), (Nat.ltb_spec i (s + 0)); cbn [andb]; auto; lia.
  - cbn [length seq map vm]. rewrite IH. unfold vadd, vscale, unit_row. rewrite map_map, map2_maps.
    apply map_ext. intros i.
    destruct (Nat.eqb_spec i s) as [ -> | N].
    + destruct (Nat.leb_spec (S s) s); [lia|]. cbn [andb].
      destruct (Nat.leb_spec s s); [|lia]. destruct (Nat.ltb_spec s (s + S (length r))); [|lia].
      cbn [andb]. rewrite Nat.sub_diag. cbn [nth]. lra.
    + destruct (Nat.leb_spec (S s) i).
      * destruct (Nat.leb_spec s i); [|lia]. replace (s + S (length r))%nat with (S s + length r)%nat by lia.
        destruct (Nat.ltb_spec i (S s + length r)); cbn [andb]; [|lra].
        replace (i - s)%nat with (S (i - S s)) by lia. cbn [nth]. lra.
      * destruct (Nat.leb_spec s i); [lia|]. cbn [andb]. lra.
Qed.
Lemma vm_diag : forall r d, length r = length d -> vm (length d) r (diag d) = vmul r d.
Proof.
  intros r d L. assert (E := vm_units (length d) (fun j => nth j d 0) r 0). rewrite L in E at 1.
  unfold diag. etransitivity; [exact E|]. clear E.
  apply (nth_ext _ _ 0 0).
  - unfold vmul. rewrite map_length, seq_length, map2_length. lia.
  - intros i Hi. rewrite map_length, seq_length in Hi.
    rewrite nth_map_seq by auto. cbn [Nat.add Nat.leb andb]. rewrite Nat.sub_0_r.
    destruct (Nat.ltb_spec i (length r)); [|lia]. clear - L Hi. revert d i L Hi.
    induction r as [|a r IH]; intros [|b d] i L Hi; try discriminate; try (cbn in Hi; lia).
    destruct i as [|i]; cbn [nth vmul map2]; auto. apply IH; cbn in *; lia.
Qed.
Definition in_box_row (lo hi r : vec) : vec := vadd (vmul r (vsub hi lo)) lo.
Lemma in_box_rows : forall lo hi U, length hi = length lo -> Forall (fun r => length r = length lo) U ->
  uniform_sample_in_box lo hi U = Some (map (in_box_row lo hi) U).
Proof.
  intros lo hi U L F. unfold uniform_sample_in_box. rewrite L, Nat.eqb_refl. cbn [check]. f_equal.
  unfold mm. rewrite map_map. apply map_ext_in. intros r Hr.
  rewrite Forall_forall in F. specialize (F r Hr). unfold in_box_row.
  assert (Ld : length (vsub hi lo) = length lo) by (unfold vsub; rewrite map2_length; lia).
  rewrite <- Ld at 1. rewrite vm_diag by lia. auto.
Qed.
Lemma row_in_box : forall lo hi r, vle lo hi -> length r = length lo -> unit_interval r ->
  in_box lo hi (in_box_row lo hi r).
Proof.
  intros lo hi r B. unfold in_box, in_box_row, unit_interval. revert r.
  induction B as [|a b lo hi H B IH]; intros [|u r] L F; try discriminate.
  - split; constructor.
  - injection L as L. assert (Fu := Forall_inv F). destruct (IH r L (Forall_inv_tail F)) as [H1 H2].
    cbn. split; constructor; auto; nra.
Qed.
Lemma row_onto : forall lo hi x, Forall2 Rlt lo hi -> in_box lo hi x ->
  exists r, length r = length lo /\ unit_interval r /\ in_box_row lo hi r = x.
Proof.
  intros lo hi x B. revert x. unfold in_box, in_box_row, unit_interval.
  induction B as [|a b lo hi H B IH]; intros x [H1 H2].
  - inversion H1; subst. exists []. repeat split; auto.
  - destruct x as [|c x]; [inversion H1|]. apply F2_cons in H1. apply F2_cons in H2.
    destruct H1 as [A1 H1], H2 as [A2 H2]. destruct (IH x (conj H1 H2)) as (r & L & F & E).
    exists ((c - a) / (b - a) :: r). split; [cbn; auto|]. split.
    + constructor; auto. assert (P : 0 < b - a) by lra. split.
      * apply Rmult_le_pos; [lra|]. apply Rlt_le, Rinv_0_lt_compat. auto.
      * apply (Rmult_le_reg_r (b - a)); auto. unfold Rdiv. rewrite Rmult_assoc, Rinv_l by lra. lra.
    + cbn [vsub vmul vadd map2]. unfold vsub, vmul, vadd in E. rewrite E. f_equal. field. lra.
Qed.
Lemma sample_in_box : forall lo hi U, vle lo hi ->
  Forall (fun r => length r = length lo /\ unit_interval r) U ->
  exists S, uniform_sample_in_box lo hi U = Some S /\ length S = length U /\ Forall (in_box lo hi) S.
Proof.
  intros lo hi U B F. exists (map (in_box_row lo hi) U). split; [|split].
  - apply in_box_rows; [symmetry; eapply Forall2_len; exact B|].
    eapply Forall_impl; [|exact F]. intros r [H _]. exact H.
  - apply map_length.
  - apply Forall_forall. intros x Hx. apply in_map_iff in Hx. destruct Hx as (r & <- & Hr).
    rewrite Forall_forall in F. destruct (F r Hr). apply row_in_box; auto.
Qed.
Lemma sample_onto : forall lo hi x, Forall2 Rlt lo hi -> in_box lo hi x ->
  exists r, length r = length lo /\ unit_interval r /\ uniform_sample_in_box lo hi [r] = Some [x].
Proof.
  intros lo hi x B H. destruct (row_onto lo hi x B H) as (r & L & F & E). exists r. split; auto. split; auto.
  rewrite in_box_rows; [cbn [map]; rewrite E; auto| |repeat constructor; auto].
  symmetry. eapply Forall2_len. exact B.
Qed.

(** ** The boundary *)
Lemma face_index_lt : forall n b, (0 < n)%nat -> Rabs b < 1 -> (face_index n b < n)%nat.
Proof.
  intros n b Hn Hb. unfold face_index.
  assert (Pn : 0 < INR n) by (apply lt_0_INR; auto).
  assert (P0 : 0 <= Rabs b) by apply Rabs_pos.
  assert (H : IZR (Int_part (Rabs b * INR n)) <= Rabs b * INR n) by apply base_Int_part.
  assert (K : IZR (Int_part (Rabs b * INR n)) < IZR (Z.of_nat n)) by (rewrite <- INR_IZR_INZ; nra).
  apply lt_IZR in K. destruct (Z_le_dec 0 (Int_part (Rabs b * INR n))) as [P|P].
  - apply Nat2Z.inj_lt. rewrite Z2Nat.id; auto.
  - replace (Z.to_nat (Int_part (Rabs b * INR n))) with O; auto. destruct (Int_part _); auto; lia.
Qed.
Lemma splice_box : forall j v lo hi x, in_box lo hi x -> (j < length lo)%nat ->
  nth j lo 0 <= v <= nth j hi 0 -> in_box lo hi (splice j [v] x) /\ nth j (splice j [v] x) 0 = v.
Proof.
  unfold in_box, vle. intros j v lo hi x [H1 H2]. revert j hi H2.
  induction H1 as [|a c lo x A H1 IH]; intros j hi H2 Hj Hv; [cbn in Hj; lia|].
  destruct hi as [|b hi]; [inversion H2|]. apply F2_cons in H2. destruct H2 as [A2 H2].
  destruct j as [|j]; cbn [nth] in Hv.
  - unfold splice. cbn. split; [split; constructor; auto; lra|auto].
  - destruct (IH j hi H2) as [[K1 K2] K3]; [cbn in Hj; lia|auto|].
    unfold splice in *. cbn [firstn app skipn Nat.add length nth] in *.
    split; [split; constructor; auto|auto].
Qed.
Lemma in_box_len : forall lo hi x, in_box lo hi x -> length lo = length x.
Proof. intros lo hi x [H _]. eapply Forall2_len. exact H. Qed.
Lemma put_on_face_ok : forall lo hi b x, in_box lo hi x -> vle lo hi -> (0 < length lo)%nat -> Rabs b < 1 ->
  exists x', put_on_face lo hi b x = Some x' /\ on_boundary lo hi x'.
Proof.
  intros lo hi b x H B Hn Hb. unfold put_on_face. assert (Hj := face_index_lt (length lo) b Hn Hb).
  generalize dependent (face_index (length lo) b). intros j Hj. destruct (Nat.ltb_spec j (length lo)); [|lia]. cbn [check].
  eexists. split; [reflexivity|].
  assert (Lj : nth j lo 0 <= nth j hi 0).
  { clear - B Hj. generalize dependent j. intros j Hj. revert j Hj. induction B as [|a c lo hi A B IH]; intros j Hj; [cbn in Hj; lia|].
    destruct j; cbn; auto. apply IH. cbn in Hj. lia. }
  destruct (Rltb b 0).
  - destruct (splice_box j (nth j lo 0) lo hi x H Hj) as [K1 K2]; [lra|]. split; auto. exists j. split; [rewrite <- (in_box_len _ _ _ K1); auto|auto].
  - destruct (splice_box j (nth j hi 0) lo hi x H Hj) as [K1 K2]; [lra|]. split; auto. exists j. split; [rewrite <- (in_box_len _ _ _ K1); auto|auto].
Qed.
Lemma sample_on_boundary : forall lo hi U u, vle lo hi -> (0 < length lo)%nat ->
  Forall (fun r => length r = length lo /\ unit_interval r) U -> length u = length U ->
  Forall (fun a => 0 < a < 1) u ->
  exists S, uniform_sample_on_box_boundary lo hi U u = Some S /\ length S = length U /\
    Forall (on_boundary lo hi) S.
Proof.
  intros lo hi U u B Hn F Lu Fu. destruct (sample_in_box lo hi U B F) as (S0 & E & L & FS).
  unfold uniform_sample_on_box_boundary. rewrite E. rewrite <- L in *. clear E L F U.
  revert u Lu Fu. induction FS as [|x S0 Hx FS IH]; intros [|a u] Lu Fu; try discriminate.
  - exists []. cbn. auto.
  - injection Lu as Lu. assert (Ha := Forall_inv Fu). cbv beta in Ha.
    destruct (IH u Lu (Forall_inv_tail Fu)) as (S1 & E1 & L1 & F1).
    destruct (put_on_face_ok lo hi (a * 2 - 1) x Hx B Hn) as (x' & E' & B').
    { apply Rabs_def1; lra. }
    exists (x' :: S1). cbn [map put_on_faces]. rewrite E', E1. split; auto. split; [cbn; auto|]. constructor; auto.
Qed.
(** A random number 0 gives face index x_dim. *)
Lemma boundary_zero : uniform_sample_on_box_boundary [0; 0] [1; 1] [[1/2; 1/2]] [0] = None.
Proof.
  unfold uniform_sample_on_box_boundary. rewrite in_box_rows; [|reflexivity|repeat constructor].
  cbn [map put_on_faces]. unfold put_on_face. replace (face_index (length [0; 0]) (0 * 2 - 1)) with 2%nat; auto.
  unfold face_index. replace (Rabs (0 * 2 - 1) * INR (length [0; 0])) with (IZR 2).
  - replace (Int_part (IZR 2)) with 2%Z; auto. destruct (base_Int_part (IZR 2)) as [H1 H2].
    apply le_IZR in H1. assert (H3 : IZR 1 < IZR (Int_part (IZR 2))) by lra. apply lt_IZR in H3. lia.
  - replace (0 * 2 - 1) with (-1) by lra. rewrite Rabs_left by lra. cbn. lra.
Qed.
Lemma boundary_case : exists S, uniform_sample_on_box_boundary [0; 0] [1; 2] [[1/2; 1/2]] [1/4] = Some S /\
  Forall (on_boundary [0; 0] [1; 2]) S.
Proof.
  destruct (sample_on_boundary [0; 0] [1; 2] [[1/2; 1/2]] [1/4]) as (S0 & E & _ & F).
  - repeat constructor; lra.
  - cbn. lia.
  - constructor; [|constructor]. split; auto. repeat constructor; lra.
  - auto.
  - repeat constructor; lra.
  - exists S0. auto.
Qed.

(** ** Grids *)
Lemma concat_repeat_length : forall (A : Type) (l : list A) n, length (concat (repeat l n)) = (n * length l)%nat.
Proof. induction n as [|n IH]; cbn; auto. rewrite app_length, IH. auto. Qed.
Lemma concat_repeat_add : forall (A : Type) (l : list A) m n,
  concat (repeat l (m + n)) = concat (repeat l m) ++ concat (repeat l n).
Proof. intros A l m n. rewrite repeat_app, concat_app. auto. Qed.
Lemma concat_repeat_mul : forall (A : Type) (l : list A) m n,
  concat (repeat l (m * n)) = concat (repeat (concat (repeat l n)) m).
Proof. induction m as [|m IH]; intros n; cbn; auto. rewrite concat_repeat_add, IH. auto. Qed.
Lemma map2_app2 : forall (A B C : Type) (f : A -> B -> C) a a' b b', length a = length b ->
  map2 f (a ++ a') (b ++ b') = map2 f a b ++ map2 f a' b'.
Proof. induction a as [|x a IH]; intros a' [|y b] b' L; try discriminate; cbn; auto. rewrite IH; auto. Qed.
Lemma hcat_repeat : forall (c : vec) (M : mat) k, length c = length M ->
  hcat (col (concat (repeat c k))) (concat (repeat M k)) = concat (repeat (hcat (col c) M) k).
Proof.
  intros c M k L. induction k as [|k IH]; cbn [repeat concat]; auto. unfold col, hcat in *.
  rewrite map_app, map2_app2 by (rewrite map_length; auto). rewrite IH. auto.
Qed.
Lemma cartesian_length : forall ms, length (cartesian ms) = sizes_prod ms.
Proof.
  induction ms as [|m r IH]; auto. unfold sizes_prod in *. cbn [cartesian map fold_right].
  rewrite <- IH. induction m as [|v m IHm]; cbn; auto. rewrite app_length, map_length, IHm. auto.
Qed.
Lemma block : forall (m : vec) (P : mat),
  hcat (col (concat (map (fun v => repeat v (length P)) m))) (concat (repeat P (length m)))
  = concat (map (fun v => map (cons v) P) m).
Proof.
  intros m P. induction m as [|v m IH]; cbn [map concat length repeat]; auto. unfold hcat, col in *.
  rewrite map_app, map2_app2 by (rewrite map_length, repeat_length; auto). rewrite IH. f_equal.
  clear IH. induction P as [|x P IH]; cbn; auto. rewrite IH. auto.
Qed.
Lemma columns_cartesian : forall ms outer, ms <> [] ->
  cat_columns (mesh_columns outer ms) = concat (repeat (cartesian ms) outer).
Proof.
  induction ms as [|m r IH]; intros outer H; [contradiction|]. destruct r as [|m' r].
  - cbn [mesh_columns cat_columns cartesian]. unfold sizes_prod. cbn [map fold_right repeat].
    replace (concat (map (fun v : R => [v]) m)) with m by (clear; induction m; cbn; congruence).
    replace (concat (map (fun v : R => [[v]]) m)) with (col m) by (clear; unfold col; induction m as [|a m IH]; cbn; [auto|f_equal; exact IH]).
    unfold col. rewrite concat_map. clear. induction outer as [|k IH]; cbn; auto. rewrite IH. auto.
  - assert (E : mesh_columns outer (m :: m' :: r) =
      concat (repeat (concat (map (fun v => repeat v (sizes_prod (m' :: r))) m)) outer)
        :: mesh_columns (outer * length m) (m' :: r)) by reflexivity.
    rewrite E. assert (E2 : forall c, cat_columns (c :: mesh_columns (outer * length m) (m' :: r))
      = hcat (col c) (cat_columns (mesh_columns (outer * length m) (m' :: r)))) by reflexivity.
    rewrite E2, IH by discriminate. rewrite concat_repeat_mul, hcat_repeat.
    + f_equal. f_equal. rewrite <- cartesian_length. rewrite block. auto.
    + rewrite concat_repeat_length, cartesian_length. generalize (sizes_prod (m' :: r)). intros k. clear.
      induction m as [|v m IH]; cbn; auto. rewrite app_length, repeat_length, IH. auto.
Qed.
Lemma cartesian_in : forall ms x, In x (cartesian ms) <-> Forall2 (fun v m => In v m) x ms.
Proof.
  induction ms as [|m r IH]; intros x; cbn [cartesian].
  - split.
    + intros [ <- | [] ]. constructor.
    + intros H. inversion H. left. auto.
  - rewrite in_concat. split.
    + intros (l & Hl & Hx). apply in_map_iff in Hl. destruct Hl as (v & <- & Hv).
      apply in_map_iff in Hx. destruct Hx as (y & <- & Hy). constructor; auto. apply IH. auto.
    + intros H. inversion H as [|v m0 y r0 Hv Hy]; subst. exists (map (cons v) (cartesian r)). split.
      * apply in_map_iff. exists v. auto.
      * apply in_map. apply IH. auto.
Qed.
Lemma cartesian_nodup : forall ms, Forall (@NoDup R) ms -> NoDup (cartesian ms).
Proof.
  induction ms as [|m r IH]; intros F; cbn [cartesian]; [repeat constructor; auto|].
  assert (Nr := IH (Forall_inv_tail F)). assert (Nm := Forall_inv F).
  induction Nm as [|v m Hv Nm IHm]; cbn [map concat]; [constructor|].
  assert (G : forall a b : mat, NoDup a -> NoDup b -> (forall x, In x a -> ~ In x b) -> NoDup (a ++ b)).
  { clear. induction a as [|x a IH]; intros b Na Nb H; cbn; auto. inversion Na as [|y l Hx Na']; subst. constructor.
    - rewrite in_app_iff. intros [K|K]; [contradiction|]. apply (H x); auto. left. auto.
    - apply IH; auto. intros y Hy. apply H. right. auto. }
  apply G.
  - clear - Nr. induction Nr as [|x l Hx Nl IH]; cbn; constructor; auto.
    intros K. apply in_map_iff in K. destruct K as (y & E & Hy). injection E as ->. contradiction.
  - apply IHm. constructor; [auto|exact (Forall_inv_tail F)].
  - intros x Hx K. apply in_map_iff in Hx. destruct Hx as (y & <- & Hy).
    apply in_concat in K. destruct K as (l & Hl & K). apply in_map_iff in Hl. destruct Hl as (w & <- & Hw).
    apply in_map_iff in K. destruct K as (z & E & _). injection E as -> _. contradiction.
Qed.
Lemma linspace_length : forall a b n, length (linspace a b n) = n.
Proof. intros a b [|[|n]]; auto. unfold linspace. rewrite map_length, seq_length. auto. Qed.
Lemma linspace_in : forall a b n x, In x (linspace a b n) <-> grid_point a b n x.
Proof.
  intros a b [|[|n]] x; unfold grid_point.
  - cbn. split; [tauto|]. intros (i & Hi & _). lia.
  - cbn [linspace In]. split.
    + intros [ <- | [] ]. exists O. split; [lia|]. left. auto.
    + intros (i & Hi & [[_ ->]|[K _]]); [left; auto|lia].
  - unfold linspace. rewrite in_map_iff. replace (S (S n) - 1)%nat with (S n) by lia. 
    assert (P : INR (S n) <> 0) by (apply not_0_INR; lia). split.
    + intros (i & E & Hi). apply in_seq in Hi. exists i. split; [lia|]. right. split; [lia|]. rewrite <- E. field. auto.
    + intros (i & Hi & [[K _]|[_ E]]); [lia|]. exists i. split; [|apply in_seq; lia]. rewrite E. field. auto.
Qed.
Lemma linspace_nodup : forall a b n, a <> b \/ (n <= 1)%nat -> NoDup (linspace a b n).
Proof.
  intros a b [|[|n]] H; [constructor|repeat constructor; auto|]. destruct H as [H|H]; [|lia].
  unfold linspace. assert (P : INR (S n) <> 0) by (apply not_0_INR; lia).
  assert (G : forall l, NoDup l -> NoDup (map (fun i => a + INR i * ((b - a) / INR (S n))) l)).
  { induction l as [|i l IH]; intros N; cbn [map]; [constructor|]. inversion N as [|j k Hi Nl]; subst. constructor; auto.
    intros K. apply in_map_iff in K. destruct K as (j & E & Hj). assert (E' : INR j = INR i).
    { apply (Rmult_eq_reg_r ((b - a) / INR (S n))); [lra|]. unfold Rdiv. intros Z. apply Rmult_integral in Z.
      destruct Z as [Z|Z]; [lra|]. revert Z. apply Rinv_neq_0_compat. auto. }
    apply INR_eq in E'. subst. contradiction. }
  apply G, seq_NoDup.
Qed.
Lemma linspaces_lengths : forall lo up ns, length lo = length ns -> length up = length ns ->
  map (@length R) (linspaces lo up ns) = ns.
Proof.
  induction lo as [|a lo IH]; intros [|b up] [|n ns] L1 L2; try discriminate; auto. cbn [linspaces map].
  rewrite linspace_length, IH; auto.
Qed.
Lemma linspaces_in : forall lo up ns x, length lo = length ns -> length up = length ns ->
  Forall2 (fun v m => In v m) x (linspaces lo up ns) <-> grid_points lo up ns x.
Proof.
  induction lo as [|a lo IH]; intros [|b up] [|n ns] x L1 L2; try discriminate; cbn [linspaces].
  - split; intros H; inversion H; constructor.
  - split; intros H; inversion H; subst; constructor.
    + apply linspace_in. auto.
    + apply IH; auto.
    + apply linspace_in. auto.
    + apply IH; auto.
Qed.
Lemma mesh_ok : forall lo up ns, length lo = length ns -> length up = length ns -> ns <> [] ->
  exists M, get_meshgrid_samples lo up ns = Some M /\
    M = cartesian (linspaces lo up ns) /\
    length M = fold_right Nat.mul 1%nat ns /\
    (forall x, In x M <-> grid_points lo up ns x) /\
    (Forall2 (fun p n => fst p <> snd p \/ (n <= 1)%nat) (combine lo up) ns -> NoDup M).
Proof.
  intros lo up ns L1 L2 H. exists (cartesian (linspaces lo up ns)). unfold get_meshgrid_samples.
  rewrite L1, L2, !Nat.eqb_refl. assert (P : (0 < length ns)%nat) by (destruct ns; [contradiction|cbn; lia]).
  apply Nat.ltb_lt in P. rewrite P. cbn [andb check]. split; [|split; [auto|split; [|split]]].
  - rewrite columns_cartesian.
    + cbn [repeat concat]. rewrite app_nil_r. auto.
    + destruct lo, up, ns; try discriminate; contradiction.
  - rewrite cartesian_length. unfold sizes_prod. rewrite linspaces_lengths by auto. auto.
  - intros x. rewrite cartesian_in. apply linspaces_in; auto.
  - intros F. apply cartesian_nodup. clear P H. revert up ns L1 L2 F.
    induction lo as [|a lo IH]; intros [|b up] [|n ns] L1 L2 F; try discriminate; cbn [linspaces]; constructor.
    + apply linspace_nodup. cbn [combine] in F. apply F2_cons in F. apply F.
    + cbn [combine] in F. apply F2_cons in F. apply IH; auto. apply F.
Qed.
Lemma mesh_case : exists M, get_meshgrid_samples [0; -1] [1; 1] [2; 3]%nat = Some M /\ length M = 6%nat /\ NoDup M /\
  In [1; 0] M.
Proof.
  destruct (mesh_ok [0; -1] [1; 1] [2; 3]%nat) as (M & E & _ & L & I1 & N); auto; [discriminate|].
  exists M. split; auto. split; auto. split.
  - apply N. cbn [combine]. constructor; [left; cbn; lra|]. constructor; [left; cbn; lra|constructor].
  - apply I1. constructor; [|constructor; [|constructor]].
    + exists 1%nat. split; [lia|]. right. split; [lia|]. cbn. lra.
    + exists 1%nat. split; [lia|]. right. split; [lia|]. cbn. lra.
Qed.

(** ** The Minkowski sum *)
Lemma minkowski_same : forall x y, minkowski_tiled x y = minkowski_sum x y.
Proof.
  intros x y. unfold minkowski_tiled, minkowski_sum. induction x as [|a x IH]; cbn [length repeat concat map]; auto.
  etransitivity; [apply map2_app2; symmetry; apply repeat_length|]. f_equal; [|exact IH]. clear.
  induction y as [|b y IH]; cbn; auto. rewrite IH. auto.
Qed.
Lemma nth_block : forall (A B : Type) (f : A -> B -> A) (x : list B) (y : list A) i j d e, 
  (j < length y)%nat -> (i < length x)%nat ->
  nth (i * length y + j) (concat (map (fun a => map (fun b => f b a) y) x)) d = f (nth j y d) (nth i x e).
Proof.
  intros A B f x y i j d e Hj. revert i. induction x as [|a x IH]; intros i Hi; [cbn in Hi; lia|].
  cbn [map concat]. destruct i as [|i].
  - cbn [Nat.mul Nat.add nth]. rewrite app_nth1 by (rewrite map_length; auto).
    rewrite (nth_indep _ d (f d a)) by (rewrite map_length; auto). rewrite (map_nth (fun b => f b a)). auto.
  - rewrite app_nth2; rewrite map_length; [|lia].
    replace (S i * length y + j - length y)%nat with (i * length y + j)%nat by lia. rewrite IH; [auto|cbn in Hi; lia].
Qed.
Lemma vadd_sym : forall a b, vadd a b = vadd b a.
Proof. induction a as [|x a IH]; intros [|y b]; cbn; auto. unfold vadd in IH. rewrite IH, Rplus_comm. auto. Qed.
Lemma minkowski_ok : forall x y, length (minkowski_tiled x y) = (length x * length y)%nat /\
  forall i j, (i < length x)%nat -> (j < length y)%nat ->
  nth (i * length y + j) (minkowski_tiled x y) [] = vadd (nth i x []) (nth j y []).
Proof.
  intros x y. rewrite minkowski_same. split.
  - unfold minkowski_sum. induction x as [|a x IH]; cbn [map concat length Nat.mul]; auto.
    rewrite app_length, map_length. f_equal. exact IH.
  - intros i j Hi Hj. unfold minkowski_sum.
    etransitivity; [exact (nth_block vec vec (fun b a => vadd b a) x y i j [] [] Hj Hi)|]. apply vadd_sym.
Qed.
