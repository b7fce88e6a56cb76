(** Proofs about the parameterisations of R. *)

Require Import Reals List Bool Arith Lra Lia.
Require Import Verif.Vec Verif.VecFacts Verif.ModelMilp Verif.ModelROptions Verif.SpecROptions
  Verif.SpecLyapunov Verif.ProofGrad Verif.ProofMilp Verif.ProofPattern Verif.ProofBounds.
Import ListNotations.
Open Scope R_scope.

(** ** Shapes *)

Lemma check_inv : forall {A} b (k : option A) v, check b k = Some v -> b = true /\ k = Some v.
Proof. intros A [] k v H; [auto|discriminate]. Qed.
Lemma has_shape_wfm : forall m n A, has_shape m n A = true <-> wfm m n A.
Proof.
  intros m n A. unfold has_shape, wfm. rewrite andb_true_iff, Nat.eqb_eq, forallb_forall, Forall_forall.
  split; intros [H1 H2]; split; auto; intros r Hr; apply Nat.eqb_eq; auto.
Qed.
Lemma chunks_wf : forall m n v, length v = (m * n)%nat -> wfm m n (chunks m n v).
Proof.
  induction m as [|m IH]; intros n v L; cbn [chunks]; [split; auto|].
  assert (L' : length (skipn n v) = (m * n)%nat) by (rewrite skipn_length; lia).
  destruct (IH n _ L') as [H1 H2]. split; [cbn; lia|]. constructor; auto. rewrite firstn_length. lia.
Qed.
Lemma chunks_concat : forall n (A : mat), Forall (fun r => length r = n) A ->
  chunks (length A) n (concat A) = A.
Proof.
  induction A as [|r A IH]; intros F; auto. assert (F1 : length r = n) by exact (Forall_inv F).
  assert (F2 := Forall_inv_tail F). cbn [length chunks concat].
  rewrite firstn_app, skipn_app, F1, Nat.sub_diag, firstn_all2, skipn_all2 by lia.
  cbn [firstn skipn app]. rewrite app_nil_r, IH by auto. auto.
Qed.
Lemma concat_length : forall n (A : mat), Forall (fun r => length r = n) A ->
  length (concat A) = (length A * n)%nat.
Proof.
  induction A as [|r A IH]; intros F; auto. cbn [concat length]. rewrite app_length, IH.
  - rewrite (Forall_inv F). lia.
  - exact (Forall_inv_tail F).
Qed.
Lemma split_at_sizes : forall sizes v, length v = list_sum sizes ->
  Forall2 (fun s p => length p = s) sizes (split_at sizes v).
Proof.
  induction sizes as [|s r IH]; intros v L; cbn [split_at list_sum fold_right] in *; constructor.
  - rewrite firstn_length. lia.
  - apply IH. rewrite skipn_length. unfold list_sum. lia.
Qed.
Lemma split_at_concat : forall ps, split_at (map (@length R) ps) (concat ps) = ps.
Proof.
  induction ps as [|p ps IH]; auto. cbn [map split_at concat].
  rewrite firstn_app, skipn_app, Nat.sub_diag, firstn_all2, skipn_all2 by lia.
  cbn [firstn skipn app]. rewrite app_nil_r, IH. auto.
Qed.

Lemma rev_seq1 : forall n, rev (seq 1 n) = map (fun i => (n - i)%nat) (seq 0 n).
Proof.
  intros n. apply nth_ext with O O.
  - rewrite rev_length, map_length, !seq_length. auto.
  - rewrite rev_length, seq_length. intros i Hi. rewrite rev_nth by (rewrite seq_length; auto).
    rewrite seq_length, seq_nth by lia.
    rewrite (nth_indep _ O (n - O)%nat) by (rewrite map_length, seq_length; auto).
    rewrite (map_nth (fun i => (n - i)%nat)), seq_nth by auto. lia.
Qed.
Lemma list_sum_seq1 : forall n, (2 * list_sum (seq 1 n) = n * (n + 1))%nat.
Proof.
  induction n as [|n IH]; auto. rewrite seq_S, list_sum_app. change (list_sum [(1 + n)%nat]) with (1 + n + 0)%nat. lia.
Qed.
Lemma list_sum_rev : forall l, list_sum (rev l) = list_sum l.
Proof.
  induction l as [|a l IH]; auto. cbn [rev]. rewrite list_sum_app, IH. change (list_sum [a]) with (a + 0)%nat. change (list_sum (a :: l)) with (a + list_sum l)%nat. lia.
Qed.
Lemma tri_sum : forall n, list_sum (rev (seq 1 n)) = tri n.
Proof.
  intros n. rewrite list_sum_rev. unfold tri. rewrite <- list_sum_seq1, Nat.mul_comm, Nat.div_mul; [auto|discriminate].
Qed.

(** ** Transpose *)

Lemma nth_transpose : forall n A i j, (j < n)%nat -> (i < length A)%nat ->
  nth i (nth j (transpose n A) []) 0 = nth j (nth i A []) 0.
Proof.
  intros n A i j Hj Hi. unfold transpose.
  rewrite (nth_indep _ [] (map (fun r => nth O r 0) A)) by (rewrite map_length, seq_length; auto).
  rewrite (map_nth (fun j => map (fun r => nth j r 0) A)), seq_nth by auto. cbn [Nat.add].
  rewrite (nth_indep _ 0 (nth j [] 0)) by (rewrite map_length; auto).
  rewrite (map_nth (fun r => nth j r 0)). auto.
Qed.
Lemma mat_ext : forall m n (A B : mat), wfm m n A -> wfm m n B ->
  (forall i j, (i < m)%nat -> (j < n)%nat -> nth j (nth i A []) 0 = nth j (nth i B []) 0) -> A = B.
Proof.
  intros m n A B WA WB H. apply nth_ext with [] []; [destruct WA, WB; congruence|].
  intros i Hi. assert (Hi' : (i < m)%nat) by (destruct WA; lia).
  assert (E1 := wfm_row _ _ _ _ WA Hi'). assert (E2 := wfm_row _ _ _ _ WB Hi').
  apply vec_ext; [congruence|]. intros j Hj. apply H; lia.
Qed.
Lemma transpose_wfm : forall m n A, wfm m n A -> wfm n m (transpose n A).
Proof. intros m n A [<- _]. apply transpose_wf. Qed.
Lemma transpose_twice : forall m n A, wfm m n A -> transpose m (transpose n A) = A.
Proof.
  intros m n A W. assert (W1 := transpose_wfm _ _ _ W). assert (W2 := transpose_wfm _ _ _ W1).
  apply (mat_ext m n); auto. intros i j Hi Hj.
  rewrite nth_transpose; [|auto|destruct W1; lia]. rewrite nth_transpose; auto. destruct W; lia.
Qed.
Lemma dot_transpose : forall m n A x y, wfm m n A -> length x = n -> length y = m ->
  dot x (mv (transpose n A) y) = dot (mv A x) y.
Proof.
  intros m n A x y W Lx Ly. rewrite <- (vm_transpose n m A x W Lx). rewrite vm_dot; auto.
  exact (proj2 (transpose_wfm _ _ _ W)).
Qed.

(** ** Squared length *)

Lemma sqnorm_nonneg : forall x, 0 <= sqnorm x.
Proof.
  unfold sqnorm. induction x as [|a x IH]; cbn [dot]; [lra|]. pose proof (Rle_0_sqr a) as S.
  unfold Rsqr in S. lra.
Qed.
Lemma sqnorm_zero : forall x, sqnorm x = 0 -> x = zeros (length x).
Proof.
  induction x as [|a x IH]; intros H; auto. unfold sqnorm in *. cbn [dot] in H.
  pose proof (sqnorm_nonneg x) as P. unfold sqnorm in P. pose proof (Rle_0_sqr a) as S. unfold Rsqr in S.
  assert (E : a * a = 0) by lra. apply Rmult_integral in E.
  cbn [length]. change (zeros (Datatypes.S (length x))) with (0 :: zeros (length x)).
  rewrite <- IH by lra. f_equal. tauto.
Qed.
Lemma sqnorm_app : forall a b, sqnorm (a ++ b) = sqnorm a + sqnorm b.
Proof. intros a b. unfold sqnorm. apply dot_app. auto. Qed.

Lemma rank_of_bound : forall n M k, 0 < k -> wfm (length M) n M ->
  (forall x, length x = n -> k * k * sqnorm x <= sqnorm (mv M x)) -> full_column_rank n M.
Proof.
  intros n M k Hk W H x L E. specialize (H x L). rewrite E in H. unfold sqnorm at 2 in H.
  rewrite dot_zeros_l in H. rewrite <- L. apply sqnorm_zero.
  pose proof (sqnorm_nonneg x). assert (0 < k * k) by nra. nra.
Qed.

(** ** The SPD parameterisation *)

Definition spd_state (o : spd) : Prop :=
  (spd_n o <= spd_m o)%nat /\ 0 < spd_eps o /\
  length (spd_vars o) = (tri (spd_n o) + (spd_m o - spd_n o) * spd_n o)%nat.

Definition pieces (o : spd) : list vec :=
  split_at (rev (seq 1 (spd_n o))) (firstn (tri (spd_n o)) (spd_vars o)).
Definition Lt_rows (n : nat) (ps : list vec) : mat := map2 (fun i p => zeros i ++ p) (seq 0 n) ps.

Lemma padded_rows : forall n l (ps : list vec), Forall (fun i => (i <= n)%nat) l ->
  Forall2 (fun s (p : vec) => length p = s) (map (fun i => (n - i)%nat) l) ps ->
  Forall (fun r => length r = n) (map2 (fun i (p : vec) => zeros i ++ p) l ps).
Proof.
  intros n. induction l as [|i l IH]; intros ps B F; [constructor|].
  assert (Hi : (i <= n)%nat) by exact (Forall_inv B).
  cbn [map] in F. inversion F as [|s p ss ps' Hp Fp]. subst s ss ps. cbn [map2]. constructor.
  - rewrite app_length, zeros_length, Hp. lia.
  - apply IH; auto. exact (Forall_inv_tail B).
Qed.
Lemma lt_rows_wf : forall n ps, Forall2 (fun s (p : vec) => length p = s) (rev (seq 1 n)) ps ->
  wfm n n (Lt_rows n ps).
Proof.
  intros n ps F. rewrite rev_seq1 in F.
  assert (L : length ps = n).
  { apply Forall2_len in F. rewrite map_length, seq_length in F. auto. }
  unfold Lt_rows. split; [rewrite map2_length, seq_length; unfold vec in *; lia|].
  apply padded_rows; auto. apply Forall_forall. intros i Hi. apply in_seq in Hi. lia.
Qed.

Lemma pieces_sizes : forall o, spd_state o ->
  Forall2 (fun s (p : vec) => length p = s) (rev (seq 1 (spd_n o))) (pieces o).
Proof.
  intros o (H1 & H2 & H3). apply split_at_sizes. rewrite tri_sum, firstn_length. apply Nat.min_l. rewrite H3. apply Nat.le_add_r.
Qed.
Lemma spd_L_eq : forall o, spd_state o ->
  spd_L o = Some (transpose (spd_n o) (Lt_rows (spd_n o) (pieces o))).
Proof.
  intros o St. assert (F := pieces_sizes o St). assert (W := lt_rows_wf _ _ F).
  destruct St as (H1 & H2 & H3). unfold spd_L, split, check.
  rewrite tri_sum, firstn_length. rewrite Nat.min_l by (rewrite H3; apply Nat.le_add_r). rewrite Nat.eqb_refl.
  unfold reshape, check. fold (pieces o).
  change (map2 (fun (i : nat) (p : list R) => zeros i ++ p) (seq 0 (spd_n o)) (pieces o))
    with (Lt_rows (spd_n o) (pieces o)).
  destruct W as [W1 W2]. assert (LC := concat_length _ _ W2). rewrite W1 in LC.
  rewrite LC, Nat.eqb_refl. do 2 f_equal.
  rewrite <- W1 at 1. apply chunks_concat. auto.
Qed.

Definition spd_bottom (o : spd) : mat :=
  chunks (spd_m o - spd_n o) (spd_n o) (skipn (tri (spd_n o)) (spd_vars o)).
Lemma spd_R_eq : forall o, spd_state o ->
  let L := transpose (spd_n o) (Lt_rows (spd_n o) (pieces o)) in
  spd_R o = Some (madd (mm (spd_n o) L (transpose (spd_n o) L)) (eyek (spd_n o) (spd_eps o))
                  ++ spd_bottom o).
Proof.
  intros o St L. unfold spd_R. rewrite (spd_L_eq o St). destruct St as (H1 & H2 & H3).
  unfold reshape, check. rewrite skipn_length, H3.
  replace (tri (spd_n o) + (spd_m o - spd_n o) * spd_n o - tri (spd_n o))%nat
    with ((spd_m o - spd_n o) * spd_n o)%nat by (rewrite Nat.add_comm; symmetry; apply Nat.add_sub).
  rewrite Nat.eqb_refl. auto.
Qed.

Lemma madd_wf : forall m n A B, wfm m n A -> wfm m n B -> wfm m n (madd A B).
Proof.
  intros m n A B [H1 H2] [H3 H4]. unfold madd. split; [rewrite map2_length; unfold mat, vec in *; lia|].
  clear H1 H3. revert B H4. induction A as [|a A IH]; intros [|b B] H4; try (constructor; fail).
  cbn [map2]. constructor.
  - rewrite vadd_length; [exact (Forall_inv H2)|]. 
    rewrite (Forall_inv H2), (Forall_inv H4). auto.
  - apply IH; [exact (Forall_inv_tail H2)|exact (Forall_inv_tail H4)].
Qed.

Lemma gram_bound : forall n L eps x, wfm n n L -> 0 < eps -> length x = n ->
  eps * sqnorm x <= dot x (mv (madd (mm n L (transpose n L)) (eyek n eps)) x).
Proof.
  intros n L eps x W He Lx. assert (WT := transpose_wfm _ _ _ W).
  assert (WM := wfm_mm _ _ _ _ _ W WT). assert (WE := wfm_eyek n eps).
  rewrite mv_madd.
  - rewrite mv_mm, mv_eyek by (auto; apply WT).
    rewrite dot_vadd_r by (rewrite mv_length, vscale_length; destruct W; lia).
    rewrite dot_vscale_r.
    assert (E : dot x (mv L (mv (transpose n L) x)) = sqnorm (mv (transpose n L) x)).
    { rewrite <- (transpose_twice n n L W) at 1. apply (dot_transpose n n); auto.
      rewrite mv_length. apply WT. }
    rewrite E. pose proof (sqnorm_nonneg (mv (transpose n L) x)). unfold sqnorm at 1. lra.
  - destruct WM, WE. lia.
  - destruct WM, WE. apply Forall2_same_len with n; auto; congruence.
Qed.

Lemma spd_R_wf : forall o, spd_state o -> exists top,
  spd_R o = Some (top ++ spd_bottom o) /\ wfm (spd_n o) (spd_n o) top /\
  wfm (spd_m o - spd_n o) (spd_n o) (spd_bottom o) /\
  forall x, length x = spd_n o -> spd_eps o * sqnorm x <= dot x (mv top x).
Proof.
  intros o St. assert (F := pieces_sizes o St). assert (W := lt_rows_wf _ _ F).
  assert (WL := transpose_wfm _ _ _ W).
  eexists. split; [apply (spd_R_eq o St)|]. cbv zeta. split; [|split].
  - apply madd_wf; [|apply wfm_eyek]. eapply wfm_mm; [exact WL|]. apply transpose_wfm. exact WL.
  - destruct St as (H1 & H2 & H3). apply chunks_wf. rewrite skipn_length, H3.
    rewrite Nat.add_comm. apply Nat.add_sub.
  - intros x Lx. apply gram_bound; auto. apply St.
Qed.

(** |R x| >= eps |x| *)
Lemma spd_norm : forall o, spd_state o -> exists M, spd_R o = Some M /\ wfm (spd_m o) (spd_n o) M /\
  (forall x, length x = spd_n o -> spd_eps o * sqnorm x <= dot x (mv (firstn (spd_n o) M) x)) /\
  forall x, length x = spd_n o -> spd_eps o * spd_eps o * sqnorm x <= sqnorm (mv M x).
Proof.
  intros o St. destruct (spd_R_wf o St) as (top & E & W1 & W2 & H).
  exists (top ++ spd_bottom o). split; auto. split; [|split].
  - replace (spd_m o) with (spd_n o + (spd_m o - spd_n o))%nat by (destruct St; lia).
    apply wfm_app; auto.
  - intros x Lx. rewrite firstn_app. replace (spd_n o - length top)%nat with O by (destruct W1; lia).
    rewrite firstn_all2 by (destruct W1; lia). cbn [firstn]. rewrite app_nil_r. auto.
  - intros x Lx. rewrite mv_app, sqnorm_app. specialize (H x Lx).
    pose proof (sqnorm_nonneg (mv (spd_bottom o) x)). destruct St as (_ & He & _).
    assert (Ly : length (mv top x) = spd_n o) by (rewrite mv_length; apply W1).
    revert H Ly. generalize (mv top x) as y. intros y H Ly.
    pose proof (sqnorm_nonneg (vsub y (vscale (spd_eps o) x))) as P.
    unfold sqnorm in P at 1.
    rewrite dot_vsub_l in P by (rewrite vscale_length; congruence).
    rewrite !dot_vsub_r in P by (rewrite vscale_length; congruence).
    rewrite !dot_vscale_l, !dot_vscale_r, (dot_comm y x) in P. unfold sqnorm in *.
    assert (spd_eps o * (spd_eps o * dot x x) <= spd_eps o * dot x y)
      by (apply Rmult_le_compat_l; lra).
    lra.
Qed.


(** ** Writing the variables *)

Lemma splice_app : forall (d p r : vec), (length p <= length r)%nat ->
  splice (length d) p (d ++ r) = (d ++ p) ++ skipn (length p) r.
Proof.
  intros d p r H. unfold splice. rewrite firstn_app, Nat.sub_diag, firstn_all. cbn [firstn].
  rewrite app_nil_r, <- app_assoc. do 2 f_equal.
  rewrite skipn_app, skipn_all2 by lia. cbn [app]. f_equal. lia.
Qed.
Lemma write_fold : forall (size : nat -> nat) (piece : nat -> vec) l d r,
  Forall (fun i => length (piece i) = size i) l ->
  (list_sum (map size l) <= length r)%nat ->
  fold_left (fun cv i => ((fst cv + size i)%nat, splice (fst cv) (piece i) (snd cv))) l
    (length d, d ++ r)
  = ((length d + list_sum (map size l))%nat,
     (d ++ concat (map piece l)) ++ skipn (list_sum (map size l)) r).
Proof.
  intros size piece. induction l as [|i l IH]; intros d r F H.
  - cbn. rewrite app_nil_r, Nat.add_0_r. auto.
  - cbn [fold_left fst snd map concat]. assert (Fi : length (piece i) = size i) by exact (Forall_inv F).
    change (list_sum (map size (i :: l))) with (size i + list_sum (map size l))%nat in H.
    change (list_sum (size i :: map size l)) with (size i + list_sum (map size l))%nat.
    rewrite splice_app by lia. rewrite <- Fi, <- app_length. rewrite IH.
    + rewrite app_length, <- app_assoc, skipn_skipn'. f_equal; [lia|]. 
      rewrite !app_assoc. auto.
    + exact (Forall_inv_tail F).
    + rewrite skipn_length. lia.
Qed.
Definition lower_column (L : mat) (i : nat) : vec := map (fun r => nth i r 0) (skipn i L).
Lemma write_columns_eq : forall n L v, wfm n n L -> (tri n <= length v)%nat ->
  write_columns n L v = (tri n, concat (map (lower_column L) (seq 0 n)) ++ skipn (tri n) v).
Proof.
  intros n L v W H. unfold write_columns.
  assert (Et : list_sum (map (fun i => (n - i)%nat) (seq 0 n)) = tri n).
  { rewrite <- rev_seq1. apply tri_sum. }
  assert (K := write_fold (fun i => (n - i)%nat) (lower_column L) (seq 0 n) [] v).
  cbn [app length] in K. rewrite Et in K. apply K; auto.
  apply Forall_forall. intros i Hi. apply in_seq in Hi. unfold lower_column.
  rewrite map_length, skipn_length. destruct W as [W _]. rewrite W. auto.
Qed.
Lemma lower_concat_length : forall n L, wfm n n L ->
  length (concat (map (lower_column L) (seq 0 n))) = tri n.
Proof.
  intros n L [W _]. rewrite <- tri_sum, rev_seq1. generalize (seq 0 n) as l.
  induction l as [|i l IH]; auto. cbn [map concat]. rewrite app_length, IH.
  change (list_sum ((n - i)%nat :: map (fun i0 => (n - i0)%nat) l))
    with ((n - i) + list_sum (map (fun i0 => (n - i0)%nat) l))%nat.
  f_equal. unfold lower_column. rewrite map_length, skipn_length. unfold mat, vec in *. lia.
Qed.

Lemma top_wf : forall m n Rv, (n <= m)%nat -> wfm m n Rv -> wfm n n (firstn n Rv).
Proof.
  intros m n Rv H [W1 W2]. split; [rewrite firstn_length; unfold mat, vec in *; lia|].
  apply Forall_forall. intros r Hr. rewrite Forall_forall in W2. apply W2.
  rewrite <- (firstn_skipn n Rv). apply in_or_app. auto.
Qed.
Lemma bottom_wf : forall m n Rv, (n <= m)%nat -> wfm m n Rv -> wfm (m - n) n (skipn n Rv).
Proof.
  intros m n Rv H [W1 W2]. split; [rewrite skipn_length; unfold mat, vec in *; lia|].
  apply Forall_forall. intros r Hr. rewrite Forall_forall in W2. apply W2.
  rewrite <- (firstn_skipn n Rv). apply in_or_app. auto.
Qed.
Lemma half_wf : forall n A k, wfm n n A -> wfm n n (map (vscale k) A).
Proof.
  intros n A k [W1 W2]. split; [rewrite map_length; auto|]. apply Forall_map.
  eapply Forall_impl; [|exact W2]. intros a Ha. rewrite vscale_length. auto.
Qed.

Definition sym_top (n : nat) (Rv : mat) : mat :=
  map (vscale (/ 2)) (madd (firstn n Rv) (transpose n (firstn n Rv))).
Lemma sym_top_wf : forall m n Rv, (n <= m)%nat -> wfm m n Rv -> wfm n n (sym_top n Rv).
Proof.
  intros m n Rv H W. assert (WT := top_wf _ _ _ H W). apply half_wf. apply madd_wf; auto.
  apply transpose_wfm. auto.
Qed.

Lemma spd_set_eq : forall cholesky o junk Rv o', cholesky_ok cholesky -> spd_state o ->
  length junk = length (spd_vars o) -> spd_set cholesky junk o Rv = Some o' ->
  wfm (spd_m o) (spd_n o) Rv /\ exists L,
  is_cholesky (spd_n o) (madd (sym_top (spd_n o) Rv) (eyek (spd_n o) (- spd_eps o))) L /\
  o' = mkSpd (spd_m o) (spd_n o) (spd_eps o)
         (concat (map (lower_column L) (seq 0 (spd_n o))) ++ concat (skipn (spd_n o) Rv)).
Proof.
  intros cholesky o junk Rv o' C (H1 & H2 & H3) J E. unfold spd_set in E.
  apply check_inv in E. destruct E as [B E]. apply has_shape_wfm in B. split; auto.
  fold (sym_top (spd_n o) Rv) in E.
  destruct (cholesky (madd (sym_top (spd_n o) Rv) (eyek (spd_n o) (- spd_eps o)))) as [L|] eqn:EC;
    [|discriminate].
  assert (IC : is_cholesky (spd_n o) (madd (sym_top (spd_n o) Rv) (eyek (spd_n o) (- spd_eps o))) L).
  { apply C; auto. apply madd_wf; [|apply wfm_eyek]. eapply sym_top_wf; eauto. }
  exists L. split; auto. assert (WL : wfm (spd_n o) (spd_n o) L) by apply IC.
  assert (Jl : length (firstn (length (spd_vars o)) junk) = length (spd_vars o)).
  { rewrite firstn_length. unfold vec in *. lia. }
  rewrite write_columns_eq in E; [|auto|rewrite Jl, H3; apply Nat.le_add_r].
  apply Some_inj in E. subst o'. f_equal.
  assert (Lb : length (concat (skipn (spd_n o) Rv)) = ((spd_m o - spd_n o) * spd_n o)%nat).
  { destruct (bottom_wf _ _ _ H1 B) as [Bl Bw]. rewrite (concat_length _ _ Bw), Bl. auto. }
  assert (Ls : length (skipn (tri (spd_n o)) (firstn (length (spd_vars o)) junk))
               = ((spd_m o - spd_n o) * spd_n o)%nat).
  { rewrite skipn_length, Jl, H3. rewrite Nat.add_comm. apply Nat.add_sub. }
  rewrite <- (lower_concat_length _ _ WL) at 1.
  assert (Le : length (concat (skipn (spd_n o) Rv)) = length (skipn (tri (spd_n o)) (firstn (length (spd_vars o)) junk)))
    by (etransitivity; [exact Lb|symmetry; exact Ls]).
  rewrite splice_app by (apply Nat.eq_le_incl; exact Le).
  rewrite (skipn_all2 (skipn (tri (spd_n o)) (firstn (length (spd_vars o)) junk)))
    by (apply Nat.eq_le_incl; symmetry; exact Le). apply app_nil_r.
Qed.

Lemma spd_made_state : forall cholesky o, cholesky_ok cholesky -> spd_made cholesky o -> spd_state o.
Proof.
  intros cholesky o C H. induction H as [m n eps v o E|o junk Rv o' _ IH J E|o v o' _ IH E].
  - apply check_inv in E. destruct E as [B E]. apply Some_inj in E. subst o.
    apply andb_true_iff in B. destruct B as [B B3]. apply andb_true_iff in B. destruct B as [B1 B2].
    apply Nat.leb_le in B1. apply Nat.eqb_eq in B3. apply Rltb_true in B2. split; auto.
  - destruct (spd_set_eq _ _ _ _ _ C IH J E) as (B & L & IC & ->).
    destruct IH as (H1 & H2 & H3). split; auto. split; auto. cbn [spd_vars spd_m spd_n].
    destruct (bottom_wf _ _ _ H1 B) as [Bl Bw].
    rewrite app_length, (lower_concat_length _ L), (concat_length _ _ Bw), Bl by apply IC. auto.
  - apply check_inv in E. destruct E as [B E]. apply Some_inj in E. subst o'.
    apply Nat.eqb_eq in B. destruct IH as (H1 & H2 & H3). split; auto. split; auto.
    cbn [spd_vars spd_m spd_n]. rewrite B. exact H3.
Qed.

Lemma pieces_lower : forall m n eps L (b : vec), wfm n n L ->
  pieces (mkSpd m n eps (concat (map (lower_column L) (seq 0 n)) ++ b)) = map (lower_column L) (seq 0 n).
Proof.
  intros m n eps L b W. unfold pieces. cbn [spd_n spd_vars].
  rewrite firstn_app. rewrite (lower_concat_length _ _ W), Nat.sub_diag. cbn [firstn].
  rewrite app_nil_r, firstn_all2 by (rewrite lower_concat_length; auto).
  replace (rev (seq 1 n)) with (map (@length R) (map (lower_column L) (seq 0 n))).
  - apply split_at_concat.
  - rewrite rev_seq1, map_map. apply map_ext. intros i. unfold lower_column.
    rewrite map_length, skipn_length. destruct W as [-> _]. auto.
Qed.
Lemma map2_map_r : forall {A B C D} (f : A -> C -> D) (g : B -> C) l r,
  map2 f l (map g r) = map2 (fun a b => f a (g b)) l r.
Proof. induction l; destruct r; cbn; auto. f_equal. auto. Qed.
Lemma map2_diag : forall {A B} (f : A -> A -> B) l, map2 f l l = map (fun a => f a a) l.
Proof. induction l; cbn; auto. f_equal. auto. Qed.
Lemma lower_rows : forall n L, wfm n n L -> (forall i j, (i < j < n)%nat -> nth j (nth i L []) 0 = 0) ->
  Lt_rows n (map (lower_column L) (seq 0 n)) = transpose n L.
Proof.
  intros n L [W1 W2] H. unfold Lt_rows. rewrite map2_map_r, map2_diag. unfold transpose.
  apply map_ext_in. intros i Hi. apply in_seq in Hi. unfold lower_column.
  rewrite <- (firstn_skipn i L) at 2. rewrite map_app. f_equal.
  apply vec_ext.
  - rewrite zeros_length, map_length, firstn_length. unfold mat, vec in *. lia.
  - rewrite zeros_length. intros k Hk. rewrite nth_zeros.
    rewrite (nth_indep _ 0 (nth i [] 0)) by (rewrite map_length, firstn_length; unfold mat, vec in *; lia).
    rewrite (map_nth (fun r => nth i r 0)).
    assert (E : nth k (firstn i L) [] = nth k L []).
    { rewrite <- (firstn_skipn i L) at 2. rewrite app_nth1; auto.
      rewrite firstn_length. unfold mat, vec in *. lia. }
    rewrite E. symmetry. apply H. lia.
Qed.

Lemma nth_map_seq : forall {A} (f : nat -> A) n i d, (i < n)%nat -> nth i (map f (seq 0 n)) d = f i.
Proof.
  intros A f n i d H. rewrite (nth_indep _ d (f O)) by (rewrite map_length, seq_length; auto).
  rewrite map_nth, seq_nth by auto. auto.
Qed.
Lemma wf_idx : forall m n A i, wfm m n A -> (i < m)%nat -> (i < length A)%nat.
Proof. intros m n A i [W _] H. rewrite W. auto. Qed.
Lemma nth_madd : forall m n A B i j, wfm m n A -> wfm m n B -> (i < m)%nat ->
  nth j (nth i (madd A B) []) 0 = nth j (nth i A []) 0 + nth j (nth i B []) 0.
Proof.
  intros m n A B i j WA WB Hi. unfold madd.
  assert (HA : (i < length A)%nat) by (destruct WA as [WA _]; rewrite WA; auto).
  assert (HB : (i < length B)%nat) by (destruct WB as [WB _]; rewrite WB; auto).
  etransitivity; [apply (f_equal (fun r => nth j r 0)); exact (nth_map2 vadd A B i [] [] [] HA HB)|].
  cbv beta. apply nth_vadd. rewrite (wfm_row _ _ _ _ WA Hi), (wfm_row _ _ _ _ WB Hi). auto.
Qed.
Lemma nth_eyek : forall n k i j, (i < n)%nat -> (j < n)%nat ->
  nth j (nth i (eyek n k) []) 0 = if Nat.eqb j i then k else 0.
Proof.
  intros n k i j Hi Hj. unfold eyek.
  rewrite (nth_indep _ [] (unit_row n 0 k)) by (rewrite map_length, seq_length; auto).
  rewrite (map_nth (fun j => unit_row n j k)), seq_nth by auto. apply nth_unit_row. auto.
Qed.

Lemma sym_top_spec : forall m n Rv, (n <= m)%nat -> wfm m n Rv ->
  sym_top n Rv ++ skipn n Rv = symmetrised n Rv.
Proof.
  intros m n Rv H W. unfold symmetrised. f_equal.
  assert (WT := top_wf _ _ _ H W). assert (WS := sym_top_wf _ _ _ H W).
  apply (mat_ext n n); auto.
  - split; [rewrite map_length, seq_length; auto|]. apply Forall_map. apply Forall_forall.
    intros i _. rewrite map_length, seq_length. auto.
  - intros i j Hi Hj. unfold sym_top.
    set (M := madd (firstn n Rv) (transpose n (firstn n Rv))).
    assert (WM : wfm n n M) by (apply madd_wf; auto; apply transpose_wfm; auto).
    rewrite (nth_indep _ [] (vscale (/ 2) [])) by (rewrite map_length; apply (wf_idx _ _ _ _ WM Hi)).
    rewrite (map_nth (vscale (/ 2))), nth_vscale. unfold M.
    rewrite (nth_madd n n) by (auto; apply transpose_wfm; auto).
    rewrite nth_transpose by (auto; apply (wf_idx _ _ _ _ WT Hj)).
    assert (Ef : forall k, (k < n)%nat -> nth k (firstn n Rv) [] = nth k Rv []).
    { intros k Hk. rewrite <- (firstn_skipn n Rv) at 2. rewrite app_nth1; auto. apply (wf_idx _ _ _ _ WT Hk). }
    rewrite !Ef by auto.
    rewrite !nth_map_seq by auto. lra.
Qed.

Lemma spd_roundtrip : forall cholesky o junk Rv o', cholesky_ok cholesky -> spd_made cholesky o ->
  length junk = length (spd_vars o) -> spd_set cholesky junk o Rv = Some o' ->
  spd_R o' = Some (symmetrised (spd_n o) Rv).
Proof.
  intros cholesky o junk Rv o' C Mo J E. assert (St := spd_made_state _ _ C Mo).
  assert (St' := spd_made_state _ _ C (spd_made_set _ _ _ _ _ Mo J E)).
  destruct (spd_set_eq _ _ _ _ _ C St J E) as (B & L & IC & Eo).
  rewrite (spd_R_eq o' St'). cbv zeta. f_equal.
  destruct St as (H1 & H2 & H3). rewrite <- (sym_top_spec _ _ _ H1 B).
  destruct IC as (WL & Lo & EL). subst o'. cbn [spd_n spd_eps].
  rewrite (pieces_lower _ _ _ _ _ WL). rewrite lower_rows by auto.
  rewrite (transpose_twice _ _ _ WL). f_equal.
  - assert (WS := sym_top_wf _ _ _ H1 B). rewrite EL.
    apply (mat_ext (spd_n o) (spd_n o)); auto.
    + apply madd_wf; [|apply wfm_eyek]. apply madd_wf; auto. apply wfm_eyek.
    + intros i j Hi Hj.
      rewrite (nth_madd (spd_n o) (spd_n o));
        [|apply madd_wf; [auto|apply wfm_eyek]|apply wfm_eyek|auto].
      rewrite (nth_madd (spd_n o) (spd_n o)); [|auto|apply wfm_eyek|auto].
      rewrite !nth_eyek by auto. destruct (Nat.eqb j i); lra.
  - unfold spd_bottom. cbn [spd_m spd_n spd_vars].
    destruct (bottom_wf _ _ _ H1 B) as [Bl Bw].
    rewrite skipn_app, (lower_concat_length _ _ WL), Nat.sub_diag. cbn [skipn].
    rewrite skipn_all2 by (rewrite (lower_concat_length _ _ WL); auto). cbn [app].
    rewrite <- Bl at 1. apply chunks_concat. auto.
Qed.

(** ** The SVD parameterisation *)

Definition svd_state (o : svd) : Prop :=
  length (svd_a o) = Nat.min (svd_m o) (svd_n o) /\ Forall (Rlt 0) (svd_a o) /\
  length (svd_vars o) = length (svd_a o) /\
  orthonormal (svd_m o) (svd_U o) /\ orthonormal (svd_n o) (svd_V o).

Lemma eye_transpose : forall n, transpose n (eye n) = eye n.
Proof.
  intros n. assert (W := wfm_eyek n 1). apply (mat_ext n n); auto.
  - apply transpose_wfm. auto.
  - intros i j Hi Hj. rewrite nth_transpose by (auto; apply (wf_idx _ _ _ _ W Hj)).
    unfold eye. rewrite !nth_eyek by auto. rewrite Nat.eqb_sym. auto.
Qed.
Lemma mm_eye_l : forall m n A, wfm m n A -> mm n (eye m) A = A.
Proof.
  intros m n A W. assert (We := wfm_eyek m 1). assert (WM := wfm_mm _ _ _ _ _ We W).
  apply (mat_ext m n); auto. intros i j Hi Hj. unfold mm.
  assert (Lr : length (nth i (eye m) []) = m) by (apply (wfm_row m m); auto).
  rewrite (nth_indep _ [] (vm n [] A)) by (rewrite map_length; apply (wf_idx _ _ _ _ We Hi)).
  rewrite (map_nth (fun r => vm n r A)). rewrite nth_vm by (auto; apply W).
  unfold eye, eyek. rewrite nth_map_seq by auto.
  rewrite dot_unit_row by (auto; rewrite map_length; apply W). rewrite Rmult_1_l.
  rewrite (nth_indep _ 0 (nth j [] 0)) by (rewrite map_length; apply (wf_idx _ _ _ _ W Hi)).
  rewrite (map_nth (fun r => nth j r 0)). auto.
Qed.
Lemma orthonormal_eye : forall n, orthonormal n (eye n).
Proof.
  intros n. split; [apply wfm_eyek|]. rewrite eye_transpose. apply mm_eye_l. apply wfm_eyek.
Qed.
Lemma orthonormal_norm : forall n U x, orthonormal n U -> length x = n ->
  sqnorm (mv U x) = sqnorm x.
Proof.
  intros n U x [W E] L. unfold sqnorm at 1.
  rewrite <- (dot_transpose n n) by (auto; rewrite mv_length; apply W).
  rewrite <- (mv_mm n) by (auto; apply W). rewrite E, mv_eye by auto. auto.
Qed.

Lemma mv_diag : forall s x, length x = length s -> mv (diag s) x = vmul s x.
Proof.
  intros s x L. unfold diag. apply vec_ext.
  - rewrite mv_length, map_length, seq_length, vmul_length; auto.
  - rewrite mv_length, map_length, seq_length. intros i Hi. unfold mv. rewrite map_map.
    rewrite nth_map_seq by auto. rewrite dot_unit_row by auto. unfold vmul.
    rewrite (nth_map2 Rmult s x i 0 0 0); auto. unfold vec in *. lia.
Qed.
Lemma diag_wf : forall s, wfm (length s) (length s) (diag s).
Proof.
  intros s. unfold diag. split; [rewrite map_length, seq_length; auto|].
  apply Forall_map. apply Forall_forall. intros i _. apply unit_row_length.
Qed.
Lemma sigma_wf : forall m n s, length s = Nat.min m n -> wfm m n (svd_sigma m n s).
Proof.
  intros m n s L. unfold svd_sigma. destruct (Nat.ltb_spec n m) as [H|H].
  - replace m with (n + (m - n))%nat at 1 by lia. apply wfm_app; [|apply wfm_zerom].
    rewrite Nat.min_r in L by lia. rewrite <- L. apply diag_wf.
  - destruct (Nat.ltb_spec m n) as [H2|H2].
    + rewrite Nat.min_l in L by lia. assert (W := diag_wf s). rewrite L in W.
      assert (WZ := wfm_zerom m (n - m)). destruct W as [W1 W2], WZ as [Z1 Z2].
      unfold hcat. split; [rewrite map2_length, W1, Z1; lia|].
      clear - W2 Z2 H2. revert Z2. generalize (zerom m (n - m)). revert W2.
      generalize (diag s). induction m0 as [|r A IH]; intros F [|q B] G; try (constructor; fail).
      cbn [map2]. constructor.
      * rewrite app_length, (Forall_inv F), (Forall_inv G). lia.
      * apply IH; [exact (Forall_inv_tail F)|exact (Forall_inv_tail G)].
    + assert (m = n) by lia. subst m. rewrite Nat.min_id in L. rewrite <- L. apply diag_wf.
Qed.
Lemma sqnorm_scaled : forall k s x, 0 <= k -> Forall (Rle k) s -> length x = length s ->
  k * k * sqnorm x <= sqnorm (vmul s x).
Proof.
  intros k s x Hk. unfold sqnorm. revert x. induction s as [|a s IH]; intros [|b x] F L; try discriminate.
  - cbn. lra.
  - cbn [vmul map2 dot]. assert (Ha : k <= a) by exact (Forall_inv F).
    injection L as L. specialize (IH x (Forall_inv_tail F) L). unfold vmul in IH.
    assert (0 <= b * b) by nra. assert (k * k <= a * a) by nra. nra.
Qed.
Lemma sigma_norm : forall m n k s x, (n <= m)%nat -> length s = n -> length x = n -> 0 <= k ->
  Forall (Rle k) s -> k * k * sqnorm x <= sqnorm (mv (svd_sigma m n s) x).
Proof.
  intros m n k s x H Ls Lx Hk F. unfold svd_sigma.
  destruct (Nat.ltb_spec n m) as [H1|H1].
  - rewrite mv_app, sqnorm_app, mv_diag by congruence.
    pose proof (sqnorm_nonneg (mv (zerom (m - n) n) x)).
    pose proof (sqnorm_scaled k s x Hk F ltac:(congruence)). lra.
  - destruct (Nat.ltb_spec m n); [lia|]. rewrite mv_diag by congruence.
    apply sqnorm_scaled; auto. congruence.
Qed.

Lemma svd_made_state : forall factor o, svd_made factor o -> svd_state o.
Proof.
  intros factor o H. induction H as [m n a v o E|o Rv U s V o' _ IH Ef I E|o v o' _ IH E].
  - apply check_inv in E. destruct E as [B E]. apply Some_inj in E. subst o.
    apply andb_true_iff in B. destruct B as [B B3]. apply andb_true_iff in B. destruct B as [B1 B2].
    apply Nat.eqb_eq in B1. apply Nat.eqb_eq in B3. rewrite forallb_forall in B2.
    split; auto. split; [apply Forall_forall; intros x Hx; apply Rltb_true; auto|].
    split; auto. split; apply orthonormal_eye.
  - apply check_inv in E. destruct E as [B E]. rewrite Ef in E. apply check_inv in E.
    destruct E as [B2 E]. apply Some_inj in E. subst o'. destruct IH as (H1 & H2 & H3 & _).
    destruct I as (I1 & I2 & I3 & I4). split; auto. split; auto.
    cbn [svd_vars svd_a svd_m svd_n svd_U svd_V]. split; [|split; auto].
    rewrite map_length, vsub_length; congruence.
  - apply check_inv in E. destruct E as [B E]. apply Some_inj in E. subst o'.
    apply Nat.eqb_eq in B. destruct IH as (H1 & H2 & H3 & H4 & H5). split; auto. split; auto.
    cbn [svd_vars svd_a svd_m svd_n svd_U svd_V]. split; [|split; auto].
    rewrite H1. exact B.
Qed.

Lemma svd_values : forall k a v, length v = length a -> Forall (Rle k) a ->
  Forall (Rle k) (vadd a (map (fun x => x * x) v)).
Proof.
  intros k. induction a as [|b a IH]; intros [|c v] L F; try discriminate; [constructor|].
  cbn [map vadd map2]. constructor.
  - assert (k <= b) by exact (Forall_inv F). assert (0 <= c * c) by nra. lra.
  - apply IH; [auto|exact (Forall_inv_tail F)].
Qed.

Lemma svd_R_wf : forall o, svd_state o -> wfm (svd_m o) (svd_n o) (svd_R o).
Proof.
  intros o (H1 & H2 & H3 & [U1 U2] & [V1 V2]). unfold svd_R.
  eapply wfm_mm; [|exact V1]. eapply wfm_mm; [exact U1|]. apply sigma_wf.
  rewrite vadd_length; rewrite ?map_length; congruence.
Qed.
Lemma svd_norm : forall factor o, svd_made factor o -> wfm (svd_m o) (svd_n o) (svd_R o) /\
  ((svd_n o <= svd_m o)%nat -> forall k, 0 <= k -> Forall (Rle k) (svd_a o) ->
   forall x, length x = svd_n o -> k * k * sqnorm x <= sqnorm (mv (svd_R o) x)).
Proof.
  intros factor o Mo. assert (St := svd_made_state _ _ Mo). split; [apply svd_R_wf; auto|].
  intros Hmn k Hk F x Lx. destruct St as (H1 & H2 & H3 & OU & OV).
  destruct OU as [U1 U2] eqn:EU, OV as [V1 V2] eqn:EV.
  unfold svd_R. set (s := vadd (svd_a o) (map (fun v => v * v) (svd_vars o))).
  assert (Ls : length s = Nat.min (svd_m o) (svd_n o))
    by (unfold s; rewrite vadd_length; rewrite ?map_length; congruence).
  assert (WS := sigma_wf _ _ _ Ls).
  assert (Lv : length (mv (svd_V o) x) = svd_n o) by (rewrite mv_length; apply V1).
  rewrite mv_mm by (auto; apply V1). rewrite mv_mm by (auto; apply WS).
  rewrite (orthonormal_norm (svd_m o)); [|split; auto|rewrite mv_length; apply WS].
  rewrite <- (orthonormal_norm (svd_n o) (svd_V o) x) by (auto; split; auto).
  apply sigma_norm; auto.
  - rewrite Ls. apply Nat.min_r. auto.
  - apply svd_values; auto.
Qed.
Lemma least_positive : forall a, Forall (Rlt 0) a -> exists k, 0 < k /\ Forall (Rle k) a.
Proof.
  induction a as [|b a IH]; intros F; [exists 1; split; [lra|constructor]|].
  destruct (IH (Forall_inv_tail F)) as (k & Hk & Fk). assert (Hb : 0 < b) by exact (Forall_inv F).
  exists (Rmin b k). split; [apply Rmin_glb_lt; auto|]. constructor; [apply Rmin_l|].
  eapply Forall_impl; [|exact Fk]. intros c Hc. eapply Rle_trans; [apply Rmin_r|auto].
Qed.
Lemma svd_rank : forall factor o, svd_made factor o -> (svd_n o <= svd_m o)%nat ->
  full_column_rank (svd_n o) (svd_R o).
Proof.
  intros factor o Mo H. assert (St := svd_made_state _ _ Mo). destruct (svd_norm _ _ Mo) as [W N].
  destruct (least_positive (svd_a o)) as (k & Hk & F); [apply St|].
  apply rank_of_bound with k; auto.
  - rewrite (proj1 W). auto.
  - apply N; auto. lra.
Qed.
Lemma spd_rank : forall cholesky o, cholesky_ok cholesky -> spd_made cholesky o ->
  exists M, spd_R o = Some M /\ wfm (spd_m o) (spd_n o) M /\ full_column_rank (spd_n o) M.
Proof.
  intros cholesky o C Mo. assert (St := spd_made_state _ _ C Mo).
  destruct (spd_norm o St) as (M & E & W & _ & N). exists M. split; auto. split; auto.
  apply rank_of_bound with (spd_eps o); auto.
  - apply St.
  - rewrite (proj1 W). auto.
Qed.
Lemma spd_made_norm : forall cholesky o, cholesky_ok cholesky -> spd_made cholesky o ->
  exists M, spd_R o = Some M /\
  (forall x, length x = spd_n o -> spd_eps o * sqnorm x <= dot x (mv (firstn (spd_n o) M) x)) /\
  forall x, length x = spd_n o -> spd_eps o * spd_eps o * sqnorm x <= sqnorm (mv M x).
Proof.
  intros cholesky o C Mo. destruct (spd_norm o (spd_made_state _ _ C Mo)) as (M & E & W & N1 & N2).
  exists M. auto.
Qed.

Lemma sqrt_back : forall s a, length s = length a ->
  forallb (fun b => b) (map2 (fun x y => Rleb y x) s a) = true ->
  vadd a (map (fun v => v * v) (map sqrt (vsub s a))) = s.
Proof.
  induction s as [|b s IH]; intros [|c a] L B; try discriminate; auto.
  cbn [map2 forallb] in B. apply andb_true_iff in B. destruct B as [B1 B2]. apply Rleb_true in B1.
  cbn [vsub vadd map map2]. f_equal.
  - rewrite sqrt_sqrt; lra.
  - apply IH; auto.
Qed.
Lemma svd_roundtrip : forall factor o Rv U s V o', svd_made factor o -> factor Rv = (U, s, V) ->
  is_svd (svd_m o) (svd_n o) Rv U s V -> svd_set factor o Rv = Some o' -> svd_R o' = Rv.
Proof.
  intros factor o Rv U s V o' Mo Ef I E. assert (St := svd_made_state _ _ Mo).
  unfold svd_set in E. apply check_inv in E. destruct E as [B E]. rewrite Ef in E.
  apply check_inv in E. destruct E as [B2 E]. apply Some_inj in E. subst o'.
  destruct I as (I1 & I2 & I3 & I4). destruct St as (H1 & _).
  unfold svd_R. cbn [svd_vars svd_a svd_m svd_n svd_U svd_V]. rewrite sqrt_back; auto. congruence.
Qed.
(** Setting succeeds exactly when the singular values are large enough. *)
Lemma svd_set_total : forall factor o Rv U s V, wfm (svd_m o) (svd_n o) Rv -> factor Rv = (U, s, V) ->
  vle (svd_a o) s -> exists o', svd_set factor o Rv = Some o'.
Proof.
  intros factor o Rv U s V W Ef H. unfold svd_set. rewrite (proj2 (has_shape_wfm _ _ _) W), Ef.
  unfold check. assert (B : forallb (fun b => b) (map2 (fun x y => Rleb y x) s (svd_a o)) = true).
  { clear - H. induction H; auto. cbn [map2 forallb]. rewrite IHForall2, andb_true_r.
    unfold Rleb. destruct (Rle_dec x y); auto. }
  rewrite B. eauto.
Qed.
Lemma free_roundtrip : forall m n Rv M, free_set m n Rv = Some M -> M = Rv /\ wfm m n Rv.
Proof.
  intros m n Rv M E. apply check_inv in E. destruct E as [B E]. apply Some_inj in E.
  apply has_shape_wfm in B. auto.
Qed.
