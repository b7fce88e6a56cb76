(** Square systems of linear equations without a kernel can be solved. *)

Require Import Reals List Arith Bool Lia Lra.
Require Import Verif.Vec Verif.VecFacts Verif.SpecPlants.
Require Import ClassicalEpsilon.
Import ListNotations.
Open Scope R_scope.

Definition drop_at (j : nat) (l : vec) : vec := firstn j l ++ skipn (S j) l.
Definition insert_at (j : nat) (a : R) (w : vec) : vec := firstn j w ++ a :: skipn j w.

Lemma drop_length : forall j l, (j < length l)%nat -> length (drop_at j l) = (length l - 1)%nat.
Proof. intros. unfold drop_at. rewrite app_length, firstn_length, skipn_length. lia. Qed.
Lemma insert_length : forall j a w, (j <= length w)%nat -> length (insert_at j a w) = S (length w).
Proof. intros. unfold insert_at. rewrite app_length, firstn_length. cbn. rewrite skipn_length. lia. Qed.
Lemma dot_insert : forall j r w a, (j <= length w)%nat -> length r = S (length w) ->
  dot r (insert_at j a w) = dot (drop_at j r) w + nth j r 0 * a.
Proof.
  induction j; intros r w a Hj L.
  - destruct r as [|x r]; [discriminate|]. unfold insert_at, drop_at. cbn. ring.
  - destruct r as [|x r]; [discriminate|]. destruct w as [|y w]; [cbn in Hj; lia|].
    unfold insert_at, drop_at in *. cbn [firstn skipn app dot nth].
    specialize (IHj r w a ltac:(cbn in Hj; lia) ltac:(cbn in L; lia)). cbn [skipn] in IHj. rewrite IHj. ring.
Qed.
Lemma insert_zeros : forall j a w n, (j <= length w)%nat -> insert_at j a w = zeros (S n) -> w = zeros n.
Proof.
  induction j; intros a w n Hj E.
  - unfold insert_at in E. cbn in E. unfold zeros in E. cbn in E. apply (f_equal (@tl R)) in E. cbn in E. exact E.
  - destruct w as [|y w]; [cbn in Hj; lia|]. unfold insert_at in E. cbn [firstn skipn app] in E.
    destruct n.
    + apply (f_equal (@length R)) in E. rewrite zeros_length in E. cbn in E. rewrite app_length in E. cbn in E. lia.
    + unfold zeros in *. cbn [repeat] in E |- *. pose proof (f_equal (hd 0) E) as E1. pose proof (f_equal (@tl R) E) as E2.
      cbn [hd tl] in E1, E2. rewrite E1. f_equal. apply (IHj a); [cbn in Hj; lia|]. exact E2.
Qed.
Lemma nonzero_entry : forall r : vec, r <> zeros (length r) -> exists j, (j < length r)%nat /\ nth j r 0 <> 0.
Proof.
  induction r as [|x r IH]; intros N; [exfalso; apply N; reflexivity|].
  destruct (Req_dec x 0) as [E|E].
  - destruct IH as [j [Hj Nj]].
    + intros E'. apply N. rewrite E, E' at 1. reflexivity.
    + exists (S j). split; [cbn; lia|exact Nj].
  - exists 0%nat. split; [cbn; lia|exact E].
Qed.

(** With fewer equations than unknowns there is a solution other than zero. *)
Lemma kernel : forall m n A, wfm m n A -> (m < n)%nat -> exists v, length v = n /\ mv A v = zeros m /\ v <> zeros n.
Proof.
  induction m; intros n A [L W] Hn.
  - destruct A; [|discriminate]. exists (ones n). split; [apply ones_length|]. split; [reflexivity|].
    destruct n; [lia|]. unfold ones, zeros. cbn. intros E. apply (f_equal (hd 0)) in E. cbn in E. lra.
  - destruct A as [|r A]; [discriminate|]. inversion W as [|r' A' Lr WA]. subst r' A'.
    assert (LA : length A = m) by (apply eq_add_S; exact L).
    destruct (excluded_middle_informative (r = zeros n)) as [Z|Z].
    + destruct (IHm n A) as [v [Lv [Ev Nv]]]; [split; [exact LA|auto]|lia|].
      exists v. split; [auto|]. split; [|auto]. cbn [mv map]. rewrite Z, dot_zeros_l. unfold zeros. cbn. f_equal. exact Ev.
    + destruct (nonzero_entry r) as [j [Hj Nj]]; [rewrite Lr; auto|]. rewrite Lr in Hj.
      set (A' := map (fun q => vsub (drop_at j q) (vscale (nth j q 0 / nth j r 0) (drop_at j r))) A).
      destruct (IHm (n - 1)%nat A') as [w [Lw [Ew Nw]]].
      * split; [unfold A'; rewrite map_length; exact LA|]. apply Forall_forall. intros q' Hq. apply in_map_iff in Hq.
        destruct Hq as [q [Eq Hq]]. rewrite Forall_forall in WA. specialize (WA q Hq). subst q'.
        rewrite vsub_length; [rewrite drop_length; lia|]. rewrite vscale_length, !drop_length; lia.
      * lia.
      * set (a := - dot (drop_at j r) w / nth j r 0). exists (insert_at j a w).
        split; [rewrite insert_length; lia|]. split.
        -- cbn [mv map]. rewrite dot_insert by lia. unfold zeros. cbn [repeat]. f_equal.
           ++ unfold a. field. auto.
           ++ change (repeat 0 m) with (zeros m). rewrite <- Ew. unfold A', mv. rewrite map_map. apply map_ext_in.
              intros q Hq. rewrite Forall_forall in WA. specialize (WA q Hq). rewrite dot_insert by lia.
              rewrite dot_vsub_l by (rewrite vscale_length, !drop_length; lia). rewrite dot_vscale_l. unfold a. field. auto.
        -- intros E. apply Nw. apply (insert_zeros j a); [lia|]. rewrite E. f_equal. lia.
Qed.

Lemma vadd_zero_part : forall c b, length c = length b -> vadd c (vscale 0 b) = c.
Proof.
  intros c b. revert c. induction b as [|y b IH]; intros [|x c] E; try discriminate; [reflexivity|].
  unfold vadd, vscale in *. cbn. f_equal; [ring|]. apply IH. cbn in E. lia.
Qed.
Lemma repeat_app_one : forall n, repeat 0 (S n) = repeat 0 n ++ [0].
Proof. induction n; [reflexivity|]. cbn in *. f_equal. exact IHn. Qed.
Lemma vadd_neg_solve : forall n c b s, length c = n -> length b = n ->
  vadd c (vscale s (vneg b)) = zeros n -> c = vscale s b.
Proof.
  induction n; intros [|x c] [|y b] s Lc Lb E; try discriminate; [reflexivity|].
  unfold vadd, vscale, vneg, zeros in *. cbn in *.
  pose proof (f_equal (hd 0) E) as E1. pose proof (f_equal (@tl R) E) as E2. cbn in E1, E2.
  f_equal; [lra|]. apply IHn; auto.
Qed.
Lemma vscale_inv : forall s b, s <> 0 -> vscale (/ s) (vscale s b) = b.
Proof.
  intros s b N. unfold vscale. rewrite map_map. rewrite <- (map_id b) at 2. apply map_ext. intros. field. auto.
Qed.
Lemma solvable : forall n M b, wfm n n M -> length b = n ->
  (forall v, length v = n -> mv M v = zeros n -> v = zeros n) -> exists v, length v = n /\ mv M v = b.
Proof.
  intros n M b [L W] Lb Inj.
  destruct (kernel n (S n) (hcat M (col (vneg b)))) as [v [Lv [Ev Nv]]].
  - split.
    + unfold hcat. rewrite map2_length. unfold col. rewrite map_length, vneg_length. lia.
    + clear Inj. unfold hcat, col, vneg. revert b Lb. revert n L W. 
      assert (G : forall M (k : nat), Forall (fun r : list R => length r = k) M -> forall b, length b = length M ->
        Forall (fun r : list R => length r = S k) (map2 (@app R) M (map (fun a => [a]) (map Ropp b)))).
      { clear. induction M as [|r M IH]; intros k W b Lb; [constructor|]. destruct b as [|y b]; [discriminate|].
        inversion W. subst. cbn. constructor; [rewrite app_length; cbn; lia|apply IH; auto]. }
      intros n L W b Lb. apply G; [auto|lia].
  - lia.
  - assert (Sp : exists w s, v = w ++ [s] /\ length w = n).
    { exists (firstn n v), (nth n v 0). split; [|rewrite firstn_length; lia].
      rewrite <- (firstn_skipn n v) at 1. f_equal.
      destruct (skipn n v) as [|s k] eqn:K.
      - apply (f_equal (@length R)) in K. rewrite skipn_length in K. cbn in K. lia.
      - assert (k = []). { apply (f_equal (@length R)) in K. rewrite skipn_length in K. cbn in K. destruct k; [auto|cbn in K; lia]. }
        subst k. f_equal. rewrite <- (firstn_skipn n v), K. rewrite app_nth2; rewrite firstn_length; [|lia].
        replace (n - Nat.min n (length v))%nat with 0%nat by lia. reflexivity. }
    destruct Sp as [w [s [Es Lw]]]. rewrite Es in Ev.
    rewrite (mv_hcat _ _ _ _ n) in Ev; try (unfold col; rewrite ?map_length, ?vneg_length; lia); auto.
    rewrite mv_col in Ev.
    destruct (Req_dec s 0) as [Z|Z].
    + exfalso. apply Nv. rewrite Es, Z. 
      assert (Ew : w = zeros n).
      { apply Inj; [auto|]. rewrite <- Ev. rewrite Z. 
        symmetry. apply vadd_zero_part. rewrite mv_length. rewrite vneg_length. lia. }
      rewrite Ew. unfold zeros. rewrite <- repeat_app_one. reflexivity.
    + exists (vscale (/ s) w). split; [rewrite vscale_length; auto|]. rewrite mv_vscale.
      apply vadd_neg_solve in Ev; [|rewrite mv_length; lia|lia].
      rewrite Ev. apply vscale_inv. auto.
Qed.

(** A solver that meets the contract of np.linalg.solve. *)
Lemma solver_exists : exists solve, lin_solve_ok solve.
Proof.
  exists (fun M b => match excluded_middle_informative (exists v, length v = length b /\ mv M v = b) with
    | left H => Some (proj1_sig (constructive_indefinite_description _ H)) | right _ => None end).
  split.
  - intros n M b v W Lb. destruct (excluded_middle_informative _) as [H|H]; [|discriminate].
    destruct (constructive_indefinite_description _ H) as [w [Lw Ew]]. cbn. intros E.
    assert (w = v) by congruence. subst v. split; [lia|auto].
  - intros n M b W Lb Inj. destruct (excluded_middle_informative _) as [H|H]; [eauto|].
    exfalso. apply H. destruct (solvable n M b W Lb Inj) as [v [Lv Ev]]. exists v. split; [lia|auto].
Qed.
