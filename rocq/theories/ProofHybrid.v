(** The mixed-integer constraints of a hybrid linear system are exact. *)

Require Import Reals List Bool Lia Lra.
From Verif Require ProofWarm.
From Verif Require Import ProofConcat.
Require Import Verif.Vec Verif.VecFacts Verif.ModelMip Verif.SpecMip Verif.ModelUtils
  Verif.SpecUtils Verif.ProofUtils Verif.ModelNet Verif.ProofMip Verif.ProofMaxBox
  Verif.ProofNet Verif.ProofGrad Verif.ModelHybrid Verif.SpecHybrid Verif.SpecCore.
Import ListNotations.
Open Scope R_scope.

(** ** Blocks of rows *)

Definition kwf3 (nx ns nb : nat) (k : blk) : Prop :=
  wfm (length (k_rhs k)) nx (k_x k) /\ wfm (length (k_rhs k)) ns (k_s k) /\
  wfm (length (k_rhs k)) nb (k_b k).
Definition kle (k : blk) (x s b : vec) : Prop := vle (klhs k x s b) (k_rhs k).

Lemma klhs3_length : forall nx ns nb k x s b, kwf3 nx ns nb k ->
  length (klhs k x s b) = length (k_rhs k).
Proof.
  intros nx ns nb k x s b [[H1 _] [[H2 _] [H3 _]]]. unfold klhs.
  assert (length (vadd (mv (k_x k) x) (mv (k_s k) s)) = length (k_rhs k))
    by (rewrite vadd_length; rewrite !mv_length; congruence).
  rewrite vadd_length; auto. rewrite mv_length. congruence.
Qed.
Lemma kwf3_app : forall nx ns nb p q, kwf3 nx ns nb p -> kwf3 nx ns nb q ->
  kwf3 nx ns nb (bapp p q).
Proof.
  intros nx ns nb p q [P1 [P2 P3]] [Q1 [Q2 Q3]]. unfold kwf3, bapp. cbn [k_x k_s k_b k_rhs].
  rewrite app_length. split; [|split]; apply wfm_app; auto.
Qed.
Lemma kle_app : forall nx ns nb p q x s b, kwf3 nx ns nb p -> kwf3 nx ns nb q ->
  (kle (bapp p q) x s b <-> kle p x s b /\ kle q x s b).
Proof.
  intros nx ns nb p q x s b Hp Hq. unfold kle.
  assert (E : klhs (bapp p q) x s b = klhs p x s b ++ klhs q x s b).
  { unfold klhs, bapp. cbn [k_x k_s k_b].
    rewrite !mv_app. destruct Hp as [[P1 _] [[P2 _] [P3 _]]].
    rewrite (vadd_app (mv (k_x p) x)) by (rewrite !mv_length; congruence).
    rewrite vadd_app; auto. rewrite vadd_length; rewrite !mv_length; congruence. }
  rewrite E. unfold bapp. cbn [k_rhs].
  apply vle_app_iff. eapply klhs3_length; eauto.
Qed.
Lemma kwf3_nil : forall nx ns nb, kwf3 nx ns nb blk0.
Proof. intros. unfold kwf3, blk0. simpl. repeat split; constructor. Qed.
Lemma kle_nil : forall x s b, kle blk0 x s b.
Proof. intros. unfold kle, klhs, blk0. simpl. constructor. Qed.

(** ** The product rows *)

Lemma mv_unit_rows : forall n j l x, length x = n -> (j < n)%nat ->
  mv (map (unit_row n j) l) x = vscale (nth j x 0) l.
Proof.
  intros n j l x L H. unfold mv, vscale. rewrite map_map. apply map_ext. intros a.
  rewrite dot_unit_row by auto. ring.
Qed.
Lemma wfm_unit_rows : forall n j l, wfm (length l) n (map (unit_row n j) l).
Proof.
  intros. split; [apply map_length|]. apply Forall_forall. intros r H.
  apply in_map_iff in H. destruct H as (a & <- & _). apply unit_row_length.
Qed.

Lemma product_lengths : forall lo up r, replace_binary_continuous_product lo up = Some r ->
  length (rw_x r) = length (rw_rhs r) /\ length (rw_y r) = length (rw_rhs r) /\
  length (rw_b r) = length (rw_rhs r).
Proof.
  unfold replace_binary_continuous_product. intros lo up r H.
  destruct (Rleb lo up); [|discriminate]. injection H as <-. auto.
Qed.

Lemma prod_index_lt : forall nx nu K i j, (i < K)%nat -> (j < nx + nu)%nat ->
  (prod_index nx nu K i j < K * (nx + nu))%nat.
Proof.
  intros nx nu K i j Hi Hj. unfold prod_index.
  destruct (Nat.ltb j nx) eqn:E.
  - apply Nat.ltb_lt in E. nia.
  - apply Nat.ltb_ge in E. nia.
Qed.

Lemma product_rows_spec : forall nx nu K i j lo up r, (i < K)%nat -> (j < nx + nu)%nat ->
  replace_binary_continuous_product lo up = Some r ->
  kwf3 (nx + nu) (K * (nx + nu)) K (product_rows nx nu K i j r) /\
  forall z s b, length z = (nx + nu)%nat -> length s = (K * (nx + nu))%nat ->
    length b = K -> bins b ->
    (kle (product_rows nx nu K i j r) z s b <->
     (lo <= nth j z 0 <= up /\
      nth (prod_index nx nu K i j) s 0 = nth i b 0 * nth j z 0)).
Proof.
  intros nx nu K i j lo up r Hi Hj H. destruct (product_lengths _ _ _ H) as (L1 & L2 & L3).
  split.
  - unfold kwf3, product_rows. cbn [k_x k_s k_b k_rhs].
    split; [|split]; [rewrite <- L1|rewrite <- L2|rewrite <- L3]; apply wfm_unit_rows.
  - intros z s b Lz Ls Lb B. unfold kle, klhs, product_rows. cbn [k_x k_s k_b k_rhs].
    rewrite !mv_unit_rows by (auto using prod_index_lt).
    apply (product_exact lo up r _ _ _ H).
    unfold bins in B. rewrite Forall_forall in B. apply B. apply nth_In. lia.
Qed.

Lemma join_rows_spec : forall nx ns nb l k, join_rows l = Some k ->
  (forall b, In (Some b) l -> kwf3 nx ns nb b) ->
  kwf3 nx ns nb k /\ ~ In None l /\
  forall x s be, kle k x s be <-> forall b, In (Some b) l -> kle b x s be.
Proof.
  intros nx ns nb. induction l as [|[b|] l IH]; intros k H W; simpl in H; try discriminate.
  - injection H as <-. split; [apply kwf3_nil|]. split; [intros []|].
    intros. split; [intros _ b []|intros _; apply kle_nil].
  - destruct (join_rows l) as [k'|] eqn:E; [|discriminate]. injection H as <-.
    destruct (IH k' eq_refl) as (W' & N & I); [intros; apply W; right; auto|].
    assert (Wb : kwf3 nx ns nb b) by (apply W; left; auto).
    split; [apply kwf3_app; auto|]. split.
    { intros [A|A]; [discriminate|auto]. }
    intros x s be. rewrite (kle_app nx ns nb) by auto. rewrite I. split.
    + intros [A1 A2] b' [A3|A3]; [injection A3 as <-; auto|auto].
    + intros A. split; [apply A; left; auto|intros; apply A; right; auto].
Qed.

Definition products_ok (nx nu K : nat) (lo up z s b : vec) : Prop :=
  forall i j, (i < K)%nat -> (j < nx + nu)%nat ->
    nth j lo 0 <= nth j z 0 <= nth j up 0 /\
    nth (prod_index nx nu K i j) s 0 = nth i b 0 * nth j z 0.

Lemma all_product_rows_spec : forall nx nu K lo up k,
  all_product_rows nx nu K lo up = Some k ->
  kwf3 (nx + nu) (K * (nx + nu)) K k /\
  forall z s b, length z = (nx + nu)%nat -> length s = (K * (nx + nu))%nat ->
    length b = K -> bins b ->
    (kle k z s b <-> products_ok nx nu K lo up z s b).
Proof.
  intros nx nu K lo up k H. unfold all_product_rows in H.
  assert (C : forall o, In o (flat_map (fun i =>
       map (fun j => match replace_binary_continuous_product (nth j lo 0) (nth j up 0) with
                     | Some r => Some (product_rows nx nu K i j r)
                     | None => None
                     end) (seq 0 (nx + nu))) (seq 0 K)) <->
     exists i j, (i < K)%nat /\ (j < nx + nu)%nat /\
       o = match replace_binary_continuous_product (nth j lo 0) (nth j up 0) with
                     | Some r => Some (product_rows nx nu K i j r)
                     | None => None
                     end).
  { intros o. rewrite in_flat_map. split.
    - intros (i & Hi & Ho). apply in_map_iff in Ho. destruct Ho as (j & <- & Hj).
      apply in_seq in Hi. apply in_seq in Hj. exists i, j. repeat split; auto; lia.
    - intros (i & j & Hi & Hj & ->). exists i. split; [apply in_seq; lia|].
      apply in_map_iff. exists j. split; auto. apply in_seq; lia. }
  destruct (join_rows_spec (nx + nu) (K * (nx + nu)) K _ _ H) as (W & N & I).
  { intros b Hb. apply C in Hb. destruct Hb as (i & j & Hi & Hj & Hb).
    destruct (replace_binary_continuous_product (nth j lo 0) (nth j up 0)) eqn:E; [|discriminate].
    injection Hb as ->. eapply product_rows_spec; eauto. }
  split; auto. intros z s b Lz Ls Lb B. rewrite I. unfold products_ok. split.
  - intros A i j Hi Hj.
    destruct (replace_binary_continuous_product (nth j lo 0) (nth j up 0)) as [r|] eqn:E.
    + apply (product_rows_spec nx nu K i j _ _ _ Hi Hj E); auto.
      apply A. apply C. exists i, j. rewrite E. auto.
    + exfalso. apply N. apply C. exists i, j. rewrite E. auto.
  - intros A b' Hb'. apply C in Hb'. destruct Hb' as (i & j & Hi & Hj & Hb').
    destruct (replace_binary_continuous_product (nth j lo 0) (nth j up 0)) as [r|] eqn:E;
      [|discriminate].
    injection Hb' as ->. apply (product_rows_spec nx nu K i j _ _ _ Hi Hj E); auto.
Qed.

Lemma all_product_rows_total : forall nx nu K lo up,
  (forall j, (j < nx + nu)%nat -> nth j lo 0 <= nth j up 0) ->
  all_product_rows nx nu K lo up <> None.
Proof.
  intros nx nu K lo up H. unfold all_product_rows.
  assert (J : forall l, ~ In None l -> join_rows l <> None).
  { induction l as [|[b|] l IH]; intros A; simpl; try discriminate.
    - destruct (join_rows l); [discriminate|]. exfalso. apply IH; auto.
      intros Q. apply A. right. auto.
    - exfalso. apply A. left. auto. }
  apply J. intros A. apply in_flat_map in A. destruct A as (i & _ & A).
  apply in_map_iff in A. destruct A as (j & A & Hj). apply in_seq in Hj.
  destruct (replace_binary_continuous_product (nth j lo 0) (nth j up 0)) eqn:E; [discriminate|].
  apply product_reject in E. specialize (H j). lra || (assert (nth j lo 0 <= nth j up 0) by (apply H; lia); lra).
Qed.

(** ** The polytope rows *)

Definition part (nx nu K i : nat) (s : vec) : vec :=
  slice (i * nx) nx s ++ slice (K * nx + i * nu) nu s.

Lemma slice_len : forall (off n : nat) (s : vec), (off + n <= length s)%nat ->
  length (slice off n s) = n.
Proof. intros. rewrite slice_length; auto. Qed.

Lemma polytope_rows_spec : forall nx nu K i m, (i < K)%nat ->
  Forall (fun p => length p = (nx + nu)%nat) (md_P m) ->
  length (md_q m) = length (md_P m) ->
  kwf3 (nx + nu) (K * (nx + nu)) K (polytope_rows nx nu K i m) /\
  forall z s b, length z = (nx + nu)%nat -> length s = (K * (nx + nu))%nat ->
    length b = K ->
    (kle (polytope_rows nx nu K i m) z s b <->
     vle (mv (md_P m) (part nx nu K i s)) (vscale (nth i b 0) (md_q m))).
Proof.
  intros nx nu K i m Hi WP Lq.
  assert (F1 : (i * nx + nx <= K * nx)%nat) by nia.
  assert (F2 : (K * nx + i * nu + nu <= K * (nx + nu))%nat) by nia.
  assert (Lsp : forall p, length p = (nx + nu)%nat ->
     length (splice (i * nx) (firstn nx p)
       (splice (K * nx + i * nu) (skipn nx p) (zeros (K * (nx + nu))))) = (K * (nx + nu))%nat).
  { intros p Lp. assert (length (skipn nx p) = nu) by (rewrite skipn_length; lia).
    assert (length (firstn nx p) = nx) by (rewrite firstn_length; lia).
    assert (Q : length (splice (K * nx + i * nu) (skipn nx p) (zeros (K * (nx + nu))))
                = (K * (nx + nu))%nat).
    { rewrite splice_length; rewrite zeros_length; unfold vec in *; lia. }
    rewrite splice_length; unfold vec in *; lia. }
  split.
  - unfold kwf3, polytope_rows. cbn [k_x k_s k_b k_rhs]. rewrite zeros_length.
    split; [|split]; split; rewrite ?map_length; auto; apply Forall_forall; intros r Hr;
      apply in_map_iff in Hr; destruct Hr as (p & <- & Hp).
    + apply zeros_length.
    + apply Lsp. rewrite Forall_forall in WP. apply WP; auto.
    + apply unit_row_length.
  - intros z s b Lz Ls Lb. unfold kle, klhs, polytope_rows. cbn [k_x k_s k_b k_rhs].
    assert (E1 : mv (map (fun _ => zeros (nx + nu)) (md_P m)) z = zeros (length (md_P m))).
    { unfold mv. rewrite map_map. generalize (md_P m) as l. clear.
      induction l as [|p l IH]; auto. cbn [map length]. rewrite IH, dot_zeros_l. reflexivity. }
    assert (E2 : mv (map (fun p => splice (i * nx) (firstn nx p)
                         (splice (K * nx + i * nu) (skipn nx p) (zeros (K * (nx + nu)))))
             (md_P m)) s = mv (md_P m) (part nx nu K i s)).
    { unfold mv. rewrite map_map. apply map_ext_in. intros p Hp.
      rewrite Forall_forall in WP. specialize (WP p Hp).
      assert (L1 : length (skipn nx p) = nu) by (rewrite skipn_length; lia).
      assert (L2 : length (firstn nx p) = nx) by (rewrite firstn_length; lia).
      assert (Q : length (splice (K * nx + i * nu) (skipn nx p) (zeros (K * (nx + nu))))
                = (K * (nx + nu))%nat)
        by (rewrite splice_length; rewrite zeros_length; unfold vec in *; lia).
      rewrite dot_splice by (unfold vec in *; lia).
      rewrite dot_splice_zeros by (unfold vec in *; lia).
      assert (Z : slice (i * nx) (length (firstn nx p))
         (splice (K * nx + i * nu) (skipn nx p) (zeros (K * (nx + nu)))) = zeros nx).
      { rewrite L2. unfold slice, splice.
        rewrite skipn_app, firstn_app.
        assert (A1 : firstn (K * nx + i * nu) (zeros (K * (nx + nu))) = zeros (K * nx + i * nu)).
        { unfold zeros. replace (K * (nx + nu))%nat with ((K * nx + i * nu) + (K * (nx + nu) - (K * nx + i * nu)))%nat by lia.
          rewrite repeat_app, firstn_app, repeat_length, Nat.sub_diag.
          rewrite firstn_all2 by (rewrite repeat_length; lia). simpl. apply app_nil_r. }
        rewrite A1, skipn_length, zeros_length.
        replace (nx - (K * nx + i * nu - i * nx))%nat with 0%nat by nia.
        rewrite firstn_O, app_nil_r.
        change (slice (i * nx) nx (zeros (K * nx + i * nu)) = zeros nx).
        apply slice_zeros. nia. }
      rewrite Z, dot_zeros_l, L1, L2.
      unfold part. rewrite <- (firstn_skipn nx p) at 3.
      rewrite dot_app by (rewrite slice_length; unfold vec in *; lia). ring. }
    assert (E3 : mv (map (fun v => unit_row K i (- v)) (md_q m)) b
                 = vneg (vscale (nth i b 0) (md_q m))).
    { unfold mv, vneg, vscale. rewrite !map_map. apply map_ext. intros v.
      rewrite dot_unit_row by (auto; lia). ring. }
    rewrite E1, E2, E3. rewrite vadd_zeros_l by (rewrite mv_length; auto).
    rewrite !vle_nth. rewrite vadd_length by (rewrite vneg_length, vscale_length, mv_length; auto).
    rewrite !mv_length, zeros_length, vscale_length. split.
    + intros [_ A]. split; auto. intros k Hk. specialize (A k Hk).
      rewrite nth_vadd in A by (rewrite vneg_length, vscale_length, mv_length; auto).
      rewrite nth_vneg, nth_zeros in A. unfold vec in *. lra.
    + intros [_ A]. split; auto. intros k Hk. specialize (A k Hk).
      rewrite nth_vadd by (rewrite vneg_length, vscale_length, mv_length; auto).
      rewrite nth_vneg, nth_zeros. unfold vec in *. lra.
Qed.

Definition mode_wf (nx nu : nat) (m : mode_data) : Prop :=
  wfm nx nx (md_A m) /\ wfm nx nu (md_B m) /\ length (md_c m) = nx /\
  Forall (fun p => length p = (nx + nu)%nat) (md_P m) /\
  length (md_q m) = length (md_P m) /\
  length (md_lo m) = (nx + nu)%nat /\ length (md_up m) = (nx + nu)%nat.

Lemma all_polytope_rows_spec : forall nx nu K ms off, (off + length ms <= K)%nat ->
  Forall (mode_wf nx nu) ms ->
  kwf3 (nx + nu) (K * (nx + nu)) K (all_polytope_rows nx nu K off ms) /\
  forall z s b, length z = (nx + nu)%nat -> length s = (K * (nx + nu))%nat ->
    length b = K ->
    (kle (all_polytope_rows nx nu K off ms) z s b <->
     forall i m, nth_error ms i = Some m ->
       vle (mv (md_P m) (part nx nu K (off + i) s)) (vscale (nth (off + i) b 0) (md_q m))).
Proof.
  intros nx nu K. induction ms as [|m ms IH]; intros off Ho W.
  - split; [apply kwf3_nil|]. intros. split; [|intros; apply kle_nil].
    intros _ i m H'. destruct i; discriminate.
  - simpl in Ho. assert (Wm : mode_wf nx nu m) by (inversion W; auto).
    assert (Ws : Forall (mode_wf nx nu) ms) by (inversion W; auto).
    destruct Wm as (_ & _ & _ & W4 & W5 & _).
    destruct (polytope_rows_spec nx nu K off m) as [P1 P2]; auto; [lia|].
    destruct (IH (S off)) as [I1 I2]; auto; [lia|].
    cbn [all_polytope_rows]. split; [apply kwf3_app; auto|].
    intros z s b Lz Ls Lb. rewrite (kle_app (nx + nu) (K * (nx + nu)) K) by auto.
    rewrite P2, I2 by auto. split.
    + intros [A1 A2] i m' H. destruct i as [|i].
      * injection H as <-. rewrite Nat.add_0_r. auto.
      * simpl in H. replace (off + S i)%nat with (S off + i)%nat by lia. auto.
    + intros A. split.
      * specialize (A 0%nat m eq_refl). rewrite Nat.add_0_r in A. auto.
      * intros i m' H. replace (S off + i)%nat with (off + S i)%nat by lia. apply A. auto.
Qed.

(** ** Slices *)

Lemma nth_slice_in : forall (s : vec) off n j, (j < n)%nat ->
  nth j (slice off n s) 0 = nth (off + j) s 0.
Proof.
  intros s off n j H. unfold slice. rewrite ProofWarm.nth_firstn by auto. apply ProofWarm.nth_skipn.
Qed.

Lemma part_length : forall nx nu K i s, (i < K)%nat -> length s = (K * (nx + nu))%nat ->
  length (part nx nu K i s) = (nx + nu)%nat.
Proof.
  intros nx nu K i s H L. unfold part. rewrite app_length, !slice_length; nia.
Qed.

Lemma nth_part : forall nx nu K i j s, (i < K)%nat -> (j < nx + nu)%nat ->
  length s = (K * (nx + nu))%nat ->
  nth j (part nx nu K i s) 0 = nth (prod_index nx nu K i j) s 0.
Proof.
  intros nx nu K i j s Hi Hj L. unfold part, prod_index.
  assert (L1 : length (slice (i * nx) nx s) = nx) by (rewrite slice_length; nia).
  destruct (Nat.ltb_spec j nx) as [E|E].
  - rewrite app_nth1 by (unfold vec in *; lia). apply nth_slice_in; auto.
  - rewrite app_nth2 by (unfold vec in *; lia). rewrite L1. apply nth_slice_in. lia.
Qed.

Lemma products_part : forall nx nu K lo up z s b, (0 < K)%nat ->
  length z = (nx + nu)%nat -> length s = (K * (nx + nu))%nat ->
  length lo = (nx + nu)%nat -> length up = (nx + nu)%nat ->
  (products_ok nx nu K lo up z s b <->
   in_box lo up z /\ forall i, (i < K)%nat -> part nx nu K i s = vscale (nth i b 0) z).
Proof.
  intros nx nu K lo up z s b HK Lz Ls Ll Lu. unfold products_ok. split.
  - intros A. split.
    + unfold in_box. rewrite !vle_nth. split; (split; [unfold vec in *; lia|]);
        intros j Hj; destruct (A 0%nat j HK) as [[? ?] _]; auto; unfold vec in *; lia.
    + intros i Hi. apply vec_ext.
      * rewrite part_length, vscale_length by auto. auto.
      * rewrite part_length by auto. intros j Hj. rewrite nth_part, nth_vscale by auto.
        apply A; auto.
  - intros [[B1 B2] A] i j Hi Hj. rewrite vle_nth in B1, B2.
    split.
    + split; [apply B1|apply B2]; unfold vec in *; lia.
    + rewrite <- nth_part by auto. rewrite A by auto. apply nth_vscale.
Qed.

(** Blocks of equal length. *)
Lemma slice_concat : forall (f : nat -> vec) n K k i, (forall i, length (f i) = n) ->
  (i < K)%nat ->
  slice (i * n) n (concat (map f (seq k K))) = f (k + i)%nat.
Proof.
  intros f n. induction K as [|K IH]; intros k i L H; [lia|].
  cbn [seq map concat]. destruct i as [|i].
  - rewrite Nat.add_0_r. unfold slice. cbn [Nat.mul skipn]. rewrite firstn_app, L, Nat.sub_diag.
    rewrite firstn_all2 by (rewrite L; lia). simpl. apply app_nil_r.
  - unfold slice. rewrite skipn_app, L. rewrite (skipn_all2 (f k)) by (rewrite L; lia).
    replace (S i * n - n)%nat with (i * n)%nat by lia. cbn [app].
    specialize (IH (S k) i L). unfold slice in IH. rewrite IH by lia. f_equal. lia.
Qed.
Lemma concat_len : forall (f : nat -> vec) n K k, (forall i, length (f i) = n) ->
  length (concat (map f (seq k K))) = (K * n)%nat.
Proof.
  intros f n. induction K as [|K IH]; intros k L; auto.
  cbn [seq map concat]. rewrite app_length, L, IH by auto. lia.
Qed.
Lemma concat_slices : forall n K off (s : vec), (off + K * n <= length s)%nat ->
  concat (map (fun i => slice (off + i * n) n s) (seq 0 K)) = slice off (K * n) s.
Proof.
  intros n K off s H. induction K as [|K IH].
  - reflexivity.
  - rewrite seq_S, map_app, concat_app, IH by lia. cbn [map concat]. rewrite app_nil_r.
    cbn [Nat.add]. unfold slice. replace (S K * n)%nat with (K * n + n)%nat by lia.
    rewrite <- skipn_skipn'. rewrite <- (firstn_skipn (K * n) (firstn (K * n + n) (skipn off s))).
    rewrite firstn_firstn. replace (Nat.min (K * n) (K * n + n)) with (K * n)%nat by lia.
    f_equal. rewrite skipn_firstn_comm. f_equal. lia.
Qed.

(** The slack vector for given alpha. *)
Definition slack_for (K : nat) (b x u : vec) : vec :=
  concat (map (fun i => vscale (nth i b 0) x) (seq 0 K)) ++
  concat (map (fun i => vscale (nth i b 0) u) (seq 0 K)).

Lemma slack_for_length : forall K b x u,
  length (slack_for K b x u) = (K * (length x + length u))%nat.
Proof.
  intros. unfold slack_for. rewrite app_length.
  rewrite (concat_len _ (length x)) by (intros; apply vscale_length).
  rewrite (concat_len _ (length u)) by (intros; apply vscale_length). lia.
Qed.
Lemma slack_for_part : forall K b x u i, (i < K)%nat ->
  part (length x) (length u) K i (slack_for K b x u) = vscale (nth i b 0) (x ++ u).
Proof.
  intros K b x u i H. unfold part, slack_for.
  set (X := concat (map (fun i => vscale (nth i b 0) x) (seq 0 K))).
  set (U := concat (map (fun i => vscale (nth i b 0) u) (seq 0 K))).
  assert (LX : length X = (K * length x)%nat)
    by (apply concat_len; intros; apply vscale_length).
  assert (LU : length U = (K * length u)%nat)
    by (apply concat_len; intros; apply vscale_length).
  assert (E : vscale (nth i b 0) (x ++ u) = vscale (nth i b 0) x ++ vscale (nth i b 0) u)
    by (unfold vscale; apply map_app).
  rewrite E. f_equal.
  - transitivity (slice (i * length x) (length x) X).
    + unfold slice. rewrite skipn_app, firstn_app.
      replace (length x - length (skipn (i * length x) X))%nat with 0%nat
        by (rewrite skipn_length; unfold vec in *; nia).
      rewrite firstn_O. apply app_nil_r.
    + unfold X. apply (slice_concat (fun i => vscale (nth i b 0) x)); auto.
      intros; apply vscale_length.
  - transitivity (slice (i * length u) (length u) U).
    + unfold slice. f_equal. rewrite skipn_app. rewrite (skipn_all2 X) by (unfold vec in *; lia).
      cbn [app]. f_equal. unfold vec in *; lia.
    + unfold U. apply (slice_concat (fun i => vscale (nth i b 0) u)); auto.
      intros; apply vscale_length.
Qed.

(** ** The output *)

Fixpoint vsums (m : nat) (l : list vec) : vec :=
  match l with [] => zeros m | v :: l' => vadd v (vsums m l') end.

Lemma vsums_length : forall m l, Forall (fun v => length v = m) l -> length (vsums m l) = m.
Proof.
  intros m l H. induction H; simpl; [apply zeros_length|]. rewrite vadd_length; congruence.
Qed.

Lemma mv_hcats_v : forall m Ms xs, Ms <> [] ->
  Forall2 (fun M x => wfm m (length x) M) Ms xs ->
  length (hcats Ms) = m /\ mv (hcats Ms) (concat xs) = vsums m (map2 mv Ms xs).
Proof.
  intros m Ms xs Hn H. induction H as [|M x Ms xs W F IH]; [congruence|].
  destruct W as [L R].
  destruct Ms as [|M2 Ms].
  - inversion F; subst. cbn. rewrite app_nil_r. split; auto.
    rewrite vadd_zeros_r; auto. rewrite mv_length; auto.
  - destruct IH as [I1 I2]; [discriminate|].
    change (hcats (M :: M2 :: Ms)) with (hcat M (hcats (M2 :: Ms))).
    split.
    + unfold hcat. rewrite map2_length. unfold mat, vec in *. rewrite I1. lia.
    + change (concat (x :: xs)) with (x ++ concat xs).
      rewrite (mv_hcat _ _ _ _ (length x)); auto; [|unfold mat, vec in *; congruence].
      rewrite I2. reflexivity.
Qed.

Lemma vsums_app : forall m a b, Forall (fun v => length v = m) a ->
  Forall (fun v => length v = m) b -> vsums m (a ++ b) = vadd (vsums m a) (vsums m b).
Proof.
  intros m a b Ha Hb. induction Ha; simpl.
  - rewrite vadd_zeros_l; auto. apply vsums_length; auto.
  - rewrite IHHa. rewrite vadd_assoc; auto.
Qed.

Lemma vsums_zero : forall m l, Forall (fun v => v = zeros m) l -> vsums m l = zeros m.
Proof.
  intros m l H. induction H; simpl; auto. subst. rewrite IHForall.
  apply vadd_zeros_l. apply zeros_length.
Qed.
Lemma vscale_0 : forall v, vscale 0 v = zeros (length v).
Proof.
  intros v. apply vec_ext; rewrite vscale_length; [rewrite zeros_length; auto|].
  intros i _. rewrite nth_vscale, nth_zeros. ring.
Qed.

Lemma vsums_pick : forall m (vs : list vec) k i0 b,
  Forall (fun v => length v = m) vs -> (k <= i0 < k + length vs)%nat ->
  nth i0 b 0 = 1 ->
  (forall i, (k <= i < k + length vs)%nat -> i <> i0 -> nth i b 0 = 0) ->
  vsums m (map2 (fun i v => vscale (nth i b 0) v) (seq k (length vs)) vs)
  = nth (i0 - k) vs [].
Proof.
  intros m vs. induction vs as [|v vs IH]; intros k i0 b L H O Z; [simpl in H; lia|].
  assert (Lv : length v = m) by (inversion L; auto).
  assert (Ls : Forall (fun v => length v = m) vs) by (inversion L; auto).
  cbn [length seq map2 vsums]. simpl in H.
  destruct (Nat.eq_dec k i0) as [->|N].
  - rewrite O, Nat.sub_diag, vscale_1. cbn [nth].
    rewrite vsums_zero; [apply vadd_zeros_r; auto|].
    assert (Q : forall (ws : list vec) j, Forall (fun v => length v = m) ws -> (i0 < j)%nat ->
       (j + length ws <= S i0 + length vs)%nat ->
       Forall (fun v => v = zeros m)
         (map2 (fun i v => vscale (nth i b 0) v) (seq j (length ws)) ws)).
    { induction ws as [|w ws IHw]; intros j Hw Hj Hl; [constructor|].
      cbn [length seq map2]. simpl in Hl. constructor.
      - rewrite Z by (simpl; lia). rewrite vscale_0. f_equal. inversion Hw; auto.
      - apply IHw; [inversion Hw; auto|lia|lia]. }
    apply Q; auto. 
  - rewrite (Z k) by (simpl; lia). rewrite vscale_0, Lv.
    rewrite IH with (i0 := i0); auto; [|lia|intros; apply Z; simpl; lia].
    replace (i0 - k)%nat with (S (i0 - S k)) by lia. cbn [nth].
    apply vadd_zeros_l. rewrite Forall_forall in Ls. apply Ls. apply nth_In. lia.
Qed.

(** ** Bounds *)

Lemma ext_min_l : forall a b x, ext_le_r a x -> ext_le_r (ext_min a b) x.
Proof.
  intros [|a|] [|b|] x; simpl; auto; intros; try tauto.
  pose proof (Rmin_l a b). lra.
Qed.
Lemma ext_min_r : forall a b x, ext_le_r b x -> ext_le_r (ext_min a b) x.
Proof.
  intros [|a|] [|b|] x; simpl; auto; intros; try tauto.
  pose proof (Rmin_r a b). lra.
Qed.
Lemma ext_max_l : forall a b x, r_le_ext x a -> r_le_ext x (ext_max a b).
Proof.
  intros [|a|] [|b|] x; simpl; auto; intros; try tauto.
  pose proof (Rmax_l a b). lra.
Qed.
Lemma ext_max_r : forall a b x, r_le_ext x b -> r_le_ext x (ext_max a b).
Proof.
  intros [|a|] [|b|] x; simpl; auto; intros; try tauto.
  pose proof (Rmax_r a b). lra.
Qed.
Lemma ext_max_iff : forall a b x, ext_le_r (ext_max a b) x <-> ext_le_r a x /\ ext_le_r b x.
Proof.
  intros [|a|] [|b|] x; simpl; try tauto.
  pose proof (Rmax_l a b). pose proof (Rmax_r a b). split; [lra|].
  intros [A B]. apply Rmax_lub; auto.
Qed.
Lemma ext_min_iff : forall a b x, r_le_ext x (ext_min a b) <-> r_le_ext x a /\ r_le_ext x b.
Proof.
  intros [|a|] [|b|] x; simpl; try tauto.
  pose proof (Rmin_l a b). pose proof (Rmin_r a b). split; [lra|].
  intros [A B]. apply Rmin_glb; auto.
Qed.

Lemma F2_map2_l : forall {A B} (f : A -> A -> A) (P : A -> B -> Prop) a b z,
  (forall x y t, P x t -> P (f x y) t) -> length b = length z ->
  Forall2 P a z -> Forall2 P (map2 f a b) z.
Proof.
  intros A B f P a b z H L F. revert b L. induction F; intros b L; destruct b; simpl in *;
    try discriminate; constructor; auto.
Qed.
Lemma F2_map2_r : forall {A B} (f : A -> A -> A) (P : A -> B -> Prop) a b z,
  (forall x y t, P y t -> P (f x y) t) -> length a = length z ->
  Forall2 P b z -> Forall2 P (map2 f a b) z.
Proof.
  intros A B f P a b z H L F. revert a L. induction F; intros a L; destruct a; simpl in *;
    try discriminate; constructor; auto.
Qed.
Lemma F2_map2_iff : forall {A B} (f : A -> A -> A) (P : A -> B -> Prop) a b z,
  (forall x y t, P (f x y) t <-> P x t /\ P y t) ->
  length a = length z -> length b = length z ->
  (Forall2 P (map2 f a b) z <-> Forall2 P a z /\ Forall2 P b z).
Proof.
  intros A B f P a b z H. revert a b. induction z as [|t z IH]; intros a b La Lb;
    destruct a; destruct b; simpl in *; try discriminate.
  - split; auto.
  - split.
    + intros F. inversion F; subst. apply H in H3. apply IH in H5; [|lia|lia].
      split; constructor; tauto.
    + intros [F G]. inversion F; inversion G; subst. constructor; [apply H; auto|].
      apply IH; try lia; auto.
Qed.

Lemma fold_len : forall (f : ext -> ext -> ext) (g : mode_data -> list ext) n ms acc,
  length acc = n -> Forall (fun m => length (g m) = n) ms ->
  length (fold_left (fun acc m => map2 f acc (g m)) ms acc) = n.
Proof.
  intros f g n. induction ms as [|m ms IH]; intros acc L W; simpl; auto.
  assert (length (g m) = n) by (inversion W; auto).
  apply IH; [rewrite map2_length; lia|inversion W; auto].
Qed.

Lemma fold_bound : forall (P : ext -> R -> Prop) f (g : mode_data -> list ext) z,
  (forall x y t, P x t -> P (f x y) t) -> (forall x y t, P y t -> P (f x y) t) ->
  forall ms acc, length acc = length z -> Forall (fun m => length (g m) = length z) ms ->
  (Forall2 P acc z \/ exists m, In m ms /\ Forall2 P (g m) z) ->
  Forall2 P (fold_left (fun acc m => map2 f acc (g m)) ms acc) z.
Proof.
  intros P f g z H1 H2. induction ms as [|m ms IH]; intros acc L W H; simpl.
  - destruct H as [H|(m & [] & _)]. auto.
  - assert (Lm : length (g m) = length z) by (inversion W; auto).
    apply IH; [rewrite map2_length; lia|inversion W; auto|].
    destruct H as [H|(m' & [->|Hm] & H)].
    + left. apply F2_map2_l; auto.
    + left. apply F2_map2_r; auto.
    + right. exists m'. auto.
Qed.

Lemma fin_some : forall l v, all_some (map fin l) = Some v -> l = map Fin v.
Proof.
  induction l as [|[|r|] l IH]; intros v H; simpl in H; try discriminate.
  - injection H as <-. auto.
  - destruct (all_some (map fin l)) eqn:E; [|discriminate]. apply Some_inj in H. subst v.
    simpl. rewrite <- (IH _ eq_refl). auto.
Qed.
Lemma F2_fin_lo : forall v z, Forall2 ext_le_r (map Fin v) z <-> vle v z.
Proof.
  induction v; intros z; simpl; split; intros H; inversion H; subst; constructor; auto;
    apply IHv; auto.
Qed.
Lemma F2_fin_up : forall v z, Forall2 (fun e x => r_le_ext x e) (map Fin v) z <-> vle z v.
Proof.
  induction v; intros z; simpl; split; intros H; inversion H; subst; constructor; auto;
    apply IHv; auto.
Qed.

(** ** Reachable systems *)

Definition mode_valid (nx nu : nat) (m : mode_data) : Prop :=
  forall z, length z = (nx + nu)%nat -> inside m z ->
    Forall2 ext_le_r (md_lo m) z /\ Forall2 (fun e x => r_le_ext x e) (md_up m) z.

Lemma shape_ok_wfm : forall m n A, shape_ok m n A = true <-> wfm m n A.
Proof.
  intros m n A. unfold shape_ok, wfm. rewrite andb_true_iff, Nat.eqb_eq, forallb_forall.
  rewrite Forall_forall. split; intros [H1 H2]; split; auto; intros r Hr; specialize (H2 r Hr);
    apply Nat.eqb_eq; auto.
Qed.

Lemma all_some_map : forall {A B} (f : A -> option B) l r d da, all_some (map f l) = Some r ->
  length r = length l /\ forall i, (i < length l)%nat -> f (nth i l da) = Some (nth i r d).
Proof.
  induction l as [|a l IH]; intros r d da H; simpl in H.
  - injection H as <-. split; auto. simpl; intros; lia.
  - destruct (f a) eqn:E; [|discriminate]. destruct (all_some (map f l)) eqn:E2; [|discriminate].
    apply Some_inj in H. subst r. destruct (IH l0 d da eq_refl) as [I1 I2].
    split; [simpl; auto|]. intros i Hi. destruct i; simpl in *; auto. apply I2. lia.
Qed.

Lemma F2_nth : forall {A B} (P : A -> B -> Prop) l z da db, length l = length z ->
  (forall i, (i < length z)%nat -> P (nth i l da) (nth i z db)) -> Forall2 P l z.
Proof.
  intros A B P. induction l as [|a l IH]; intros [|t z] da db L H; try discriminate; constructor.
  - apply (H 0%nat). simpl; lia.
  - apply (IH z da db); auto. intros i Hi. apply (H (S i)). simpl; lia.
Qed.

Lemma built_inv : forall bounds bounded nx nu h, bounds_valid bounds ->
  built bounds bounded nx nu h ->
  h_nx h = nx /\ h_nu h = nu /\ Forall (mode_wf nx nu) (h_modes h) /\
  Forall (mode_valid nx nu) (h_modes h).
Proof.
  intros bounds bounded nx nu h V H. induction H as [|h A B c P q check h' H IH E].
  - simpl. auto.
  - destruct IH as (E1 & E2 & W & Va). unfold add_mode in E. rewrite E1, E2 in E.
    match type of E with (if negb ?b then _ else _) = _ => destruct b eqn:G end; [|discriminate].
    cbn [negb] in E. rewrite !andb_true_iff in G.
    destruct G as (((((G1 & G2) & G3) & G4) & G5) & _).
    apply shape_ok_wfm in G1. apply shape_ok_wfm in G2. apply shape_ok_wfm in G4.
    apply Nat.eqb_eq in G3. apply Nat.eqb_eq in G5.
    destruct (all_some (map (bounds P q) (seq 0 (nx + nu)))) as [lu|] eqn:L; [|discriminate].
    injection E as <-. cbn [h_nx h_nu h_modes].
    destruct (all_some_map _ _ _ (NInf, PInf) 0%nat L) as [L1 L2]. rewrite seq_length in L1, L2.
    split; auto. split; auto. split; apply Forall_app; split; auto; constructor; auto.
    + unfold mode_wf. simpl. rewrite !map_length. destruct G4 as [_ G4].
      repeat match goal with |- _ /\ _ => split end; auto; apply G1 || apply G2.
    + intros z Lz I. unfold inside in I. cbn [md_P md_q md_lo md_up] in *.
      assert (Q : forall i, (i < length z)%nat ->
        ext_le_r (fst (nth i lu (NInf, PInf))) (nth i z 0) /\
        r_le_ext (nth i z 0) (snd (nth i lu (NInf, PInf)))).
      { intros i Hi. specialize (L2 i). rewrite seq_nth in L2 by lia. cbn [Nat.add] in L2.
        specialize (L2 ltac:(lia)). rewrite (surjective_pairing (nth i lu (NInf, PInf))) in L2.
        eapply V; eauto. destruct G4 as [_ G4]. rewrite Lz. auto. }
      split.
      * apply (F2_nth _ _ _ (fst (NInf, PInf)) 0); [rewrite map_length; lia|]. intros i Hi. rewrite map_nth. apply Q; auto.
      * apply (F2_nth _ _ _ (snd (NInf, PInf)) 0); [rewrite map_length; lia|]. intros i Hi. rewrite map_nth. apply Q; auto.
Qed.

Section Exact.
Variables (h : hybrid) (nx nu : nat).
Hypothesis Enx : h_nx h = nx.
Hypothesis Enu : h_nu h = nu.
Hypothesis W : Forall (mode_wf nx nu) (h_modes h).
Hypothesis Va : Forall (mode_valid nx nu) (h_modes h).
Let K := length (h_modes h).

Lemma lo_all_length : length (lo_all h) = (nx + nu)%nat.
Proof.
  unfold lo_all. rewrite Enx, Enu. apply fold_len; [apply repeat_length|].
  eapply Forall_impl; [|exact W]. intros m (_ & _ & _ & _ & _ & Q & _). auto.
Qed.
Lemma up_all_length : length (up_all h) = (nx + nu)%nat.
Proof.
  unfold up_all. rewrite Enx, Enu. apply fold_len; [apply repeat_length|].
  eapply Forall_impl; [|exact W]. intros m (_ & _ & _ & _ & _ & _ & Q). auto.
Qed.

Lemma all_valid : forall m z, In m (h_modes h) -> inside m z -> length z = (nx + nu)%nat ->
  Forall2 ext_le_r (lo_all h) z /\ Forall2 (fun e x => r_le_ext x e) (up_all h) z.
Proof.
  intros m z Hm I L. rewrite Forall_forall in Va. destruct (Va m Hm z L I) as [V1 V2].
  unfold lo_all, up_all. rewrite Enx, Enu. split.
  - apply (fold_bound ext_le_r ext_min md_lo z ext_min_l ext_min_r).
    + rewrite repeat_length; auto.
    + rewrite L. eapply Forall_impl; [|exact W]. intros m' (_ & _ & _ & _ & _ & Q & _). auto.
    + right. eauto.
  - apply (fold_bound (fun e x => r_le_ext x e) ext_max md_up z).
    + intros; apply ext_max_l; auto.
    + intros; apply ext_max_r; auto.
    + rewrite repeat_length; auto.
    + rewrite L. eapply Forall_impl; [|exact W]. intros m' (_ & _ & _ & _ & _ & _ & Q). auto.
    + right. eauto.
Qed.

Lemma opt_lo : forall n o v, len_ok n o = true -> length v = n ->
  let g := match o with Some v => map Fin v | None => repeat NInf n end in
  length g = n /\ (Forall2 ext_le_r g v <-> forall l, o = Some l -> vle l v).
Proof.
  intros n [l|] v H L; simpl in *.
  - apply Nat.eqb_eq in H. rewrite map_length. split; auto. rewrite F2_fin_lo. split.
    + intros Q l' E. injection E as <-. auto.
    + auto.
  - rewrite repeat_length. split; auto. split; [discriminate|]. intros _. rewrite <- L.
    clear. induction v; simpl; constructor; simpl; auto.
Qed.
Lemma opt_up : forall n o v, len_ok n o = true -> length v = n ->
  let g := match o with Some v => map Fin v | None => repeat PInf n end in
  length g = n /\ (Forall2 (fun e x => r_le_ext x e) g v <-> forall u, o = Some u -> vle v u).
Proof.
  intros n [l|] v H L; simpl in *.
  - apply Nat.eqb_eq in H. rewrite map_length. split; auto. rewrite F2_fin_up. split.
    + intros Q l' E. injection E as <-. auto.
    + auto.
  - rewrite repeat_length. split; auto. split; [discriminate|]. intros _. rewrite <- L.
    clear. induction v; simpl; constructor; simpl; auto.
Qed.

Lemma tighten_lo : forall x_lo u_lo lo x u, len_ok nx x_lo = true -> len_ok nu u_lo = true ->
  all_some (map fin (tighten ext_max (lo_all h) nx nu NInf x_lo u_lo)) = Some lo ->
  length x = nx -> length u = nu ->
  length lo = (nx + nu)%nat /\
  (vle lo (x ++ u) <-> Forall2 ext_le_r (lo_all h) (x ++ u) /\
     (forall l, x_lo = Some l -> vle l x) /\ (forall l, u_lo = Some l -> vle l u)).
Proof.
  intros x_lo u_lo lo x u H1 H2 H Lx Lu. apply fin_some in H.
  destruct (opt_lo nx x_lo x H1 Lx) as [A1 A2]. destruct (opt_lo nu u_lo u H2 Lu) as [B1 B2].
  assert (Ll := lo_all_length).
  split.
  - apply (f_equal (@length ext)) in H. rewrite map_length in H. rewrite <- H.
    unfold tighten. cbv beta zeta. cbv beta zeta in A1, B1.
    rewrite map2_length, app_length. unfold vec in *. rewrite A1, B1. lia.
  - rewrite <- F2_fin_lo, <- H. unfold tighten.
    cbv beta zeta. cbv beta zeta in A1, A2, B1, B2.
    rewrite (F2_map2_iff ext_max ext_le_r); [|apply ext_max_iff|rewrite app_length; lia|
      rewrite !app_length; unfold vec in *; rewrite A1, B1; lia].
    rewrite Forall2_app_iff by (unfold vec in *; rewrite A1; auto). rewrite A2, B2. tauto.
Qed.
Lemma tighten_up : forall x_up u_up up x u, len_ok nx x_up = true -> len_ok nu u_up = true ->
  all_some (map fin (tighten ext_min (up_all h) nx nu PInf x_up u_up)) = Some up ->
  length x = nx -> length u = nu ->
  length up = (nx + nu)%nat /\
  (vle (x ++ u) up <-> Forall2 (fun e x => r_le_ext x e) (up_all h) (x ++ u) /\
     (forall l, x_up = Some l -> vle x l) /\ (forall l, u_up = Some l -> vle u l)).
Proof.
  intros x_up u_up up x u H1 H2 H Lx Lu. apply fin_some in H.
  destruct (opt_up nx x_up x H1 Lx) as [A1 A2]. destruct (opt_up nu u_up u H2 Lu) as [B1 B2].
  assert (Ll := up_all_length).
  split.
  - apply (f_equal (@length ext)) in H. rewrite map_length in H. rewrite <- H.
    unfold tighten. cbv beta zeta. cbv beta zeta in A1, B1.
    rewrite map2_length, app_length. unfold vec in *. rewrite A1, B1. lia.
  - rewrite <- F2_fin_up, <- H. unfold tighten.
    cbv beta zeta. cbv beta zeta in A1, A2, B1, B2.
    rewrite (F2_map2_iff ext_min (fun e x => r_le_ext x e)); [|intros; apply ext_min_iff|
      rewrite app_length; lia|rewrite !app_length; unfold vec in *; rewrite A1, B1; lia].
    rewrite Forall2_app_iff by (unfold vec in *; rewrite A1; auto). rewrite A2, B2. tauto.
Qed.

Lemma slack_split : forall s : vec, length s = (K * (nx + nu))%nat ->
  s = concat (map (fun i => slice (i * nx) nx s) (seq 0 K) ++
              map (fun i => slice (K * nx + i * nu) nu s) (seq 0 K)).
Proof.
  intros s L. rewrite concat_app.
  assert (E := concat_slices nx K 0 s). cbn [Nat.add] in E. rewrite E by lia. rewrite (concat_slices nu K (K * nx) s) by lia.
  unfold slice. cbn [skipn]. rewrite (firstn_all2 (skipn (K * nx) s)) by (rewrite skipn_length; lia).
  symmetry. apply firstn_skipn.
Qed.

Lemma F2_app_rel : forall {A B} (P : A -> B -> Prop) a b c d,
  Forall2 P a c -> Forall2 P b d -> Forall2 P (a ++ b) (c ++ d).
Proof. intros. apply Forall2_app; auto. Qed.

Lemma map_nth_seq : forall {A} (l : list A) d, map (fun i => nth i l d) (seq 0 (length l)) = l.
Proof.
  intros A l d. assert (Q : forall pre, map (fun i => nth i (pre ++ l) d) (seq (length pre) (length l)) = l).
  { induction l as [|a l IH]; intros pre; auto. cbn [length seq map]. f_equal.
    - rewrite app_nth2, Nat.sub_diag by lia. auto.
    - specialize (IH (pre ++ [a])). rewrite <- app_assoc in IH. cbn [app] in IH.
      rewrite app_length in IH. simpl in IH. rewrite Nat.add_1_r in IH. auto. }
  apply (Q []).
Qed.

(** The affine output at a one-hot alpha. *)
Lemma hybrid_output : forall x u s b i0 m0, (0 < K)%nat -> length x = nx -> length u = nu ->
  length s = (K * (nx + nu))%nat -> length b = K ->
  nth_error (h_modes h) i0 = Some m0 -> nth i0 b 0 = 1 ->
  (forall i, (i < K)%nat -> i <> i0 -> nth i b 0 = 0) ->
  (forall i, (i < K)%nat -> part nx nu K i s = vscale (nth i b 0) (x ++ u)) ->
  length (hcats (map md_A (h_modes h) ++ map md_B (h_modes h))) = nx /\
  length (hcats (map (fun m => col (md_c m)) (h_modes h))) = nx /\
  mv (hcats (map md_A (h_modes h) ++ map md_B (h_modes h))) s
    = vadd (mv (md_A m0) x) (mv (md_B m0) u) /\
  mv (hcats (map (fun m => col (md_c m)) (h_modes h))) b = md_c m0.
Proof.
  intros x u s b i0 m0 HK Lx Lu Ls Lb Hm O Z P.
  assert (Hi0 : (i0 < K)%nat) by (apply nth_error_Some; rewrite Hm; discriminate).
  assert (Px : forall i, (i < K)%nat -> slice (i * nx) nx s = vscale (nth i b 0) x /\
                         slice (K * nx + i * nu) nu s = vscale (nth i b 0) u).
  { intros i Hi. specialize (P i Hi). unfold part in P.
    assert (E : vscale (nth i b 0) (x ++ u) = vscale (nth i b 0) x ++ vscale (nth i b 0) u)
      by (unfold vscale; apply map_app).
    rewrite E in P. apply app_eq_iff in P; auto.
    rewrite slice_length, vscale_length; unfold vec in *; nia. }
  assert (NE : h_modes h <> []) by (intros Q; unfold K in HK; rewrite Q in HK; simpl in HK; lia).
  assert (S1 : s = concat (map (fun i => vscale (nth i b 0) x) (seq 0 K) ++
                           map (fun i => vscale (nth i b 0) u) (seq 0 K))).
  { rewrite (slack_split s Ls) at 1. f_equal. f_equal; apply map_ext_in; intros i Hi;
      apply in_seq in Hi; apply Px; lia. }
  (* A and B *)
  assert (FA : forall (g : mode_data -> mat) n v, length v = n ->
     (forall m, mode_wf nx nu m -> wfm nx n (g m)) ->
     Forall2 (fun M (y : vec) => wfm nx (length y) M) (map g (h_modes h))
       (map (fun i => vscale (nth i b 0) v) (seq 0 K)) /\
     vsums nx (map2 mv (map g (h_modes h)) (map (fun i => vscale (nth i b 0) v) (seq 0 K)))
       = mv (g m0) v /\
     Forall (fun w => length w = nx)
       (map2 mv (map g (h_modes h)) (map (fun i => vscale (nth i b 0) v) (seq 0 K)))).
  { intros g n v Lv Hg.
    assert (Wg : Forall (fun m => wfm nx n (g m)) (h_modes h))
      by (eapply Forall_impl; [|exact W]; auto).
    assert (Q1 : forall (ms : list mode_data) k, Forall (fun m => wfm nx n (g m)) ms ->
       Forall2 (fun M (y : vec) => wfm nx (length y) M) (map g ms)
         (map (fun i => vscale (nth i b 0) v) (seq k (length ms))) /\
       map2 mv (map g ms) (map (fun i => vscale (nth i b 0) v) (seq k (length ms)))
       = map2 (fun i w => vscale (nth i b 0) w) (seq k (length ms)) (map (fun m => mv (g m) v) ms) /\
       Forall (fun w => length w = nx) (map (fun m => mv (g m) v) ms)).
    { induction ms as [|m ms IH]; intros k Hms; [simpl; auto|].
      assert (Wm : wfm nx n (g m)) by (inversion Hms; auto).
      destruct (IH (S k)) as (I1 & I2 & I3); [inversion Hms; auto|].
      cbn [length seq map map2]. split; [|split].
      - constructor; auto. rewrite vscale_length, Lv. auto.
      - rewrite I2. rewrite mv_vscale. auto.
      - constructor; auto. rewrite mv_length. apply Wm. }
    destruct (Q1 (h_modes h) 0%nat Wg) as (Q2 & Q3 & Q4). fold K in Q2, Q3.
    split; auto. split.
    - rewrite Q3. assert (EK : K = length (map (fun m => mv (g m) v) (h_modes h)))
        by (rewrite map_length; auto).
      rewrite EK at 1. rewrite (vsums_pick nx _ 0 i0 b); auto.
      + rewrite Nat.sub_0_r. apply nth_error_nth with (d := []) .
        rewrite nth_error_map, Hm. auto.
      + rewrite <- EK. lia.
      + rewrite <- EK. intros; apply Z; auto; lia.
    - apply Forall_forall. intros w Hw. rewrite Forall_forall in Wg.
      clear - Wg Hw. remember (map (fun i => vscale (nth i b 0) v) (seq 0 K)) as ys. clear Heqys.
      revert ys Hw. induction (h_modes h) as [|m ms IH]; intros ys Hw; [destruct Hw|].
      destruct ys as [|y ys]; [destruct Hw|]. cbn [map map2] in Hw. destruct Hw as [<-|Hw].
      + rewrite mv_length. apply (Wg m). left; auto.
      + apply (IH (fun m' Hm' => Wg m' (or_intror Hm')) ys Hw). }
  destruct (FA md_A nx x Lx) as (A1 & A2 & A3); [intros m Q; apply Q|].
  destruct (FA md_B nu u Lu) as (B1 & B2 & B3); [intros m Q; apply Q|].
  assert (L2 : forall {A B C} (f : A -> B -> C) a a' c c', length a = length c ->
     map2 f (a ++ a') (c ++ c') = map2 f a c ++ map2 f a' c').
  { intros A B C f. induction a as [|y a IHa]; intros a' [|z c] c' L; try discriminate; auto.
    cbn [app map2]. rewrite IHa; auto. }
  destruct (mv_hcats_v nx (map md_A (h_modes h) ++ map md_B (h_modes h))
    (map (fun i => vscale (nth i b 0) x) (seq 0 K) ++
     map (fun i => vscale (nth i b 0) u) (seq 0 K))) as [H1 H2].
  { intros Q. apply app_eq_nil in Q. destruct Q as [Q _]. apply map_eq_nil in Q. auto. }
  { apply Forall2_app; auto. }
  (* c *)
  assert (C1 : forall (ms : list mode_data) (k : nat), Forall (mode_wf nx nu) ms ->
     Forall2 (fun M (y : vec) => wfm nx (length y) M) (map (fun m => col (md_c m)) ms)
       (map (fun i => [nth i b 0]) (seq k (length ms))) /\
     map2 mv (map (fun m => col (md_c m)) ms) (map (fun i => [nth i b 0]) (seq k (length ms)))
       = map2 (fun i w => vscale (nth i b 0) w) (seq k (length ms)) (map md_c ms)).
  { induction ms as [|m ms IH]; intros k Hms; [simpl; auto|].
    destruct (IH (S k)) as [I1 I2]; [inversion Hms; auto|].
    assert (Wm : mode_wf nx nu m) by (inversion Hms; auto).
    cbn [length seq map map2]. split.
    - constructor; auto. split; [unfold col; rewrite map_length; apply Wm|].
      apply Forall_forall. intros r Hr. unfold col in Hr. apply in_map_iff in Hr.
      destruct Hr as (a & <- & _). auto.
    - rewrite I2, mv_col. auto. }
  destruct (C1 (h_modes h) 0%nat W) as [C2 C3]. fold K in C2, C3.
  destruct (mv_hcats_v nx (map (fun m => col (md_c m)) (h_modes h))
     (map (fun i => [nth i b 0]) (seq 0 K))) as [H3 H4]; auto.
  { intros Q. apply map_eq_nil in Q. auto. }
  split; auto. split; auto. split.
  - rewrite S1 at 1. rewrite H2. rewrite L2 by (rewrite !map_length, seq_length; auto).
    rewrite vsums_app by auto. rewrite A2, B2. auto.
  - assert (Eb : b = concat (map (fun i => [nth i b 0]) (seq 0 K))).
    { rewrite <- Lb. rewrite <- (map_nth_seq b 0) at 1. generalize (seq 0 (length b)).
      intros l. induction l; simpl; auto. f_equal. auto. }
    rewrite Eb at 1. rewrite H4, C3.
    assert (EK : K = length (map md_c (h_modes h))) by (rewrite map_length; auto).
    rewrite EK at 1. rewrite (vsums_pick nx _ 0 i0 b); auto.
    + rewrite Nat.sub_0_r. apply nth_error_nth with (d := []).
      rewrite nth_error_map, Hm. auto.
    + apply Forall_forall. intros v Hv. apply in_map_iff in Hv. destruct Hv as (m & <- & Hm').
      rewrite Forall_forall in W. apply (W m Hm').
    + rewrite <- EK. lia.
    + rewrite <- EK. intros; apply Z; auto; lia.
Qed.
End Exact.
