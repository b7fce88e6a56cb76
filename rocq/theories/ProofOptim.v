(** Proofs about gradient projection and the line searches. *)

Require Import Reals List Bool Arith Lia Lra Psatz.
Require Import Verif.Vec Verif.VecFacts Verif.ProofMilp Verif.ProofBounds Verif.SpecROptions
  Verif.ProofROptions Verif.ModelOptim Verif.SpecOptim.
Import ListNotations.
Open Scope R_scope.

(** ** Gradient projection *)

Lemma cauchy : forall a b, length a = length b -> dot a b * dot a b <= dot a a * dot b b.
Proof.
  intros a b L. pose proof (sqnorm_nonneg a) as Pa. pose proof (sqnorm_nonneg b) as Pb.
  pose proof (sqnorm_nonneg (vsub (vscale (dot b b) a) (vscale (dot a b) b))) as P.
  unfold sqnorm in *.
  rewrite dot_vsub_l, !dot_vsub_r, !dot_vscale_l, !dot_vscale_r, (dot_comm b a) in P
    by (rewrite !vscale_length; auto).
  destruct (Req_dec (dot b b) 0) as [E|E].
  - assert (Z := sqnorm_zero b E). rewrite Z, !dot_zeros_r. lra.
  - assert (0 < dot b b) by lra. apply Rmult_le_reg_l with (dot b b); auto.
    generalize dependent (dot a b). generalize dependent (dot b b). generalize dependent (dot a a). intros.
    nra.
Qed.
Lemma nonzero_dot : forall a, a <> zeros (length a) -> 0 < dot a a.
Proof.
  intros a H. pose proof (sqnorm_nonneg a) as P. unfold sqnorm in P.
  destruct P as [P|P]; auto. exfalso. apply H. apply sqnorm_zero. unfold sqnorm. auto.
Qed.
Lemma orth_dot : forall a b, length a = length b -> 0 < dot b b -> dot (orthogonal_part a b) b = 0.
Proof.
  intros a b L H. unfold orthogonal_part. rewrite dot_vsub_l by (rewrite vscale_length; auto).
  rewrite dot_vscale_l. field. lra.
Qed.
Lemma orth_self : forall a b, length a = length b -> 0 < dot b b -> 0 <= dot (orthogonal_part a b) a.
Proof.
  intros a b L H. unfold orthogonal_part. rewrite dot_vsub_l by (rewrite vscale_length; auto).
  rewrite dot_vscale_l, (dot_comm b a). pose proof (cauchy a b L) as C.
  replace (dot a a - dot a b / dot b b * dot a b)
    with ((dot a a * dot b b - dot a b * dot a b) * / dot b b) by (field; lra).
  apply Rmult_le_pos; [lra|]. left. apply Rinv_0_lt_compat. auto.
Qed.
Lemma orth_length : forall a b, length a = length b -> length (orthogonal_part a b) = length a.
Proof. intros a b L. unfold orthogonal_part. rewrite vsub_length; rewrite ?vscale_length; auto. Qed.

Lemma perp_some : forall a b, 0 < dot b b -> perp a b = Some (orthogonal_part a b).
Proof. intros a b H. unfold perp. destruct (Req_EM_T (dot b b) 0); [lra|]. reflexivity. Qed.
Lemma vadd_zeros_l : forall v n, length v = n -> vadd (zeros n) v = v.
Proof.
  intros v n <-. induction v as [|a v IH]; auto. cbn. unfold vadd, zeros in IH. rewrite IH. f_equal. lra.
Qed.

Lemma project_spec : forall mode n1 n2, length n1 = length n2 -> 0 < dot n1 n1 -> 0 < dot n2 n2 ->
  project mode n1 n2 = (if Rltb 0 (dot n1 n2) then (false, Some (vadd n1 n2))
                        else (true, Some (resolved mode n1 n2))).
Proof.
  intros mode n1 n2 L P1 P2. unfold project. destruct (Rltb 0 (dot n1 n2)); auto.
  pose proof (orth_length n1 n2 L) as L1. assert (L2 := orth_length n2 n1 (eq_sym L)).
  rewrite (perp_some n1 n2 P2), (perp_some n2 n1 P1).
  destruct mode; cbn [add_to resolved]; rewrite ?vadd_zeros_l by congruence; reflexivity.
Qed.

Lemma write_back_concat : forall sizes g, length g = list_sum sizes -> concat (write_back sizes g) = g.
Proof.
  induction sizes as [|s r IH]; intros g L; cbn [write_back concat].
  - destruct g; auto. discriminate.
  - change (list_sum (s :: r)) with (s + list_sum r)%nat in L.
    rewrite IH by (rewrite skipn_length; lia). apply firstn_skipn.
Qed.
Lemma write_back_sizes : forall (ds : list vec) g, length g = list_sum (map (@length R) ds) ->
  Forall2 same_size ds (write_back (map (@length R) ds) g).
Proof.
  induction ds as [|d r IH]; intros g L; cbn [map write_back]; constructor.
  - cbn [map] in L. change (list_sum (length d :: map (@length R) r)) with (length d + list_sum (map (@length R) r))%nat in L.
    unfold same_size. rewrite firstn_length. lia.
  - cbn [map] in L. change (list_sum (length d :: map (@length R) r)) with (length d + list_sum (map (@length R) r))%nat in L.
    apply IH. rewrite skipn_length. lia.
Qed.
Lemma concat_sizes : forall (ds : list vec), length (concat ds) = list_sum (map (@length R) ds).
Proof.
  induction ds as [|d r IH]; auto. cbn [concat map]. rewrite app_length, IH. reflexivity.
Qed.
Lemma same_sizes : forall (a b : list vec), Forall2 same_size a b ->
  map (@length R) a = map (@length R) b.
Proof. induction 1 as [|x y a b H F IH]; auto. cbn [map]. unfold same_size in H. congruence. Qed.

Lemma accumulate_cleared : forall old ds, Forall2 cleared old ds ->
  all_some (map2 accumulate old (map Some ds)) = Some ds.
Proof.
  induction 1 as [|o d old ds H F IH]; auto. cbn [map map2 all_some].
  destruct H as [ -> | -> ]; cbn [accumulate]; [|rewrite vadd_zeros_l by auto]; rewrite IH; auto.
Qed.
Lemma zeroed_cleared : forall (a b : list vec), Forall2 same_size a b ->
  Forall2 cleared (map (fun g => Some (zeros (length g))) a) b.
Proof.
  induction 1 as [|x y a b H F IH]; cbn [map]; constructor; auto. right. unfold same_size in H. congruence.
Qed.

Lemma project_gradient_eq : forall mode old d1 d2, Forall2 cleared old d1 -> Forall2 same_size d1 d2 ->
  project_gradient mode old (map Some d1) (map Some d2)
  = let (flag, g) := project mode (concat d1) (concat d2) in
    Some (mkProjected flag (concat d1) (concat d2)
      (match g with Some g => Some (write_back (map (@length R) d1) g) | None => None end)).
Proof.
  intros mode old d1 d2 C S. unfold project_gradient.
  rewrite (accumulate_cleared _ _ C), (accumulate_cleared _ _ (zeroed_cleared _ _ S)). reflexivity.
Qed.
Lemma resolved_length : forall mode n1 n2, length n1 = length n2 -> length (resolved mode n1 n2) = length n1.
Proof.
  intros mode n1 n2 L. pose proof (orth_length n1 n2 L) as L1. assert (L2 := orth_length n2 n1 (eq_sym L)).
  destruct mode; cbn [resolved]; rewrite ?vadd_length; congruence.
Qed.

Lemma project_gradient_ok : forall mode old d1 d2,
  Forall2 cleared old d1 -> Forall2 same_size d1 d2 ->
  concat d1 <> zeros (length (concat d1)) -> concat d2 <> zeros (length (concat d2)) ->
  exists r gs, project_gradient mode old (map Some d1) (map Some d2) = Some r /\
    pr_grads r = Some gs /\ pr_n1 r = concat d1 /\ pr_n2 r = concat d2 /\ Forall2 same_size d1 gs /\
    (0 < dot (concat d1) (concat d2) -> pr_flag r = false /\ concat gs = vadd (concat d1) (concat d2)) /\
    (dot (concat d1) (concat d2) <= 0 ->
       pr_flag r = true /\ concat gs = resolved mode (concat d1) (concat d2)).
Proof.
  intros mode old d1 d2 C S N1 N2. apply nonzero_dot in N1. apply nonzero_dot in N2.
  assert (L : length (concat d1) = length (concat d2)) by (rewrite !concat_sizes, (same_sizes _ _ S); auto).
  rewrite (project_gradient_eq _ _ _ _ C S), (project_spec _ _ _ L N1 N2).
  unfold Rltb. destruct (Rlt_dec 0 (dot (concat d1) (concat d2))) as [H|H].
  - eexists. eexists. split; [reflexivity|]. cbn [pr_grads pr_n1 pr_n2 pr_flag].
    assert (G : length (vadd (concat d1) (concat d2)) = list_sum (map (@length R) d1))
      by (rewrite vadd_length by auto; apply concat_sizes).
    split; [reflexivity|]. split; [reflexivity|]. split; [reflexivity|].
    split; [apply write_back_sizes; auto|]. split; [|lra].
    intros _. split; auto. apply write_back_concat. auto.
  - eexists. eexists. split; [reflexivity|]. cbn [pr_grads pr_n1 pr_n2 pr_flag].
    assert (G : length (resolved mode (concat d1) (concat d2)) = list_sum (map (@length R) d1))
      by (rewrite resolved_length by auto; apply concat_sizes).
    split; [reflexivity|]. split; [reflexivity|]. split; [reflexivity|].
    split; [apply write_back_sizes; auto|]. split; [lra|].
    intros _. split; auto. apply write_back_concat. auto.
Qed.

(** Neither loss increases to first order in mode BOTH. *)
Lemma both_descends : forall n1 n2 g, length n1 = length n2 -> 0 < dot n1 n1 -> 0 < dot n2 n2 ->
  (0 < dot n1 n2 -> g = vadd n1 n2) -> (dot n1 n2 <= 0 -> g = resolved BOTH n1 n2) ->
  0 <= dot g n1 /\ 0 <= dot g n2.
Proof.
  intros n1 n2 g L P1 P2 H1 H2. destruct (Rlt_dec 0 (dot n1 n2)) as [C|C].
  - rewrite (H1 C). rewrite !dot_vadd_l, (dot_comm n2 n1) by auto. lra.
  - rewrite (H2 (Rnot_lt_le _ _ C)). cbn [resolved].
    pose proof (orth_length n1 n2 L) as L1. assert (L2 := orth_length n2 n1 (eq_sym L)).
    rewrite !dot_vadd_l by congruence.
    pose proof (orth_dot n1 n2 L P2). pose proof (orth_dot n2 n1 (eq_sym L) P1).
    pose proof (orth_self n1 n2 L P2). pose proof (orth_self n2 n1 (eq_sym L) P1). lra.
Qed.

Lemma project_both : forall old d1 d2,
  Forall2 cleared old d1 -> Forall2 same_size d1 d2 ->
  concat d1 <> zeros (length (concat d1)) -> concat d2 <> zeros (length (concat d2)) ->
  exists r gs, project_gradient BOTH old (map Some d1) (map Some d2) = Some r /\
    pr_grads r = Some gs /\ Forall2 same_size d1 gs /\
    0 <= dot (concat gs) (concat d1) /\ 0 <= dot (concat gs) (concat d2).
Proof.
  intros old d1 d2 C S N1 N2.
  destruct (project_gradient_ok BOTH old d1 d2 C S N1 N2) as (r & gs & E & Eg & _ & _ & F & H1 & H2).
  exists r, gs. split; auto. split; auto. split; auto.
  apply both_descends.
  - rewrite !concat_sizes, (same_sizes _ _ S); auto.
  - apply nonzero_dot; auto.
  - apply nonzero_dot; auto.
  - intros K. apply (H1 K).
  - intros K. apply (H2 K).
Qed.
Lemma project_single : forall mode old d1 d2, mode = LOSS1 \/ mode = LOSS2 ->
  Forall2 cleared old d1 -> Forall2 same_size d1 d2 ->
  concat d1 <> zeros (length (concat d1)) -> concat d2 <> zeros (length (concat d2)) ->
  dot (concat d1) (concat d2) <= 0 ->
  exists r gs, project_gradient mode old (map Some d1) (map Some d2) = Some r /\
    pr_grads r = Some gs /\ Forall2 same_size d1 gs /\
    match mode with
    | LOSS1 => dot (concat gs) (concat d2) = 0 /\ 0 <= dot (concat gs) (concat d1)
    | _ => dot (concat gs) (concat d1) = 0 /\ 0 <= dot (concat gs) (concat d2)
    end.
Proof.
  intros mode old d1 d2 M C S N1 N2 K.
  destruct (project_gradient_ok mode old d1 d2 C S N1 N2) as (r & gs & E & Eg & _ & _ & F & _ & H2).
  exists r, gs. split; auto. split; auto. split; auto.
  destruct (H2 K) as [_ ->].
  assert (L : length (concat d1) = length (concat d2)) by (rewrite !concat_sizes, (same_sizes _ _ S); auto).
  apply nonzero_dot in N1. apply nonzero_dot in N2.
  destruct M as [ -> | -> ]; cbn [resolved]; split.
  - apply orth_dot; auto.
  - apply orth_self; auto.
  - apply orth_dot; auto.
  - apply orth_self; auto.
Qed.

(** A vanishing gradient makes the result NaN: the other loss is not reduced either. *)
Lemma project_zero : exists mode d1 d2, d1 = [[1; 0]; [2]] /\ d2 = [[0; 0]; [0]] /\ mode = BOTH /\
  exists r, project_gradient mode [None; None] (map Some d1) (map Some d2) = Some r /\ pr_grads r = None.
Proof.
  exists BOTH, [[1; 0]; [2]], [[0; 0]; [0]]. split; auto. split; auto. split; auto.
  rewrite project_gradient_eq.
  - unfold project. replace (Rltb 0 (dot (concat [[1; 0]; [2]]) (concat [[0; 0]; [0]]))) with false.
    + replace (perp (concat [[1; 0]; [2]]) (concat [[0; 0]; [0]])) with (@None vec).
      * cbn [add_to]. eexists. split; [reflexivity|]. cbn [pr_grads].
        destruct (perp (concat [[0; 0]; [0]]) (concat [[1; 0]; [2]])); reflexivity.
      * unfold perp. destruct (Req_EM_T _ 0) as [H|H]; auto. exfalso. apply H. cbn. lra.
    + unfold Rltb. destruct (Rlt_dec _ _) as [H|H]; auto. exfalso. cbn in H. lra.
  - repeat constructor.
  - repeat constructor.
Qed.
(** Orthogonal gradients: the documentation promises the sum and the flag False. *)
Lemma project_orthogonal : exists d1 d2, dot (concat d1) (concat d2) = 0 /\ exists r gs,
  project_gradient LOSS1 [None] (map Some d1) (map Some d2) = Some r /\ pr_grads r = Some gs /\
  pr_flag r = true /\ concat gs <> vadd (concat d1) (concat d2).
Proof.
  exists [[1; 0]], [[0; 1]]. split; [cbn; lra|].
  destruct (project_gradient_ok LOSS1 [None] [[1; 0]] [[0; 1]]) as (r & gs & E & Eg & _ & _ & _ & _ & H).
  - repeat constructor.
  - repeat constructor.
  - cbn. intros K. injection K. lra.
  - cbn. intros K. injection K. lra.
  - exists r, gs. split; auto. split; auto. destruct H as [H1 H2]; [cbn; lra|]. split; auto.
    rewrite H2. cbn. intros K. injection K. intros K1 _. revert K1.
    replace (1 * 0 + (0 * 1 + 0)) with 0 by lra. unfold Rdiv. rewrite Rmult_0_l. lra.
Qed.

(** ** Line search *)

Lemma move_sizes : forall a t d p, fits t d p -> Forall2 same_size d (move a t d p).
Proof.
  intros a t d p [L F]. revert t L. induction F as [|x y d p H F IH]; intros [|t0 t] L; try discriminate.
  - constructor.
  - cbn [move]. constructor; auto. unfold same_size in *. rewrite vadd_length; rewrite ?vscale_length; auto.
Qed.
Lemma move_length : forall a t d p, fits t d p -> length (move a t d p) = length p.
Proof.
  intros a t d p F. rewrite <- (Forall2_len _ _ _ (move_sizes a t d p F)).
  exact (Forall2_len _ _ _ (proj2 F)).
Qed.
Lemma move_fits : forall a t d p, fits t d p -> fits t d (move a t d p).
Proof. intros a t d p F. split; [rewrite move_length by auto; apply F|apply move_sizes; auto]. Qed.
Lemma move_zero : forall t d p, fits t d p -> move 0 t d p = p.
Proof.
  intros t d p [L F]. revert t L. induction F as [|x y d p H F IH]; intros [|t0 t] L; try discriminate; auto.
  cbn [move]. rewrite IH by auto. f_equal. unfold same_size in H.
  apply vec_ext; [rewrite vadd_length; rewrite ?vscale_length; auto|].
  intros i Hi. rewrite nth_vadd by (rewrite vscale_length; auto). rewrite nth_vscale. lra.
Qed.
Lemma move_move : forall a b t d p, fits t d p -> move (b - a) t d (move a t d p) = move b t d p.
Proof.
  intros a b t d p [L F]. revert t L. induction F as [|x y d p H F IH]; intros [|t0 t] L; try discriminate; auto.
  cbn [move]. rewrite IH by auto. f_equal. unfold same_size in H.
  assert (E1 : length (vadd y (vscale (a * t0) x)) = length y)
    by (rewrite vadd_length; rewrite ?vscale_length; auto).
  apply vec_ext.
  - rewrite !vadd_length; rewrite ?vscale_length; congruence.
  - intros i Hi. rewrite !nth_vadd, !nth_vscale by (rewrite ?vscale_length; congruence). ring.
Qed.

(** The state of the loop: the parameters are those of the last trial. *)
Lemma search_spec : forall fuel closure accept reduction least t d p0, fits t d p0 ->
  forall k last alpha alpha_prev p acc loss a q,
  p = move alpha_prev t d p0 ->
  (forall l b, last = Some (l, b) -> b = alpha_prev /\ accept b l = false /\ b * reduction = alpha /\
     exists j, l = closure j p) ->
  search fuel closure accept reduction least t d k last alpha alpha_prev p = Returned acc loss a q ->
  q = move a t d p0 /\ (exists j, loss = closure j q) /\ accept a loss = acc /\
  (acc = false -> a * reduction <= least) /\
  (last = None -> least < a).
Proof.
  induction fuel as [|fuel IH]; intros closure accept reduction least t d p0 F k last alpha alpha_prev p acc loss a q Ep HL E;
    cbn [search] in E; unfold Rltb in E; destruct (Rlt_dec least alpha) as [H|H]; try discriminate.
  - destruct last as [[l b]|]; [|discriminate]. injection E as <- <- <- <-.
    destruct (HL l b eq_refl) as (H1 & H2 & H3 & H4). subst b. split; auto. split; auto. split; auto.
    split; [intros _; lra|discriminate].
  - cbv zeta in E. set (p1 := move (alpha - alpha_prev) t d p) in *.
    assert (E1 : p1 = move alpha t d p0) by (unfold p1; rewrite Ep; apply move_move; auto).
    destruct (accept alpha (closure k p1)) eqn:EA.
    + injection E as <- <- <- <-. split; auto. split; [eauto|]. split; auto. split; [discriminate|intros _; auto].
    + destruct (IH closure accept reduction least t d p0 F (S k) (Some (closure k p1, alpha)) (alpha * reduction)
                  alpha p1 acc loss a q) as (Q1 & Q2 & Q3 & Q4 & Q5); auto.
      * intros l b Eb. injection Eb as <- <-. split; auto. split; auto. split; auto. eauto.
      * split; auto. split; auto. split; auto. split; auto. intros _.
        clear - E H. revert E.
        assert (G : forall fuel k l b alpha prev p, least < b ->
          search fuel closure accept reduction least t d k (Some (l, b)) alpha prev p = Returned acc loss a q ->
          least < a).
        { clear. induction fuel as [|fuel IH]; intros k l b alpha prev p Hb E; cbn [search] in E;
            unfold Rltb in E; destruct (Rlt_dec least alpha) as [H|H]; try discriminate.
          - injection E as _ _ <- _. auto.
          - cbv zeta in E. destruct (accept alpha _).
            + injection E as _ _ <- _. auto.
            + eapply IH; [exact H|exact E].
          - injection E as _ _ <- _. auto. }
        intros E. eapply G; [exact H|exact E].
  - destruct last as [[l b]|]; [|discriminate]. injection E as <- <- <- <-.
    destruct (HL l b eq_refl) as (H1 & H2 & H3 & H4). subst b. split; auto. split; auto. split; auto.
    split; [intros _; lra|discriminate].
Qed.

(** The tried step sizes are the powers of the reduction. *)
Lemma search_powers : forall fuel closure accept reduction least t d k last alpha alpha_prev p acc loss a q n,
  alpha = reduction ^ n ->
  (forall l b, last = Some (l, b) -> exists j, b = reduction ^ j) ->
  search fuel closure accept reduction least t d k last alpha alpha_prev p = Returned acc loss a q ->
  exists j, a = reduction ^ j.
Proof.
  induction fuel as [|fuel IH]; intros closure accept reduction least t d k last alpha alpha_prev p acc loss a q n Ea HL E;
    cbn [search] in E; destruct (Rltb least alpha); try discriminate.
  - destruct last as [[l b]|]; [|discriminate]. injection E as _ _ <- _. eauto.
  - cbv zeta in E. destruct (accept alpha _).
    + injection E as _ _ <- _. eauto.
    + eapply (IH _ _ _ _ _ _ _ _ _ _ _ _ _ _ _ (S n)); [| |exact E].
      * rewrite Ea. cbn. lra.
      * intros l b Eb. injection Eb as _ <-. eauto.
  - destruct last as [[l b]|]; [|discriminate]. injection E as _ _ <- _. eauto.
Qed.

(** Termination. *)
Lemma search_stops : forall n closure accept reduction least t d k last alpha alpha_prev p,
  0 < reduction < 1 -> 0 < least -> 0 < alpha -> alpha * reduction ^ n <= least ->
  search n closure accept reduction least t d k last alpha alpha_prev p <> Running.
Proof.
  induction n as [|n IH]; intros closure accept reduction least t d k last alpha alpha_prev p Hr Hl Ha H;
    cbn [search]; unfold Rltb; destruct (Rlt_dec least alpha) as [K|K]; cbn [pow] in H; try lra.
  - destruct last as [[l b]|]; discriminate.
  - cbv zeta. destruct (accept alpha _); [discriminate|]. apply IH; auto.
    + apply Rmult_lt_0_compat; lra.
    + rewrite Rmult_assoc. lra.
  - destruct last as [[l b]|]; discriminate.
Qed.
Lemma search_terminates : forall closure accept reduction least t d p,
  0 < reduction < 1 -> 0 < least -> exists fuel,
  search fuel closure accept reduction least t d O None 1 0 p <> Running.
Proof.
  intros closure accept reduction least t d p Hr Hl.
  destruct (pow_lt_1_zero reduction) with (y := least) as [n Hn]; auto.
  { rewrite Rabs_pos_eq; lra. }
  exists n. apply search_stops; auto; try lra. specialize (Hn n (Nat.le_refl n)).
  pose proof (Rle_abs (reduction ^ n)). lra.
Qed.
(** More fuel does not change the result. *)
Lemma search_fuel : forall n closure accept reduction least t d k last alpha alpha_prev p m,
  search n closure accept reduction least t d k last alpha alpha_prev p <> Running -> (n <= m)%nat ->
  search m closure accept reduction least t d k last alpha alpha_prev p
  = search n closure accept reduction least t d k last alpha alpha_prev p.
Proof.
  induction n as [|n IH]; intros closure accept reduction least t d k last alpha alpha_prev p m H Hm.
  - cbn [search] in *. destruct m; cbn [search]; destruct (Rltb least alpha); auto; congruence.
  - destruct m as [|m]; [lia|]. cbn [search] in *. destruct (Rltb least alpha); auto. cbv zeta in *.
    destruct (accept alpha _); auto. apply IH; auto. lia.
Qed.
Lemma search_bound : forall fuel closure accept reduction least t d p, least < 1 ->
  search fuel closure accept reduction least t d O None 1 0 p <> Unbound.
Proof.
  intros fuel closure accept reduction least t d p H.
  assert (G : forall fuel k l alpha prev p,
    search fuel closure accept reduction least t d k (Some l) alpha prev p <> Unbound).
  { clear. induction fuel as [|fuel IH]; intros k [l b] alpha prev p; cbn [search];
      destruct (Rltb least alpha); try discriminate. cbv zeta. destruct (accept alpha _); [discriminate|apply IH]. }
  destruct fuel; cbn [search]; unfold Rltb; destruct (Rlt_dec least 1); try lra; [discriminate|].
  cbv zeta. destruct (accept 1 _); [discriminate|apply G].
Qed.

Lemma line_search_ok : forall fuel closure accept reduction least t d p acc loss a q,
  fits t d p ->
  search fuel closure accept reduction least t d O None 1 0 p = Returned acc loss a q ->
  q = move a t d p /\ (exists j, loss = closure j q) /\ accept a loss = acc /\ least < a /\
  (exists j, a = reduction ^ j) /\ (acc = false -> a * reduction <= least).
Proof.
  intros fuel closure accept reduction least t d p acc loss a q F E.
  assert (HL : forall (l b : R), @None (R * R) = Some (l, b) -> b = 0 /\ accept b l = false /\ b * reduction = 1 /\
     exists j, l = closure j p) by discriminate.
  destruct (search_spec fuel closure accept reduction least t d p F O None 1 0 p acc loss a q
    (eq_sym (move_zero t d p F)) HL E) as (H1 & H2 & H3 & H4 & H5).
  assert (HL' : forall (l b : R), @None (R * R) = Some (l, b) -> exists j, b = reduction ^ j) by discriminate.
  assert (P := search_powers fuel closure accept reduction least t d O None 1 0 p acc loss a q O eq_refl HL' E).
  specialize (H5 eq_refl). tauto.
Qed.

Lemma repeat_fits : forall t d p, Forall2 same_size d p -> fits (repeat t (length p)) d p.
Proof. intros t d p F. split; auto. apply repeat_length. Qed.
Lemma gd_ok : forall fuel closure c reduction least improvement loss0 t g d p acc loss a q,
  Forall2 same_size d p ->
  gd_search fuel closure c reduction least improvement loss0 t g d p = Returned acc loss a q ->
  q = move a (repeat t (length p)) d p /\ (exists j, loss = closure j q) /\ least < a /\
  (exists j, a = reduction ^ j) /\
  (acc = true -> loss <= loss0 + t * (c * slope g d) /\ loss <= loss0 - improvement) /\
  (acc = false -> a * reduction <= least /\
     ~ (loss <= loss0 + t * (c * slope g d) /\ loss <= loss0 - improvement)).
Proof.
  intros fuel closure c reduction least improvement loss0 t g d p acc loss a q F E.
  destruct (line_search_ok _ _ _ _ _ _ _ _ _ _ _ _ (repeat_fits t d p F) E) as (H1 & H2 & H3 & H4 & H5 & H6).
  split; auto. split; auto. split; auto. split; auto. unfold gd_accept in H3. split.
  - intros ->. apply andb_true_iff in H3. destruct H3 as [K1 K2]. apply Rleb_true in K1. apply Rleb_true in K2. auto.
  - intros ->. split; auto. intros [K1 K2]. apply andb_false_iff in H3. unfold Rleb in H3.
    destruct H3 as [H3|H3]; destruct (Rle_dec _ _) in H3; try discriminate; contradiction.
Qed.
Lemma adam_ok : forall fuel closure c reduction least improvement loss0 t g d p acc loss a q,
  fits t d p ->
  adam_search fuel closure c reduction least improvement loss0 t g d p = Returned acc loss a q ->
  q = move a t d p /\ (exists j, loss = closure j q) /\ least < a /\
  (exists j, a = reduction ^ j) /\
  (acc = true -> loss < loss0 - improvement /\
     forall c0, c = Some c0 -> loss < loss0 + a * (c0 * weighted_slope t g d)) /\
  (acc = false -> a * reduction <= least /\
     ~ (loss < loss0 - improvement /\
        forall c0, c = Some c0 -> loss < loss0 + a * (c0 * weighted_slope t g d))).
Proof.
  intros fuel closure c reduction least improvement loss0 t g d p acc loss a q F E.
  destruct (line_search_ok _ _ _ _ _ _ _ _ _ _ _ _ F E) as (H1 & H2 & H3 & H4 & H5 & H6).
  split; auto. split; auto. split; auto. split; auto. unfold adam_accept in H3. split.
  - intros ->. destruct c as [c0|].
    + apply andb_true_iff in H3. destruct H3 as [K1 K2]. apply Rltb_true in K1. apply Rltb_true in K2.
      split; auto. intros c1 Ec. injection Ec as <-. auto.
    + apply Rltb_true in H3. split; auto. discriminate.
  - intros ->. split; auto. intros [K1 K2]. destruct c as [c0|].
    + specialize (K2 c0 eq_refl). apply andb_false_iff in H3. unfold Rltb in H3.
      destruct H3 as [H3|H3]; destruct (Rlt_dec _ _) in H3; try discriminate; contradiction.
    + unfold Rltb in H3. destruct (Rlt_dec _ _) in H3; try discriminate; contradiction.
Qed.
(** Along a descent direction the test of LineSearchGD, which does not scale with the
    tried step size, is stronger than Armijo's rule for that step. *)
Lemma gd_armijo : forall fuel closure c reduction least improvement loss0 t g d p loss a q,
  Forall2 same_size d p -> 0 <= reduction <= 1 -> 0 <= t -> 0 <= c -> slope g d <= 0 ->
  gd_search fuel closure c reduction least improvement loss0 t g d p = Returned true loss a q ->
  loss <= loss0 + c * (a * t) * slope g d.
Proof.
  intros fuel closure c reduction least improvement loss0 t g d p loss a q F Hr Ht Hc Hs E.
  destruct (gd_ok _ _ _ _ _ _ _ _ _ _ _ _ _ _ _ F E) as (_ & _ & _ & (j & Ej) & H & _).
  destruct (H eq_refl) as [H1 _]. 
  assert (A : 0 <= a <= 1).
  { rewrite Ej. clear - Hr. induction j as [|j IH]; cbn; [lra|]. nra. }
  assert (0 <= c * t) by (apply Rmult_le_pos; auto).
  assert (c * t * slope g d <= 0) by (apply Ropp_le_cancel; rewrite Ropp_0, Ropp_mult_distr_r; apply Rmult_le_pos; lra).
  assert (a * (c * t * slope g d) >= c * t * slope g d) by nra.
  replace (c * (a * t) * slope g d) with (a * (c * t * slope g d)) by ring.
  replace (t * (c * slope g d)) with (c * t * slope g d) in H1 by ring. lra.
Qed.

(** The search moves the parameters even when no step is accepted. *)
Lemma search_failure : exists closure d p loss a q,
  gd_search 10 closure 1 (1 / 2) (1 / 3) 0 (closure O p) 1 [[1]] d p = Returned false loss a q /\
  closure O p < loss /\ q <> p.
Proof.
  exists (fun _ p => - nth O (nth O p []) 0), [[-1]], [[0]].
  unfold gd_search. cbn [length repeat]. cbn [search].
  unfold Rltb. destruct (Rlt_dec (1 / 3) 1) as [_|H]; [|lra]. cbv zeta.
  assert (A : forall l a, l > 0 -> gd_accept 1 1 0 (- nth O (nth O [[0]] []) 0) [[1]] [[-1]] a l = false).
  { intros l a Hl. unfold gd_accept, Rleb. cbn. destruct (Rle_dec l _) as [K|K]; auto. lra. }
  rewrite A by (cbn; lra). cbn [search]. unfold Rltb.
  destruct (Rlt_dec (1 / 3) (1 * (1 / 2))) as [_|H]; [|lra]. cbv zeta. rewrite A by (cbn; lra).
  destruct (Rlt_dec (1 / 3) (1 * (1 / 2) * (1 / 2))) as [H|H]; [lra|].
  eexists. eexists. eexists. split; [reflexivity|]. split; [cbn; lra|]. cbn. intros K. injection K. lra.
Qed.

(** A search that rejects the full step and accepts the half one. *)
Definition square_loss (_ : nat) (p : list vec) : R := nth O (nth O p []) 0 * nth O (nth O p []) 0.
Lemma search_case : exists a q,
  gd_search 10 square_loss (1 / 4) (1 / 2) (1 / 1000) 0 1 1 [[2]] [[-2]] [[1]] = Returned true 0 a q /\
  a = 1 / 2 /\ q = [[0]].
Proof.
  unfold gd_search. cbn [length repeat search]. unfold Rltb. destruct (Rlt_dec (1 / 1000) 1) as [_|H]; [|lra].
  cbv zeta. replace (gd_accept _ _ _ _ _ _ _ _) with false.
  - cbn [search]. unfold Rltb. destruct (Rlt_dec (1 / 1000) (1 * (1 / 2))) as [_|H]; [|lra]. cbv zeta.
    set (q := move (1 * (1 / 2) - 1) [1] [[-2]] (move (1 - 0) [1] [[-2]] [[1]])).
    assert (Eq : q = [[0]]) by (unfold q; cbn; f_equal; f_equal; lra).
    replace (gd_accept _ _ _ _ _ _ _ _) with true.
    + exists (1 * (1 / 2)), q. split; [|split; [lra|auto]]. rewrite Eq. f_equal. unfold square_loss. cbn. lra.
    + rewrite Eq. unfold gd_accept, Rleb, square_loss. cbn.
      destruct (Rle_dec _ _) as [_|K]; [|lra]. destruct (Rle_dec _ _) as [_|K]; auto. lra.
  - unfold gd_accept, Rleb, square_loss. cbn. destruct (Rle_dec _ _) as [K|K]; auto. lra.
Qed.
Lemma project_case : Forall2 cleared [None; Some [0]] [[1; 0]; [2]] /\
  Forall2 same_size [[1; 0]; [2]] [[-1; 1]; [0]] /\
  concat [[1; 0]; [2]] <> zeros (length (concat [[1; 0]; [2]])) /\
  concat [[-1; 1]; [0]] <> zeros (length (concat [[-1; 1]; [0]])) /\
  dot (concat [[1; 0]; [2]]) (concat [[-1; 1]; [0]]) <= 0.
Proof.
  split; [|split; [|split; [|split]]].
  - constructor; [left; auto|]. constructor; [right; auto|constructor].
  - repeat constructor.
  - cbn. intros K. injection K. lra.
  - cbn. intros K. injection K. lra.
  - cbn. lra.
Qed.
