(** Linear programming against interval arithmetic; bounded polyhedra. *)

Require Import Reals List Lia Lra Bool Arith.
Require Import Verif.Vec Verif.VecFacts Verif.ModelMip Verif.SpecMip Verif.SpecCore Verif.ModelNet
  Verif.SpecNet Verif.ProofMip Verif.ModelPoly Verif.SpecPoly Verif.SpecHybrid Verif.ModelHybrid
  Verif.SpecContHybrid Verif.ProofGrad Verif.ProofAttain Verif.ProofHybrid Verif.ProofBounds
  Verif.ProofPoly Verif.ProofPoly2 Verif.ProofMaxBox.
Import ListNotations.
Open Scope R_scope.

(** ** Finite answers *)

Lemma both_fin_exact : forall solve, solver_ok solve -> forall vs rows obj const X f,
  (forall sg, gfeas (lp vs rows obj const true) sg -> image_of X f (objective (lp vs rows obj const true) sg)) ->
  forall lo up, both solve vs rows obj const = Some (lo, up) ->
  (forall v, lo = Fin v -> image_of X f v) /\ (forall v, up = Fin v -> image_of X f v).
Proof.
  intros solve SO vs rows obj const X f Out lo up E. unfold both in E.
  destruct (read_max (solve (lp vs rows obj const true))) as [u|] eqn:E1; [|discriminate].
  destruct (read_min (solve (lp vs rows obj const false))) as [l|] eqn:E2; [|discriminate].
  apply Some_inj, pair_equal_spec in E. destruct E as [<- <-].
  assert (S1 := SO (lp vs rows obj const true)). assert (S2 := SO (lp vs rows obj const false)).
  split; intros v ->.
  - destruct (solve (lp vs rows obj const false)); cbn in E2; try discriminate. apply Some_inj in E2.
    injection E2 as ->. destruct S2 as [(sg & G & <-) _]. apply Out. exact G.
  - destruct (solve (lp vs rows obj const true)); cbn in E1; try discriminate. apply Some_inj in E1.
    injection E1 as ->. destruct S1 as [(sg & G & <-) _]. apply Out. exact G.
Qed.

Lemma in_map2 : forall {A B C} (f : A -> B -> C) l k c, In c (map2 f l k) ->
  exists a b, In a l /\ In b k /\ c = f a b.
Proof.
  induction l as [|a l IH]; intros [|b k] c H; cbn in H; try contradiction.
  destruct H as [<-|H].
  - exists a, b. cbn; auto.
  - destruct (IH k c H) as (a' & b' & ? & ? & ?). exists a', b'. cbn; auto.
Qed.

Lemma dot_abs_bound : forall K a x, 0 <= K -> Forall (fun t => Rabs t <= K) x ->
  Rabs (dot a x) <= K * vsum (map Rabs a).
Proof.
  intros K. induction a as [|c a IH]; intros x Kp Hx.
  - cbn [dot map vsum]. rewrite Rabs_R0. lra.
  - destruct x as [|t x]; cbn [dot map vsum].
    + rewrite Rabs_R0. apply Rmult_le_pos; auto. apply Rplus_le_le_0_compat; [apply Rabs_pos|].
      clear. induction a as [|c a IH]; cbn; [lra|]. assert (P := Rabs_pos c). lra.
    + eapply Rle_trans; [apply Rabs_triang|]. rewrite Rabs_mult.
      assert (I := IH x Kp (Forall_inv_tail Hx)). assert (T := Forall_inv Hx). cbv beta in T.
      assert (Rabs c * Rabs t <= Rabs c * K) by (apply Rmult_le_compat_l; [apply Rabs_pos|auto]). lra.
Qed.
Lemma range_lp_total : forall solve n A b xlb xub C d, solver_ok solve -> solver_total solve ->
  range_shapes n xlb xub C d -> wfm (length A) n A -> (length A <= length b)%nat ->
  (exists x, range_set n xlb xub C d x) -> bounded_set (range_set n xlb xub C d) ->
  exists lo up, compute_range_by_lp solve n A b xlb xub C d = Some (map Fin lo, map Fin up).
Proof.
  intros solve n A b xlb xub C d SO ST Sh [_ W] L Ne [K HK].
  assert (Row : forall a k, length a = n -> exists l u,
    both solve (box_vars n xlb xub) (range_rows C d) (lin a) k = Some (Fin l, Fin u)).
  { intros a k Ha. apply (both_finite solve _ _ _ _ (range_set n xlb xub C d) (fun x => dot a x + k)); auto.
    - intros x Hx. apply range_in; auto.
    - intros sg G. apply range_out; auto.
    - exists (Rmax K 0 * vsum (map Rabs a) + Rabs k). intros x Hx.
      eapply Rle_trans; [apply Rabs_triang|]. apply Rplus_le_compat_r.
      apply dot_abs_bound; [apply Rmax_r|]. eapply Forall_impl; [|exact (HK x Hx)].
      cbv beta. intros t [H1 H2]. assert (M := Rmax_l K 0). apply Rabs_le. lra. }
  assert (Fi : forall k A0, Forall (fun r => length r = n) A0 -> (length A0 <= length k)%nat ->
    exists lo up, all_some (map2 (fun a b0 => both solve (box_vars n xlb xub) (range_rows C d) (lin a) b0) A0 k) =
      Some (combine (map Fin lo) (map Fin up)) /\ length lo = length up).
  { clear W L. intros k A0. revert k. induction A0 as [|a A0 IH]; intros k W L.
    - exists [], []. auto.
    - destruct k as [|c k]; [cbn in L; lia|]. cbn in L.
      destruct (IH k (Forall_inv_tail W) ltac:(lia)) as (lo & up & E & El).
      destruct (Row a c (Forall_inv W)) as (l & u & Eb). exists (l :: lo), (u :: up).
      cbn [map2 all_some map combine]. rewrite Eb, E. split; cbn; auto. }
  destruct (Fi b A W L) as (lo & up & E & El). exists lo, up.
  rewrite (range_fold _ _ _ _ _ _ _ _ _ Sh W L E). f_equal. f_equal.
  - clear - El. revert up El. induction lo as [|l lo IH]; intros [|u up] El; try discriminate; cbn; auto.
    f_equal. apply IH. cbn in El. lia.
  - clear - El. revert up El. induction lo as [|l lo IH]; intros [|u up] El; try discriminate; cbn; auto.
    f_equal. apply IH. cbn in El. lia.
Qed.

(** ** Without C, d: interval arithmetic *)

Lemma fin_lo : forall l x, Forall2 ext_le_r (map Fin l) x <-> vle l x.
Proof.
  induction l as [|a l IH]; intros x; cbn [map]; split; intros H; inversion H; subst; constructor; auto;
    apply IH; auto.
Qed.
Lemma fin_up : forall u x, Forall2 r_le_ext x (map Fin u) <-> vle x u.
Proof.
  induction u as [|a u IH]; intros x; cbn [map]; split; intros H; inversion H; subst; constructor; auto;
    apply IH; auto.
Qed.
Lemma range_box : forall lb ub d x,
  range_set (length lb) (Some (map Fin lb)) (Some (map Fin ub)) None d x <-> in_box lb ub x.
Proof.
  intros lb ub d x. unfold range_set, in_box. split.
  - intros (L & H1 & H2 & _). specialize (H1 _ eq_refl). specialize (H2 _ eq_refl).
    apply fin_lo in H1. apply fin_up in H2. auto.
  - intros [H1 H2]. split; [symmetry; apply vle_len; auto|]. split; [|split].
    + intros l E. apply Some_inj in E. subst l. apply fin_lo; auto.
    + intros u E. apply Some_inj in E. subst u. apply fin_up; auto.
    + intros; discriminate.
Qed.
Lemma box_bounded : forall lb ub, exists K, forall x, in_box lb ub x -> Forall (fun a => - K <= a <= K) x.
Proof.
  induction lb as [|l lb IH]; intros ub.
  - exists 0. intros x [H _]. inversion H. constructor.
  - destruct ub as [|u ub].
    + exists 0. intros x [_ H]. inversion H. constructor.
    + destruct (IH ub) as [K HK]. exists (Rmax K (Rmax (- l) u)). intros x [H1 H2].
      destruct x as [|t x]; [inversion H1|].
      assert (T1 : l <= t /\ vle lb x) by (inversion H1; auto).
      assert (T2 : t <= u /\ vle x ub) by (inversion H2; auto).
      assert (M1 := Rmax_l K (Rmax (- l) u)). assert (M2 := Rmax_r K (Rmax (- l) u)).
      assert (M3 := Rmax_l (- l) u). assert (M4 := Rmax_r (- l) u).
      constructor; [lra|]. eapply Forall_impl; [|apply HK; split; tauto]. cbv beta. intros. lra.
Qed.
Lemma nth_affine : forall A x b i, (i < length A)%nat -> length b = length A ->
  nth i (vadd (mv A x) b) 0 = dot (nth i A []) x + nth i b 0.
Proof.
  induction A as [|r A IH]; intros x [|c b] i Hi L; cbn in *; try lia.
  destruct i; auto. apply IH; lia.
Qed.
Lemma range_lp_IA : forall solve n A b lb ub d, solver_ok solve -> solver_total solve ->
  wfm (length b) n A -> length lb = n -> vle lb ub ->
  exists lo up, compute_range_by_IA n A b lb ub = Some (lo, up) /\
    compute_range_by_lp solve n A b (Some (map Fin lb)) (Some (map Fin ub)) None d =
      Some (map Fin lo, map Fin up).
Proof.
  intros solve n A b lb ub d SO ST W Ln V. subst n.
  destruct (range_prop (length lb) A b lb ub W eq_refl V) as (lo & up & E & S & At).
  assert (Sh : range_shapes (length lb) (Some (map Fin lb)) (Some (map Fin ub)) None d).
  { apply vle_len in V. split; [|split; auto]; cbn; rewrite map_length, ?V; apply Nat.eqb_refl. }
  assert (B0 : in_box lb ub lb).
  { split; auto. clear. induction lb; constructor; auto. lra. }
  assert (LA : length A = length b) by apply W.
  destruct (range_lp_total solve (length lb) A b (Some (map Fin lb)) (Some (map Fin ub)) None d SO ST Sh)
    as (lo' & up' & E').
  - split; [auto|apply W].
  - lia.
  - exists lb. apply range_box. auto.
  - destruct (box_bounded lb ub) as [K HK]. exists K. intros x Hx. apply range_box in Hx. auto.
  - exists lo, up. split; auto. rewrite E'.
    destruct (range_lp_valid _ _ _ _ _ _ _ _ _ _ SO E') as (L1 & L2 & Va). rewrite map_length in L1, L2.
    assert (LO : length lo = length b /\ length up = length b).
    { destruct (S lb B0) as [H1 H2]. apply vle_len in H1. apply vle_len in H2.
      unfold vadd, mv in H1, H2. rewrite map2_length, map_length in H1, H2. unfold vec in *. lia. }
    assert (Rows := proj2 (proj2 (range_row _ _ _ _ _ _ _ _ _ _ E'))).
    assert (Same : forall i, (i < length A)%nat -> nth i lo' 0 = nth i lo 0 /\ nth i up' 0 = nth i up 0).
    { intros i Hi. destruct (Rows i Hi) as [Li B].
      destruct (At i Hi) as [(xl & Bl & El) (xu & Bu & Eu)].
      assert (NF : forall l : list R, (i < length l)%nat -> nth i (map Fin l) NInf = Fin (nth i l 0)).
      { intros l Hl. rewrite (nth_indep _ NInf (Fin 0)) by (rewrite map_length; auto). apply map_nth. }
      destruct (both_fin_exact solve SO _ _ _ _ _ _
        (range_out (length lb) (Some (map Fin lb)) (Some (map Fin ub)) None d (nth i A []) (nth i b 0) Sh Li) _ _ B)
        as [X1 X2].
      destruct (X1 _ (NF lo' ltac:(lia))) as (x1 & R1 & F1). destruct (X2 _ (NF up' ltac:(lia))) as (x2 & R2 & F2).
      apply range_box in R1. apply range_box in R2.
      assert (Vl := Va xl i (proj2 (range_box _ _ _ _) Bl) Hi). assert (Vu := Va xu i (proj2 (range_box _ _ _ _) Bu) Hi).
      rewrite !NF in Vl, Vu by lia. cbn in Vl, Vu.
      rewrite nth_affine in El, Eu by lia.
      assert (G : forall x, in_box lb ub x -> nth i lo 0 <= dot (nth i A []) x + nth i b 0 <= nth i up 0).
      { intros x Bx. destruct (S x Bx) as [H1 H2]. rewrite <- nth_affine by lia.
        split; apply vle_nth_lt; auto.
        - unfold vec in *. lia.
        - apply vle_len in H2. unfold vec in *. lia. }
      assert (G1 := G x1 R1). assert (G2 := G x2 R2). lra. }
    assert (A1 : lo' = lo) by (apply nth_ext with 0 0; [lia|]; intros i Hi; apply Same; lia).
    assert (A2 : up' = up) by (apply nth_ext with 0 0; [lia|]; intros i Hi; apply Same; lia).
    rewrite A1, A2. auto.
Qed.
