(** Ranges by linear programming, boundedness of polyhedra, modes. *)

Require Import Reals List Lia Lra Bool Arith.
Require Import Verif.Vec Verif.VecFacts Verif.ModelMip Verif.SpecMip Verif.SpecCore Verif.ModelNet
  Verif.SpecNet Verif.ProofMip Verif.ModelPoly Verif.SpecPoly Verif.SpecHybrid Verif.ModelHybrid
  Verif.SpecContHybrid Verif.ProofGrad Verif.ProofAttain Verif.ProofHybrid Verif.ProofBounds
  Verif.ProofPoly.
Import ListNotations.
Open Scope R_scope.

(** ** Variables with bounds *)

Lemma boxed_ok : forall (l u : list ext) k (sg : assignment), length l = length u ->
  ((forall i v, nth_error (map2 (fun a b => mkVar false a b) l u) i = Some v -> var_ok v (sg (k + i)%nat)) <->
   Forall2 ext_le_r l (map sg (seq k (length l))) /\ Forall2 r_le_ext (map sg (seq k (length l))) u).
Proof.
  induction l as [|a l IH]; intros [|b u] k sg L; try discriminate; cbn [map2 length seq map].
  - split; [intros _; split; constructor|]. intros _ i v E. destruct i; discriminate.
  - cbn in L. assert (Q := IH u (S k) sg ltac:(lia)). split.
    + intros H. assert (H0 := H 0%nat _ eq_refl). rewrite Nat.add_0_r in H0. destruct H0 as (_ & Hl & Hu).
      cbn in Hl, Hu. destruct Q as [Q _]. destruct Q as [Q1 Q2].
      { intros i v E. replace (S k + i)%nat with (k + S i)%nat by lia. apply H. auto. }
      split; constructor; auto.
    + intros [H1 H2] i v E. inversion H1; inversion H2; subst. destruct i as [|i]; cbn in E.
      * apply Some_inj in E. subst v. rewrite Nat.add_0_r. split; [discriminate|]. auto.
      * replace (k + S i)%nat with (S k + i)%nat by lia. apply (proj2 Q); auto.
Qed.
Lemma repeat_lo : forall x : vec, Forall2 ext_le_r (repeat NInf (length x)) x.
Proof. induction x; cbn; constructor; cbn; auto. Qed.
Lemma repeat_up : forall x : vec, Forall2 r_le_ext x (repeat PInf (length x)).
Proof. induction x; cbn; constructor; cbn; auto. Qed.
Lemma box_vars_ok : forall n xlb xub (sg : assignment), opt_length n xlb = true -> opt_length n xub = true ->
  ((forall i v, nth_error (box_vars n xlb xub) i = Some v -> var_ok v (sg i)) <->
   (forall l, xlb = Some l -> Forall2 ext_le_r l (to_vec n sg)) /\
   (forall u, xub = Some u -> Forall2 r_le_ext (to_vec n sg) u)).
Proof.
  intros n xlb xub sg Ll Lu. unfold box_vars.
  set (l := match xlb with None => repeat NInf n | Some l => l end).
  set (u := match xub with None => repeat PInf n | Some u => u end).
  assert (El : length l = n).
  { unfold l. destruct xlb as [l0|]; cbn in Ll; [apply Nat.eqb_eq; auto|apply repeat_length]. }
  assert (Eu : length u = n).
  { unfold u. destruct xub as [l0|]; cbn in Lu; [apply Nat.eqb_eq; auto|apply repeat_length]. }
  assert (Q := boxed_ok l u 0 sg ltac:(lia)). cbn [plus] in Q. rewrite Q, El. fold (to_vec n sg).
  assert (Lx := to_vec_length n sg). split.
  - intros [H1 H2]. split; intros w Ew.
    + unfold l in H1. rewrite Ew in H1. auto.
    + unfold u in H2. rewrite Ew in H2. auto.
  - intros [H1 H2]. split.
    + unfold l. destruct xlb as [l0|]; auto. rewrite <- Lx at 1. apply repeat_lo.
    + unfold u. destruct xub as [l0|]; auto. rewrite <- Lx at 2. apply repeat_up.
Qed.

(** ** The programs of compute_range_by_lp *)

Definition range_rows (C : option mat) (d : option vec) : list grow :=
  match C, d with Some M, Some r => le_rows M r | _, _ => [] end.
Definition range_shapes (n : nat) (xlb xub : option (list ext)) (C : option mat) (d : option vec) : Prop :=
  opt_length n xlb = true /\ opt_length n xub = true /\
  match C with None => True | Some M => exists r, d = Some r /\ wfm (length r) n M end.

Lemma range_unfold : forall solve n A b xlb xub C d res,
  compute_range_by_lp solve n A b xlb xub C d = Some res ->
  range_shapes n xlb xub C d /\ Forall (fun r => length r = n) A /\ (length A <= length b)%nat /\
  exists lu, all_some (map2 (fun a b0 => both solve (box_vars n xlb xub) (range_rows C d) (lin a) b0) A b) = Some lu /\
    res = (map fst lu, map snd lu).
Proof.
  intros solve n A b xlb xub C d res E. unfold compute_range_by_lp in E.
  assert (S : forall rows, match C, d with
        | None, _ => Some []
        | Some _, None => None
        | Some M, Some r => if (columns n M && Nat.eqb (length r) (length M))%bool
                            then Some (le_rows M r) else None
        end = Some rows -> rows = range_rows C d /\
          match C with None => True | Some M => exists r, d = Some r /\ wfm (length r) n M end).
  { intros rows H. unfold range_rows. destruct C as [M|]; destruct d as [r|]; try discriminate.
    - destruct (columns n M) eqn:Ec; [|discriminate]. cbn [andb] in H.
      destruct (Nat.eqb_spec (length r) (length M)) as [Er|]; [|discriminate].
      apply Some_inj in H. subst rows. split; auto. exists r. split; auto.
      apply columns_spec in Ec. split; auto.
    - apply Some_inj in H. auto.
    - apply Some_inj in H. auto. }
  match type of E with match ?t with _ => _ end = _ => destruct t as [rows|] eqn:Er end; [|discriminate].
  destruct (S rows eq_refl) as [-> Sh].
  destruct (columns n A) eqn:Ec; [|discriminate]. cbn [andb] in E.
  destruct (Nat.leb_spec (length A) (length b)) as [Lb|]; [|discriminate]. cbn [andb] in E.
  destruct (opt_length n xlb) eqn:E1; [|discriminate]. destruct (opt_length n xub) eqn:E2; [|discriminate].
  cbn [andb] in E. apply columns_spec in Ec.
  destruct (all_some _) as [lu|] eqn:Ea; [|discriminate]. apply Some_inj in E.
  split; [|eauto 8]. split; auto.
Qed.
Lemma range_fold : forall solve n A b xlb xub C d lu, range_shapes n xlb xub C d ->
  Forall (fun r => length r = n) A -> (length A <= length b)%nat ->
  all_some (map2 (fun a b0 => both solve (box_vars n xlb xub) (range_rows C d) (lin a) b0) A b) = Some lu ->
  compute_range_by_lp solve n A b xlb xub C d = Some (map fst lu, map snd lu).
Proof.
  intros solve n A b xlb xub C d lu (E1 & E2 & Sh) W L Ea. unfold compute_range_by_lp.
  apply columns_spec in W. rewrite W, (proj2 (Nat.leb_le _ _) L), E1, E2. cbn [andb].
  destruct C as [M|].
  - destruct Sh as (r & -> & [Lr Wr]). rewrite (proj2 (columns_spec n M) Wr), Lr, Nat.eqb_refl. cbn [andb].
    cbn [range_rows] in Ea. rewrite Ea. auto.
  - cbn [range_rows] in Ea. rewrite Ea. auto.
Qed.

Lemma range_feas : forall n xlb xub C d obj const b sg, range_shapes n xlb xub C d ->
  (gfeas (lp (box_vars n xlb xub) (range_rows C d) obj const b) sg <->
   range_set n xlb xub C d (to_vec n sg)).
Proof.
  intros n xlb xub C d obj const b sg (E1 & E2 & Sh). unfold gfeas, range_set. cbn [lp gvars grows].
  assert (Q := box_vars_ok n xlb xub sg E1 E2).
  assert (Rw : Forall (row_ok sg) (range_rows C d) <->
    (forall M r, C = Some M -> d = Some r -> vle (mv M (to_vec n sg)) r)).
  { destruct C as [M|].
    - destruct Sh as (r & -> & [Lr Wr]). cbn [range_rows].
      rewrite (le_rows_ok n) by (auto; lia). rewrite firstn_same by auto. split.
      + intros H M' r' EM Er. apply Some_inj in EM. apply Some_inj in Er. subst. auto.
      + intros H. apply H; auto.
    - cbn [range_rows]. split; [intros _ M r EM; discriminate|constructor]. }
  assert (Lx := to_vec_length n sg). tauto.
Qed.
Lemma range_in : forall n xlb xub C d a k, range_shapes n xlb xub C d -> length a = n ->
  forall x, range_set n xlb xub C d x ->
  exists sg, gfeas (lp (box_vars n xlb xub) (range_rows C d) (lin a) k true) sg /\
    objective (lp (box_vars n xlb xub) (range_rows C d) (lin a) k true) sg = dot a x + k.
Proof.
  intros n xlb xub C d a k Sh Ha x H. exists (of_vec x). assert (E := proj1 H). split.
  - apply range_feas; auto. rewrite <- E, to_of_vec, E. auto.
  - unfold objective. cbn [lp obj_terms obj_const]. rewrite lin_eval_terms, Ha, <- E, to_of_vec. lra.
Qed.
Lemma range_out : forall n xlb xub C d a k, range_shapes n xlb xub C d -> length a = n ->
  forall sg, gfeas (lp (box_vars n xlb xub) (range_rows C d) (lin a) k true) sg ->
  image_of (range_set n xlb xub C d) (fun x => dot a x + k)
    (objective (lp (box_vars n xlb xub) (range_rows C d) (lin a) k true) sg).
Proof.
  intros n xlb xub C d a k Sh Ha sg G. apply range_feas in G; auto. exists (to_vec n sg). split; auto.
  unfold objective. cbn [lp obj_terms obj_const]. rewrite lin_eval_terms, Ha. lra.
Qed.

Lemma all_some_nth : forall {A} (l : list (option A)) r, all_some l = Some r ->
  length r = length l /\ forall i d, (i < length l)%nat -> nth i l None = Some (nth i r d).
Proof.
  induction l as [|o l IH]; intros r E; cbn in E.
  - apply Some_inj in E. subst r. split; auto. cbn. intros; lia.
  - destruct o as [a|]; [|discriminate]. destruct (all_some l) as [r'|] eqn:El; [|discriminate].
    apply Some_inj in E. subst r. destruct (IH r' eq_refl) as [I1 I2]. split; [cbn; auto|].
    intros i d Hi. destruct i; cbn in *; auto. apply I2. lia.
Qed.
Lemma all_some_build : forall {A} (l : list (option A)), (forall o, In o l -> exists a, o = Some a) ->
  exists r, all_some l = Some r.
Proof.
  induction l as [|o l IH]; intros H; cbn; [eauto|].
  destruct (H o (or_introl eq_refl)) as [a ->]. destruct IH as [r ->]; [|eauto].
  intros o' Ho. apply H. right; auto.
Qed.
Lemma map2_nth_lt : forall {A B C} (f : A -> B -> C) l k da db dc i, (length l <= length k)%nat ->
  (i < length l)%nat -> nth i (map2 f l k) dc = f (nth i l da) (nth i k db).
Proof.
  induction l as [|a l IH]; intros [|b k] da db dc i L Hi; cbn in *; try lia.
  destruct i; auto. apply IH; lia.
Qed.
Lemma map2_length_lt : forall {A B C} (f : A -> B -> C) l k, (length l <= length k)%nat ->
  length (map2 f l k) = length l.
Proof. induction l as [|a l IH]; intros [|b k] L; cbn in *; try lia. rewrite IH; lia. Qed.

(** Row i of the answer. *)
Lemma range_row : forall solve n A b xlb xub C d lo up,
  compute_range_by_lp solve n A b xlb xub C d = Some (lo, up) ->
  length lo = length A /\ length up = length A /\
  forall i, (i < length A)%nat -> length (nth i A []) = n /\
    both solve (box_vars n xlb xub) (range_rows C d) (lin (nth i A [])) (nth i b 0) =
      Some (nth i lo NInf, nth i up NInf).
Proof.
  intros solve n A b xlb xub C d lo up E. apply range_unfold in E.
  destruct E as (Sh & W & L & lu & Ea & Er). apply pair_equal_spec in Er. destruct Er as [-> ->].
  destruct (all_some_nth _ _ Ea) as [La Na]. rewrite map2_length_lt in La, Na by auto.
  rewrite !map_length. split; auto. split; auto. intros i Hi. split.
  - rewrite Forall_forall in W. apply W. apply nth_In. auto.
  - specialize (Na i (NInf, NInf) Hi).
    assert (Nb := map2_nth_lt (fun (a : list R) b0 => both solve (box_vars n xlb xub) (range_rows C d) (lin a) b0)
      A b [] 0 None i L Hi). cbv beta in Nb. rewrite <- Nb. etransitivity; [exact Na|].
    assert (M1 := map_nth fst lu (NInf, NInf) i). assert (M2 := map_nth snd lu (NInf, NInf) i).
    cbn [fst snd] in M1, M2. rewrite M1, M2. f_equal. apply surjective_pairing.
Qed.

Lemma range_lp_valid : forall solve n A b xlb xub C d lo up, solver_ok solve ->
  compute_range_by_lp solve n A b xlb xub C d = Some (lo, up) ->
  length lo = length A /\ length up = length A /\
  forall x i, range_set n xlb xub C d x -> (i < length A)%nat ->
    ext_le_r (nth i lo NInf) (dot (nth i A []) x + nth i b 0) /\
    r_le_ext (dot (nth i A []) x + nth i b 0) (nth i up NInf).
Proof.
  intros solve n A b xlb xub C d lo up SO E. assert (Sh := proj1 (range_unfold _ _ _ _ _ _ _ _ _ E)).
  destruct (range_row _ _ _ _ _ _ _ _ _ _ E) as (L1 & L2 & Q). split; auto. split; auto.
  intros x i Hx Hi. destruct (Q i Hi) as [Li B].
  exact (both_valid solve SO _ _ _ _ (range_set n xlb xub C d) (fun x => dot (nth i A []) x + nth i b 0)
    (range_in n xlb xub C d _ _ Sh Li) _ _ B x Hx).
Qed.
Lemma range_lp_exact : forall solve n A b xlb xub C d lo up, solver_ok solve -> unbounded_ok solve ->
  compute_range_by_lp solve n A b xlb xub C d = Some (lo, up) ->
  (exists x, range_set n xlb xub C d x) ->
  forall i, (i < length A)%nat ->
    least (image_of (range_set n xlb xub C d) (fun x => dot (nth i A []) x + nth i b 0)) (nth i lo NInf) /\
    greatest (image_of (range_set n xlb xub C d) (fun x => dot (nth i A []) x + nth i b 0)) (nth i up NInf).
Proof.
  intros solve n A b xlb xub C d lo up SO UO E Ne. assert (Sh := proj1 (range_unfold _ _ _ _ _ _ _ _ _ E)).
  destruct (range_row _ _ _ _ _ _ _ _ _ _ E) as (L1 & L2 & Q).
  intros i Hi. destruct (Q i Hi) as [Li B].
  exact (both_exact solve SO _ _ _ _ (range_set n xlb xub C d) (fun x => dot (nth i A []) x + nth i b 0)
    (range_in n xlb xub C d _ _ Sh Li) (range_out n xlb xub C d _ _ Sh Li) UO Ne _ _ B).
Qed.
