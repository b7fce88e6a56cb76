(** Linear programs over polytopes. *)

Require Import Reals List Lia Lra Bool Arith.
Require Import Verif.Vec Verif.VecFacts Verif.ModelMip Verif.SpecMip Verif.SpecCore Verif.ModelNet
  Verif.SpecNet Verif.ProofMip Verif.ModelPoly Verif.SpecPoly Verif.SpecHybrid Verif.ModelHybrid
  Verif.SpecContHybrid Verif.ProofGrad Verif.ProofAttain Verif.ProofHybrid.
Import ListNotations.
Open Scope R_scope.

(** ** Assignments and vectors *)

Definition of_vec (x : vec) : assignment := fun i => nth i x 0.
Definition to_vec (n : nat) (sg : assignment) : vec := map sg (seq 0 n).

Lemma to_of_vec : forall x, to_vec (length x) (of_vec x) = x.
Proof.
  intros x. unfold to_vec, of_vec. apply nth_ext with 0 0; [rewrite map_length, seq_length; auto|].
  intros i Hi. rewrite map_length, seq_length in Hi.
  rewrite (nth_indep _ 0 (nth 0%nat x 0)) by (rewrite map_length, seq_length; auto).
  rewrite (map_nth (fun j => nth j x 0) (seq 0 (length x)) 0%nat), seq_nth; auto.
Qed.
Lemma to_vec_length : forall n sg, length (to_vec n sg) = n.
Proof. intros. unfold to_vec. rewrite map_length, seq_length. auto. Qed.
Lemma to_vec_nth : forall n sg i, (i < n)%nat -> nth i (to_vec n sg) 0 = sg i.
Proof.
  intros n sg i H. unfold to_vec. rewrite (nth_indep _ 0 (sg 0%nat)) by (rewrite map_length, seq_length; auto).
  rewrite map_nth, seq_nth; auto.
Qed.
Lemma lin_eval_terms : forall r sg, eval_terms (lin r) sg = dot r (to_vec (length r) sg).
Proof. intros. unfold lin, to_vec. apply eval_combine. Qed.

Lemma free_ok : forall n i v x, nth_error (free_vars n) i = Some v -> var_ok v x.
Proof.
  intros n i v x E. apply nth_error_In in E. apply repeat_spec in E. subst v.
  split; [discriminate|]. split; exact I.
Qed.
Lemma columns_spec : forall n P, columns n P = true <-> Forall (fun r => length r = n) P.
Proof.
  intros n P. unfold columns. rewrite forallb_forall, Forall_forall. split; intros H r Hr;
    apply Nat.eqb_eq; auto.
Qed.
Lemma le_rows_ok : forall n P q sg, Forall (fun r => length r = n) P -> (length P <= length q)%nat ->
  (Forall (row_ok sg) (le_rows P q) <-> vle (mv P (to_vec n sg)) (firstn (length P) q)).
Proof.
  intros n. induction P as [|r P IH]; intros q sg W L.
  - unfold le_rows, mv, vle. cbn. split; constructor.
  - destruct q as [|b q]; [cbn in L; lia|]. cbn in L.
    assert (Hr := Forall_inv W). assert (W' := Forall_inv_tail W). cbv beta in Hr.
    assert (Q := IH q sg W' ltac:(lia)). unfold le_rows, mv, vle in *. cbn [map2 map length firstn].
    split; intros H.
    + constructor.
      * assert (H0 := Forall_inv H). unfold row_ok in H0. cbn [row_sense row_terms row_rhs] in H0.
        rewrite lin_eval_terms, Hr in H0. auto.
      * apply Q. exact (Forall_inv_tail H).
    + inversion H; subst. constructor.
      * unfold row_ok. cbn [row_sense row_terms row_rhs]. rewrite lin_eval_terms. auto.
      * apply Q. auto.
Qed.
Lemma vle_len : forall a b, vle a b -> length a = length b.
Proof. induction 1; cbn; auto. Qed.

(** ** Reading off both programs *)

Section Both.
Variable solve : mip -> gresult.
Hypothesis SO : solver_ok solve.
Variables (n : nat) (vs : list gvar) (rows : list grow) (obj : list (R * nat)) (const : R).
Variables (X : vec -> Prop) (f : vec -> R).
Let M (b : bool) := lp vs rows obj const b.
Hypothesis In_ : forall x, X x -> exists sg, gfeas (M true) sg /\ objective (M true) sg = f x.
Lemma M_feas : forall b sg, gfeas (M b) sg <-> gfeas (M true) sg.
Proof. intros b sg. unfold gfeas, M. cbn. tauto. Qed.
Lemma M_obj : forall b sg, objective (M b) sg = objective (M true) sg.
Proof. reflexivity. Qed.

Lemma both_valid : forall lo up, both solve vs rows obj const = Some (lo, up) ->
  forall x, X x -> ext_le_r lo (f x) /\ r_le_ext (f x) up.
Proof.
  intros lo up E x Hx. destruct (In_ x Hx) as (sg & G & O).
  unfold both in E. fold (M true) (M false) in E.
  destruct (read_max (solve (M true))) as [u|] eqn:E1; [|discriminate].
  destruct (read_min (solve (M false))) as [l|] eqn:E2; [|discriminate].
  apply Some_inj, pair_equal_spec in E. destruct E as [<- <-].
  assert (S1 := SO (M true)). assert (S2 := SO (M false)). split.
  - destruct (solve (M false)); cbn in E2; try discriminate; apply Some_inj in E2; subst l; cbn; auto.
    + rewrite <- O, <- (M_obj false). apply (proj2 S2). apply M_feas. auto.
    + apply (S2 sg). apply M_feas. auto.
  - destruct (solve (M true)); cbn in E1; try discriminate; apply Some_inj in E1; subst u; cbn; auto.
    + rewrite <- O. apply (proj2 S1). auto.
    + apply (S1 sg). auto.
Qed.

Hypothesis Out_ : forall sg, gfeas (M true) sg -> image_of X f (objective (M true) sg).

Lemma both_exact : unbounded_ok solve -> (exists x, X x) ->
  forall lo up, both solve vs rows obj const = Some (lo, up) ->
  least (image_of X f) lo /\ greatest (image_of X f) up.
Proof.
  intros UO [x0 H0] lo up E. assert (V := both_valid lo up E).
  destruct (In_ x0 H0) as (sg0 & G0 & O0).
  unfold both in E. fold (M true) (M false) in E.
  destruct (read_max (solve (M true))) as [u|] eqn:E1; [|discriminate].
  destruct (read_min (solve (M false))) as [l|] eqn:E2; [|discriminate].
  apply Some_inj, pair_equal_spec in E. destruct E as [<- <-].
  assert (S1 := SO (M true)). assert (S2 := SO (M false)). split.
  - destruct (solve (M false)) eqn:ES; cbn in E2; try discriminate; apply Some_inj in E2; subst l; cbn.
    + destruct S2 as [(sg & G & <-) _]. split.
      * rewrite M_obj. apply Out_. apply M_feas in G. auto.
      * intros y (x & Hx & ->). apply (proj1 (V x Hx)).
    + intros K. destruct (UO (M false) ES) with (K := K) as (sg & G & L).
      * exists sg0. apply M_feas. auto.
      * exists (objective (M true) sg). apply M_feas in G. split; auto.
    + intros y (x & Hx & ->). destruct (In_ x Hx) as (sg & G & _). apply (S2 sg). apply M_feas. auto.
  - destruct (solve (M true)) eqn:ES; cbn in E1; try discriminate; apply Some_inj in E1; subst u; cbn.
    + destruct S1 as [(sg & G & <-) _]. split.
      * apply Out_. auto.
      * intros y (x & Hx & ->). apply (proj2 (V x Hx)).
    + intros K. destruct (UO (M true) ES) with (K := K) as (sg & G & L).
      * exists sg0. auto.
      * exists (objective (M true) sg). split; auto.
    + intros y (x & Hx & ->). destruct (In_ x Hx) as (sg & G & _). apply (S1 sg). auto.
Qed.
Lemma both_total : decisive solve -> exists lo up, both solve vs rows obj const = Some (lo, up).
Proof.
  intros D. unfold both. fold (M true) (M false). assert (D1 := D (M true)). assert (D2 := D (M false)).
  destruct (solve (M true)); cbn; try congruence; destruct (solve (M false)); cbn; try congruence; eauto.
Qed.
Lemma both_finite : solver_total solve -> (exists x, X x) ->
  (exists K, forall x, X x -> Rabs (f x) <= K) ->
  exists lo up, both solve vs rows obj const = Some (Fin lo, Fin up).
Proof.
  intros ST [x0 H0] [K HK].
  assert (T : forall b, exists v, solve (M b) = GOptimal v).
  { intros b. apply ST.
    - destruct (In_ x0 H0) as (sg & G & _). exists sg. apply M_feas. auto.
    - exists K. intros sg G. apply M_feas in G. rewrite M_obj. destruct (Out_ sg G) as (x & Hx & ->). auto. }
  destruct (T true) as [u Eu]. destruct (T false) as [l El]. exists l, u.
  unfold both. fold (M true) (M false). rewrite Eu, El. auto.
Qed.
Lemma both_empty : finds_infeasible solve -> (forall x, ~ X x) ->
  both solve vs rows obj const = Some (PInf, NInf).
Proof.
  intros FI N. assert (T : forall b, solve (M b) = GInfeasible).
  { intros b. apply FI. intros sg G. apply M_feas in G. destruct (Out_ sg G) as (x & Hx & _). eapply N; eauto. }
  unfold both. fold (M true) (M false). rewrite !T. auto.
Qed.
End Both.

(** ** Polytopes *)

Lemma firstn_same : forall {A} (P : list A) (q : vec), length q = length P -> firstn (length P) q = q.
Proof. intros A P q E. rewrite <- E. apply firstn_all. Qed.

Lemma poly_feas : forall n P q obj const b sg, Forall (fun r => length r = n) P -> length q = length P ->
  (gfeas (lp (free_vars n) (le_rows P q) obj const b) sg <-> polytope n P q (to_vec n sg)).
Proof.
  intros n P q obj const b sg W L. unfold gfeas, polytope. cbn.
  rewrite (le_rows_ok n) by (auto; lia). rewrite firstn_same by auto. split.
  - intros [_ H]. split; [apply to_vec_length|auto].
  - intros [_ H]. split; [|auto]. intros i v E. eapply free_ok; eauto.
Qed.
Lemma unit_terms : forall i sg, eval_terms [(1, i)] sg = sg i.
Proof. intros. unfold eval_terms. cbn. ring. Qed.

(** Coordinate i. *)
Lemma coord_in : forall n P q i, Forall (fun r => length r = n) P -> length q = length P ->
  (i < n)%nat -> forall x, polytope n P q x ->
  exists sg, gfeas (lp (free_vars n) (le_rows P q) [(1, i)] 0 true) sg /\
    objective (lp (free_vars n) (le_rows P q) [(1, i)] 0 true) sg = nth i x 0.
Proof.
  intros n P q i W L Hi x H. exists (of_vec x). split.
  - apply poly_feas; auto. destruct H as [E H]. subst n. rewrite to_of_vec. split; auto.
  - unfold objective. cbn [lp obj_terms obj_const]. rewrite unit_terms. unfold of_vec. lra.
Qed.
Lemma coord_out : forall n P q i, Forall (fun r => length r = n) P -> length q = length P ->
  (i < n)%nat -> forall sg, gfeas (lp (free_vars n) (le_rows P q) [(1, i)] 0 true) sg ->
  image_of (polytope n P q) (fun x => nth i x 0)
    (objective (lp (free_vars n) (le_rows P q) [(1, i)] 0 true) sg).
Proof.
  intros n P q i W L Hi sg G. apply poly_feas in G; auto. exists (to_vec n sg). split; auto.
  unfold objective. cbn [lp obj_terms obj_const]. rewrite unit_terms, to_vec_nth by auto. lra.
Qed.
(** A linear function. *)
Lemma row_in : forall n P q a, Forall (fun r => length r = n) P -> length q = length P ->
  length a = n -> forall x, polytope n P q x ->
  exists sg, gfeas (lp (free_vars n) (le_rows P q) (lin a) 0 true) sg /\
    objective (lp (free_vars n) (le_rows P q) (lin a) 0 true) sg = dot a x.
Proof.
  intros n P q a W L Ha x H. exists (of_vec x). destruct H as [E H]. split.
  - apply poly_feas; auto. rewrite <- E, to_of_vec. split; auto.
  - unfold objective. cbn [lp obj_terms obj_const]. rewrite lin_eval_terms, Ha, <- E, to_of_vec. lra.
Qed.
Lemma row_out : forall n P q a, Forall (fun r => length r = n) P -> length q = length P ->
  length a = n -> forall sg, gfeas (lp (free_vars n) (le_rows P q) (lin a) 0 true) sg ->
  image_of (polytope n P q) (dot a)
    (objective (lp (free_vars n) (le_rows P q) (lin a) 0 true) sg).
Proof.
  intros n P q a W L Ha sg G. apply poly_feas in G; auto. exists (to_vec n sg). split; auto.
  unfold objective. cbn [lp obj_terms obj_const]. rewrite lin_eval_terms, Ha. lra.
Qed.

Lemma cbp_unfold : forall solve n P q i, Forall (fun r => length r = n) P -> length q = length P ->
  (i < n)%nat -> compute_bounds_from_polytope solve n P q i = both solve (free_vars n) (le_rows P q) [(1, i)] 0.
Proof.
  intros solve n P q i W L Hi. unfold compute_bounds_from_polytope.
  rewrite (proj2 (columns_spec n P) W), L, Nat.leb_refl, (proj2 (Nat.ltb_lt i n) Hi). auto.
Qed.
Lemma arb_unfold : forall solve n P q a, Forall (fun r => length r = n) P -> length q = length P ->
  length a = n -> Ai_row_bounds solve n P q a = both solve (free_vars n) (le_rows P q) (lin a) 0.
Proof.
  intros solve n P q i W L Hi. unfold Ai_row_bounds.
  rewrite (proj2 (columns_spec n P) W), L, Hi, !Nat.eqb_refl. auto.
Qed.

(** The bounds hold at every point: the assumption on which the hybrid systems
    rest. *)
Lemma polytope_valid : forall solve n, solver_ok solve ->
  bounds_valid (compute_bounds_from_polytope solve n).
Proof.
  intros solve n SO P q j lo up z E W Hj V.
  assert (L : length q = length P).
  { apply vle_len in V. unfold mv in V. rewrite map_length in V. auto. }
  unfold compute_bounds_from_polytope in E.
  destruct (columns n P) eqn:Ec; [|discriminate]. cbn [andb] in E.
  destruct (Nat.leb (length P) (length q)); [|discriminate]. cbn [andb] in E.
  destruct (Nat.ltb_spec j n) as [Hn|]; [|discriminate].
  apply columns_spec in Ec.
  refine (both_valid solve SO _ _ _ _ (fun x => x = z) (fun x => nth j x 0) _ lo up E z eq_refl).
  intros x ->. exists (of_vec z). split.
  - split; [intros i v Ei; exact (free_ok n i v _ Ei)|]. cbn [lp grows].
    destruct P as [|r P].
    + constructor.
    + assert (Nz : length z = n).
      { rewrite <- (Forall_inv Ec), <- (Forall_inv W). auto. }
      apply (le_rows_ok n); auto; [lia|]. rewrite firstn_same by auto. rewrite <- Nz, to_of_vec. auto.
  - unfold objective. cbn [lp obj_terms obj_const]. rewrite unit_terms. unfold of_vec. lra.
Qed.
Lemma polytope_exact : forall solve n P q i, solver_ok solve -> unbounded_ok solve ->
  wfm (length q) n P -> (i < n)%nat -> (exists x, polytope n P q x) ->
  forall lo up, compute_bounds_from_polytope solve n P q i = Some (lo, up) ->
  least (image_of (polytope n P q) (fun x => nth i x 0)) lo /\
  greatest (image_of (polytope n P q) (fun x => nth i x 0)) up.
Proof.
  intros solve n P q i SO UO [L W] Hi Ne lo up E. rewrite cbp_unfold in E by auto.
  eapply both_exact; eauto; intros.
  - apply coord_in; auto.
  - apply coord_out; auto.
Qed.
Lemma polytope_total : forall solve n P q i, decisive solve -> wfm (length q) n P -> (i < n)%nat ->
  exists lo up, compute_bounds_from_polytope solve n P q i = Some (lo, up).
Proof.
  intros solve n P q i D [L W] Hi. rewrite cbp_unfold by auto. apply both_total; auto.
Qed.
Lemma polytope_empty : forall solve n P q i, finds_infeasible solve -> wfm (length q) n P -> (i < n)%nat ->
  (forall x, ~ polytope n P q x) -> compute_bounds_from_polytope solve n P q i = Some (PInf, NInf).
Proof.
  intros solve n P q i FI [L W] Hi N. rewrite cbp_unfold by auto.
  eapply both_empty with (X := polytope n P q) (f := fun x => nth i x 0); eauto. intros.
  apply coord_out; auto.
Qed.

Lemma row_valid : forall solve n, solver_ok solve -> row_bounds_valid (Ai_row_bounds solve n).
Proof.
  intros solve n SO P q a lo up z E W Ha V.
  assert (L : length q = length P).
  { apply vle_len in V. unfold mv in V. rewrite map_length in V. auto. }
  unfold Ai_row_bounds in E.
  destruct (columns n P) eqn:Ec; [|discriminate]. cbn [andb] in E.
  destruct (Nat.eqb (length q) (length P)); [|discriminate]. cbn [andb] in E.
  destruct (Nat.eqb_spec (length a) n) as [Hn|]; [|discriminate]. apply columns_spec in Ec.
  refine (both_valid solve SO _ _ _ _ (polytope n P q) (dot a) _ lo up E z _).
  - intros. apply row_in; auto.
  - split; [lia|auto].
Qed.
Lemma row_exact : forall solve n P q a, solver_ok solve -> unbounded_ok solve ->
  wfm (length q) n P -> length a = n -> (exists x, polytope n P q x) ->
  forall lo up, Ai_row_bounds solve n P q a = Some (lo, up) ->
  least (image_of (polytope n P q) (dot a)) lo /\ greatest (image_of (polytope n P q) (dot a)) up.
Proof.
  intros solve n P q a SO UO [L W] Ha Ne lo up E. rewrite arb_unfold in E by auto.
  eapply both_exact; eauto; intros.
  - apply row_in; auto.
  - apply row_out; auto.
Qed.
