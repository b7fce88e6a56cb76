(** The examples of PropPoly. *)

Require Import Reals List Lia Lra Bool Arith ClassicalDescription ClassicalEpsilon.
Require Import Verif.Vec Verif.VecFacts Verif.ModelMip Verif.SpecMip Verif.SpecCore Verif.ModelNet
  Verif.SpecNet Verif.ProofMip Verif.ModelPoly Verif.SpecPoly Verif.SpecHybrid Verif.ModelHybrid
  Verif.ModelExamples Verif.ModelPolyEx Verif.ProofGrad Verif.ProofAttain Verif.ProofExamples
  Verif.ProofPoly Verif.ProofPoly2 Verif.ProofPoly3 Verif.ProofPoly4 Verif.ProofHybridMisc Verif.ProofHybrid2 Verif.ProofLyapFinal.
Import ListNotations.
Open Scope R_scope.

Lemma ideal_other : forall m, ideal_solve m = GOther ->
  (exists sg, gfeas m sg) /\ ~ exists v, optimum m v.
Proof.
  intros m E. unfold ideal_solve in E.
  destruct (excluded_middle_informative (exists v, optimum m v)) as [H|H]; [discriminate|].
  destruct (excluded_middle_informative (exists sg, gfeas m sg)) as [K|K]; [auto|discriminate].
Qed.
Lemma ideal_never_unbounded : forall m, ideal_solve m <> GUnbounded.
Proof.
  intros m. unfold ideal_solve.
  destruct (excluded_middle_informative (exists v, optimum m v)); [discriminate|].
  destruct (excluded_middle_informative (exists sg, gfeas m sg)); discriminate.
Qed.
Lemma deciding_ok : solver_ok deciding_solve.
Proof.
  intros m. assert (S := ideal_ok m). unfold deciding_solve. destruct (ideal_solve m); auto.
Qed.
Lemma deciding_total : solver_total deciding_solve.
Proof.
  intros m Hf Hb. destruct (ideal_total m Hf Hb) as [v E]. exists v. unfold deciding_solve. rewrite E. auto.
Qed.
Lemma deciding_decisive : decisive deciding_solve.
Proof. intros m. unfold deciding_solve. destruct (ideal_solve m); discriminate. Qed.
Lemma deciding_infeasible : finds_infeasible deciding_solve.
Proof. intros m H. unfold deciding_solve. rewrite ideal_infeasible; auto. Qed.
Lemma deciding_unbounded : unbounded_ok deciding_solve.
Proof.
  intros m E Hf K. unfold deciding_solve in E.
  destruct (ideal_solve m) eqn:Ei; try discriminate.
  - exfalso. apply (ideal_never_unbounded m). auto.
  - destruct (ideal_other m Ei) as [_ No]. apply Classical_Prop.NNPP. intros C. apply No.
    destruct (one_sided m Hf) as (sg & G & M).
    + exists K. intros sg G. destruct (obj_max m) eqn:Em.
      * destruct (Rle_dec (objective m sg) K); auto. exfalso. apply C. exists sg. split; auto. lra.
      * destruct (Rle_dec K (objective m sg)); auto. exfalso. apply C. exists sg. split; auto. lra.
    + exists (objective m sg). split; eauto.
Qed.

Ltac vlesolve := repeat (apply Forall2_cons; [cbn; lra|]); apply Forall2_nil.
Ltac invvle := repeat match goal with H : Forall2 _ (_ :: _) _ |- _ => inversion H; clear H; subst end.
Lemma tri_wf : wfm (length tri_q) 2 tri_P.
Proof. split; auto. unfold tri_P. repeat constructor. Qed.
Lemma tri_point : polytope 2 tri_P tri_q [1; 1].
Proof. split; auto. unfold vle, mv, tri_P, tri_q. cbn [map]. vlesolve. Qed.
Lemma tri_in : forall a b, polytope 2 tri_P tri_q [a; b] <-> 0 <= a /\ 0 <= b /\ a + b <= 2.
Proof.
  intros a b. unfold polytope, vle, mv, tri_P, tri_q. cbn [map]. split.
  - intros [_ H]. invvle. cbn [dot] in *. lra.
  - intros H. split; auto. vlesolve.
Qed.
Lemma tri_bounded : is_polyhedron_bounded deciding_solve 2 tri_P = true.
Proof.
  destruct (is_polyhedron_bounded deciding_solve 2 tri_P) eqn:E; auto. exfalso.
  apply (bounded_complete deciding_solve 2 tri_P tri_q deciding_infeasible tri_wf E).
  - exists [1; 1]. apply tri_point.
  - exists 2. intros x Hx. destruct x as [|a [|b [|c x]]]; try (destruct Hx; discriminate).
    apply tri_in in Hx. repeat (apply Forall_cons; [lra|]). constructor.
Qed.
Lemma tri_bounds : compute_bounds_from_polytope deciding_solve 2 tri_P tri_q 1 = Some (Fin 0, Fin 2).
Proof.
  assert (Hi : (1 < 2)%nat) by lia. assert (Ne : exists x, polytope 2 tri_P tri_q x) by (exists [1; 1]; apply tri_point).
  destruct (polytope_total deciding_solve 2 tri_P tri_q 1 deciding_decisive tri_wf Hi) as (lo & up & E).
  destruct (polytope_exact deciding_solve 2 tri_P tri_q 1 deciding_ok deciding_unbounded tri_wf Hi Ne lo up E) as [L U].
  rewrite E.
  assert (Lo : image_of (polytope 2 tri_P tri_q) (fun x => nth 1 x 0) 0).
  { exists [0; 0]. split; [apply tri_in; lra|auto]. }
  assert (Up : image_of (polytope 2 tri_P tri_q) (fun x => nth 1 x 0) 2).
  { exists [0; 2]. split; [apply tri_in; lra|auto]. }
  assert (Ra : forall y, image_of (polytope 2 tri_P tri_q) (fun x => nth 1 x 0) y -> 0 <= y <= 2).
  { intros y (x & Hx & ->). destruct x as [|a [|b [|c x]]]; try (destruct Hx; discriminate).
    apply tri_in in Hx. cbn. lra. }
  destruct lo as [|l|]; cbn [least] in L.
  - destruct (L 0) as (y & Hy & Ly). apply Ra in Hy. lra.
  - destruct up as [|u|]; cbn [greatest] in U.
    + exfalso. eapply U; eauto.
    + destruct L as [L1 L2], U as [U1 U2]. apply Ra in L1. apply Ra in U1.
      specialize (L2 0 Lo). specialize (U2 2 Up). repeat f_equal; lra.
    + destruct (U 2) as (y & Hy & Ly). apply Ra in Hy. lra.
  - exfalso. eapply L; eauto.
Qed.
Lemma strip_wf : wfm (length strip_q) 2 strip_P.
Proof. split; auto. unfold strip_P. repeat constructor. Qed.
Lemma strip_in : forall a b, polytope 2 strip_P strip_q [a; b] <-> 0 <= a <= 1.
Proof.
  intros a b. unfold polytope, vle, mv, strip_P, strip_q. cbn [map]. split.
  - intros [_ H]. invvle. cbn [dot] in *. lra.
  - intros H. split; auto. vlesolve.
Qed.
Lemma strip_unbounded : is_polyhedron_bounded deciding_solve 2 strip_P = false.
Proof.
  destruct (is_polyhedron_bounded deciding_solve 2 strip_P) eqn:E; auto. exfalso.
  destruct (bounded_sound deciding_solve 2 strip_P strip_q deciding_ok strip_wf E) as [K HK].
  specialize (HK [0; Rabs K + 1] (proj2 (strip_in 0 (Rabs K + 1)) ltac:(lra))).
  apply Forall_inv_tail in HK. apply Forall_inv in HK. assert (A := Rle_abs K). lra.
Qed.

Lemma tri_mode : exists h,
  add_mode (compute_bounds_from_polytope deciding_solve 2) (is_polyhedron_bounded deciding_solve 2)
    (new_hybrid 2 0) [[1/2; 0]; [0; 1/2]] [[]; []] [0; 0] tri_P tri_q true = Some h /\
  built (compute_bounds_from_polytope deciding_solve 2) (is_polyhedron_bounded deciding_solve 2) 2 0 h /\
  exists c, hybrid_mic h None None None None = Some c.
Proof.
  destruct (mode_finite deciding_solve 2 0 (new_hybrid 2 0) [[1/2; 0]; [0; 1/2]] [[]; []] [0; 0] tri_P tri_q
    deciding_ok deciding_total eq_refl eq_refl) as (h & E & F).
  - constructor.
  - split; auto.
  - split; auto.
  - auto.
  - exact tri_wf.
  - exists [1; 1]. exact tri_point.
  - exact tri_bounded.
  - exists h. split; [exact E|].
    assert (B : built (compute_bounds_from_polytope deciding_solve 2) (is_polyhedron_bounded deciding_solve 2) 2 0 h).
    { eapply built_add; [apply built_new|exact E]. }
    split; [exact B|].
    assert (T : hybrid_mic h None None None None <> None).
    { apply (hybrid_total _ _ 2 0 h [1; 1] [] [1/2; 1/2] (polytope_valid deciding_solve 2 deciding_ok) B F); auto.
      assert (E' := E). unfold add_mode in E'.
      match type of E' with (if ?b then _ else _) = _ => destruct b end; [discriminate|].
      destruct (all_some _) as [lu|]; [|discriminate]. apply Some_inj in E'. subst h.
      eexists. split; [left; reflexivity|]. split; [exact (proj2 tri_point)|].
      unfold image. cbn. repeat (apply f_equal2; [lra|]). auto. }
    destruct (hybrid_mic h None None None None); [eauto|congruence].
Qed.
