(** The gradients of the plants are derivatives. *)

Require Import Reals List Arith Bool Lia Lra.
Require Import Verif.Vec Verif.VecFacts Verif.ModelMisc Verif.SpecMisc Verif.SpecSlip Verif.ModelPlants
  Verif.SpecPlants Verif.ProofSlip.
Import ListNotations.
Open Scope R_scope.

Lemma list_eta : forall n (s : vec), length s = n -> s = map (fun i => nth i s 0) (seq 0 n).
Proof.
  intros n s E. subst n. apply (nth_ext _ _ 0 0).
  - rewrite map_length, seq_length. auto.
  - intros i Hi. symmetry.
    rewrite (nth_indep _ 0 (nth (length s) s 0)) by (rewrite map_length, seq_length; lia).
    rewrite (map_nth (fun i => nth i s 0)). rewrite seq_nth by lia. reflexivity.
Qed.
Lemma d_ext : forall f g x d, derivable_pt_lim f x d -> (forall t, g t = f t) -> derivable_pt_lim g x d.
Proof. intros f g x d D H. apply (d_near f g x d 1); [lra| |auto]. intros. symmetry. apply H. Qed.

(** A curve entry by entry. *)
Lemma curve_eta : forall n X x d, curve n X x d ->
  (forall t, X t = map (fun i => nth i (X t) 0) (seq 0 n)) /\ d = map (fun i => nth i d 0) (seq 0 n) /\
  (forall i, (i < n)%nat -> derivable_pt_lim (fun t => nth i (X t) 0) 0 (nth i d 0)) /\
  X 0 = x.
Proof.
  intros n X x d [E [Ld [Lc D]]]. split; [intros; apply list_eta; auto|]. split; [apply list_eta; auto|]. auto.
Qed.
(** Near the point a continuous entry does not vanish. *)
Lemma near_nonzero : forall f l, derivable_pt_lim f 0 l -> f 0 <> 0 ->
  exists e, 0 < e /\ forall t, Rabs t < e -> f t <> 0.
Proof.
  intros f l D N. destruct (Rdichotomy _ _ N) as [H|H].
  - destruct (near_pos (fun t => - f t) (- l)) as [e [He A]].
    + apply (derivable_pt_lim_opp f); auto.
    + lra.
    + exists e. split; auto. intros t Ht. specialize (A t Ht). cbv beta in A. lra.
  - destruct (near_pos f l D H) as [e [He A]]. exists e. split; auto. intros t Ht. specialize (A t Ht). lra.
Qed.

(** Names for the entries of a curve C : curve n X x d. *)
Ltac curves C := let EX := fresh "EX" in let Ed := fresh "Ed" in let D := fresh "D" in let E0 := fresh "E0" in
  destruct (curve_eta _ _ _ _ C) as [EX [Ed [D E0]]]; cbn [seq map] in EX, Ed.
Ltac at_index D i := let Di := fresh "Di" in pose proof (D i ltac:(lia)) as Di.

Lemma unicycle_grad : gradient_of 3 2 unicycle_np unicycle_gradient_np.
Proof.
  intros x u N. destruct x as [|x0 [|x1 [|x2 [|]]]]; try (exfalso; apply N; reflexivity).
  destruct u as [|u0 [|u1 [|]]]; try (exfalso; apply N; reflexivity). clear N.
  eexists. eexists. split; [reflexivity|].
  split; [split; [reflexivity|repeat constructor]|]. split; [split; [reflexivity|repeat constructor]|].
  intros X U dx du CX CU. curves CX. curves CU. 
  split.
  - exists 1. split; [lra|]. intros t _. rewrite (EX t), (EX0 t). eexists. split; reflexivity.
  - at_index D 2%nat. at_index D0 0%nat. at_index D0 1%nat. 
    assert (X2 : nth 2 (X 0) 0 = x2) by (rewrite E0; auto).
    assert (U0 : nth 0 (U 0) 0 = u0) by (rewrite E1; auto).
    intros i Hi. rewrite Ed, Ed0.
    destruct i as [|[|[|]]]; [| | |lia];
      (eapply d_ext; [|intros t; rewrite (EX t), (EX0 t); cbn [unicycle_np entry_of nth]; reflexivity];
       (eapply d_eq; [repeat dd|]); cbv beta; rewrite ?X2, ?U0; cbn [dot nth]; ring).
Qed.

Ltac lists := cbv [set_block set_entry zerom zeros eye eyek unit_row repeat seq map map2 splice firstn skipn length
  app nth Nat.eqb Nat.add col vdivs vdiv mv mm vm dot vadd vmul vneg vscale vsum cross fst snd].
Ltac shapes := split; [split; [reflexivity|repeat constructor]|]; split; [split; [reflexivity|repeat constructor]|].
Ltac inputs N := try (exfalso; apply N; reflexivity).

Lemma pendulum_grad : forall p, pd_mass p <> 0 -> pd_len p <> 0 ->
  gradient_of 2 1 (pendulum_np p) (fun x _ => pendulum_gradient p x).
Proof.
  intros p Hm Hl x u N. destruct x as [|x0 [|x1 [|]]]; inputs N. destruct u as [|u0 [|]]; inputs N. clear N.
  eexists. eexists. split; [reflexivity|]. shapes.
  intros X U dx du CX CU. curves CX. curves CU. 
  split.
  - exists 1. split; [lra|]. intros t _. rewrite (EX t), (EX0 t). eexists. split; reflexivity.
  - at_index D 0%nat. at_index D 1%nat. at_index D0 0%nat.
    assert (X0 : nth 0 (X 0) 0 = x0) by (rewrite E0; auto).
    intros i Hi. rewrite Ed, Ed0.
    destruct i as [|[|]]; [| |lia];
      (eapply d_ext; [|intros t; rewrite (EX t), (EX0 t); cbn [pendulum_np entry_of nth]; unfold pendulum_acc; reflexivity];
       (eapply d_eq; [repeat dd|]); cbv beta; rewrite ?X0; cbn [dot nth]; field; auto).
Qed.

Lemma quad2d_grad : forall p, q2_mass p <> 0 -> q2_inertia p <> 0 ->
  gradient_of 6 2 (quad2d_np p) (quad2d_gradient p).
Proof.
  intros p Hm Hl x u N. destruct x as [|x0 [|x1 [|x2 [|x3 [|x4 [|x5 [|]]]]]]]; inputs N.
  destruct u as [|u0 [|u1 [|]]]; inputs N. clear N.
  eexists. eexists. split; [cbv [quad2d_gradient]; lists; reflexivity|]. shapes.
  intros X U dx du CX CU. curves CX. curves CU. 
  split.
  - exists 1. split; [lra|]. intros t _. rewrite (EX t), (EX0 t). eexists. split; reflexivity.
  - at_index D 2%nat. at_index D 3%nat. at_index D 4%nat. at_index D 5%nat. at_index D0 0%nat. at_index D0 1%nat.
    assert (X2 : nth 2 (X 0) 0 = x2) by (rewrite E0; auto).
    assert (U0 : nth 0 (U 0) 0 = u0) by (rewrite E1; auto).
    assert (U1 : nth 1 (U 0) 0 = u1) by (rewrite E1; auto).
    intros i Hi. rewrite Ed, Ed0.
    destruct i as [|[|[|[|[|[|]]]]]]; try lia;
      (eapply d_ext; [|intros t; rewrite (EX t), (EX0 t); cbn [quad2d_np quad2d_acc entry_of nth app]; reflexivity];
       (eapply d_eq; [repeat dd|]); cbv beta; rewrite ?X2, ?U0, ?U1; cbn [dot nth]; field; auto).
Qed.

Lemma rocket_grad : forall p, rk_mass p <> 0 -> rk_inertia p <> 0 ->
  gradient_of 6 2 (rocket_np p) (rocket_gradient p).
Proof.
  intros p Hm Hl x u N. destruct x as [|x0 [|x1 [|x2 [|x3 [|x4 [|x5 [|]]]]]]]; inputs N.
  destruct u as [|u0 [|u1 [|]]]; inputs N. clear N.
  eexists. eexists. split; [cbv [rocket_gradient]; lists; reflexivity|]. shapes.
  intros X U dx du CX CU. curves CX. curves CU. 
  split.
  - exists 1. split; [lra|]. intros t _. rewrite (EX t), (EX0 t). eexists. split; reflexivity.
  - at_index D 2%nat. at_index D 3%nat. at_index D 4%nat. at_index D 5%nat. at_index D0 0%nat. at_index D0 1%nat.
    assert (X2 : nth 2 (X 0) 0 = x2) by (rewrite E0; auto).
    assert (U0 : nth 0 (U 0) 0 = u0) by (rewrite E1; auto).
    assert (U1 : nth 1 (U 0) 0 = u1) by (rewrite E1; auto).
    intros i Hi. rewrite Ed, Ed0.
    destruct i as [|[|[|[|[|[|]]]]]]; try lia;
      (eapply d_ext; [|intros t; rewrite (EX t), (EX0 t); cbn [rocket_np rocket_acc entry_of nth app]; reflexivity];
       (eapply d_eq; [repeat dd|]); cbv beta; rewrite ?X2, ?U0, ?U1; cbn [dot nth]; field; auto).
Qed.

Lemma rocket2_grad : forall p, rk_mass p <> 0 -> rk_inertia p <> 0 ->
  gradient_of 6 2 (rocket2_np p) (rocket2_gradient p).
Proof.
  intros p Hm Hl x u N. destruct x as [|x0 [|x1 [|x2 [|x3 [|x4 [|x5 [|]]]]]]]; inputs N.
  destruct u as [|u0 [|u1 [|]]]; inputs N. clear N.
  eexists. eexists. split; [cbv [rocket2_gradient]; lists; reflexivity|]. shapes.
  intros X U dx du CX CU. curves CX. curves CU. 
  split.
  - exists 1. split; [lra|]. intros t _. rewrite (EX t), (EX0 t). eexists. split; reflexivity.
  - at_index D 2%nat. at_index D 3%nat. at_index D 4%nat. at_index D 5%nat. at_index D0 0%nat. at_index D0 1%nat.
    assert (X2 : nth 2 (X 0) 0 = x2) by (rewrite E0; auto).
    assert (X5 : nth 5 (X 0) 0 = x5) by (rewrite E0; auto).
    assert (U0 : nth 0 (U 0) 0 = u0) by (rewrite E1; auto).
    assert (U1 : nth 1 (U 0) 0 = u1) by (rewrite E1; auto).
    intros i Hi. rewrite Ed, Ed0.
    destruct i as [|[|[|[|[|[|]]]]]]; try lia;
      (eapply d_ext; [|intros t; rewrite (EX t), (EX0 t); cbn [rocket2_np rocket2_acc entry_of nth app]; reflexivity];
       (eapply d_eq; [repeat dd|]); cbv beta; rewrite ?X2, ?X5, ?U0, ?U1; cbn [dot nth]; field; auto).
Qed.
