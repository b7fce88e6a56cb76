(** The cars move along their heading. *)

Require Import Reals List Lia Lra.
Require Import Verif.Vec Verif.VecFacts Verif.SpecSlip Verif.ModelPlants Verif.SpecPlants.
Import ListNotations.
Open Scope R_scope.

Lemma nth_first : forall k i (l : vec), (i < k)%nat -> nth i (firstn k l) 0 = nth i l 0.
Proof.
  induction k as [|k IH]; intros i l H; [lia|]. destruct l as [|x l]; [reflexivity|].
  destruct i as [|i]; [reflexivity|]. cbn [firstn nth]. apply IH. lia.
Qed.
Lemma lim_first : forall k i (X : R -> vec) a, (i < k)%nat -> derivable_pt_lim (fun t => nth i (X t) 0) 0 a ->
  derivable_pt_lim (fun t => nth i (firstn k (X t)) 0) 0 a.
Proof.
  intros k i X a H D e He. destruct (D e He) as [dl Hd]. exists dl. intros h H0 Hh.
  rewrite !(nth_first k i) by exact H. exact (Hd h H0 Hh).
Qed.

Lemma unicycle_heading : forall a b th v w X d, moves 3 unicycle_np [a; b; th] [v; w] X d ->
  velocity 2 (fun t => firstn 2 (X t)) (vscale v [cos th; sin th]) /\
  derivable_pt_lim (fun t => nth 2 (X t) 0) 0 w.
Proof.
  intros a b th v w X d [F [X0 [L [LX D]]]]. injection F as <-. split; [split; [reflexivity|split]|].
  - intros t. rewrite firstn_length, LX. reflexivity.
  - intros i H. apply (lim_first 2 i X _ H).
    destruct i as [|[|i]]; [exact (D 0%nat ltac:(lia))|exact (D 1%nat ltac:(lia))|lia].
  - exact (D 2%nat ltac:(lia)).
Qed.

Lemma acar_heading : forall a b th v w acc X d, moves 4 acar_np [a; b; th; v] [w; acc] X d ->
  moves 3 unicycle_np [a; b; th] [v; w] (fun t => firstn 3 (X t)) (firstn 3 d) /\
  velocity 2 (fun t => firstn 2 (X t)) (vscale v [cos th; sin th]) /\
  derivable_pt_lim (fun t => nth 2 (X t) 0) 0 w /\ derivable_pt_lim (fun t => nth 3 (X t) 0) 0 acc.
Proof.
  intros a b th v w acc X d [F [X0 [L [LX D]]]]. injection F as <-.
  pose proof (D 0%nat ltac:(lia)) as D0. pose proof (D 1%nat ltac:(lia)) as D1.
  cbn [nth] in D0, D1.
  refine (conj (conj _ (conj _ (conj eq_refl (conj _ _)))) (conj (conj eq_refl (conj _ _)) (conj _ _))).
  - cbn. rewrite (Rmult_comm v (cos th)), (Rmult_comm v (sin th)). reflexivity.
  - rewrite X0. reflexivity.
  - intros t. rewrite firstn_length, LX. reflexivity.
  - intros i H. apply (lim_first 3 i X _ H).
    destruct i as [|[|[|i]]]; [exact D0|exact D1|exact (D 2%nat ltac:(lia))|lia].
  - intros t. rewrite firstn_length, LX. reflexivity.
  - intros i H. apply (lim_first 2 i X _ H).
    destruct i as [|[|i]]; cbn [vscale map nth]; [rewrite (Rmult_comm v); exact D0|rewrite (Rmult_comm v); exact D1|lia].
  - exact (D 2%nat ltac:(lia)).
  - exact (D 3%nat ltac:(lia)).
Qed.
