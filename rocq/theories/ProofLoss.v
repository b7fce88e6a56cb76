(** Sample losses (C30) — lemmas. *)

Require Import Reals List Bool Arith Lra Lia Psatz.
Require Import Verif.Vec Verif.VecFacts Verif.ModelMip Verif.SpecMip
  Verif.ModelUtils Verif.ModelGrad Verif.ModelNet Verif.SpecCore Verif.SpecNet
  Verif.ProofUtils Verif.ProofGrad Verif.SpecStep Verif.ModelLyapunov Verif.SpecLyapunov
  Verif.ProofLyapunov Verif.ProofLyapCert.
Import ListNotations.
Open Scope R_scope.

Lemma hinge_nonneg : forall m v, 0 <= hinge m v.
Proof. intros. apply Rmax_l. Qed.
Lemma hinge_zero : forall m v, hinge m v = 0 <-> m <= v.
Proof.
  intros. unfold hinge. split.
  - intros H. assert (K := Rmax_r 0 (m - v)). lra.
  - intros H. apply Rmax_left. lra.
Qed.

Lemma vmul_zero : forall ws l, length ws = length l -> Forall (fun w => 0 < w) ws ->
  Forall (fun a => 0 <= a) l ->
  Forall (fun a => 0 <= a) (vmul ws l) /\
  (Forall (fun a => a = 0) (vmul ws l) <-> Forall (fun a => a = 0) l).
Proof.
  unfold vmul. induction ws as [|w ws IH]; intros [|a l] L P Q; try discriminate; cbn [map2].
  - split; [constructor|]. split; intros; constructor.
  - inversion P; subst. inversion Q; subst. destruct (IH l) as [I1 I2]; auto.
    split.
    + constructor; auto. apply Rmult_le_pos; lra.
    + split; intros Z; inversion Z; subst; constructor; try (apply I2; auto).
      * match goal with H : _ * _ = 0 |- _ => apply Rmult_integral in H; destruct H; lra end.
      * ring.
Qed.

Lemma reduce_spec : forall red w l, l <> [] -> weights_ok red w (length l) ->
  Forall (fun a => 0 <= a) l ->
  exists v, reduce red w l = Some v /\ 0 <= v /\ (v = 0 <-> Forall (fun a => a = 0) l).
Proof.
  intros red w l Hl Hw P.
  assert (G : forall r l', l' <> [] -> exists v, loss_reduction l' r = Some v).
  { intros r [|a l'] H; [contradiction|]. destruct r; eexists; reflexivity. }
  assert (K : forall r, exists v, loss_reduction l r = Some v /\ 0 <= v /\
                        (v = 0 <-> Forall (fun a => a = 0) l)).
  { intros r. destruct (G r l Hl) as [v E]. exists v. split; auto. apply (loss_zero_iff l r v); auto. }
  destruct red; cbn [reduce]; auto.
  destruct w as [ws|]; cbn [weighted_mean]; auto.
  destruct Hw as [Lw Pw]. rewrite Lw, Nat.eqb_refl.
  destruct (vmul_zero ws l Lw Pw P) as [Q1 Q2].
  destruct (G RMean (vmul ws l)) as [v E].
  { destruct l; [contradiction|]. destruct ws; [discriminate|]. discriminate. }
  exists v. split; auto. destruct (loss_zero_iff _ RMean v Q1 E) as [Z1 Z2]. split; auto. tauto.
Qed.

Section Loss.
Variable N : network.
Variable n : nat.
Variables x_lo x_up : vec.
Variable R0 : option mat.
Variable xeq : vec.
Hypothesis Args : lyap_args n N x_lo x_up R0 xeq.
Variables lam eps margin : R.
Let M := R_of n R0.

Lemma traverse_V : forall l, Forall (fun x : vec => length x = n) l ->
  traverse (lyapunov_value N n R0 xeq lam) l = Some (map (V N M lam xeq) l).
Proof.
  induction l as [|x l IH]; intros F; auto. inversion F; subst. cbn [traverse].
  rewrite (value_V _ N x_lo x_up R0 xeq lam x Args) by auto. rewrite IH by auto. reflexivity.
Qed.
Lemma map2_map_same : forall {A B C} (f : B -> A -> C) (g : A -> B) l,
  map2 f (map g l) l = map (fun x => f (g x) x) l.
Proof. induction l; simpl; auto. rewrite IHl. auto. Qed.
Lemma forall_map_hinge : forall {A} (f : A -> R) l,
  Forall (fun a => a = 0) (map (fun x => hinge margin (f x)) l) <-> Forall (fun x => margin <= f x) l.
Proof.
  intros. rewrite Forall_map. split; apply Forall_impl; intros a; apply hinge_zero.
Qed.
Lemma forall_hinge_nonneg : forall {A} (f : A -> R) l,
  Forall (fun a => 0 <= a) (map (fun x => hinge margin (f x)) l).
Proof. intros. apply Forall_map. apply Forall_forall. intros. apply hinge_nonneg. Qed.

Lemma positivity_loss_eq : forall samples red w, Forall (fun x : vec => length x = n) samples ->
  positivity_loss N n xeq samples lam eps R0 margin red w
  = reduce red w (map (fun x => hinge margin (V N M lam xeq x - eps * error1 M xeq x)) samples).
Proof.
  intros. unfold positivity_loss. rewrite get_R_ok by apply Args. rewrite traverse_V by auto.
  rewrite map2_map_same. reflexivity.
Qed.
Lemma positivity_loss_spec : forall samples red w,
  samples <> [] -> Forall (fun x : vec => length x = n) samples ->
  weights_ok red w (length samples) ->
  exists v, positivity_loss N n xeq samples lam eps R0 margin red w = Some v /\ 0 <= v /\
    (v = 0 <-> Forall (fun x => eps * error1 M xeq x + margin <= V N M lam xeq x) samples).
Proof.
  intros samples red w Hs F Hw. rewrite positivity_loss_eq by auto.
  destruct (reduce_spec red w (map (fun x => hinge margin (V N M lam xeq x - eps * error1 M xeq x)) samples))
    as (v & E & P & Z).
  - destruct samples; [contradiction|discriminate].
  - rewrite map_length. auto.
  - apply forall_hinge_nonneg.
  - exists v. split; auto. split; auto. rewrite Z, forall_map_hinge.
    split; apply Forall_impl; intros; lra.
Qed.

Lemma combine_maps : forall {A B C D} (f : A -> C) (g : B -> D) l r,
  combine (map f l) (map g r) = map (fun p => (f (fst p), g (snd p))) (combine l r).
Proof. induction l; destruct r; simpl; auto. rewrite IHl. auto. Qed.
Lemma map2_map_combine : forall {A B C E} (f : B -> C -> E) (g : A -> B) (h : A -> C) l r,
  map2 f (map g l) (map h r) = map (fun p => f (g (fst p)) (h (snd p))) (combine l r).
Proof. induction l; destruct r; simpl; auto. rewrite IHl. auto. Qed.
Lemma map2_combine_l : forall {A B C D} (f : C -> A -> D) (g : A * B -> C) (l : list A) (r : list B),
  length l = length r ->
  map2 f (map g (combine l r)) l = map (fun p => f (g p) (fst p)) (combine l r).
Proof. induction l; destruct r; simpl; intros; try discriminate; auto. rewrite IHl by lia. auto. Qed.

Lemma derivative_loss_eq : forall et samples next red w, length samples = length next ->
  Forall (fun x : vec => length x = n) samples -> Forall (fun x : vec => length x = n) next ->
  derivative_loss N n xeq samples next lam eps et R0 margin red w
  = reduce red w (map (fun p => hinge margin (- violation et N M lam eps xeq (fst p) (snd p)))
                      (combine samples next)).
Proof.
  intros et samples next red w L F1 F2. unfold derivative_loss.
  rewrite L, Nat.eqb_refl. cbn [negb]. rewrite get_R_ok by apply Args. rewrite !traverse_V by auto.
  f_equal. destruct et.
  - rewrite map2_map_combine, map_map. apply map_ext. intros p. f_equal. unfold violation. ring.
  - rewrite map2_map_combine, map_map. apply map_ext. intros p. f_equal.
  - rewrite combine_maps, map2_combine_l, map_map by auto. apply map_ext. intros p. f_equal.
Qed.
Lemma derivative_loss_spec : forall et samples next red w,
  samples <> [] -> length samples = length next ->
  Forall (fun x : vec => length x = n) samples -> Forall (fun x : vec => length x = n) next ->
  weights_ok red w (length samples) ->
  exists v, derivative_loss N n xeq samples next lam eps et R0 margin red w = Some v /\ 0 <= v /\
    (v = 0 <-> Forall (fun p => violation et N M lam eps xeq (fst p) (snd p) <= - margin)
                      (combine samples next)).
Proof.
  intros et samples next red w Hs L F1 F2 Hw. rewrite derivative_loss_eq by auto.
  destruct (reduce_spec red w (map (fun p => hinge margin (- violation et N M lam eps xeq (fst p) (snd p)))
                      (combine samples next)))
    as (v & E & P & Z).
  - destruct samples; [contradiction|]. destruct next; discriminate.
  - rewrite map_length, combine_length, <- L, Nat.min_id. auto.
  - apply forall_hinge_nonneg.
  - exists v. split; auto. split; auto. rewrite Z, forall_map_hinge.
    split; apply Forall_impl; intros; lra.
Qed.

Lemma reduce_ordered : forall l a b c, Forall (fun a => 0 <= a) l -> l <> [] ->
  reduce RMean None l = Some a -> reduce RMax None l = Some b -> reduce RFourNorm None l = Some c ->
  a <= b <= c.
Proof.
  intros l a b c P Hl E1 E2 E3. destruct l as [|x l]; [contradiction|].
  cbn [reduce weighted_mean] in *.
  destruct (loss_bounds (x :: l) x a b c P) as (_ & K1 & K2); simpl; auto.
Qed.
Lemma positivity_loss_ordered : forall samples a b c,
  Forall (fun x : vec => length x = n) samples ->
  positivity_loss N n xeq samples lam eps R0 margin RMean None = Some a ->
  positivity_loss N n xeq samples lam eps R0 margin RMax None = Some b ->
  positivity_loss N n xeq samples lam eps R0 margin RFourNorm None = Some c -> a <= b <= c.
Proof.
  intros samples a b c F. rewrite !positivity_loss_eq by auto. intros E1 E2 E3.
  eapply reduce_ordered; [| |exact E1|exact E2|exact E3].
  - apply forall_hinge_nonneg.
  - intros Z. rewrite Z in E1. discriminate.
Qed.
Lemma derivative_loss_ordered : forall et samples next a b c, length samples = length next ->
  Forall (fun x : vec => length x = n) samples -> Forall (fun x : vec => length x = n) next ->
  derivative_loss N n xeq samples next lam eps et R0 margin RMean None = Some a ->
  derivative_loss N n xeq samples next lam eps et R0 margin RMax None = Some b ->
  derivative_loss N n xeq samples next lam eps et R0 margin RFourNorm None = Some c -> a <= b <= c.
Proof.
  intros et samples next a b c L F1 F2. rewrite !derivative_loss_eq by auto. intros E1 E2 E3.
  eapply reduce_ordered; [| |exact E1|exact E2|exact E3].
  - apply forall_hinge_nonneg.
  - intros Z. rewrite Z in E1. discriminate.
Qed.
End Loss.
