(** Projections. *)

Require Import Reals List Lia Lra Psatz Arith Bool.
Require Import Verif.Vec Verif.VecFacts Verif.ModelNet Verif.ProofNetTotal Verif.ModelProject Verif.SpecProject.
Import ListNotations.
Open Scope R_scope.

Lemma gap_nonneg : forall x y, 0 <= gap x y.
Proof. intros x y. unfold gap. induction (vsub x y) as [|r v IH]; cbn; nra. Qed.
Lemma gap_self : forall x, gap x x = 0.
Proof. unfold gap. induction x as [|r x IH]; cbn in *; [auto|]. unfold vsub in IH. rewrite IH. ring. Qed.
Lemma gap_zero : forall x y : vec, length x = length y -> gap x y = 0 -> x = y.
Proof.
  induction x as [|r x IH]; intros [|q y] L G; cbn in L; try lia; auto.
  assert (P := gap_nonneg x y). unfold gap in *. cbn in G. unfold vsub in *. assert (r - q = 0) by nra.
  f_equal; [lra|]. apply IH; [lia|]. nra.
Qed.
(** Moving from [y] towards [z]. *)
Definition toward (t : R) (y z : vec) : vec := vadd y (vscale t (vsub z y)).
Lemma toward_length : forall t y z, length y = length z -> length (toward t y z) = length y.
Proof. intros. unfold toward. rewrite vadd_length; rewrite ?vscale_length, ?vsub_length; auto. Qed.
Lemma toward_gap : forall t x y z, length x = length y -> length z = length y ->
  gap x (toward t y z) = gap x y - 2 * t * dot (vsub x y) (vsub z y) + t * t * gap z y.
Proof.
  intros t. unfold gap, toward. induction x as [|a x IH]; intros [|b y] [|c z] L1 L2; cbn in L1, L2; try lia; [cbn; ring|].
  cbn. unfold vsub, vadd, vscale in *. rewrite IH by lia. ring.
Qed.
Lemma toward_inside : forall n A b y z t, 0 <= t <= 1 -> inside n A b y -> inside n A b z -> inside n A b (toward t y z).
Proof.
  intros n A b y z t Ht [Ly Iy] [Lz Iz]. split; [rewrite toward_length; congruence|].
  unfold toward. rewrite mv_vadd by (rewrite vscale_length, vsub_length; congruence). rewrite mv_vscale, mv_vsub by congruence.
  clear Ly Lz. revert Iy Iz. generalize (mv A y) (mv A z). unfold vle. clear - Ht.
  intros u v Hu. revert v. induction Hu as [|p q u b H Hu IH]; intros v Hv; inversion Hv; subst; cbn; constructor.
  - nra.
  - apply IH. auto.
Qed.
(** Nearest points by an angle. *)
Lemma angle : forall n A b x y, length x = n ->
  (nearest n A b x y <-> inside n A b y /\ forall z, inside n A b z -> dot (vsub x y) (vsub z y) <= 0).
Proof.
  intros n A b x y Lx. split.
  - intros [I M]. split; [auto|]. intros z Iz. destruct (Rle_or_lt (dot (vsub x y) (vsub z y)) 0) as [|Pos]; [auto|]. exfalso.
    set (d := dot (vsub x y) (vsub z y)) in *. set (g := gap z y). assert (Hg : 0 <= g) by apply gap_nonneg.
    set (t := Rmin 1 (d / (1 + g))).
    assert (Hd : 0 < d / (1 + g)) by (apply Rdiv_lt_0_compat; lra).
    assert (Ht : 0 < t <= 1) by (unfold t; split; [apply Rmin_glb_lt; lra|apply Rmin_l]).
    assert (Hts : t * (1 + g) <= d).
    { apply Rle_trans with (d / (1 + g) * (1 + g)); [apply Rmult_le_compat_r; [lra|apply Rmin_r]|]. unfold Rdiv. rewrite Rmult_assoc, Rinv_l by lra. lra. }
    assert (Q := M _ (toward_inside n A b y z t ltac:(lra) I Iz)).
    rewrite toward_gap in Q by (destruct I, Iz; congruence). fold d g in Q.
    assert (S : t * (2 * d) <= t * (t * g)) by nra. assert (t * g < 2 * d) by nra. nra.
  - intros [I V]. split; [auto|]. intros z Iz. specialize (V z Iz). assert (Q := toward_gap 1 x y z ltac:(destruct I; congruence) ltac:(destruct I, Iz; congruence)).
    assert (E : toward 1 y z = z).
    { unfold toward. rewrite vscale_1. destruct I as [Ly _], Iz as [Lz _]. assert (L : length y = length z) by congruence. clear - L. revert z L.
      induction y as [|p y IH]; intros [|q z] L; cbn in *; try lia; auto. f_equal; [ring|]. unfold vadd, vsub in IH. apply IH. lia. }
    rewrite E in Q. assert (G := gap_nonneg z y). lra.
Qed.
Lemma nearest_unique : forall n A b x y z, length x = n -> nearest n A b x y -> inside n A b z -> gap x z <= gap x y -> z = y.
Proof.
  intros n A b x y z Lx N Iz G. assert (N' := N). apply angle in N'; [|auto]. destruct N' as [I V]. specialize (V z Iz).
  assert (Q := toward_gap 1 x y z ltac:(destruct I; congruence) ltac:(destruct I, Iz; congruence)).
  assert (E : toward 1 y z = z).
  { unfold toward. rewrite vscale_1. destruct I as [Ly _], Iz as [Lz _]. assert (L : length y = length z) by congruence. clear - L. revert z L.
    induction y as [|p y IH]; intros [|q z] L; cbn in *; try lia; auto. f_equal; [ring|]. unfold vadd, vsub in IH. apply IH. lia. }
  rewrite E in Q. assert (P := gap_nonneg z y). apply gap_zero; [destruct I, Iz; congruence|]. lra.
Qed.
Section Project.
Variable solve : mat -> vec -> vec -> option vec.
Variable n : nat.
Variable A : mat.
Variable b : vec.
Notation project := (project_to_polyhedron solve A b).
Lemma projected : forall x, length x = n -> solved n A b x (solve A b x) -> solved n A b x (project x).
Proof.
  intros x L S. unfold project_to_polyhedron. destruct (vleb (mv A x) b) eqn:E; [|exact S].
  apply vleb_spec in E. split; [split; auto|]. intros z _. rewrite gap_self. apply gap_nonneg.
Qed.
Lemma projection : forall x, length x = n -> solved n A b x (solve A b x) ->
  (forall y, project x = Some y <-> nearest n A b x y) /\ (project x = None <-> forall z, ~ inside n A b z).
Proof.
  intros x L S. assert (P := projected x L S). destruct (project x) as [y|] eqn:E; cbn in P.
  - split.
    + intros y'. split.
      * intros Q. assert (y = y') by congruence. subst. exact P.
      * intros Q. f_equal. apply (nearest_unique n A b x y' y L Q); [apply P|]. apply P. apply Q.
    + split; [discriminate|]. intros H. exfalso. apply (H y). apply P.
  - split; [|tauto]. intros y. split; [discriminate|]. intros Q. exfalso. apply (P y). apply Q.
Qed.
(** What is inside stays, and a second projection changes nothing; no contract is needed for the second. *)
Lemma fixed : forall x, length x = n -> solved n A b x (solve A b x) -> (project x = Some x <-> inside n A b x).
Proof.
  intros x L S. split.
  - intros E. apply (projection x L S) in E. apply E.
  - intros I. unfold project_to_polyhedron. destruct I as [_ I]. apply vleb_spec in I. rewrite I. reflexivity.
Qed.
Lemma twice : forall x y, length x = n -> solved n A b x (solve A b x) -> project x = Some y -> project y = Some y.
Proof.
  intros x y L S E. apply (projection x L S) in E. destruct E as [[_ I] _]. unfold project_to_polyhedron. apply vleb_spec in I. rewrite I. reflexivity.
Qed.
(** Projections do not move points apart. *)
Lemma closer : forall x1 x2 y1 y2, length x1 = n -> length x2 = n -> solved n A b x1 (solve A b x1) -> solved n A b x2 (solve A b x2) ->
  project x1 = Some y1 -> project x2 = Some y2 -> gap y1 y2 <= gap x1 x2.
Proof.
  intros x1 x2 y1 y2 L1 L2 S1 S2 E1 E2. apply (projection x1 L1 S1) in E1. apply (projection x2 L2 S2) in E2.
  apply angle in E1; [|auto]. apply angle in E2; [|auto]. destruct E1 as [I1 V1], E2 as [I2 V2]. specialize (V1 y2 I2). specialize (V2 y1 I1).
  destruct I1 as [M1 _], I2 as [M2 _].
  assert (D : gap x1 x2 = gap y1 y2 + dot (vsub (vsub x1 y1) (vsub x2 y2)) (vsub (vsub x1 y1) (vsub x2 y2)) - 2 * dot (vsub x1 y1) (vsub y2 y1) - 2 * dot (vsub x2 y2) (vsub y1 y2)).
  { clear - L1 L2 M1 M2. unfold gap. revert x2 y1 y2 n L1 L2 M1 M2. induction x1 as [|a x1 IH]; intros x2 y1 y2 n L1 L2 M1 M2; cbn in L1; subst n;
      destruct x2 as [|c x2]; cbn in L2; try lia; destruct y1 as [|p y1]; cbn in M1; try lia; destruct y2 as [|q y2]; cbn in M2; try lia; [cbn; ring|].
    cbn. unfold vsub in *. rewrite (IH x2 y1 y2 (length x1)) by lia. ring. }
  assert (P := gap_nonneg (vsub x1 y1) (vsub x2 y2)). unfold gap in P. lra.
Qed.
End Project.

(** The square [0, 1] x [0, 1]. *)
Definition square_A : mat := [[1; 0]; [-1; 0]; [0; 1]; [0; -1]].
Definition square_b : vec := [1; 0; 1; 0].
Lemma square_inside : forall p q, inside 2 square_A square_b [p; q] <-> 0 <= p <= 1 /\ 0 <= q <= 1.
Proof.
  intros. unfold inside, square_A, square_b, vle. cbn. split.
  - intros [_ H]. inversion H as [|? ? ? ? H1 T1]; subst. inversion T1 as [|? ? ? ? H2 T2]; subst. inversion T2 as [|? ? ? ? H3 T3]; subst. inversion T3; subst. lra.
  - intros [H1 H2]. split; [auto|]. repeat (constructor; [lra|]). constructor.
Qed.
Lemma square_case : solved 2 square_A square_b [3; 1 / 2] (Some [1; 1 / 2]) /\ ~ inside 2 square_A square_b [3; 1 / 2] /\
  solved 1 [[1]; [-1]] [-1; -1] [0] None.
Proof.
  split; [|split].
  - split; [apply square_inside; lra|]. intros z Iz. assert (Lz := proj1 Iz). destruct z as [|p [|q [|]]]; try discriminate.
    apply square_inside in Iz. destruct Iz as [[A1 A2] [B1 B2]]. unfold gap. cbn.
    assert (0 <= (1 - p) * (5 - p)) by (apply Rmult_le_pos; lra). assert (Sq := Rle_0_sqr (1 / 2 - q)). unfold Rsqr in Sq. lra.
  - rewrite square_inside. lra.
  - intros z [Lz H]. destruct z as [|p [|]]; try discriminate. cbn in H. inversion H as [|? ? ? ? H1 T1]; subst. inversion T1 as [|? ? ? ? H2 T2]; subst. lra.
Qed.
