(** Concrete parameterisations of R, and an ideal Cholesky factorisation. *)

Require Import Reals List Bool Arith Lia Lra ClassicalEpsilon.
Require Import Verif.Vec Verif.VecFacts Verif.ModelMilp Verif.ModelROptions Verif.SpecROptions
  Verif.ProofROptions.
Import ListNotations.
Open Scope R_scope.

(** The factorisation that succeeds whenever a factor exists. *)
Definition ideal_cholesky (A : mat) : option mat :=
  match excluded_middle_informative (exists L, is_cholesky (length A) A L) with
  | left H => Some (proj1_sig (constructive_indefinite_description _ H))
  | right _ => None
  end.
Lemma ideal_cholesky_ok : cholesky_ok ideal_cholesky.
Proof.
  intros n A L [W _] E. unfold ideal_cholesky in E.
  destruct (excluded_middle_informative _) as [H|H]; [|discriminate].
  injection E as <-. rewrite <- W. exact (proj2_sig (constructive_indefinite_description _ H)).
Qed.
Lemma ideal_cholesky_total : forall n A L, wfm n n A -> is_cholesky n A L ->
  exists L', ideal_cholesky A = Some L'.
Proof.
  intros n A L [W _] H. rewrite <- W in H. unfold ideal_cholesky.
  destruct (excluded_middle_informative _) as [K|K]; [eauto|]. exfalso. eauto.
Qed.

Definition spd3 : spd := mkSpd 3 2 (1 / 2) [7; 7; 7; 7; 7].
Definition R32 : mat := [[3 / 2; 1]; [3; 11 / 2]; [7; 8]].
Lemma spd3_new : spd_new 3 2 (1 / 2) [7; 7; 7; 7; 7] = Some spd3.
Proof.
  unfold spd_new, check, Rltb. destruct (Rlt_dec 0 (1 / 2)); [reflexivity|lra].
Qed.
Ltac matcalc := cbn - [Rplus Rminus Rmult Rdiv Ropp Rinv IZR]; repeat (f_equal; try lra); try lra.
Lemma spd3_set : exists o, spd_set ideal_cholesky [0; 0; 0; 0; 0] spd3 R32 = Some o.
Proof.
  unfold spd_set. cbn [spd_m spd_n spd3]. unfold check. cbn [has_shape length R32 Nat.eqb forallb andb].
  destruct (ideal_cholesky_total 2
    (madd (map (vscale (/ 2)) (madd (firstn 2 R32) (transpose 2 (firstn 2 R32)))) (eyek 2 (- spd_eps spd3)))
    [[1; 0]; [2; 1]]) as [L EL].
  - split; [reflexivity|]. repeat constructor.
  - split; [split; [reflexivity|repeat constructor]|]. split.
    + intros i j H. assert (i = 0 /\ j = 1)%nat as [-> ->] by lia. reflexivity.
    + matcalc.
  - cbv zeta. change [[3 / 2; 1]; [3; 11 / 2]; [7; 8]] with R32. rewrite EL.
    destruct (write_columns _ _ _). eauto.
Qed.
Lemma R32_symmetrised : symmetrised 2 R32 = [[3 / 2; 2]; [2; 11 / 2]; [7; 8]].
Proof. matcalc. Qed.
Lemma spd3_case : spd_made ideal_cholesky spd3 /\ exists o,
  spd_set ideal_cholesky [0; 0; 0; 0; 0] spd3 R32 = Some o /\ spd_made ideal_cholesky o /\
  spd_R o = Some [[3 / 2; 2]; [2; 11 / 2]; [7; 8]].
Proof.
  assert (M : spd_made ideal_cholesky spd3) by (eapply spd_made_new; apply spd3_new).
  split; auto. destruct spd3_set as [o E]. exists o. split; auto. split.
  - apply (spd_made_set _ spd3 [0; 0; 0; 0; 0] R32); auto.
  - rewrite <- R32_symmetrised. exact (spd_roundtrip _ spd3 [0; 0; 0; 0; 0] R32 o ideal_cholesky_ok M eq_refl E).
Qed.

Definition R22 : mat := [[0; -2]; [3; 0]].
Definition factor22 (_ : mat) : mat * vec * mat := ([[0; -1]; [1; 0]], [3; 2], [[1; 0]; [0; 1]]).
Definition svd2 : svd := mkSvd 2 2 [1; 2] [5; 5] (eye 2) (eye 2).
Lemma svd2_case : svd_made factor22 svd2 /\
  is_svd 2 2 R22 [[0; -1]; [1; 0]] [3; 2] [[1; 0]; [0; 1]] /\
  exists o, svd_set factor22 svd2 R22 = Some o.
Proof.
  split; [|split].
  - eapply svd_made_new with (m := 2%nat) (n := 2%nat) (a := [1; 2]) (v := [5; 5]). unfold svd_new, check.
    cbn [length Nat.eqb Nat.min forallb andb]. unfold Rltb.
    destruct (Rlt_dec 0 1); [|lra]. destruct (Rlt_dec 0 2); [reflexivity|lra].
  - split; [|split; [|split]].
    + split; [split; [reflexivity|repeat constructor]|]. matcalc.
    + split; [split; [reflexivity|repeat constructor]|]. matcalc.
    + reflexivity.
    + unfold R22. matcalc.
  - apply (svd_set_total factor22 svd2 R22 [[0; -1]; [1; 0]] [3; 2] [[1; 0]; [0; 1]]).
    + split; [reflexivity|repeat constructor].
    + reflexivity.
    + repeat constructor; lra.
Qed.
