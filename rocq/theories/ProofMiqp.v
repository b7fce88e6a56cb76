(** The quadratic objective that is set is the one written down. *)

Require Import Reals List Lia Lra Bool Arith.
Require Import Verif.Vec Verif.VecFacts Verif.ModelMip Verif.SpecMip Verif.ProofTorch Verif.ModelMilp Verif.SpecMilp
  Verif.ModelMiqp Verif.SpecMiqp.
Import ListNotations.
Open Scope R_scope.

Lemma put_value : forall l i v l' x, put i v l = Some l' -> length l = length x ->
  dot (values l') x = dot (values l) x + v * nth i x 0 /\ length l' = length l.
Proof.
  induction l as [|c l IH]; intros i v l' x E L; [destruct i; discriminate|]. destruct x as [|y x]; [cbn in L; lia|].
  cbn in L. destruct i as [|i].
  - destruct c; [discriminate|]. cbn in E. assert (Q : Some v :: l = l') by congruence. subst l'. cbn. split; [ring|auto].
  - assert (E' : match put i v l with Some l'' => Some (c :: l'') | None => None end = Some l') by (destruct c; exact E).
    destruct (put i v l) as [l2|] eqn:Ep; [|discriminate]. assert (Q : c :: l2 = l') by congruence. subst l'.
    destruct (IH i v l2 x Ep ltac:(lia)) as [A B]. cbn [values map dot nth length]. fold (values l2) (values l).
    rewrite A. split; [ring|lia].
Qed.
Definition grid (n m : nat) (M : list cells) : Prop := length M = n /\ Forall (fun row => length row = m) M.
Definition gval (x y : vec) (M : list cells) : R := dot x (mv (map values M) y).
Lemma put2_value : forall M i j v M' x y, put2 i j v M = Some M' -> grid (length x) (length y) M ->
  gval x y M' = gval x y M + v * nth i x 0 * nth j y 0 /\ grid (length x) (length y) M'.
Proof.
  unfold gval, grid. induction M as [|row M IH]; intros i j v M' x y E [L F]; [destruct i; discriminate|].
  destruct x as [|a x]; [cbn in L; lia|]. inversion F as [|? ? F1 F2]; subst. cbn [length] in L.
  destruct i as [|i]; cbn [put2] in E.
  - destruct (put j v row) as [row'|] eqn:Ep; [|discriminate]. assert (Q : row' :: M = M') by congruence. subst M'.
    destruct (put_value row j v row' y Ep F1) as [A B]. cbn [map mv dot nth]. rewrite A. split; [unfold mv; ring|].
    split; [cbn; lia|]. constructor; [lia|auto].
  - destruct (put2 i j v M) as [M2|] eqn:Ep; [|discriminate]. assert (Q : row :: M2 = M') by congruence. subst M'.
    destruct (IH i j v M2 x y Ep) as [A [B C]]; [split; [lia|auto]|]. cbn [map mv dot nth]. unfold mv in A. unfold mv.
    rewrite A. split; [ring|]. split; [cbn; lia|]. constructor; auto.
Qed.

Section Objective.
Variable rs zs : list nat.
Variable sg : assignment.
Notation r := (map sg rs).
Notation z := (map sg zs).

Definition kval (k : quad_cells) : R :=
  gval r r (k_Qr k) + gval z z (k_Qz k) + gval r z (k_Qrz k) + dot (values (k_cr k)) r + dot (values (k_cz k)) z.
Definition kwf (k : quad_cells) : Prop :=
  length (k_cr k) = length rs /\ length (k_cz k) = length zs /\
  grid (length r) (length r) (k_Qr k) /\ grid (length z) (length z) (k_Qz k) /\ grid (length r) (length z) (k_Qrz k).

Lemma repeat_none : forall n x, dot (values (repeat None n)) x = 0.
Proof. induction n as [|n IH]; intros [|y x]; cbn; auto. unfold values in IH. rewrite IH. ring. Qed.
Lemma gval_none : forall n m x y, gval x y (repeat (repeat None m) n) = 0.
Proof.
  intros n m x y. unfold gval. revert x. induction n as [|n IH]; intros [|a x]; cbn [repeat map mv dot]; auto.
  unfold mv in IH. rewrite IH, repeat_none. ring.
Qed.
Lemma no_cells_ok : kval (no_cells (length rs) (length zs)) = 0 /\ kwf (no_cells (length rs) (length zs)).
Proof.
  unfold kval, kwf, no_cells, grid. cbn [k_cr k_cz k_Qr k_Qz k_Qrz]. rewrite !gval_none, !repeat_none, !map_length, !repeat_length.
  split; [ring|].
  repeat split; auto; apply Forall_forall; intros row Hr; apply repeat_spec in Hr; subst; apply repeat_length.
Qed.
Lemma index_val : forall v l i, index_of v l = Some i -> nth i (map sg l) 0 = sg v.
Proof.
  intros v l. induction l as [|x l IH]; intros i E; [discriminate|]. cbn in E. destruct (Nat.eqb x v) eqn:Ex.
  - apply Nat.eqb_eq in Ex. assert (i = 0%nat) by congruence. subst. reflexivity.
  - destruct (index_of v l) as [j|]; [|discriminate]. assert (i = S j) by congruence. subst. cbn. apply IH. reflexivity.
Qed.
Definition knownv (v : nat) : Prop := In v rs \/ In v zs.
Lemma put_linear_value : forall v c k k', knownv v -> put_linear rs zs v (Some c) k = Some k' -> kwf k ->
  kval k' = kval k + c * sg v /\ kwf k'.
Proof.
  intros v c k k' Kn E (W1 & W2 & W3 & W4 & W5). unfold put_linear in E. destruct (index_of v rs) as [i|] eqn:Ei.
  - destruct (put i c (k_cr k)) as [l|] eqn:Ep; [|discriminate]. apply index_val in Ei.
    destruct (put_value _ _ _ _ r Ep) as [A B]; [rewrite map_length; auto|].
    match goal with H : Some ?x = Some ?y |- _ => assert (Q : x = y) by congruence end. subst k'.
    unfold kval, kwf. cbn [k_cr k_cz k_Qr k_Qz k_Qrz]. rewrite A, Ei. split; [ring|]. rewrite B. repeat split; auto; try apply W3; try apply W4; apply W5.
  - destruct (index_of v zs) as [i|] eqn:Ez.
    + destruct (put i c (k_cz k)) as [l|] eqn:Ep; [|discriminate]. apply index_val in Ez.
      destruct (put_value _ _ _ _ z Ep) as [A B]; [rewrite map_length; auto|].
      match goal with H : Some ?x = Some ?y |- _ => assert (Q : x = y) by congruence end. subst k'.
      unfold kval, kwf. cbn [k_cr k_cz k_Qr k_Qz k_Qrz]. rewrite A, Ez. split; [ring|]. rewrite B. repeat split; auto; try apply W3; try apply W4; apply W5.
    + exfalso. apply index_of_none in Ei, Ez. destruct Kn; auto.
Qed.
Lemma put_linear_short : forall v k k', knownv v -> put_linear rs zs v None k = Some k' -> False.
Proof.
  intros v k k' Kn E. unfold put_linear in E. destruct (index_of v rs) eqn:Ei; [discriminate|].
  destruct (index_of v zs) eqn:Ez; [discriminate|]. apply index_of_none in Ei, Ez. destruct Kn; auto.
Qed.
Lemma linear_block_value : forall vars coeff k k', Forall knownv vars -> linear_block rs zs coeff vars k = Some k' -> kwf k ->
  kval k' = kval k + lin_sum coeff vars sg /\ kwf k' /\ (length vars <= length coeff)%nat.
Proof.
  induction vars as [|v vars IH]; intros coeff k k' Kn E W.
  - cbn in E. assert (k = k') by congruence. subst. destruct coeff; cbn; split; try ring; split; auto; lia.
  - cbn [linear_block] in E. inversion Kn as [|? ? K1 K2]; subst. destruct coeff as [|c coeff]; cbn [hd_error tl] in E.
    + destruct (put_linear rs zs v None k) as [k1|] eqn:Ep; [|discriminate]. destruct (put_linear_short _ _ _ K1 Ep).
    + destruct (put_linear rs zs v (Some c) k) as [k1|] eqn:Ep; [|discriminate].
      destruct (put_linear_value _ _ _ _ K1 Ep W) as [A B]. destruct (IH _ _ _ K2 E B) as (C & D & F).
      cbn [lin_sum length]. split; [rewrite C, A; ring|]. split; [auto|lia].
Qed.
Lemma linear_blocks_value : forall coeffs vars k k', Forall (Forall knownv) vars ->
  linear_blocks rs zs coeffs vars k = Some k' -> kwf k ->
  kval k' = kval k + vsum (map2 (fun c v => lin_sum c v sg) coeffs vars) /\ kwf k'.
Proof.
  induction coeffs as [|c coeffs IH]; intros vars k k' Kn E W.
  - cbn in E. assert (k = k') by congruence. subst. cbn. split; [ring|auto].
  - destruct vars as [|v vars]; [cbn in E; assert (k = k') by congruence; subst; cbn; split; [ring|auto]|].
    cbn [linear_blocks] in E. inversion Kn as [|? ? K1 K2]; subst.
    destruct (linear_block rs zs c v k) as [k1|] eqn:Ep; [|discriminate].
    destruct (linear_block_value _ _ _ _ K1 Ep W) as (A & B & _). destruct (IH _ _ _ K2 E B) as (C & D).
    cbn [map2 vsum]. split; [rewrite C, A; ring|auto].
Qed.
Lemma put_quad_value : forall v w c k k', put_quad rs zs v w c k = Some k' -> kwf k ->
  kval k' = kval k + c * sg v * sg w /\ kwf k'.
Proof.
  intros v w c k k' E (W1 & W2 & W3 & W4 & W5). unfold put_quad in E.
  destruct (index_of v rs) as [i|] eqn:Ev, (index_of w rs) as [j|] eqn:Ew.
  - destruct (put2 i j c (k_Qr k)) as [Q|] eqn:Ep; [|discriminate]. apply index_val in Ev, Ew.
    destruct (put2_value _ _ _ _ _ r r Ep W3) as [A B].
    match goal with H : Some ?x = Some ?y |- _ => assert (QQ : x = y) by congruence end. subst k'.
    unfold kval, kwf. cbn [k_cr k_cz k_Qr k_Qz k_Qrz]. rewrite A, Ev, Ew. split; [ring|]. repeat split; auto; try apply W4; try apply W5; apply B.
  - destruct (index_of w zs) as [j|] eqn:Ez; [|discriminate]. destruct (put2 i j c (k_Qrz k)) as [Q|] eqn:Ep; [|discriminate].
    apply index_val in Ev, Ez. destruct (put2_value _ _ _ _ _ r z Ep W5) as [A B].
    match goal with H : Some ?x = Some ?y |- _ => assert (QQ : x = y) by congruence end. subst k'.
    unfold kval, kwf. cbn [k_cr k_cz k_Qr k_Qz k_Qrz]. rewrite A, Ev, Ez. split; [ring|]. repeat split; auto; try apply W4; try apply W3; apply B.
  - destruct (index_of v zs) as [i|] eqn:Ez; [|discriminate]. destruct (put2 j i c (k_Qrz k)) as [Q|] eqn:Ep; [|discriminate].
    apply index_val in Ew, Ez. destruct (put2_value _ _ _ _ _ r z Ep W5) as [A B].
    match goal with H : Some ?x = Some ?y |- _ => assert (QQ : x = y) by congruence end. subst k'.
    unfold kval, kwf. cbn [k_cr k_cz k_Qr k_Qz k_Qrz]. rewrite A, Ew, Ez. split; [ring|]. repeat split; auto; try apply W4; try apply W3; apply B.
  - destruct (index_of v zs) as [i|] eqn:Ez1; [|discriminate]. destruct (index_of w zs) as [j|] eqn:Ez2; [|discriminate].
    destruct (put2 i j c (k_Qz k)) as [Q|] eqn:Ep; [|discriminate]. apply index_val in Ez1, Ez2.
    destruct (put2_value _ _ _ _ _ z z Ep W4) as [A B].
    match goal with H : Some ?x = Some ?y |- _ => assert (QQ : x = y) by congruence end. subst k'.
    unfold kval, kwf. cbn [k_cr k_cz k_Qr k_Qz k_Qrz]. rewrite A, Ez1, Ez2. split; [ring|]. repeat split; auto; try apply W3; try apply W5; apply B.
Qed.
Lemma quad_row_value : forall row right v k k', quad_row rs zs v row right k = Some k' -> kwf k ->
  kval k' = kval k + row_sum (sg v) row right sg /\ kwf k'.
Proof.
  induction row as [|c row IH]; intros right v k k' E W; [cbn in *; assert (k = k') by congruence; subst; split; [ring|auto]|].
  destruct right as [|w right]; [cbn in *; assert (k = k') by congruence; subst; split; [ring|auto]|].
  cbn [quad_row] in E. destruct (put_quad rs zs v w c k) as [k1|] eqn:Ep; [|discriminate].
  destruct (put_quad_value _ _ _ _ _ Ep W) as [A B]. destruct (IH _ _ _ _ E B) as [C D].
  cbn [row_sum]. split; [rewrite C, A; ring|auto].
Qed.
Lemma quad_block_value : forall coeff left right k k', quad_block rs zs coeff left right k = Some k' -> kwf k ->
  kval k' = kval k + block_sum coeff left right sg /\ kwf k'.
Proof.
  induction coeff as [|row coeff IH]; intros left right k k' E W; [cbn in *; assert (k = k') by congruence; subst; split; [ring|auto]|].
  destruct left as [|v left]; [cbn in *; assert (k = k') by congruence; subst; split; [ring|auto]|].
  cbn [quad_block] in E. destruct (quad_row rs zs v row right k) as [k1|] eqn:Ep; [|discriminate].
  destruct (quad_row_value _ _ _ _ _ Ep W) as [A B]. destruct (IH _ _ _ _ E B) as [C D].
  cbn [block_sum]. split; [rewrite C, A; ring|auto].
Qed.
Lemma quad_blocks_value : forall coeffs vars k k', quad_blocks rs zs coeffs vars k = Some k' -> kwf k ->
  kval k' = kval k + vsum (map2 (fun c v => block_sum c (fst v) (snd v) sg) coeffs vars) /\ kwf k'.
Proof.
  induction coeffs as [|c coeffs IH]; intros vars k k' E W; [cbn in *; assert (k = k') by congruence; subst; split; [ring|auto]|].
  destruct vars as [|v vars]; [cbn in *; assert (k = k') by congruence; subst; split; [ring|auto]|].
  cbn [quad_blocks] in E. destruct (shape_ok c v); [|discriminate].
  destruct (quad_block rs zs c (fst v) (snd v) k) as [k1|] eqn:Ep; [|discriminate].
  destruct (quad_block_value _ _ _ _ _ Ep W) as [A B]. destruct (IH _ _ _ E B) as [C D].
  cbn [map2 vsum]. split; [rewrite C, A; ring|auto].
Qed.

(** What Gurobi is given. *)
Lemma terms_row : forall v row ws, length row = length ws ->
  vsum (map (fun t => fst (fst t) * sg (snd (fst t)) * sg (snd t)) (concat (map2 (fun w q => if Reqb q 0 then [] else [(q, v, w)]) ws row)))
  = sg v * dot row (map sg ws).
Proof.
  intros v row. induction row as [|q row IH]; intros [|w ws] L; cbn [map2 concat map vsum dot length] in *; try lia; try ring.
  rewrite map_app, vsum_app, IH by lia. destruct (Reqb q 0) eqn:Eq.
  - apply Reqb_true in Eq. subst q. cbn. ring.
  - cbn. ring.
Qed.
Lemma terms_value : forall Q vs ws, length Q = length vs -> Forall (fun row => length row = length ws) Q ->
  vsum (map (fun t => fst (fst t) * sg (snd (fst t)) * sg (snd t)) (quad_terms Q vs ws)) = dot (map sg vs) (mv Q (map sg ws)).
Proof.
  unfold quad_terms. induction Q as [|row Q IH]; intros [|v vs] ws L F; cbn [map2 concat map mv dot vsum length] in *; try lia; auto.
  inversion F as [|? ? F1 F2]; subst. rewrite map_app, vsum_app, terms_row by auto. rewrite IH by (auto; lia). reflexivity.
Qed.
Lemma lin_value : forall c vs, length c = length vs -> vsum (map (fun t => fst t * sg (snd t)) (combine c vs)) = dot c (map sg vs).
Proof.
  induction c as [|x c IH]; intros [|v vs] L; cbn in *; try lia; auto. rewrite IH by lia. reflexivity.
Qed.
Lemma grid_mat : forall n m M, grid n m M -> length (map values M) = n /\ Forall (fun row => length row = m) (map values M).
Proof.
  intros n m M [L F]. split; [rewrite map_length; auto|]. apply Forall_forall. intros row Hr. apply in_map_iff in Hr.
  destruct Hr as (c & <- & Hc). unfold values. rewrite map_length. rewrite Forall_forall in F. auto.
Qed.
Lemma objective_written : forall qc qv lc lv c mx o, Forall (Forall knownv) lv ->
  set_quad_objective rs zs qc qv lc lv c mx = Some o ->
  quad_value (qo_Qr o) (qo_Qz o) (qo_Qrz o) (qo_cr o) (qo_cz o) (qo_k o) r z = written qc qv lc lv c sg /\
  gurobi_value (qo_gquad o) (qo_glin o) (qo_k o) sg = written qc qv lc lv c sg /\ qo_max o = mx.
Proof.
  intros qc qv lc lv c mx o Kn E. unfold set_quad_objective in E.
  destruct (negb (Nat.eqb (length lc) (length lv))); [discriminate|].
  destruct (negb (Nat.eqb (length qc) (length qv))); [discriminate|].
  destruct (linear_blocks rs zs lc lv (no_cells (length rs) (length zs))) as [k1|] eqn:E1; [|discriminate].
  destruct (quad_blocks rs zs qc qv k1) as [k|] eqn:E2; [|discriminate].
  destruct no_cells_ok as [V0 W0]. destruct (linear_blocks_value _ _ _ _ Kn E1 W0) as [V1 W1].
  destruct (quad_blocks_value _ _ _ _ E2 W1) as [V2 W2]. cbv zeta in E.
  match goal with H : Some ?x = Some ?y |- _ => assert (QQ : x = y) by congruence end. subst o.
  cbn [qo_Qr qo_Qz qo_Qrz qo_cr qo_cz qo_k qo_gquad qo_glin qo_max].
  assert (V : kval k = written qc qv lc lv 0 sg) by (unfold written; rewrite V2, V1, V0; ring).
  assert (Ck : written qc qv lc lv c sg = kval k + c) by (rewrite V; unfold written; ring).
  rewrite Ck. destruct W2 as (L1 & L2 & G1 & G2 & G3). split; [reflexivity|]. split; [|reflexivity].
  rewrite !map_length in *. apply grid_mat in G1, G2, G3.
  unfold gurobi_value. rewrite !map_app, !vsum_app.
  rewrite !terms_value by tauto. rewrite !lin_value by (unfold values; rewrite map_length; auto).
  unfold kval, gval. ring.
Qed.
End Objective.
