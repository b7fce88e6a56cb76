(** The program that the callback of the quadrotor's closed loop returns. *)

Require Import Reals List Lia Lra Bool Arith.
Require Import Verif.Vec Verif.VecFacts Verif.ModelMip Verif.SpecMip Verif.SpecCore
  Verif.ModelUtils Verif.SpecUtils Verif.ModelNet Verif.SpecNet Verif.SpecStep
  Verif.ProofUtils Verif.ProofMaxBox Verif.ProofGrad Verif.ProofMip Verif.ProofSat
  Verif.ProofConcat Verif.ProofBounds Verif.ProofNet Verif.ProofNetBounds Verif.ProofNetTotal
  Verif.ProofWarm Verif.ProofStep Verif.ProofNetStep Verif.ModelPattern Verif.ModelStrengthen
  Verif.ModelLyapunov Verif.SpecLyapunov Verif.ProofLyapunov Verif.ModelHybrid Verif.SpecHybrid
  Verif.ProofHybrid2 Verif.ModelSystems Verif.SpecSystems Verif.ProofMilp Verif.ProofRoa
  Verif.ModelExSystems Verif.SpecExSystems Verif.ProofSystems Verif.ProofSystems2
  Verif.ProofSatStep Verif.ProofFeedback Verif.ProofExSystems Verif.ProofExSystems2
  Verif.ModelQuadLoop Verif.SpecQuadLoop Verif.ProofQuadLoop Verif.ProofQuadLoop2.
Import ListNotations.
Open Scope R_scope.

(** ** Continuous variables in [0, 1] and relaxed binaries are the same for the solver *)

Definition same (m m' : mip) : Prop :=
  gvars m = gvars m' /\ grows m = grows m' /\ forall v, known m v = known m' v.

Lemma same_refl : forall m, same m m.
Proof. intros m. split; auto. Qed.
Lemma same_gfeas : forall m m' sg, same m m' -> (gfeas m sg <-> gfeas m' sg).
Proof. intros m m' sg (E1 & E2 & _). unfold gfeas. rewrite E1, E2. tauto. Qed.
Lemma same_nvars : forall m m', same m m' -> nvars m = nvars m'.
Proof. intros m m' (E1 & _). unfold nvars. rewrite E1. auto. Qed.

Lemma known_add : forall b vt m v, known (fst (addVars b vt m)) v = true <->
  known m v = true \/ In v (seq (nvars m) (length b)).
Proof.
  intros b vt m v. rewrite !known_spec. unfold addVars.
  destruct vt.
  - destruct (lb_rows _ _ _), (ub_rows _ _ _), (eq_rows _ _ _). cbn [fst r_ zeta_].
    rewrite in_app_iff. tauto.
  - cbn [fst r_ zeta_]. rewrite in_app_iff. tauto.
  - cbn [fst r_ zeta_]. rewrite in_app_iff. tauto.
Qed.
Lemma add_grows : forall b vt m, grows (fst (addVars b vt m)) = grows m /\
  gvars (fst (addVars b vt m)) = gvars m ++ map (new_gvar vt) b /\
  snd (addVars b vt m) = seq (nvars m) (length b).
Proof.
  intros b vt m. unfold addVars. destruct vt; auto.
  destruct (lb_rows _ _ _), (ub_rows _ _ _), (eq_rows _ _ _). auto.
Qed.

Lemma same_add : forall b vt vt' m m', same m m' -> map (new_gvar vt) b = map (new_gvar vt') b ->
  same (fst (addVars b vt m)) (fst (addVars b vt' m')) /\
  snd (addVars b vt m) = snd (addVars b vt' m').
Proof.
  intros b vt vt' m m' Sm Eb. assert (N := same_nvars _ _ Sm). destruct Sm as (E1 & E2 & E3).
  destruct (add_grows b vt m) as (A1 & A2 & A3). destruct (add_grows b vt' m') as (B1 & B2 & B3).
  split; [|congruence]. split; [congruence|]. split; [congruence|]. intros v.
  apply eq_true_iff_eq. rewrite !known_add, E3, N. tauto.
Qed.
Lemma same_vars : forall b vt m m', same m m' ->
  same (fst (addVars b vt m)) (fst (addVars b vt m')) /\
  snd (addVars b vt m) = snd (addVars b vt m').
Proof. intros. apply same_add; auto. Qed.
Lemma unit_bin : new_gvar VCont (Fin 0, Fin 1) = new_gvar VBinRelax (Fin 0, Fin 1).
Proof.
  unfold new_gvar. cbn [fst snd ext_max ext_min].
  rewrite Rmax_left, Rmin_left by lra. auto.
Qed.
Lemma same_bins : forall n m m', same m m' ->
  same (fst (addVars (repeat (Fin 0, Fin 1) n) VCont m)) (fst (addVars (repeat (Fin 0, Fin 1) n) VBinRelax m')) /\
  snd (addVars (repeat (Fin 0, Fin 1) n) VCont m) = snd (addVars (repeat (Fin 0, Fin 1) n) VBinRelax m').
Proof.
  intros n m m' Sm. apply same_add; auto. induction n; auto. cbn [repeat map]. rewrite unit_bin, IHn. auto.
Qed.

Lemma row_grows : forall t s r m, grows (push_row t s r m) = grows m ++ [mkRow t s r] /\
  gvars (push_row t s r m) = gvars m /\ forall v, known (push_row t s r m) v = known m v.
Proof. intros t s r m. unfold push_row. destruct s; auto. Qed.
Lemma same_row : forall t s r m m', same m m' -> same (push_row t s r m) (push_row t s r m').
Proof.
  intros t s r m m' (E1 & E2 & E3). destruct (row_grows t s r m) as (A1 & A2 & A3).
  destruct (row_grows t s r m') as (B1 & B2 & B3).
  split; [congruence|]. split; [congruence|]. intros v. rewrite A3, B3. auto.
Qed.
Lemma same_rows : forall A vs s b m m', same m m' -> same (push_rows A vs s b m) (push_rows A vs s b m').
Proof.
  induction A as [|row A IH]; intros vs s [|r b] m m' Sm; cbn [push_rows]; auto. apply IH, same_row; auto.
Qed.
Lemma same_addM : forall As xs s b m m', same m m' -> same (addMConstr As xs s b m) (addMConstr As xs s b m').
Proof. intros. apply same_rows; auto. Qed.
Lemma same_bound : forall vs lo up m m', same m m' -> same (set_var_bound vs lo up m) (set_var_bound vs lo up m').
Proof.
  intros vs lo up m m' (E1 & E2 & E3). unfold set_var_bound, with_gvars. rewrite E1.
  split; [auto|]. split; [exact E2|]. exact E3.
Qed.

Definition same_opt (a b : option mip) : Prop :=
  match a, b with
  | Some m, Some m' => same m m'
  | None, None => True
  | _, _ => False
  end.
Lemma same_addL : forall cs vs s r m m', same m m' ->
  same_opt (addLConstr cs vs s r m) (addLConstr cs vs s r m').
Proof.
  intros cs vs s r m m' Sm. unfold addLConstr.
  destruct (negb (length cs =? length vs)%nat); [exact I|].
  assert (E : forallb (known m) (concat vs) = forallb (known m') (concat vs)).
  { clear - Sm. destruct Sm as (_ & _ & E). induction (concat vs); cbn; congruence. }
  rewrite E. destruct (forallb (known m') (concat vs) && nodupb (concat vs))%bool; [|exact I].
  apply same_row; auto.
Qed.

Lemma same_mic : forall c xv m m', same m m' ->
  same (fst (fst (add_mic c xv None NewBinary VCont m)))
       (fst (fst (add_mic c xv None NewBinary VBinRelax m'))) /\
  snd (fst (add_mic c xv None NewBinary VCont m)) = snd (fst (add_mic c xv None NewBinary VBinRelax m')) /\
  snd (add_mic c xv None NewBinary VCont m) = snd (add_mic c xv None NewBinary VBinRelax m').
Proof.
  intros c xv m m' Sm. unfold add_mic.
  apply (same_bound xv (input_lo c) (input_up c)) in Sm.
  set (m1 := set_var_bound xv (input_lo c) (input_up c) m) in *.
  set (m1' := set_var_bound xv (input_lo c) (input_up c) m') in *. clearbody m1 m1'. clear m m'.
  assert (T : exists m2 m2' sl, same m2 m2' /\
    (match slack_size c with
     | O => (m1, [])
     | n => let '(m, s) := addVars (repeat (NInf, PInf) n) VCont m1 in
            (set_var_bound s (slack_lo c) (slack_up c) m, s) end) = (m2, sl) /\
    (match slack_size c with
     | O => (m1', [])
     | n => let '(m, s) := addVars (repeat (NInf, PInf) n) VCont m1' in
            (set_var_bound s (slack_lo c) (slack_up c) m, s) end) = (m2', sl)).
  { destruct (slack_size c) as [|k]; [exists m1, m1', []; auto|].
    destruct (same_vars (repeat (NInf, PInf) (S k)) VCont m1 m1' Sm) as [V1 V2].
    destruct (addVars (repeat (NInf, PInf) (S k)) VCont m1) as [m2 s2].
    destruct (addVars (repeat (NInf, PInf) (S k)) VCont m1') as [m2' s2']. cbn [fst snd] in *. subst s2'.
    eexists _, _, s2. split; [|split; reflexivity]. apply same_bound; auto. }
  destruct T as (m2 & m2' & sl & S2 & -> & ->). clear Sm m1 m1'.
  assert (T : exists m3 m3' bi, same m3 m3' /\
    (match binary_size c with
     | O => (m2, [])
     | n => let '(m, b) := addVars (repeat (Fin 0, Fin 1) n) VCont m2 in
            (set_var_bound b (binary_lo c) (binary_up c) m, b) end) = (m3, bi) /\
    (match binary_size c with
     | O => (m2', [])
     | n => let '(m, b) := addVars (repeat (Fin 0, Fin 1) n) VBinRelax m2' in
            (set_var_bound b (binary_lo c) (binary_up c) m, b) end) = (m3', bi)).
  { destruct (binary_size c) as [|k]; [exists m2, m2', []; auto|].
    destruct (same_bins (S k) m2 m2' S2) as [V1 V2].
    destruct (addVars (repeat (Fin 0, Fin 1) (S k)) VCont m2) as [m3 s3].
    destruct (addVars (repeat (Fin 0, Fin 1) (S k)) VBinRelax m2') as [m3' s3']. cbn [fst snd] in *. subst s3'.
    eexists _, _, s3. split; [|split; reflexivity]. apply same_bound; auto. }
  destruct T as (m3 & m3' & bi & S3 & -> & ->). cbn [fst snd]. split; [|auto].
  assert (S4 : forall bl s rhs n n', same n n' ->
    same (match rhs with Some ((_ :: _) as r) => add_block bl s r n | _ => n end)
         (match rhs with Some ((_ :: _) as r) => add_block bl s r n' | _ => n' end)).
  { intros bl s [[|r rhs]|] n n' Sn; auto. apply same_addM; auto. }
  apply S4, S4, S3.
Qed.

Lemma same_saturation : forall p u a b pl pu m m', same m m' ->
  same_opt (match add_saturation p u a b pl pu VCont m with Some (x, _) => Some x | None => None end)
           (match add_saturation p u a b pl pu VBinRelax m' with Some (x, _) => Some x | None => None end).
Proof.
  intros p u a b pl pu m m' Sm. unfold add_saturation.
  assert (L : forall cs vs r, same_opt
     (match (match addLConstr cs vs SEq r m with Some x => Some (x, @nil nat) | None => None end) with
      | Some (x, _) => Some x | None => None end)
     (match (match addLConstr cs vs SEq r m' with Some x => Some (x, @nil nat) | None => None end) with
      | Some (x, _) => Some x | None => None end)).
  { intros cs vs r. assert (K := same_addL cs vs SEq r m m' Sm).
    destruct (addLConstr cs vs SEq r m), (addLConstr cs vs SEq r m'); auto. }
  destruct (Rleb pu a); [apply L|]. destruct (Rleb b pl); [apply L|].
  destruct (Rleb a pl && Rleb pu b)%bool; [apply L|].
  destruct (same_bins 1 m m' Sm) as [V1 V2]. cbn [repeat] in V1, V2.
  destruct (Rltb pl a && Rleb pu b)%bool.
  { destruct (replace_relu _ _); [|exact I].
    destruct (addVars [(Fin 0, Fin 1)] VCont m) as [m3 s3].
    destruct (addVars [(Fin 0, Fin 1)] VBinRelax m') as [m3' s3']. cbn [fst snd] in *. subst s3'.
    apply same_addM; auto. }
  destruct (Rleb a pl && Rltb b pu)%bool.
  { destruct (replace_relu _ _); [|exact I].
    destruct (addVars [(Fin 0, Fin 1)] VCont m) as [m3 s3].
    destruct (addVars [(Fin 0, Fin 1)] VBinRelax m') as [m3' s3']. cbn [fst snd] in *. subst s3'.
    apply same_addM; auto. }
  clear V1 V2.
  destruct (same_vars [(NInf, PInf)] VCont m m' Sm) as [V1 V2].
  destruct (addVars [(NInf, PInf)] VCont m) as [m2 z].
  destruct (addVars [(NInf, PInf)] VCont m') as [m2' z']. cbn [fst snd] in V1, V2. subst z'.
  destruct (same_bins 2 m2 m2' V1) as [W1 W2]. cbn [repeat] in W1, W2.
  destruct (addVars [(Fin 0, Fin 1); (Fin 0, Fin 1)] VCont m2) as [m3 s3].
  destruct (addVars [(Fin 0, Fin 1); (Fin 0, Fin 1)] VBinRelax m2') as [m3' s3']. cbn [fst snd] in *. subst s3'.
  assert (K := same_addL [[1; 1]] [s3] SLe 1 m3 m3' W1).
  destruct (addLConstr [[1; 1]] [s3] SLe 1 m3), (addLConstr [[1; 1]] [s3] SLe 1 m3'); cbn in K;
    try contradiction; [|exact I].
  destruct (replace_relu (pl - a) (pu - a)); [|exact I].
  destruct (replace_relu (b - pu) (b - pl)); [|exact I].
  cbv zeta. apply same_addM, same_addM; auto.
Qed.

Lemma same_loop : forall uv pv lower upper plo pup m m', same m m' ->
  same_opt (saturation_loop uv pv lower upper plo pup VCont m)
           (saturation_loop uv pv lower upper plo pup VBinRelax m').
Proof.
  induction uv as [|u uv IH]; intros pv lower upper plo pup m m' Sm; [exact Sm|].
  destruct pv as [|p pv]; [exact I|]. destruct lower as [|lo lower]; [exact I|].
  destruct upper as [|up upper]; [exact I|]. destruct plo as [|pl plo]; [exact I|].
  destruct pup as [|pu pup]; [exact I|]. cbn [saturation_loop].
  match goal with |- same_opt (match ?X with _ => _ end) (match ?Y with _ => _ end) =>
    assert (K : same_opt X Y); [|destruct X, Y; cbn in K; try contradiction; auto] end.
  assert (L := same_addL [[1; -1]] [[u; p]] SEq 0 m m' Sm).
  destruct lo, up; try exact I; try exact L. apply same_saturation; auto.
Qed.

Definition same_res {A : Type} (a b : option (mip * A)) : Prop :=
  match a, b with
  | Some (m, x), Some (m', y) => same m m' /\ x = y
  | None, None => True
  | _, _ => False
  end.

Lemma same_input : forall uv pv lower upper plo pup m m', same m m' ->
  same_res (add_input_saturation uv pv lower upper plo pup VCont m)
           (add_input_saturation uv pv lower upper plo pup VBinRelax m').
Proof.
  intros uv pv lower upper plo pup m m' Sm. unfold add_input_saturation.
  match goal with |- same_res (if ?b then _ else _) _ => destruct b; [|exact I] end.
  match goal with |- same_res (match ?a with _ => _ end) _ => destruct a as [ulo|]; [|exact I] end.
  match goal with |- same_res (match ?a with _ => _ end) _ => destruct a as [uup|]; [|exact I] end.
  assert (K := same_loop uv pv lower upper plo pup m m' Sm).
  destruct (saturation_loop uv pv lower upper plo pup VCont m),
    (saturation_loop uv pv lower upper plo pup VBinRelax m'); cbn in K; try contradiction; [|exact I].
  destruct (vleb ulo uup); [|exact I]. cbn. auto.
Qed.

Lemma same_controller : forall solve F xv uv m,
  match add_controller solve F xv uv VCont m, add_controller solve F xv uv VBinRelax m with
  | Some (p, b, r), Some (p', b', r') => same p p' /\ b = b' /\ r = r'
  | None, None => True
  | _, _ => False
  end.
Proof.
  intros solve F xv uv m. unfold add_controller. destruct (fb_ctl F) as [N|l].
  - destruct (compute_layer_bound _ _ _ _ _) as [B|]; [|exact I].
    destruct (compute_network_output_bounds _ _ _ _ _ _ _) as [[olo oup]|]; [|exact I].
    destruct (output_constraint_given_bounds _ _ _ _ _) as [c|]; [|exact I].
    destruct (Aout_input c); [exact I|]. destruct (Aout_binary c); [exact I|].
    destruct (Aout_slack c) as [A|]; [|exact I]. destruct (Cout c) as [C|]; [|exact I].
    destruct (same_mic c xv m m (same_refl m)) as (S1 & S2 & S3).
    destruct (add_mic c xv None NewBinary VCont m) as [[m1 z] be].
    destruct (add_mic c xv None NewBinary VBinRelax m) as [[m1' z'] be']. cbn [fst snd] in *. subst z' be'.
    destruct (same_vars (repeat (NInf, PInf) (f_nu (fb_fwd F))) VCont m1 m1' S1) as [V1 V2].
    destruct (addVars (repeat (NInf, PInf) (f_nu (fb_fwd F))) VCont m1) as [m2 pv].
    destruct (addVars (repeat (NInf, PInf) (f_nu (fb_fwd F))) VCont m1') as [m2' pv'].
    cbn [fst snd] in *. subst pv'. cbv zeta.
    match goal with |- context [add_input_saturation uv pv ?a ?b ?c ?d VCont ?e] =>
      match goal with |- context [add_input_saturation uv pv a b c d VBinRelax ?e'] =>
        assert (K := same_input uv pv a b c d e e' (same_addM _ _ _ _ _ _ V1));
        destruct (add_input_saturation uv pv a b c d VCont e) as [[m4 bb]|],
          (add_input_saturation uv pv a b c d VBinRelax e') as [[m4' bb']|]; cbn in K; try contradiction;
        [destruct K; subst; auto|exact I]
      end end.
  - destruct (addVars (repeat (NInf, PInf) (f_nu (fb_fwd F))) VCont m) as [m2 pv]. cbv zeta.
    destruct (propagate_linear _ _ _) as [[olo oup]|]; [|exact I].
    match goal with |- context [add_input_saturation uv pv ?a ?b ?c ?d VCont ?e] =>
        assert (K := same_input uv pv a b c d e e (same_refl _));
        destruct (add_input_saturation uv pv a b c d VCont e) as [[m4 bb]|],
          (add_input_saturation uv pv a b c d VBinRelax e) as [[m4' bb']|]; cbn in K; try contradiction;
        [destruct K; subst; auto|exact I]
      end.
Qed.

(** ** The callback of the closed loop *)

Lemma map_part : forall {A B} (f : A -> B) a b l, map f (part a b l) = part a b (map f l).
Proof. intros A B f a b l. unfold part. rewrite <- firstn_map, <- skipn_map. auto. Qed.

Section Solver.
Variable solve : mip -> gresult.
Hypothesis Hsolve : solver_ok solve.

Lemma callback_spec : forall S h meth F tl tu p iv,
  ex_built S -> ex_kind_ S = KQuad h meth -> vle (ex_xlo S) (ex_xup S) ->
  fb_fwd F = ex_fwd solve S -> feedback_built F -> is_net (fb_ctl F) ->
  length tl = 4%nat -> length tu = 4%nat ->
  loop_callback solve S F tl tu = Some (p, iv) ->
  wf_mip p /\ zv_ok 10 p iv /\
  (forall x u, in_box (ex_xlo S) (ex_xup S) x -> compute_u F x = Some u -> in_box tl tu u ->
     exists sg, gfeas p sg /\ map sg iv = quad_input x u) /\
  (fb_meth F = MIP -> forall sg, gfeas p sg ->
     exists x u, in_box (ex_xlo S) (ex_xup S) x /\ compute_u F x = Some u /\ in_box tl tu u /\
       map sg iv = quad_input x u).
Proof.
  intros S h meth F tl tu p iv Bt Ek Vx Ef Bf Hn L1 L2 E.
  assert (Bt' := Bt). destruct Bt' as (W & Lxu & _). destruct (ex_built_facts _ Bt) as [Lxl _].
  rewrite Ek in Lxu, Lxl. cbn [ex_nx] in Lxu, Lxl.
  unfold loop_callback in E.
  destruct (addVars (combine (map Fin (ex_xlo S)) (map Fin (ex_xup S))) VCont init_mip) as [p1 pxv] eqn:A1.
  destruct (addVars (combine (map Fin tl) (map Fin tu)) VCont p1) as [p2 puv] eqn:A2.
  assert (H1 : history false p1).
  { replace p1 with (fst (p1, pxv)) by reflexivity. rewrite <- A1. constructor; [constructor|discriminate]. }
  assert (H2 : history false p2).
  { replace p2 with (fst (p2, puv)) by reflexivity. rewrite <- A2. constructor; [auto|discriminate]. }
  assert (Z2 : zeta_ p2 = []).
  { revert A1 A2. unfold addVars.
    destruct (lb_rows _ _ (combine (map Fin (ex_xlo S)) _)), (ub_rows _ _ (combine (map Fin (ex_xlo S)) _)), (eq_rows _ _ (combine (map Fin (ex_xlo S)) _)).
    intros A1. apply pair_equal_spec in A1. destruct A1 as [<- _]. cbn [r_ zeta_ rhs_in_ rhs_eq_].
    destruct (lb_rows _ _ _), (ub_rows _ _ _), (eq_rows _ _ _).
    intros A2. apply pair_equal_spec in A2. destruct A2 as [<- _]. reflexivity. }
  destruct (addVars_fields _ _ _ _ _ A1) as (_ & _ & I1 & N1).
  destruct (addVars_fields _ _ _ _ _ A2) as (_ & _ & I2 & N2).
  change (nvars init_mip) with 0%nat in I1, N1.
  rewrite combine_length, !map_length in I1, N1, I2, N2. unfold vec in *.
  rewrite L1, L2 in I2, N2. rewrite Lxu, Lxl in I1, N1. cbn [Nat.min] in I1, N1, I2, N2.
  change (0 + 12)%nat with 12%nat in N1. rewrite N1 in I2, N2. change (12 + 4)%nat with 16%nat in N2.
  assert (Gf : forall sg, gfeas p2 sg <-> in_box (ex_xlo S) (ex_xup S) (map sg pxv) /\ in_box tl tu (map sg puv)).
  { intros sg. rewrite (gfeas_addVars _ _ _ _ _ sg A2), (gfeas_addVars _ _ _ _ _ sg A1).
    rewrite !vars_ok_box by (unfold vec; congruence).
    assert (GI : gfeas init_mip sg).
    { split; [intros i v Hi; destruct i; discriminate|constructor]. }
    tauto. }
  assert (Ex : forall x u, in_box (ex_xlo S) (ex_xup S) x -> in_box tl tu u ->
    exists sg, gfeas p2 sg /\ map sg pxv = x /\ map sg puv = u).
  { intros x u Hx Hu.
    assert (GI : gfeas init_mip (fun _ => 0)).
    { split; [intros i v Hi; destruct i; discriminate|constructor]. }
    destruct (addVars_extend _ _ _ _ _ (fun _ => 0) x A1) as (E1 & E2 & E3); auto.
    { constructor. }
    { apply vars_ok_box; auto. unfold vec; congruence. }
    set (s0 := override _ _ x) in *.
    destruct (addVars_extend _ _ _ _ _ s0 u A2) as (F1 & F2 & F3); auto.
    { apply (history_wf false); auto. }
    { apply vars_ok_box; auto. congruence. }
    exists (override s0 (nvars p1) u). split; auto. split; auto.
    transitivity (map s0 pxv); [|exact E3]. symmetry. apply map_agree with (n := nvars p1); auto.
    subst pxv. apply below_seqs. lia. }
  assert (Bx : below (nvars p2) pxv) by (subst pxv; apply below_seqs; lia).
  assert (Bu : below (nvars p2) puv) by (subst puv; apply below_seqs; lia).
  assert (Lx : length pxv = f_nx (fb_fwd F)).
  { subst pxv. rewrite Ef. cbn [ex_fwd f_nx]. rewrite Ek, seq_length. auto. }
  assert (Lu : length puv = f_nu (fb_fwd F)).
  { subst puv. rewrite Ef. cbn [ex_fwd f_nu]. rewrite Ek, seq_length. auto. }
  assert (Vf : vle (f_lo (fb_fwd F)) (f_up (fb_fwd F))) by (rewrite Ef; exact Vx).
  assert (Fz : forall vt sg, feas vt p2 sg <-> gfeas p2 sg).
  { intros vt sg. unfold feas. rewrite Z2. split; [tauto|]. intros; split; auto. intros; constructor. }
  set (vt0 := match fb_meth F with MIP => VBin | _ => VCont end) in *.
  set (vt1 := match fb_meth F with MIP => VBin | _ => VBinRelax end).
  assert (V1 : vt1 <> VCont) by (unfold vt1; destruct (fb_meth F); discriminate).
  destruct (add_controller solve F pxv puv vt0 p2) as [[[p3 b0] r0]|] eqn:Ec; [|discriminate].
  apply Some_inj in E. apply pair_equal_spec in E. destruct E as [-> Eiv].
  assert (T : exists p', add_controller solve F pxv puv vt1 p2 = Some (p', b0, r0) /\ same p p').
  { unfold vt0, vt1 in *. destruct (fb_meth F);
      try (exists p; split; [exact Ec|apply same_refl]);
      (assert (K := same_controller solve F pxv puv p2); rewrite Ec in K;
       destruct (add_controller solve F pxv puv VBinRelax p2) as [[[p' b'] r']|]; [|contradiction];
       destruct K as (K1 & <- & <-); exists p'; auto). }
  destruct T as (p' & Ec' & Sp). destruct b0 as [ulo uup].
  destruct (controller_step solve Hsolve F false vt1 p2 p' pxv puv ulo uup r0 Bf V1 H2 Bx Bu Lx Lu Vf Ec')
    as (_ & _ & _ & C1 & C2 & C3 & C4).
  rewrite Ef in C3, C4. cbn [ex_fwd f_lo f_up] in C3, C4.
  assert (Nv := same_nvars _ _ Sp).
  assert (Mi : forall sg : assignment, map sg iv = quad_input (map sg pxv) (map sg puv)).
  { intros sg. subst iv. unfold quad_input. rewrite !map_app, !map_part. auto. }
  split; [|split; [|split]].
  - assert (Wp := history_wf _ _ C2). unfold wf_mip in *. rewrite Nv. destruct Sp as (_ & -> & _). exact Wp.
  - subst iv pxv puv. split; [reflexivity|].
    assert (Bl : below (nvars p) (part 3 6 (seq 0 12) ++ part 9 12 (seq 0 12) ++ seq 12 4)).
    { rewrite Nv. apply Forall_forall. intros i Hi. cbn in Hi. lia. }
    split; [exact Bl|]. split.
    + cbn. repeat (constructor; [cbn; lia|]). constructor.
    + apply Forall_forall. intros i Hi. destruct Sp as (_ & _ & ->).
      apply (known_history false); auto. rewrite <- Nv. unfold below in Bl. rewrite Forall_forall in Bl. auto.
  - intros x u Hx Hc Hu. destruct (Ex x u Hx Hu) as (sg & G & X1 & X2).
    destruct (C4 sg) as (s1 & G1 & Ag).
    { apply Fz; auto. }
    { rewrite X1, X2. auto. }
    exists s1. split; [apply (same_gfeas _ _ s1 Sp); apply G1|]. rewrite Mi.
    rewrite <- (map_agree (nvars p2) sg s1 pxv Bx Ag), <- (map_agree (nvars p2) sg s1 puv Bu Ag).
    rewrite X1, X2. auto.
  - intros Em sg G. assert (Ev : vt1 = VBin) by (unfold vt1; rewrite Em; auto).
    assert (G' : feas vt1 p' sg).
    { split; [apply (same_gfeas _ _ sg Sp); auto|]. rewrite Ev. discriminate. }
    destruct (C3 sg G') as (G2 & K1 & K2). apply Fz in G2. apply Gf in G2. destruct G2 as [B1 B2].
    exists (map sg pxv), (map sg puv). split; auto.
Qed.

Lemma controller_again : forall F xv0 uv0 vt0 m0 st vt m xv uv,
  add_controller solve F xv0 uv0 vt0 m0 <> None -> is_net (fb_ctl F) -> feedback_built F ->
  vt <> VCont -> history st m -> below (nvars m) xv -> below (nvars m) uv ->
  length xv = f_nx (fb_fwd F) -> length uv = f_nu (fb_fwd F) ->
  vle (f_lo (fb_fwd F)) (f_up (fb_fwd F)) ->
  add_controller solve F xv uv vt m <> None.
Proof.
  intros F xv0 uv0 vt0 m0 st vt m xv uv E0 Hn (Cw & Ll & Lp & Hl & Bt) Vt H Bx Bu Lx Lu Hv.
  destruct (feedback_facts F Bt) as (Fx & Fu & Flo & Fup).
  assert (CL := controller_length F Cw Bt).
  assert (Ip : in_box (f_lo (fb_fwd F)) (f_up (fb_fwd F)) (f_lo (fb_fwd F)))
    by (split; [apply (box_refl (f_lo (fb_fwd F)))|exact Hv]).
  unfold add_controller in *. destruct (fb_ctl F) as [N|l] eqn:Ek.
  - destruct Cw as [W On].
    destruct (output_constraint solve (fb_meth F) N (f_lo (fb_fwd F)) (f_up (fb_fwd F)))
      as [[[c B] [olo oup]]|] eqn:Eo.
    2:{ exfalso. apply E0. unfold output_constraint in Eo. apply vleb_spec in Hv. rewrite Hv in Eo. cbn [negb] in Eo.
      destruct (compute_layer_bound solve (fb_meth F) N (f_lo (fb_fwd F)) (f_up (fb_fwd F))) as [B|]; auto.
      destruct (compute_network_output_bounds solve (fb_meth F) N (b_pre_lo B) (b_pre_up B)
        (f_lo (fb_fwd F)) (f_up (fb_fwd F))) as [[? ?]|]; auto.
      destruct (output_constraint_given_bounds N (b_pre_lo B) (b_pre_up B) (f_lo (fb_fwd F))
        (f_up (fb_fwd F))); [discriminate|auto]. }
    clear E0.
    assert (M := output_constraint_mic solve Hsolve _ _ _ _ _ _ _ _ W Ll Lp Eo).
    destruct (network_bounds solve Hsolve _ _ _ _ _ _ _ _ _ W Ll Lp Eo) as [Nb _].
    destruct (net_affine _ _ _ _ _ M) as (A & EA & WA & EC & LC & FA).
    destruct (nm_aout _ _ _ _ _ M) as [Ei Eb].
    unfold output_constraint in Eo.
    destruct (vleb (f_lo (fb_fwd F)) (f_up (fb_fwd F))); [|discriminate]. cbn [negb] in Eo.
    destruct (compute_layer_bound solve (fb_meth F) N (f_lo (fb_fwd F)) (f_up (fb_fwd F))) as [B'|] eqn:E1;
      [|discriminate].
    destruct (compute_network_output_bounds solve (fb_meth F) N (b_pre_lo B') (b_pre_up B')
       (f_lo (fb_fwd F)) (f_up (fb_fwd F))) as [out|] eqn:E2; [|discriminate].
    destruct (output_constraint_given_bounds N (b_pre_lo B') (b_pre_up B') (f_lo (fb_fwd F))
       (f_up (fb_fwd F))) as [c'|] eqn:E3; [|discriminate].
    apply Some_inj in Eo. apply pair_equal_spec in Eo. destruct Eo as [Eo ->].
    apply pair_equal_spec in Eo. destruct Eo as [-> ->].
    rewrite Ei, Eb, EA, EC.
    destruct (add_mic c xv None NewBinary vt m) as [[m1 z] be] eqn:Em.
    destruct (addVars (repeat (NInf, PInf) (f_nu (fb_fwd F))) VCont m1) as [m2 pv] eqn:Ef.
    destruct (net_step st _ _ _ _ _ xv vt m m1 z be M H Bx Lx Vt Em) as (Z1 & Z2 & Nv1 & S1).
    destruct (step_free vt st _ m1 m2 pv Ef ltac:(apply S1)) as (Ep & Nv2 & H2 & _ & _).
    assert (Leq : length (forward N (fb_xeq F)) = f_nu (fb_fwd F)) by (apply (CL _ Fx)).
    cbv zeta. set (eqv := forward N (fb_xeq F)) in *.
    set (rhs := vsub (vsub eqv (fb_ueq F)) (bias_of (last_layer N))) in *.
    assert (Lr : length rhs = f_nu (fb_fwd F)).
    { unfold rhs. rewrite vsub_length; rewrite vsub_length; congruence. }
    destruct (step_addM vt st [A; eyek (f_nu (fb_fwd F)) (-1)] [z; pv] SEq rhs m2) as (H3 & N3 & F3); auto.
    { discriminate. }
    { rewrite Lr. cbn [combine]. constructor; [|constructor; [|constructor]]; cbn [fst snd].
      - subst z. rewrite seq_length, <- On. exact WA.
      - subst pv. rewrite seq_length. apply wfm_eyek. }
    { cbn. rewrite app_nil_r. apply below_app. subst z pv. unfold below.
      split; apply Forall_forall; intros i Hi; apply in_seq in Hi; lia. }
    destruct (Nb _ Ip) as (_ & _ & K). assert (K' := in_box_lengths _ _ _ K).
    rewrite (net_eval_length _ _ _ W Ll), On in K'. destruct K' as [Lo1 Lo2].
    match goal with |- match ?X with _ => _ end <> _ => destruct X as [[m4 b]|] eqn:Es; [discriminate|] end.
    exfalso. revert Es. apply (add_input_saturation_total st); auto.
    + rewrite N3. unfold below. eapply Forall_impl; [|exact Bu]. cbv beta. intros. lia.
    + rewrite N3. subst pv. unfold below. apply Forall_forall. intros i Hi. apply in_seq in Hi. lia.
    + subst pv. rewrite seq_length. auto.
    + congruence.
    + rewrite vadd_length; rewrite vsub_length; congruence.
    + rewrite vadd_length; rewrite vsub_length; congruence.
    + destruct (vadd_box _ _ _ _ _ _ (vsub_box _ _ _ eqv K) (box_refl (fb_ueq F))) as [V1 V2].
      eapply vle_trans; eauto.
    + intros u Hu Hp. subst pv. apply in_seq in Hp. unfold below in Bu. rewrite Forall_forall in Bu.
      specialize (Bu u Hu). lia.
  - contradiction.
Qed.

Lemma callback_again : forall S h meth F tl tu xv0 uv0 vt0 m0,
  add_controller solve F xv0 uv0 vt0 m0 <> None ->
  ex_built S -> ex_kind_ S = KQuad h meth -> vle (ex_xlo S) (ex_xup S) ->
  fb_fwd F = ex_fwd solve S -> feedback_built F -> is_net (fb_ctl F) ->
  length tl = 4%nat -> length tu = 4%nat ->
  loop_callback solve S F tl tu <> None.
Proof.
  intros S h meth F tl tu xv0 uv0 vt0 m0 E0 Bt Ek Vx Ef Bf Hn L1 L2.
  assert (Bt' := Bt). destruct Bt' as (W & Lxu & _). destruct (ex_built_facts _ Bt) as [Lxl _].
  rewrite Ek in Lxu, Lxl. cbn [ex_nx] in Lxu, Lxl.
  unfold loop_callback.
  destruct (addVars (combine (map Fin (ex_xlo S)) (map Fin (ex_xup S))) VCont init_mip) as [p1 pxv] eqn:A1.
  destruct (addVars (combine (map Fin tl) (map Fin tu)) VCont p1) as [p2 puv] eqn:A2.
  assert (H1 : history false p1).
  { replace p1 with (fst (p1, pxv)) by reflexivity. rewrite <- A1. constructor; [constructor|discriminate]. }
  assert (H2 : history false p2).
  { replace p2 with (fst (p2, puv)) by reflexivity. rewrite <- A2. constructor; [auto|discriminate]. }
  destruct (addVars_fields _ _ _ _ _ A1) as (_ & _ & I1 & N1).
  destruct (addVars_fields _ _ _ _ _ A2) as (_ & _ & I2 & N2).
  change (nvars init_mip) with 0%nat in I1, N1.
  rewrite combine_length, !map_length in I1, N1, I2, N2. unfold vec in *.
  rewrite L1, L2 in I2, N2. rewrite Lxu, Lxl in I1, N1. cbn [Nat.min] in I1, N1, I2, N2.
  assert (T : forall vt, vt <> VCont -> add_controller solve F pxv puv vt p2 <> None).
  { intros vt Vt. apply (controller_again F xv0 uv0 vt0 m0 false vt); auto.
    - subst pxv. apply below_seqs. lia.
    - subst puv. apply below_seqs. lia.
    - subst pxv. rewrite Ef. cbn [ex_fwd f_nx]. rewrite Ek, seq_length. auto.
    - subst puv. rewrite Ef. cbn [ex_fwd f_nu]. rewrite Ek, seq_length. auto.
    - rewrite Ef. exact Vx. }
  assert (T' : add_controller solve F pxv puv (match fb_meth F with MIP => VBin | _ => VCont end) p2 <> None).
  { assert (K := same_controller solve F pxv puv p2).
    destruct (fb_meth F); try (apply T; discriminate);
      (assert (K' := T VBinRelax ltac:(discriminate));
       destruct (add_controller solve F pxv puv VCont p2) as [[[? ?] ?]|]; [discriminate|];
       destruct (add_controller solve F pxv puv VBinRelax p2) as [[[? ?] ?]|]; [contradiction|congruence]). }
  destruct (add_controller solve F pxv puv _ p2) as [[[? ?] ?]|]; [discriminate|congruence].
Qed.

End Solver.
