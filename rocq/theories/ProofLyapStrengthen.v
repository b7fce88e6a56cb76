(** Strengthening of the decrease program (C29) — lemmas. *)

Require Import Reals List Bool Arith Lra Lia Psatz.
Require Import Verif.Vec Verif.VecFacts Verif.ModelMip Verif.SpecMip
  Verif.ModelUtils Verif.ModelGrad Verif.ModelNet Verif.SpecCore Verif.SpecUtils Verif.SpecNet
  Verif.ModelPattern Verif.ModelStrengthen
  Verif.ProofUtils Verif.ProofGrad Verif.ProofMip Verif.ProofTorch Verif.ProofNet
  Verif.SpecStep Verif.ProofStep Verif.ModelLyapunov Verif.SpecLyapunov Verif.ProofNetStep
  Verif.ProofLyapunov Verif.ProofLyapCert Verif.ProofStrengthen.
Import ListNotations.
Open Scope R_scope.

Definition same_obj (m m' : mip) : Prop :=
  obj_terms m' = obj_terms m /\ obj_const m' = obj_const m /\ obj_max m' = obj_max m.
Lemma same_obj_refl : forall m, same_obj m m.
Proof. unfold same_obj; auto. Qed.
Lemma same_obj_trans : forall a b c, same_obj a b -> same_obj b c -> same_obj a c.
Proof. unfold same_obj; intros a b c (A1 & A2 & A3) (B1 & B2 & B3). repeat split; congruence. Qed.
Lemma same_obj_value : forall m m' sg, same_obj m m' -> objective m' sg = objective m sg.
Proof. intros m m' sg (A1 & A2 & _). unfold objective. rewrite A1, A2. auto. Qed.
Lemma push_row_obj : forall t s r m, same_obj m (push_row t s r m).
Proof. intros. unfold same_obj, push_row. destruct s; simpl; auto. Qed.
Lemma push_rows_obj : forall A vs s b m, same_obj m (push_rows A vs s b m).
Proof.
  induction A as [|row A IH]; intros vs s b m; [apply same_obj_refl|].
  destruct b; [apply same_obj_refl|]. cbn [push_rows].
  eapply same_obj_trans; [apply push_row_obj|apply IH].
Qed.
Lemma addLConstr_obj : forall cs vs s r m m', addLConstr cs vs s r m = Some m' -> same_obj m m'.
Proof.
  intros cs vs s r m m' E. unfold addLConstr in E. destruct (negb _); [discriminate|].
  destruct (_ && _)%bool; [|discriminate]. injection E as <-. apply push_row_obj.
Qed.

Section Loop.
Variable infeasible : mip -> list grow -> bool.
Hypothesis Hinf : infeasible_ok infeasible.
Variable st : bool.
Variable obj : grow.

Lemma loop_spec : forall B Bn beta betan i m,
  length beta = length betan -> history st m ->
  below (nvars m) beta -> below (nvars m) betan -> Forall2 (fun a b => a <> b) beta betan ->
  (forall sg, gfeas m sg -> bins (map sg beta) /\ bins (map sg betan)) ->
  exists m', strengthen_loop infeasible m obj B Bn i beta betan = Some m' /\
    history st m' /\ nvars m' = nvars m /\ same_obj m m' /\
    (forall sg, gfeas m' sg -> gfeas m sg) /\
    (forall sg, gfeas m sg -> row_ok sg obj -> gfeas m' sg).
Proof.
  intros B Bn. induction beta as [|b beta IH]; intros betan i m L H B1 B2 F Hb;
    destruct betan as [|bn betan]; try discriminate.
  - exists m. cbn [strengthen_loop]. split; auto. split; auto. split; auto.
    split; [apply same_obj_refl|]. auto.
  - cbn [strengthen_loop]. inversion F as [|? ? ? ? F1 F2]; subst.
    assert (B1' : below (nvars m) beta) by (inversion B1; auto).
    assert (B2' : below (nvars m) betan) by (inversion B2; auto).
    assert (Hb' : forall sg, gfeas m sg -> bins (map sg beta) /\ bins (map sg betan)).
    { intros sg G. destruct (Hb sg G) as [X Y]. split; [inversion X|inversion Y]; auto. }
    destruct (straddles B i && straddles Bn i
              && infeasible m [obj; mkRow [(1, b); (1, bn)] SEq 1])%bool eqn:E;
      [|apply IH; auto].
    apply andb_true_iff in E. destruct E as [_ E].
    destruct (step_addLConstr VBin st [[1; -1]] [[b; bn]] SEq 0 m H) as (m1 & E1 & N1 & _ & H1 & G1); auto.
    { cbn [concat app]. constructor; [inversion B1; auto|]. constructor; [inversion B2; auto|constructor]. }
    { cbn [concat app]. constructor; [|constructor; [|constructor]]; simpl; intuition. }
    rewrite E1.
    destruct (IH betan (S i) m1) as (m2 & E2 & H2 & N2 & O2 & S2 & K2); auto.
    { rewrite N1; auto. } { rewrite N1; auto. }
    { intros sg G. apply G1 in G. apply Hb'. tauto. }
    exists m2. split; auto. split; auto. split; [congruence|].
    split; [eapply same_obj_trans; [eapply addLConstr_obj; exact E1|exact O2]|].
    split.
    + intros sg G. apply S2 in G. apply G1 in G. tauto.
    + intros sg G Ro. apply K2; auto. apply G1. split; auto.
      destruct (Hb sg G) as [X Y].
      assert (X0 : is_bin (sg b)) by (inversion X; auto).
      assert (Y0 : is_bin (sg bn)) by (inversion Y; auto).
      assert (Q := Hinf m _ E sg G).
      assert (Ne : sg b + sg bn <> 1).
      { intros Z. apply Q. constructor; auto. constructor; [|constructor].
        unfold row_ok. cbn [row_sense row_terms row_rhs]. unfold eval_terms. cbn. lra. }
      cbn [concat app map dot sense_ok].
      assert (Eq : sg b = sg bn).
      { destruct X0 as [X0|X0], Y0 as [Y0|Y0]; rewrite X0, Y0 in *; lra. }
      rewrite Eq. apply cons_eq_iff. split; auto. ring.
Qed.
End Loop.

Lemma objective_row_ok : forall m sg, row_ok sg (objective_row m) <-> 0 <= objective m sg.
Proof.
  intros. unfold row_ok, objective_row, objective. cbn [row_sense row_terms row_rhs]. lra.
Qed.

Lemma nodup_app_neq : forall (a b : list nat), length a = length b -> NoDup (a ++ b) ->
  Forall2 (fun x y => x <> y) a b.
Proof.
  assert (G : forall a b c : list nat, length a = length b -> NoDup (a ++ c) ->
            (forall x, In x b -> In x c) -> Forall2 (fun x y => x <> y) a b).
  { induction a as [|x a IH]; intros [|y b] c L D S; try discriminate; constructor.
    - inversion D as [|? ? D1 D2]; subst. intros ->. apply D1. apply in_or_app. right. apply S. simpl; auto.
    - apply (IH b c); [simpl in L; lia|inversion D; auto|]. intros z Hz. apply S. simpl; auto. }
  intros a b L D. apply (G a b b); auto.
Qed.

(** ** remove_binary_relaxation *)

Lemma remove_gvars : forall zs gv j,
  nth_error (fold_left (fun gv i => upd_var i (fun g => mkVar true (v_lb g) (v_ub g)) gv) zs gv) j
  = match nth_error gv j with
    | None => None
    | Some g => Some (if existsb (Nat.eqb j) zs then mkVar true (v_lb g) (v_ub g) else g)
    end.
Proof.
  induction zs as [|z zs IH]; intros gv j; simpl.
  - destruct (nth_error gv j); auto.
  - rewrite IH, nth_error_upd. destruct (Nat.eqb j z) eqn:E; simpl.
    + destruct (nth_error gv j); simpl; auto. destruct (existsb (Nat.eqb j) zs); auto.
    + destruct (nth_error gv j); auto.
Qed.
Lemma remove_relax_gfeas : forall m sg, below (nvars m) (zeta_ m) ->
  (gfeas (remove_binary_relaxation m) sg <-> gfeas m sg /\ bins (map sg (zeta_ m))).
Proof.
  intros m sg B.
  assert (E : grows (remove_binary_relaxation m) = grows m) by reflexivity.
  unfold gfeas at 1. rewrite E. unfold remove_binary_relaxation.
  cbn [with_gvars gvars]. split.
  - intros [G1 G2]. assert (Hv : forall i v, nth_error (gvars m) i = Some v ->
      var_ok (if existsb (Nat.eqb i) (zeta_ m) then mkVar true (v_lb v) (v_ub v) else v) (sg i)).
    { intros i v Hi. apply G1. rewrite remove_gvars, Hi. auto. }
    split; [split; auto|].
    + intros i v Hi. specialize (Hv i v Hi). destruct (existsb _ _); auto.
      destruct Hv as (V1 & V2 & V3). cbn in V1, V2, V3. split; auto.
    + apply Forall_forall. intros x Hx. apply in_map_iff in Hx. destruct Hx as (i & <- & Hi).
      unfold below in B. rewrite Forall_forall in B. specialize (B i Hi).
      destruct (nth_error (gvars m) i) as [v|] eqn:Ei.
      2:{ apply nth_error_None in Ei. unfold nvars in B. lia. }
      specialize (Hv i v Ei).
      assert (Ex : existsb (Nat.eqb i) (zeta_ m) = true)
        by (apply existsb_exists; exists i; split; auto; apply Nat.eqb_refl).
      rewrite Ex in Hv. destruct Hv as (V1 & _). apply V1. auto.
  - intros [[G1 G2] Bi]. split; auto. intros i v Hi. rewrite remove_gvars in Hi.
    destruct (nth_error (gvars m) i) as [g|] eqn:Ei; [|discriminate]. injection Hi as <-.
    specialize (G1 i g Ei). destruct (existsb (Nat.eqb i) (zeta_ m)) eqn:Ex; auto.
    destruct G1 as (V1 & V2 & V3). split; auto. intros _.
    apply existsb_exists in Ex. destruct Ex as (k & Hk & Ek). apply Nat.eqb_eq in Ek. subst k.
    unfold bins in Bi. rewrite Forall_forall in Bi. apply Bi. apply in_map. auto.
Qed.
Lemma remove_relax_obj : forall m, same_obj m (remove_binary_relaxation m).
Proof. intros. unfold same_obj, remove_binary_relaxation. simpl. auto. Qed.

(** ** The two functions *)

Section Two.
Variable solve : mip -> gresult.
Hypothesis Hsolve : solver_ok solve.
Variable meth : method.
Variable N : network.
Variable n : nat.
Variables x_lo x_up : vec.
Variable R0 : option mat.
Variable xeq : vec.
Hypothesis Args : lyap_args n N x_lo x_up R0 xeq.
Variables lam eps : R.
Let M := R_of n R0.
Variable st : bool.
Variable add_system : list nat -> list nat -> vtype -> mip -> option mip.
Variable T : vec -> vec -> Prop.
Hypothesis Hsys : system_contract n st add_system T.
Variable et : eps_type.
Variables lower upper : option R.

Lemma strengthen_binary_spec : forall infeasible d, infeasible_ok infeasible ->
  derivative_milp solve meth N n x_lo x_up add_system xeq lam eps et R0 lower upper VBin = Some d ->
  exists m', strengthen_binary infeasible d = Some m' /\ same_obj (d_mip d) m' /\
    (forall sg, gfeas m' sg -> gfeas (d_mip d) sg) /\
    (forall sg, gfeas (d_mip d) sg -> 0 <= objective (d_mip d) sg -> gfeas m' sg).
Proof.
  intros infeasible d Hinf E.
  destruct (derivative_program solve Hsolve meth N n x_lo x_up R0 xeq Args lam eps st add_system T Hsys
    et lower upper VBin ltac:(discriminate) d E)
    as (_ & _ & _ & H & B1 & B2 & ND & L1 & L2 & _ & _ & (c & B & out & _ & _ & _ & Hm) & _).
  destruct (loop_spec infeasible Hinf st (objective_row (d_mip d))
    (ret_bounds (d_relu d)) (ret_bounds (d_relu_next d))
    (ret_beta (d_relu d)) (ret_beta (d_relu_next d)) 0 (d_mip d)) as (m' & E' & _ & _ & O & S & K); auto.
  { congruence. }
  { apply nodup_app_neq; auto. congruence. }
  { intros sg G. apply (feas_bin (d_mip d)) in G. apply Hm in G. tauto. }
  exists m'. split; [exact E'|]. split; auto. split; auto.
  intros sg G O'. apply K; auto. apply objective_row_ok. auto.
Qed.

Lemma strengthen_binary_optimum : forall infeasible d m', infeasible_ok infeasible ->
  derivative_milp solve meth N n x_lo x_up add_system xeq lam eps et R0 lower upper VBin = Some d ->
  strengthen_binary infeasible d = Some m' ->
  forall v, 0 <= v ->
  ((exists sg, gfeas m' sg /\ objective m' sg = v) /\ (forall sg, gfeas m' sg -> objective m' sg <= v)
   <->
   (exists sg, gfeas (d_mip d) sg /\ objective (d_mip d) sg = v) /\
   (forall sg, gfeas (d_mip d) sg -> objective (d_mip d) sg <= v)).
Proof.
  intros infeasible d m' Hinf E E' v Hv.
  destruct (strengthen_binary_spec infeasible d Hinf E) as (m2 & E2 & O & S & K).
  rewrite E' in E2. injection E2 as <-.
  assert (Ov : forall sg, objective m' sg = objective (d_mip d) sg)
    by (intros; apply same_obj_value; auto).
  split; intros [(sg & G & Eo) Mx]; split.
  - exists sg. rewrite <- Ov. auto.
  - intros s G'. destruct (Rle_or_lt 0 (objective (d_mip d) s)); [|lra].
    rewrite <- Ov. apply Mx. auto.
  - exists sg. rewrite Ov. split; auto. apply K; auto. lra.
  - intros s G'. rewrite Ov. apply Mx. auto.
Qed.

(** Relaxed construction, cuts, and back to binaries. *)
Lemma relu_cuts_spec : forall d xv rr sol m1 m2 c B out,
  output_constraint solve meth N x_lo x_up = Some (c, B, out) ->
  no_slope_one (hidden N) ->
  ret_bounds rr = B -> length xv = n -> length (ret_z rr) = num_units (hidden N) ->
  length (ret_beta rr) = num_units (hidden N) ->
  (forall sg, feas VBinRelax (d_mip d) sg ->
     mic_sat c (map sg xv) (map sg (ret_z rr)) (map sg (ret_beta rr)) /\ bins (map sg (ret_beta rr))) ->
  relu_cuts N x_lo x_up xv rr sol m1 = Some m2 ->
  (forall sg, gfeas m2 sg -> gfeas m1 sg) /\
  (forall sg, gfeas m1 sg -> feas VBinRelax (d_mip d) sg -> gfeas m2 sg) /\
  zeta_ m2 = zeta_ m1 /\ nvars m2 = nvars m1 /\ same_obj m1 m2.
Proof.
  intros d xv rr sol m1 m2 c B out Ec O <- Lx Lz Lb Hm E. unfold relu_cuts in E.
  destruct (program_kept solve Hsolve n meth N x_lo x_up c _ out xv _ _ sol m1 m2
    (la_net _ _ _ _ _ _ Args) O (la_lo _ _ _ _ _ _ Args) (la_up _ _ _ _ _ _ Args) Ec Lx Lz Lb E) as [K1 K2].
  split; auto. split.
  { intros sg G F. destruct (Hm sg F) as [X Y]. apply (K2 sg Y X). auto. }
  unfold strengthen_relu_mip_at_solution in E.
  destruct (strengthen_mip_at_point _ _ _ _ _) as [[k|]|]; [| |discriminate].
  - injection E as <-. split; [apply zeta_addMConstr|]. split; [apply nvars_addMConstr|apply push_rows_obj].
  - injection E as <-. split; auto. split; auto. apply same_obj_refl.
Qed.

Lemma rounds_spec : forall lp sys_cuts d,
  derivative_milp solve meth N n x_lo x_up add_system xeq lam eps et R0 lower upper VBinRelax = Some d ->
  no_slope_one (hidden N) ->
  cuts_ok sys_cuts (feas VBinRelax (d_mip d)) ->
  forall k m1 m2, strengthen_rounds N x_lo x_up lp sys_cuts k d m1 = Some m2 ->
  (forall sg, gfeas m2 sg -> gfeas m1 sg) /\
  (forall sg, gfeas m1 sg -> feas VBinRelax (d_mip d) sg -> gfeas m2 sg) /\
  zeta_ m2 = zeta_ m1 /\ nvars m2 = nvars m1 /\ same_obj m1 m2.
Proof.
  intros lp sys_cuts d E O C.
  destruct (derivative_program solve Hsolve meth N n x_lo x_up R0 xeq Args lam eps st add_system T Hsys
    et lower upper VBinRelax ltac:(discriminate) d E)
    as (_ & Lx & Ln & _ & _ & _ & _ & L1 & L2 & L3 & L4 & (c & B & out & Ec & Eb & Eb' & Hm) & _).
  induction k as [|k IH]; intros m1 m2 H; cbn [strengthen_rounds] in H.
  - injection H as <-. split; auto. split; auto. split; auto. split; auto. apply same_obj_refl.
  - destruct (lp m1) as [sol|]; [|discriminate].
    destruct (relu_cuts N x_lo x_up (d_x d) (d_relu d) sol m1) as [ma|] eqn:Ea; [|discriminate].
    destruct (relu_cuts N x_lo x_up (d_next d) (d_relu_next d) sol ma) as [mb|] eqn:Ebb; [|discriminate].
    destruct (sys_cuts sol mb) as [mc|] eqn:Ecc; [|discriminate].
    destruct (relu_cuts_spec d (d_x d) (d_relu d) sol m1 ma c B out Ec O Eb Lx L3 L1) as (A1 & A2 & A3 & A4 & A5); auto.
    { intros sg F. apply Hm in F. tauto. }
    destruct (relu_cuts_spec d (d_next d) (d_relu_next d) sol ma mb c B out Ec O Eb' Ln L4 L2) as (B1 & B2 & B3 & B4 & B5); auto.
    { intros sg F. apply Hm in F. tauto. }
    destruct (C sol mb mc Ecc) as (C1 & C2 & C3 & C4 & C5).
    destruct (IH mc m2 H) as (D1 & D2 & D3 & D4 & D5).
    split; [auto|]. split; [auto|]. split; [congruence|]. split; [congruence|].
    eapply same_obj_trans; [|exact D5]. eapply same_obj_trans; [|exact C5].
    eapply same_obj_trans; [exact A5|exact B5].
Qed.

Lemma strengthened_exact : forall lp sys_cuts num d,
  no_slope_one (hidden N) ->
  (forall d0, derivative_milp solve meth N n x_lo x_up add_system xeq lam eps et R0 lower upper
     VBinRelax = Some d0 -> cuts_ok sys_cuts (feas VBinRelax (d_mip d0))) ->
  strengthen_derivative solve meth N n x_lo x_up add_system lp sys_cuts
    xeq lam eps et R0 lower upper num = Some d ->
  obj_max (d_mip d) = true /\
  (forall sg, gfeas (d_mip d) sg ->
     in_box x_lo x_up (map sg (d_x d)) /\ in_box x_lo x_up (map sg (d_next d)) /\
     T (map sg (d_x d)) (map sg (d_next d)) /\
     within lower upper (V N M lam xeq (map sg (d_x d))) /\
     objective (d_mip d) sg
     = violation et N M lam eps xeq (map sg (d_x d)) (map sg (d_next d))) /\
  (forall x x', in_box x_lo x_up x -> in_box x_lo x_up x' -> T x x' ->
     within lower upper (V N M lam xeq x) ->
     exists sg, gfeas (d_mip d) sg /\ map sg (d_x d) = x /\ map sg (d_next d) = x').
Proof.
  intros lp sys_cuts num d O C E. unfold strengthen_derivative in E.
  destruct (derivative_milp solve meth N n x_lo x_up add_system xeq lam eps et R0 lower upper VBinRelax)
    as [d0|] eqn:E0; [|discriminate]. specialize (C d0 eq_refl).
  destruct (strengthen_rounds N x_lo x_up lp sys_cuts num d0 (d_mip d0)) as [m|] eqn:E1; [|discriminate].
  injection E as <-. cbn [d_mip d_x d_next].
  destruct (rounds_spec lp sys_cuts d0 E0 O C num _ _ E1) as (K1 & K2 & K3 & K4 & K5).
  destruct (derivative_program solve Hsolve meth N n x_lo x_up R0 xeq Args lam eps st add_system T Hsys
    et lower upper VBinRelax ltac:(discriminate) d0 E0)
    as (P1 & _ & _ & H & _ & _ & _ & _ & _ & _ & _ & _ & P2 & P3).
  assert (Bz : below (nvars m) (zeta_ m)) by (rewrite K3, K4; apply (history_zeta st); auto).
  assert (G : forall sg, gfeas (remove_binary_relaxation m) sg <-> feas VBinRelax (d_mip d0) sg).
  { intros sg. rewrite remove_relax_gfeas by exact Bz. rewrite K3. unfold feas. split.
    - intros [X Y]. split; auto.
    - intros [X Y]. split; auto. apply K2; auto. split; auto. }
  assert (Oo : same_obj (d_mip d0) (remove_binary_relaxation m))
    by (eapply same_obj_trans; [exact K5|apply remove_relax_obj]).
  split; [destruct Oo as (_ & _ & ->); auto|]. split.
  - intros sg F. apply G in F. rewrite (same_obj_value _ _ sg Oo). apply P2. exact F.
  - intros x x' Bx Bx' HT Hw. destruct (P3 x x' Bx Bx' HT Hw) as (sg & F & X).
    exists sg. split; auto. apply G. exact F.
Qed.
End Two.
