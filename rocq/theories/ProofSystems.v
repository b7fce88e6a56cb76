(** Systems whose dynamics is a network: equilibria and exactness of the
    constraints. *)

Require Import Reals List Lia Lra Bool Arith.
Require Import Verif.Vec Verif.VecFacts Verif.ModelMip Verif.SpecMip Verif.SpecCore
  Verif.ModelUtils Verif.SpecUtils Verif.ModelNet Verif.SpecNet Verif.SpecStep
  Verif.ProofUtils Verif.ProofMaxBox Verif.ProofGrad Verif.ProofMip Verif.ProofSat
  Verif.ProofConcat Verif.ProofBounds Verif.ProofNet Verif.ProofNetBounds Verif.ProofNetTotal
  Verif.ProofWarm Verif.ProofStep Verif.ProofNetStep Verif.ModelPattern Verif.ModelStrengthen
  Verif.ModelLyapunov Verif.SpecLyapunov Verif.ProofLyapunov Verif.ModelHybrid Verif.ModelSystems
  Verif.SpecSystems Verif.ProofMilp Verif.ProofRoa.
Import ListNotations.
Open Scope R_scope.

(** ** Vectors *)

Lemma vsub_self : forall v, vsub v v = zeros (length v).
Proof. unfold vsub, zeros. induction v; simpl; auto. f_equal; [lra|auto]. Qed.
Lemma vadd_neg : forall a b, vadd a (vneg b) = vsub a b.
Proof. unfold vadd, vneg, vsub. induction a; destruct b; simpl; auto. f_equal; auto. Qed.

(** ** The output of the encoding replaced *)

Lemma net_affine : forall n N lo up c, net_mic n N lo up c ->
  exists A, Aout_slack c = Some A /\
    wfm (out_features (last_layer N)) (num_units (hidden N)) A /\
    Cout c = Some (bias_of (last_layer N)) /\
    length (bias_of (last_layer N)) = out_features (last_layer N) /\
    forall x, length x = n ->
      vadd (mv A (concat (post_acts (hidden N) x))) (bias_of (last_layer N)) = net_eval N x.
Proof.
  intros n N lo up c C. destruct C as [C1 C2 C3 C4 C5 C6 (C7 & C8) (A & CA & WA) (C9 & C9') _ _ _ C10].
  exists A. split; auto. split; auto. split; auto. split; auto.
  intros x L. rewrite <- (C10 x [] L). unfold output, lhs. rewrite C5, C7, C8, CA, C9.
  cbn [term]. destruct WA as [WA _].
  rewrite (vadd_zeros_l (out_features (last_layer N))) by (rewrite mv_length; auto).
  rewrite (vadd_zeros_r (out_features (last_layer N))) by (rewrite mv_length; auto). auto.
Qed.

Definition affine_out (k : nat) (N : network) (Ai : option mat) (As : mat) (C : vec) (x : vec) : vec :=
  vadd (vadd (term k Ai x) (mv As (concat (post_acts (hidden N) x)))) C.

Lemma with_output_ok : forall n N lo up c k Ai As C, net_mic n N lo up c ->
  owf k n Ai -> wfm k (num_units (hidden N)) As -> length C = k ->
  mic_ok (with_output c Ai (Some As) (Some C)) /\
  num_out (with_output c Ai (Some As) (Some C)) = k.
Proof.
  intros n N lo up c k Ai As C M W1 W2 L.
  destruct M as [(O1 & O2 & O3 & O4 & O5) C2 C3 C4 C5 C6 (C7 & C8) _ _ _ _ _ _].
  assert (E : num_out (with_output c Ai (Some As) (Some C)) = k).
  { unfold num_out. cbn [with_output Aout_input Aout_slack Aout_binary Cout olen].
    destruct Ai; cbn [olen]; [apply W1|apply W2]. }
  split; auto. split; [|split; [|split; [|split]]]; auto.
  destruct O1 as (K1 & K2 & K3 & K4 & K). unfold mic_wf. rewrite E.
  cbn [with_output Aout_input Aout_slack Aout_binary Cout nin nsl nbin].
  split; [congruence|]. split; [cbn; congruence|]. split; [rewrite C8; exact I|].
  split; [exact L|]. exact K.
Qed.

Lemma out_step : forall st n N lo up c k Ai As C xv xn vt m m' z be,
  net_mic n N lo up c -> owf k n Ai -> wfm k (num_units (hidden N)) As -> length C = k ->
  history st m -> below (nvars m) xv -> length xv = n -> below (nvars m) xn -> length xn = k ->
  vt <> VCont ->
  add_mic (with_output c Ai (Some As) (Some C)) xv (Some xn) NewBinary vt m = (m', z, be) ->
  z = seq (nvars m) (num_units (hidden N)) /\
  be = seq (nvars m + num_units (hidden N)) (num_units (hidden N)) /\
  nvars m' = (nvars m + num_units (hidden N) + num_units (hidden N))%nat /\
  step vt st m m'
    (fun sg => in_box lo up (map sg xv) /\ map sg xn = affine_out k N Ai As C (map sg xv))
    (fun sg => in_box lo up (map sg xv) /\ map sg xn = affine_out k N Ai As C (map sg xv) /\
               bins (map sg be) /\ mic_sat c (map sg xv) (map sg z) (map sg be) /\
               map sg z = concat (post_acts (hidden N) (map sg xv))).
Proof.
  intros st n N lo up c k Ai As C xv xn vt m m' z be M W1 W2 L H B Lx Bn Ln V E.
  destruct (with_output_ok n N lo up c k Ai As C M W1 W2 L) as [Ok No].
  set (c' := with_output c Ai (Some As) (Some C)) in *.
  destruct M as [C1 C2 C3 C4 C5 (C6 & C7 & C8 & C9) (C10 & C11) _ _ C13 C14 C15 C16].
  destruct (step_mic vt st _ _ _ _ _ _ _ E Ok H B) as (S1 & S2 & S3 & S4 & _); auto.
  { cbn. congruence. }
  { simpl. split; auto. congruence. }
  cbn [c' with_output nsl nbin] in S1, S2, S3. rewrite C3 in *. rewrite C4 in *.
  split; auto. split; auto. split; auto.
  assert (Eo : forall x s b, output c' x s b = vadd (vadd (term k Ai x) (mv As s)) C).
  { intros x s b. unfold output, lhs. rewrite No.
    cbn [c' with_output Aout_input Aout_slack Aout_binary Cout term]. rewrite C11. cbn [term].
    assert (Lt : length (term k Ai x) = k).
    { destruct Ai; cbn [term]; [rewrite mv_length; apply W1|apply zeros_length]. }
    assert (Ls : length (mv As s) = k) by (rewrite mv_length; apply W2).
    f_equal. apply vadd_zeros_r. rewrite vadd_length; congruence. }
  eapply step_weaken; [exact S4| |].
  - intros sg G [D Ex]. destruct (C13 _ D) as (b & Hb & Hm).
    eexists. exists b. split; [exact Hb|]. split; [exact Hm|].
    cbn [out_ok]. rewrite Eo. exact Ex.
  - intros sg G (Hb & Hm & Ho). cbn [out_ok] in Ho. rewrite Eo in Ho.
    assert (Es : map sg z = concat (post_acts (hidden N) (map sg xv))) by (eapply C15; eauto).
    split; [eapply C14; eauto|]. split; [rewrite Es in Ho; exact Ho|].
    split; auto.
Qed.

Lemma plain_output : forall n N lo up c, net_mic n N lo up c ->
  c = with_output c None (Aout_slack c) (Cout c).
Proof.
  intros n N lo up c M. destruct (nm_aout _ _ _ _ _ M) as [E _].
  destruct c. cbn in *. subst. reflexivity.
Qed.

Lemma affine_net : forall n N lo up c A, net_mic n N lo up c -> Aout_slack c = Some A ->
  forall (v x : vec), length x = n -> length v = out_features (last_layer N) ->
  affine_out (out_features (last_layer N)) N None A (vadd (bias_of (last_layer N)) v) x
  = vadd (net_eval N x) v.
Proof.
  intros n N lo up c A M EA v x L Lv.
  destruct (net_affine _ _ _ _ _ M) as (A' & E1 & W & _ & _ & F).
  assert (A' = A) by congruence. subst A'. unfold affine_out. cbn [term].
  rewrite (vadd_zeros_l (out_features (last_layer N))) by (rewrite mv_length; apply W).
  rewrite <- vadd_assoc, F; auto.
Qed.

(** ** Autonomous systems *)

Lemma net_wf_size : forall n N, net_wf n N -> x_size N = n.
Proof.
  intros n N (Hh & Wh & _). unfold x_size. destruct (hidden N) as [|[l a] hs]; [congruence|].
  cbn in Wh. apply Wh.
Qed.

Lemma auto_built_facts : forall n A, auto_built n A ->
  length (au_up A) = n /\ out_features (last_layer (au_net A)) = n /\ vle (au_lo A) (au_up A) /\
  (forall xeq d, au_kind A = AGiven xeq d \/ au_kind A = AResidual xeq d -> length xeq = n).
Proof.
  intros n A (W & L & E). unfold new_auto in E.
  match type of E with (if ?b then _ else _) = _ => destruct b eqn:Eb; [|discriminate] end.
  repeat (apply andb_prop in Eb; destruct Eb as [Eb ?]).
  apply Nat.eqb_eq in Eb. apply vleb_spec in H1. apply Nat.eqb_eq in H0.
  rewrite (net_wf_size _ _ W) in H0. split; [unfold vec in *; lia|]. split; auto. split; auto.
  intros xeq d [K|K]; rewrite K in H; apply Nat.eqb_eq in H; unfold vec in *; lia.
Qed.

Section Solver.
Variable solve : mip -> gresult.
Hypothesis Hsolve : solver_ok solve.

Lemma vsub_vadd_comm : forall a b c, vadd a (vadd (vneg b) c) = vadd (vsub a b) c.
Proof. intros. rewrite <- vadd_assoc, vadd_neg. auto. Qed.

Lemma auto_mic_form : forall n A c B out, auto_built n A ->
  auto_mic solve A = Some (c, B, out) ->
  exists c0 Ai As C, output_constraint solve (au_meth A) (au_net A) (au_lo A) (au_up A)
                       = Some (c0, B, out) /\
    net_mic n (au_net A) (au_lo A) (au_up A) c0 /\
    c = with_output c0 Ai (Some As) (Some C) /\ owf n n Ai /\
    wfm n (num_units (hidden (au_net A))) As /\ length C = n /\
    forall x, length x = n -> affine_out n (au_net A) Ai As C x = auto_step A x.
Proof.
  intros n A c B out Bt E.
  destruct (auto_built_facts _ _ Bt) as (Lu & Lo & Le & Lq). destruct Bt as (W & L & _).
  unfold auto_mic in E.
  destruct (output_constraint solve (au_meth A) (au_net A) (au_lo A) (au_up A))
    as [[[c0 B0] out0]|] eqn:Eo; [|discriminate].
  assert (M := output_constraint_mic solve Hsolve n _ _ _ _ _ _ _ W L Lu Eo).
  destruct (net_affine _ _ _ _ _ M) as (Am & EA & WA & EC & LC & F).
  destruct (nm_aout _ _ _ _ _ M) as [Ei _].
  assert (Fw : forall x, length x = n -> forward (au_net A) x = net_eval (au_net A) x)
    by (intros; apply (forward_eval n); auto).
  assert (Le' : forall x, length x = n -> length (net_eval (au_net A) x) = n)
    by (intros; rewrite (net_eval_length n); auto).
  assert (An := affine_net _ _ _ _ _ _ M EA). rewrite Lo in *.
  unfold auto_step. destruct (au_kind A) as [|xeq [|]|xeq [|]] eqn:Ek.
  - exists c0, None, Am, (bias_of (last_layer (au_net A))).
    assert (Ec : c = c0 /\ B = B0 /\ out = out0) by (split; [|split]; congruence).
    destruct Ec as (-> & -> & ->). split; auto. split; auto.
    split; [rewrite <- EA, <- EC; eapply plain_output; eauto|]. split; [exact I|].
    split; auto. split; auto. intros x Lx. rewrite Fw by auto.
    unfold affine_out. cbn [term].
    rewrite (vadd_zeros_l n) by (rewrite mv_length; apply WA). apply F; auto.
  - assert (Lx : length xeq = n) by (apply (Lq xeq true); auto).
    unfold add_Cout in E. rewrite EC in E.
    rewrite Fw in * by auto.
    exists c0, None, Am, (vadd (bias_of (last_layer (au_net A)))
                            (vadd (vneg (net_eval (au_net A) xeq)) xeq)).
    assert (Lv : length (vadd (vneg (net_eval (au_net A) xeq)) xeq) = n)
      by (rewrite vadd_length; rewrite ?vneg_length, ?Le'; auto).
    split; [congruence|]. split; auto.
    split; [rewrite Ei, EA in E; congruence|]. split; [exact I|]. split; auto.
    split; [rewrite vadd_length; congruence|].
    intros x Lx'. rewrite An by auto. rewrite vsub_vadd_comm, Fw by auto. auto.
  - assert (Lx : length xeq = n) by (apply (Lq xeq false); auto).
    unfold add_Cout in E. rewrite EC in E. rewrite Fw in * by auto.
    exists c0, None, Am, (vadd (bias_of (last_layer (au_net A)))
                            (vneg (net_eval (au_net A) xeq))).
    assert (Lv : length (vneg (net_eval (au_net A) xeq)) = n)
      by (rewrite ?vneg_length, ?Le'; auto).
    split; [congruence|]. split; auto.
    split; [rewrite Ei, EA in E; congruence|]. split; [exact I|]. split; auto.
    split; [rewrite vadd_length; congruence|].
    intros x Lx'. rewrite An by auto. rewrite vadd_neg, Fw by auto. auto.
  - assert (Lx : length xeq = n) by (apply (Lq xeq true); auto).
    unfold add_Cout in E. rewrite EC in E. rewrite Fw in * by auto.
    cbn [with_output Aout_input Aout_slack Cout] in E. rewrite Ei in E.
    exists c0, (Some (eye n)), Am, (vadd (bias_of (last_layer (au_net A)))
                            (vneg (net_eval (au_net A) xeq))).
    assert (Lv : length (vneg (net_eval (au_net A) xeq)) = n)
      by (rewrite ?vneg_length, ?Le'; auto).
    split; [congruence|]. split; auto.
    split; [rewrite EA, L in E; apply Some_inj in E; apply pair_equal_spec in E;
            destruct E as [E _]; apply pair_equal_spec in E; destruct E as [E _];
            rewrite <- E; reflexivity|].
    split; [apply wfm_eyek|]. split; auto.
    split; [rewrite vadd_length; congruence|].
    intros x Lx'. assert (K := An _ x Lx' Lv).
    unfold affine_out in K |- *. cbn [term] in K |- *.
    rewrite (vadd_zeros_l n) in K by (rewrite mv_length; apply WA).
    rewrite mv_eye by auto. rewrite vadd_assoc, K. rewrite vadd_neg, Fw, vadd_comm by auto. auto.
  - assert (Lx : length xeq = n) by (apply (Lq xeq false); auto).
    unfold add_Cout in E. rewrite EC in E. rewrite Fw in * by auto.
    exists c0, None, Am, (vadd (bias_of (last_layer (au_net A)))
                            (vneg (net_eval (au_net A) xeq))).
    assert (Lv : length (vneg (net_eval (au_net A) xeq)) = n)
      by (rewrite ?vneg_length, ?Le'; auto).
    split; [congruence|]. split; auto.
    split; [rewrite Ei, EA in E; congruence|]. split; [exact I|]. split; auto.
    split; [rewrite vadd_length; congruence|].
    intros x Lx'. rewrite An by auto. rewrite vadd_neg, Fw by auto. auto.
Qed.

Lemma auto_contract : forall n st A, auto_built n A ->
  system_contract n st (auto_add solve A) (auto_next A).
Proof.
  intros n st A Bt vt m m' xv xn Vt H Bx Bn Lx Ln _ E.
  unfold auto_add, auto_add_ret in E.
  destruct (auto_mic solve A) as [[[c B] out]|] eqn:Em; [|discriminate].
  destruct (add_mic c xv (Some xn) NewBinary vt m) as [[m1 z] be] eqn:Ea.
  apply Some_inj in E. subst m1.
  destruct (auto_mic_form _ _ _ _ _ Bt Em) as (c0 & Ai & As & C & _ & M & -> & W1 & W2 & LC & F).
  destruct (out_step st n _ _ _ _ n Ai As C xv xn vt m m' z be M W1 W2 LC H Bx Lx Bn Ln Vt Ea)
    as (_ & _ & _ & S4).
  eapply step_weaken; [exact S4| |].
  - intros sg _ [D1 D2]. split; auto. rewrite D2, F; auto. rewrite map_length; auto.
  - intros sg _ (D1 & D2 & _). split; auto. rewrite D2, F; auto. rewrite map_length; auto.
Qed.

Lemma auto_total : solver_total solve -> forall n st A, auto_built n A ->
  system_total n st (auto_add solve A).
Proof.
  intros St n st A Bt vt m xv xn Vt H Bx Bn Lx Ln _.
  destruct (auto_built_facts _ _ Bt) as (Lu & Lo & Le & Lq). destruct Bt as (W & L & _).
  unfold auto_add, auto_add_ret, auto_mic.
  destruct (output_constraint solve (au_meth A) (au_net A) (au_lo A) (au_up A))
    as [[[c0 B0] out0]|] eqn:Eo.
  - assert (M := output_constraint_mic solve Hsolve n _ _ _ _ _ _ _ W L Lu Eo).
    destruct (nm_C _ _ _ _ _ M) as [EC _].
    unfold add_Cout. rewrite EC.
    destruct (au_kind A) as [|xeq [|]|xeq [|]];
      match goal with |- context [add_mic ?c ?a ?b ?d ?e ?f] =>
        destruct (add_mic c a b d e f) as [[? ?] ?] end; discriminate.
  - apply (output_constraint_total solve Hsolve St n) in Eo; auto.
Qed.

(** The bounds of the next state that accompany the constraints. *)
Lemma vadd_box : forall a b c d x y, in_box a b x -> in_box c d y ->
  in_box (vadd a c) (vadd b d) (vadd x y).
Proof.
  intros a b c d x y [H1 H2] [H3 H4]. split.
  - clear H2 H4. unfold vadd. revert c y H3. induction H1; intros c0 y0 H3; [constructor|].
    inversion H3; subst; [constructor|]. simpl. constructor; [lra|]. apply IHForall2; auto.
  - clear H1 H3. unfold vadd. revert d y H4. induction H2; intros c0 y0 H3; [constructor|].
    inversion H3; subst; [constructor|]. simpl. constructor; [lra|]. apply IHForall2; auto.
Qed.
Lemma vsub_box : forall a b x v, in_box a b x -> in_box (vsub a v) (vsub b v) (vsub x v).
Proof.
  intros a b x v [H1 H2]. split.
  - clear H2. unfold vsub. revert v. induction H1; intros v; [constructor|].
    destruct v; [constructor|]. simpl. constructor; [lra|]. apply IHForall2; auto.
  - clear H1. unfold vsub. revert v. induction H2; intros v; [constructor|].
    destruct v; [constructor|]. simpl. constructor; [lra|]. apply IHForall2; auto.
Qed.
Lemma box_refl : forall v, in_box v v v.
Proof. intros v. split; induction v; constructor; auto; lra. Qed.

Lemma auto_bounds : forall n A xv xn vt m m' r lo up, auto_built n A ->
  auto_add_ret solve A xv xn vt m = Some (m', r, Some (lo, up)) ->
  forall x x', auto_next A x x' -> in_box lo up x'.
Proof.
  intros n A xv xn vt m m' r lo up Bt E x x' [Bx ->].
  unfold auto_add_ret in E.
  destruct (auto_mic solve A) as [[[c B] out]|] eqn:Em; [|discriminate].
  destruct (add_mic c xv (Some xn) NewBinary vt m) as [[m1 z] be] eqn:Ea.
  apply Some_inj in E. apply pair_equal_spec in E. destruct E as [_ E].
  destruct (auto_mic_form _ _ _ _ _ Bt Em) as (c0 & Ai & As & C & Eo & _).
  destruct (auto_built_facts _ _ Bt) as (Lu & Lo & Le & Lq). destruct Bt as (W & L & _).
  destruct out as [olo oup].
  destruct (network_bounds solve Hsolve n _ _ _ _ _ _ _ _ W L Lu Eo) as [Nb _].
  destruct (Nb x Bx) as (_ & _ & Nx).
  assert (Lx : length x = n) by (apply in_box_lengths in Bx; unfold vec in *; lia).
  rewrite <- (forward_eval n) in Nx by auto.
  unfold auto_next_IA in E. unfold auto_step.
  destruct (au_meth A); try discriminate E; apply Some_inj in E;
    destruct (au_kind A) as [|xeq [|]|xeq [|]]; apply pair_equal_spec in E; destruct E as [<- <-];
    auto; try (apply vadd_box; [|]); try apply vsub_box; auto using box_refl.
Qed.

End Solver.

(** ** Equilibria *)

Lemma vadd_zero_self : forall v w : vec, length v = length w -> vadd (vsub v v) w = w.
Proof. intros. rewrite vsub_self. apply vadd_zeros_l. auto. Qed.

Lemma auto_equilibrium : forall n A xeq d, auto_built n A ->
  au_kind A = AGiven xeq d \/ au_kind A = AResidual xeq d ->
  auto_step A xeq = if d then xeq else zeros n.
Proof.
  intros n A xeq d Bt K. destruct (auto_built_facts _ _ Bt) as (_ & Lo & _ & Lq).
  assert (Lx := Lq xeq d K). destruct Bt as (W & _).
  assert (Lf : length (forward (au_net A) xeq) = n)
    by (rewrite (forward_eval n), (net_eval_length n); auto).
  unfold auto_step. destruct K as [-> | ->]; destruct d;
    rewrite ?vadd_zero_self, ?vsub_self; try congruence; auto; f_equal; auto.
Qed.
