(** Lemmas for ModelDerivList.v: the list of derivative values. *)

Require Import Reals List Lra Lia Bool Arith.
Require Import Verif.Vec Verif.VecFacts Verif.ModelMip Verif.SpecMip Verif.SpecCore Verif.ModelUtils Verif.SpecUtils
  Verif.ModelGrad Verif.ModelNet Verif.SpecNet Verif.ModelPattern Verif.SpecPattern Verif.ModelLyapunov
  Verif.SpecLyapunov Verif.SpecContinuous Verif.ModelHybrid Verif.SpecHybrid Verif.ModelContHybrid Verif.SpecContHybrid
  Verif.ModelDerivList Verif.SpecDerivList
  Verif.ProofGrad Verif.ProofPattern Verif.ProofLyapunov Verif.ProofLoss Verif.ProofContinuous Verif.ProofContinuous5
  Verif.ProofHybrid2 Verif.ProofDerivList.
Import ListNotations.
Open Scope R_scope.

Lemma l1_signs : forall v g, l1_row [] v g <-> exists sgs, signs_ok sgs v /\ g = map sign_of sgs.
Proof.
  intros v. unfold l1_row, signs_ok. induction v as [|a v IH]; intros g; split.
  - intros F. inversion F; subst. exists []. split; auto.
  - intros (sgs & F & ->). inversion F; subst. constructor.
  - intros F. inversion F as [|? b ? g' Hb F']; subst. apply IH in F'. destruct F' as (sgs & F' & ->).
    destruct Hb as [[H ->]|[[H ->]|[H K]]].
    + exists (true :: sgs). split; auto. constructor; auto. simpl. lra.
    + exists (false :: sgs). split; auto. constructor; auto. simpl. lra.
    + destruct K as [<-|[<-|[]]].
      * exists (true :: sgs). split; auto. constructor; auto. simpl. lra.
      * exists (false :: sgs). split; auto. constructor; auto. simpl. lra.
  - intros (sgs & F & ->). inversion F as [|b ? sgs' ? Hb F']; subst. cbn [map]. constructor.
    + unfold l1_entry. destruct b; simpl in *.
      * destruct (Rtotal_order a 0) as [H|[H|H]]; [lra|right; right; auto|left; lra].
      * destruct (Rtotal_order a 0) as [H|[H|H]]; [right; left; lra|right; right; auto|lra].
    + apply IH. exists sgs'. auto.
Qed.

Lemma consistent_tol0 : forall pats pres, consistent_tol 0 pats pres <-> consistent pats pres.
Proof.
  intros. unfold consistent_tol, consistent. split; intros F; refine (F2_impl _ _ _ _ _ F); intros p v K;
    refine (F2_impl _ _ _ _ _ K); intros [] x; simpl; lra.
Qed.

Lemma squeeze_total : forall n G, Forall (wfm 1 n) G -> exists rows, squeeze_rows G = Some rows /\
  length rows = length G /\ Forall (fun r => length r = n) rows /\
  forall r, In r rows <-> In [r] G.
Proof.
  intros n G F. unfold squeeze_rows. induction F as [|g G [L Fg] F (rows & E & Lr & Fr & I)].
  - exists []. split; auto. split; auto. split; [constructor|]. intros r. simpl. tauto.
  - destruct g as [|r0 [|]]; try discriminate. inversion Fg; subst.
    exists (r0 :: rows). cbn [map all_some]. rewrite E. split; auto. split; [simpl; lia|].
    split; [constructor; auto|]. intros r. cbn [In]. rewrite I. split.
    + intros [->|K]; auto.
    + intros [K|K]; auto. injection K. auto.
Qed.

Lemma minkowski_in : forall x y r, In r (minkowski_sum x y) <-> exists a b, In a x /\ In b y /\ r = vadd b a.
Proof.
  intros x y r. unfold minkowski_sum. rewrite in_concat. split.
  - intros (l & H & K). apply in_map_iff in H. destruct H as (a & <- & H).
    apply in_map_iff in K. destruct K as (b & <- & K). exists a, b. auto.
  - intros (a & b & Ha & Hb & ->). exists (map (fun b => vadd b a) y). split; [|apply (in_map (fun b => vadd b a)); auto].
    apply (in_map (fun a => map (fun b => vadd b a) y)). auto.
Qed.

(** ** Counting *)

Lemma units_count : forall c p i G,
  length (units_gradients 0 c i p G) = (length G * 2 ^ zero_count p)%nat.
Proof.
  intros c p. induction p as [|v p IH]; intros i G; cbn [units_gradients zero_count].
  - simpl. lia.
  - rewrite IH. unfold unit_gradients. destruct (Rltb 0 v) eqn:E1; [|destruct (Rltb v (- 0)) eqn:E2].
    + apply Rltb_true in E1. destruct (Req_EM_T v 0); [lra|]. auto.
    + apply Rltb_true in E2. rewrite map_length. destruct (Req_EM_T v 0); [lra|]. auto.
    + apply Rltb_false in E1, E2. destruct (Req_EM_T v 0); [|lra].
      rewrite app_length, map_length. simpl. lia.
Qed.
Lemma zero_count_app : forall a b, zero_count (a ++ b) = (zero_count a + zero_count b)%nat.
Proof. induction a as [|x a IH]; intros; simpl; auto. destruct (Req_EM_T x 0); rewrite IH; auto. Qed.
Lemma loop_count : forall n hs k out x G, hidden_wf k hs out -> length x = k ->
  length (gradient_loop n 0 hs x G) = (length G * 2 ^ zero_count (concat (pre_acts hs x)))%nat.
Proof.
  intros n hs. induction hs as [|[l a] hs IH]; intros k out x G W L; cbn [gradient_loop pre_acts concat].
  - simpl. lia.
  - destruct W as [W1 W2]. rewrite (pre_bias k) by auto. rewrite act_forward_map.
    rewrite (IH (out_features l) out) by (auto; rewrite map_length; eapply lin_len; eauto).
    rewrite units_count, map_length, zero_count_app, Nat.pow_add_r. lia.
Qed.
Lemma small_zero : forall a, Rleb (Rabs a) 0 = true <-> a = 0.
Proof.
  intros a. rewrite Rleb_true. split; intros H.
  - destruct (Req_dec a 0) as [|K]; auto. apply Rabs_pos_lt in K. lra.
  - subst. rewrite Rabs_R0. lra.
Qed.
Lemma no_small : forall x, filter (fun a => Rltb (Rabs a) 0) x = [].
Proof.
  induction x as [|a x IH]; auto. cbn [filter]. replace (Rltb (Rabs a) 0) with false; auto.
  symmetry. apply Rltb_false. apply Rabs_pos.
Qed.
Lemma split_count : forall x, match split_zero 0 x with
  | None => zero_count x = 0%nat
  | Some (p, q) => zero_count x = S (zero_count q) /\ (length q < length x)%nat
  end.
Proof.
  induction x as [|a x IH]; simpl; auto. destruct (Rleb (Rabs a) 0) eqn:E.
  - apply small_zero in E. destruct (Req_EM_T a 0); [|contradiction]. split; auto.
  - assert (a <> 0) by (intros K; apply small_zero in K; congruence).
    destruct (split_zero 0 x) as [[p q]|]; destruct (Req_EM_T a 0); try contradiction; auto.
    destruct IH. split; auto.
Qed.
Lemma l1_count : forall fuel x G, l1_gradient_fuel fuel 0 [] x = Some G ->
  length G = (2 ^ zero_count x)%nat.
Proof.
  induction fuel as [|f IH]; intros x G E; [discriminate|]. cbn [l1_gradient_fuel] in E.
  assert (C := split_count x). destruct (split_zero 0 x) as [[p q]|].
  - rewrite no_small in E. cbn [length Nat.eqb] in E.
    destruct (l1_gradient_fuel f 0 [] q) as [ga|] eqn:Eq; [|discriminate].
    apply Some_inj in E. subst G. apply IH in Eq. destruct C as [C _]. rewrite C.
    cbn [map concat]. rewrite !app_length, !map_length, Eq. simpl. lia.
  - apply Some_inj in E. subst G. rewrite C. auto.
Qed.

(** ** Values *)

Section Values.
Variable N : network.
Variable n : nat.
Variables x_lo x_up : vec.
Variable R0 : option mat.
Variable xeq : vec.
Hypothesis Args : lyap_args n N x_lo x_up R0 xeq.
Variables lam eps : R.
Let M := R_of n R0.

Lemma gradient_values : forall x, length x = n ->
  exists G, lyapunov_gradient N n M xeq lam 0 x = Some G /\
    length G = (2 ^ zero_count (concat (pre_acts (hidden N) x)) * 2 ^ zero_count (mv M (vsub x xeq)))%nat /\
    Forall (fun g => length g = n) G /\
    forall d v, length d = n ->
    (In v (map (fun g => dot g d) G) <->
     exists pats sgs, selects N M xeq x pats sgs /\ v = Vdot N M lam pats sgs d).
Proof.
  intros x L. destruct Args.
  destruct (network_gradient n N 0 x la_net L (Rle_refl 0)) as (G & E & _ & I1 & I2).
  assert (FG : Forall (wfm 1 n) G).
  { apply Forall_forall. intros g Hg. destruct (I1 g Hg) as (pats & _ & J & _). rewrite la_out in J. auto. }
  destruct (squeeze_total n G FG) as (rows & Er & Lr & Fr & Ir).
  destruct (l1_prop [] (mv M (vsub x xeq))) as (Sg & Es & Is & _); [constructor|].
  unfold lyapunov_gradient. rewrite E, Es, Er. eexists. split; [reflexivity|].
  destruct la_R as [_ FM]. fold M in FM.
  assert (LG : length G = (2 ^ zero_count (concat (pre_acts (hidden N) x)))%nat).
  { unfold relu_network_gradient in E. destruct (_ && _)%bool; [|discriminate]. apply Some_inj in E. subst G.
    rewrite map_length. destruct la_net as (_ & Wh & _). rewrite (loop_count _ _ _ _ _ _ Wh L). simpl. lia. }
  assert (LS : length Sg = (2 ^ zero_count (mv M (vsub x xeq)))%nat).
  { unfold l1_gradient in Es. destruct (_ && _)%bool; [|discriminate]. apply l1_count in Es. auto. }
  split; [|split].
  - rewrite minkowski_length, map_length. f_equal; [congruence|exact LS].
  - apply Forall_forall. intros g Hg. apply minkowski_in in Hg. destruct Hg as (a & b & Ha & Hb & ->).
    apply in_map_iff in Hb. destruct Hb as (s & <- & Hs). rewrite Forall_forall in Fr.
    rewrite vadd_length; rewrite vm_length; auto. symmetry. apply Fr. auto.
  - intros d v Ld. rewrite in_map_iff. split.
    + intros (g & <- & Hg). apply minkowski_in in Hg. destruct Hg as (a & b & Ha & Hb & ->).
      apply in_map_iff in Hb. destruct Hb as (s & <- & Hs).
      apply Is, l1_signs in Hs. destruct Hs as (sgs & Hs & ->).
      assert (La : length a = n) by (rewrite Forall_forall in Fr; apply Fr; auto).
      apply Ir in Ha. destruct (I1 _ Ha) as (pats & C & _ & J).
      apply consistent_tol0 in C. exists pats, sgs. split; [split; auto|].
      rewrite dot_vadd_l by (rewrite vm_length; auto). rewrite vm_dot by auto.
      rewrite dot_vscale_l. specialize (J d Ld). unfold Vdot. rewrite <- J. simpl. ring.
    + intros (pats & sgs & [C Hs] & ->). apply consistent_tol0 in C. destruct (I2 pats C) as (g & Hg & Wg & J).
      rewrite la_out in Wg. destruct Wg as [Lg Fg]. destruct g as [|r [|]]; try discriminate.
      assert (Lr0 : length r = n) by (inversion Fg; auto).
      exists (vadd (vm n (vscale lam (map sign_of sgs)) M) r). split.
      * rewrite dot_vadd_l by (rewrite vm_length; auto; congruence). rewrite vm_dot by auto.
        rewrite dot_vscale_l. specialize (J d Ld). unfold Vdot. rewrite <- J. simpl. ring.
      * apply minkowski_in. eexists r, _. split; [apply Ir; auto|]. split; [|reflexivity].
        apply (in_map (fun s => vm n (vscale lam s) M)). apply Is, l1_signs. eauto.
Qed.

(** The list at a state. *)
Lemma ct_listed : forall step x d, R0 <> None -> length x = n -> step x = Some d -> length d = n ->
  exists l, ct_derivative N n step xeq lam eps R0 0 x = Some l /\
    length l = (2 ^ zero_count (concat (pre_acts (hidden N) x)) * 2 ^ zero_count (mv M (vsub x xeq)))%nat /\
    forall v, In v l <-> exists pats sgs, selects N M xeq x pats sgs /\
      v = Vdot N M lam pats sgs d + eps * V N M lam xeq x.
Proof.
  intros step x d HR L Es Ld. destruct (gradient_values x L) as (G & E & LG & _ & I).
  unfold ct_derivative. unfold M in *. 
  rewrite (value_V n N x_lo x_up R0 xeq lam x Args L).
  destruct R0 as [M0|] eqn:ER; [|contradiction]. cbn [R_of] in *.
  rewrite E, Es. eexists. split; [reflexivity|]. split; [rewrite map_length; auto|].
  intros v. rewrite in_map_iff. split.
  - intros (g & <- & Hg). destruct (proj1 (I d (dot g d) Ld)) as (pats & sgs & S1 & S2).
    { apply (in_map (fun g => dot g d)). auto. }
    exists pats, sgs. split; auto. rewrite S2. auto.
  - intros (pats & sgs & S1 & ->). destruct (I d (Vdot N M0 lam pats sgs d) Ld) as [_ I2].
    assert (K := I2 (ex_intro _ pats (ex_intro _ sgs (conj S1 eq_refl)))).
    apply in_map_iff in K. destruct K as (g & <- & Hg). exists g. auto.
Qed.
End Values.
