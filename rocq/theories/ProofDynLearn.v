(** The programs of the learner of dynamics. *)

Require Import Reals List Bool Arith Lra Lia.
Require Import Verif.Vec Verif.VecFacts Verif.ModelMip Verif.SpecMip Verif.SpecCore Verif.ModelGrad
  Verif.ModelNet Verif.SpecNet Verif.SpecStep Verif.ModelLyapunov Verif.SpecLyapunov Verif.ModelMilp
  Verif.ModelExamples Verif.ModelSystems Verif.SpecSystems Verif.ModelDynLearn Verif.SpecDynLearn
  Verif.ProofNet Verif.ProofNetBounds Verif.ProofNetTotal Verif.ProofRelaxed Verif.ProofLyapunov
  Verif.ProofLyapCert Verif.ProofLyapMore Verif.ProofLyapFinal Verif.ProofSystems Verif.ProofAttain
  Verif.ProofOptBounds6 Verif.ProofMilp Verif.ProofContHybrid3.
Import ListNotations.
Open Scope R_scope.

(** ** Networks are bounded on a box *)
Lemma act_bounded : forall a x, Rabs (act_fun a x) <= (1 + match a with Relu => 0 | Leaky c => Rabs c end) * Rabs x.
Proof.
  intros [|c] x; cbn [act_fun].
  - unfold relu, Rmax. destruct (Rle_dec x 0); [rewrite Rabs_R0; assert (K := Rabs_pos x); lra|lra].
  - unfold leaky. assert (K := Rabs_pos x). assert (K' := Rabs_pos c). destruct (Rle_dec 0 x).
    + nra.
    + rewrite Rabs_mult. nra.
Qed.
Lemma lin_bounded : forall l K, 0 <= K -> exists K', 0 <= K' /\ forall z, vbound K z -> vbound K' (lin_eval l z).
Proof.
  intros l K HK. destruct (mv_bounded (weight l) K HK) as (K1 & P1 & Q1). unfold lin_eval.
  destruct (bias l) as [b|]; [|eauto].
  destruct (vec_bounded b) as (K2 & P2 & Q2). exists (K1 + K2). split; [lra|].
  intros z Hz. apply vadd_bounded; auto.
Qed.
Lemma acts_bounded : forall a K, 0 <= K -> exists K', 0 <= K' /\ forall z, vbound K z -> vbound K' (map (act_fun a) z).
Proof.
  intros a K HK. set (c := 1 + match a with Relu => 0 | Leaky c => Rabs c end).
  assert (Pc : 0 <= c). { unfold c. destruct a as [|s]; [lra|]. assert (Q := Rabs_pos s). lra. }
  exists (c * K). split; [apply Rmult_le_pos; auto|]. intros z Hz. apply Forall_map.
  eapply Forall_impl; [|exact Hz]. intros x Hx. cbn in *.
  eapply Rle_trans; [apply act_bounded|]. fold c. apply Rmult_le_compat_l; auto.
Qed.
Lemma hidden_bounded : forall hs K, 0 <= K -> exists K', 0 <= K' /\ forall z, vbound K z -> vbound K' (hidden_eval hs z).
Proof.
  induction hs as [|[l a] hs IH]; intros K HK; cbn [hidden_eval]; [eauto|].
  destruct (lin_bounded l K HK) as (K1 & P1 & Q1). destruct (acts_bounded a K1 P1) as (K2 & P2 & Q2).
  destruct (IH K2 P2) as (K3 & P3 & Q3). exists K3. split; auto.
Qed.
Lemma net_bounded : forall N K, 0 <= K -> exists K', 0 <= K' /\ forall z, vbound K z -> vbound K' (net_eval N z).
Proof.
  intros N K HK. destruct (hidden_bounded (hidden N) K HK) as (K1 & P1 & Q1).
  destruct (lin_bounded (last_layer N) K1 P1) as (K2 & P2 & Q2). exists K2. split; auto.
  intros z Hz. apply Q2. auto.
Qed.
Lemma phi_bounded : forall N lo up, exists K, forall x, in_box lo up x -> Rabs (phi N x) <= K.
Proof.
  intros N lo up. destruct (box_bound lo up) as (K & P & Q). destruct (net_bounded N K P) as (K1 & P1 & Q1).
  exists K1. intros x B. unfold phi. specialize (Q1 x (Q x B)).
  destruct (net_eval N x) as [|a l]; cbn [nth]; [rewrite Rabs_R0; auto|]. inversion Q1; auto.
Qed.
Lemma norm1_bounded : forall v K, vbound K v -> norm1 v <= INR (length v) * K.
Proof.
  intros v K H. induction H as [|x v Hx Hv IH]; [unfold norm1; simpl; lra|].
  cbn [length]. rewrite S_INR. unfold norm1 in *. cbn in *. lra.
Qed.
Lemma error1_bounded : forall M xeq lo up, exists K, forall x, in_box lo up x -> Rabs (error1 M xeq x) <= K.
Proof.
  intros M xeq lo up. destruct (box_bound lo up) as (K & P & Q).
  destruct (vec_bounded xeq) as (K0 & P0 & Q0).
  destruct (mv_bounded M (K + K0)) as (K1 & P1 & Q1); [lra|].
  exists (INR (length M) * K1). intros x B. unfold error1.
  rewrite Rabs_right by (apply Rle_ge, norm1_nonneg).
  replace (length M) with (length (mv M (vsub x xeq))) by apply map_length.
  apply norm1_bounded, Q1. clear - Q Q0 B. specialize (Q x B). clear B.
  revert xeq Q0. induction Q as [|a x Ha Hx IH]; intros xeq Q0; [constructor|].
  destruct xeq as [|b xeq]; [constructor|]. inversion Q0; subst. cbn. constructor; [|apply IH; auto].
  eapply Rle_trans; [apply Rabs_triang|]. rewrite Rabs_Ropp. lra.
Qed.
Lemma V_bounded : forall N M lam xeq lo up, exists K, forall x, in_box lo up x -> Rabs (V N M lam xeq x) <= K.
Proof.
  intros N M lam xeq lo up. destruct (phi_bounded N lo up) as [K1 H1].
  destruct (error1_bounded M xeq lo up) as [K2 H2].
  exists (K1 + Rabs (phi N xeq) + Rabs lam * K2). intros x B. unfold V.
  eapply Rle_trans; [apply Rabs_triang|]. apply Rplus_le_compat.
  - eapply Rle_trans; [apply Rabs_triang|]. rewrite Rabs_Ropp. specialize (H1 x B). lra.
  - rewrite Rabs_mult. apply Rmult_le_compat_l; [apply Rabs_pos|auto].
Qed.

Section L.
Variable solve : mip -> gresult.
Hypothesis Hs : solver_ok solve.
Variable L : learner.
Variable xeq : vec.
Hypothesis HL : learner_ok L xeq.
Let o := l_opt L.

Lemma xeq_is : l_xeq L = Some xeq.
Proof. destruct HL as (_ & [E|E] & _); unfold l_xeq; rewrite E; reflexivity. Qed.
Lemma viol_lo : forall x, violation ExpLower (l_net L) (R_of (l_dim L) (o_R o)) (o_lam o) (o_eps_lo o) xeq x (l_step L x)
  = lo_viol L xeq x.
Proof. intros x. unfold violation, lo_viol, l_V. fold o. ring. Qed.
Lemma viol_up : forall x, violation ExpUpper (l_net L) (R_of (l_dim L) (o_R o)) (o_lam o) (o_eps_up o) xeq x (l_step L x)
  = up_viol L xeq x.
Proof. intros x. unfold violation, up_viol, l_V. fold o. ring. Qed.

(** A program over the values of [f] on [D]. *)
Definition exact_program (D : vec -> Prop) (f : vec -> R) (p : mip * list nat) : Prop :=
  obj_max (fst p) = true /\
  (forall sg, gfeas (fst p) sg -> D (map sg (snd p)) /\ objective (fst p) sg = f (map sg (snd p))) /\
  (forall x, D x -> exists sg, gfeas (fst p) sg /\ map sg (snd p) = x).

Lemma pos_exact : forall p, pos_program solve L = Some p -> exact_program (l_box L) (pos_viol L xeq) p.
Proof.
  intros [m xv] E. unfold pos_program in E. rewrite xeq_is in E. destruct HL as (_ & _ & A).
  destruct (positivity_program solve Hs _ _ _ _ _ _ _ A _ _ _ _ E) as (P1 & P2 & _ & P3 & P4).
  split; [auto|]. cbn [fst snd]. split; [|exact P4].
  intros sg G. destruct (P3 sg G) as [B Eo]. split; [exact B|]. rewrite Eo. unfold pos_viol, l_err, l_V. reflexivity.
Qed.

Lemma step_is : forall x x', auto_next (l_sys L) x x' <-> l_box L x /\ x' = l_step L x.
Proof. intros. unfold auto_next, l_box, l_step. tauto. Qed.

Lemma der_exact : forall eps et f p,
  (forall x, violation et (l_net L) (R_of (l_dim L) (o_R o)) (o_lam o) eps xeq x (l_step L x) = f x) ->
  der_program solve L eps et = Some p -> exact_program (l_stays L) f p.
Proof.
  intros eps et f p Hf E. unfold der_program in E. rewrite xeq_is in E.
  match type of E with match ?t with _ => _ end = _ => destruct t as [d|] eqn:Ed; [|discriminate] end.
  injection E as <-. destruct HL as (Bt & _ & A).
  destruct (derivative_exact solve Hs _ _ _ _ _ _ _ A _ true _ _
    (auto_contract solve Hs _ true _ Bt) _ _ _ _ _ Ed) as (P1 & P2 & P3).
  split; [exact P1|]. cbn [fst snd]. split.
  - intros sg G. destruct (P2 sg G) as (B & B' & T & W & Eo). apply step_is in T. destruct T as [_ T].
    split; [split; [exact B|]; unfold l_box, l_step in *; rewrite <- T; exact B'|].
    rewrite Eo, T. apply Hf.
  - intros x [B B']. destruct (P3 x (l_step L x)) as (sg & G & Ex & _); [exact B|exact B'| | |].
    + apply step_is. auto.
    + split; intros ? Q; discriminate.
    + eauto.
Qed.

(** ** Existence *)
Lemma stays_eq : l_stays L xeq.
Proof.
  destruct HL as (Bt & K & A). assert (B := la_eq _ _ _ _ _ _ A). split; [exact B|].
  unfold l_box, l_step.
  rewrite (auto_equilibrium (l_dim L) (l_sys L) xeq true Bt) by (destruct K; auto). exact B.
Qed.
Lemma viols_eq : pos_viol L xeq xeq = 0 /\ lo_viol L xeq xeq = 0 /\ up_viol L xeq xeq = 0.
Proof.
  destruct HL as (Bt & K & A).
  assert (E : l_step L xeq = xeq).
  { unfold l_step. rewrite (auto_equilibrium (l_dim L) (l_sys L) xeq true Bt) by (destruct K; auto). reflexivity. }
  assert (Ez : l_err L xeq xeq = 0).
  { unfold l_err, error1. rewrite vsub_self, mv_zeros_r. apply norm1_zeros. }
  assert (Ev : l_V L xeq xeq = 0).
  { unfold l_V, V. fold (l_err L xeq xeq). rewrite Ez. ring. }
  unfold pos_viol, lo_viol, up_viol. rewrite E, Ez, Ev. repeat split; ring.
Qed.

Lemma exact_optimum : forall D f p, exact_program D f p -> (exists x, D x) ->
  (exists K, forall x, D x -> Rabs (f x) <= K) -> exists v, optimum (fst p) v /\ largest D f v.
Proof.
  intros D f [m xv] (P1 & P2 & P3) [x0 H0] [K HK]. cbn [fst snd] in *.
  destruct (optimum_exists m) as (sg & G & Mx).
  - destruct (P3 x0 H0) as (sg & G & _). eauto.
  - exists K. intros sg G. destruct (P2 sg G) as [Dx ->]. auto.
  - exists (objective m sg). destruct (P2 sg G) as [Dx Eo]. split.
    + split; [eauto|]. exact Mx.
    + split; [eauto|]. intros x Dx'. destruct (P3 x Dx') as (s & Gs & Es). specialize (Mx s Gs).
      rewrite P1 in Mx. destruct (P2 s Gs) as [_ Eq]. rewrite Eq, Es in Mx. auto.
Qed.

Lemma pos_largest : forall p, pos_program solve L = Some p ->
  exists v, optimum (fst p) v /\ largest (l_box L) (pos_viol L xeq) v.
Proof.
  intros p E. apply exact_optimum; [apply pos_exact; auto|exists xeq; apply stays_eq|].
  destruct (error1_bounded (R_of (l_dim L) (o_R o)) xeq (au_lo (l_sys L)) (au_up (l_sys L))) as [K1 H1].
  destruct (V_bounded (l_net L) (R_of (l_dim L) (o_R o)) (o_lam o) xeq (au_lo (l_sys L)) (au_up (l_sys L))) as [K2 H2].
  exists (Rabs (o_eps_pos o) * K1 + K2). intros x B. unfold pos_viol.
  eapply Rle_trans; [apply Rabs_triang|]. rewrite Rabs_Ropp, Rabs_mult.
  apply Rplus_le_compat; [apply Rmult_le_compat_l; [apply Rabs_pos|apply H1; auto]|apply H2; auto].
Qed.
Lemma der_bounded : forall f, (forall x, exists a b, Rabs a <= 1 /\ f x = a * l_V L xeq (l_step L x) + b * l_V L xeq x /\
    (b = 1 - o_eps_up o \/ b = - (1 - o_eps_lo o))) ->
  exists K, forall x, l_stays L x -> Rabs (f x) <= K.
Proof.
  intros f Hf.
  destruct (V_bounded (l_net L) (R_of (l_dim L) (o_R o)) (o_lam o) xeq (au_lo (l_sys L)) (au_up (l_sys L))) as [K H].
  exists (K + (Rabs (1 - o_eps_up o) + Rabs (1 - o_eps_lo o)) * K). intros x [B B'].
  destruct (Hf x) as (a & b & Ha & -> & Hb).
  assert (H1 := H x B). assert (H2 := H _ B'). fold (l_V L xeq x) in H1. fold (l_V L xeq (l_step L x)) in H2.
  eapply Rle_trans; [apply Rabs_triang|]. rewrite !Rabs_mult. apply Rplus_le_compat.
  - rewrite <- (Rmult_1_l K). apply Rmult_le_compat; [apply Rabs_pos|apply Rabs_pos|exact Ha|exact H2].
  - assert (Qa := Rabs_pos (1 - o_eps_up o)). assert (Qb := Rabs_pos (1 - o_eps_lo o)).
    apply Rmult_le_compat; [apply Rabs_pos|apply Rabs_pos| |exact H1].
    destruct Hb as [-> | ->]; rewrite ?Rabs_Ropp; lra.
Qed.
Lemma lo_largest : forall p, der_program solve L (o_eps_lo o) ExpLower = Some p ->
  exists v, optimum (fst p) v /\ largest (l_stays L) (lo_viol L xeq) v.
Proof.
  intros p E. apply exact_optimum; [|exists xeq; apply stays_eq|].
  - eapply der_exact; [apply viol_lo|exact E].
  - apply der_bounded. intros x. exists 1, (- (1 - o_eps_lo o)). rewrite Rabs_R1.
    repeat split; [lra| |auto]. unfold lo_viol. fold o. ring.
Qed.
Lemma up_largest : forall p, der_program solve L (o_eps_up o) ExpUpper = Some p ->
  exists v, optimum (fst p) v /\ largest (l_stays L) (up_viol L xeq) v.
Proof.
  intros p E. apply exact_optimum; [|exists xeq; apply stays_eq|].
  - eapply der_exact; [apply viol_up|exact E].
  - apply der_bounded. intros x. exists (-1), (1 - o_eps_up o). rewrite (Rabs_left (-1)) by lra.
    repeat split; [lra| |auto]. unfold up_viol. fold o. ring.
Qed.

Lemma programs_built : solver_total solve -> (exists p, pos_program solve L = Some p) /\
  forall eps et, exists p, der_program solve L eps et = Some p.
Proof.
  intros St. destruct HL as (Bt & K & A).
  assert (C := encoding_total solve Hs St (l_meth L) _ _ _ _ _ _ A).
  unfold pos_program, der_program. rewrite xeq_is. split.
  - destruct (positivity_total solve Hs (l_meth L) _ _ _ _ _ _ A (o_lam o) (o_eps_pos o) C) as (m & xv & E).
    unfold o in *. rewrite E. eauto.
  - intros eps et.
    destruct (derivative_total solve Hs (l_meth L) _ _ _ _ _ _ A (o_lam o) true _ _ (auto_contract solve Hs _ true _ Bt)
      eps et None None VBin ltac:(discriminate) (auto_total solve Hs St _ _ _ Bt) C) as (d & E).
    unfold o in E. rewrite E. eauto.
Qed.

(** ** The reported states *)
Variable pool : option R -> mip -> list assignment.
Hypothesis Pf : pool_feasible pool.

Lemma reported_viol : forall D f p, exact_program D f p ->
  Forall (fun x => D x /\ 0 < f x) (reported pool L p).
Proof.
  intros D f [m xv] (P1 & P2 & P3). cbn [fst snd] in *. unfold reported. apply Forall_map, Forall_forall.
  intros sg H. apply filter_In in H. destruct H as [H1 H2].
  assert (G : gfeas m sg).
  { match type of H1 with In _ (pool ?t m) => assert (F := Pf t m) end. rewrite Forall_forall in F. auto. }
  destruct (P2 sg G) as [Dx Eo]. split; auto. rewrite <- Eo. unfold Rltb in H2.
  destruct (Rlt_dec 0 (objective m sg)); [auto|discriminate].
Qed.
Lemma reported_none : pool_ends pool -> forall D f p v, exact_program D f p -> optimum (fst p) v ->
  largest D f v -> reported pool L p = [] <-> v <= 0.
Proof.
  intros Pe D f [m xv] v (P1 & P2 & P3) Ho [_ Hl]. cbn [fst snd] in *. unfold reported.
  destruct (Pe (if o_optimal (l_opt L) then None else Some 0) m v Ho) as (sg & rest & Ep & Hv).
  rewrite Ep. cbn [filter]. split.
  - intros H. destruct (Rltb 0 (objective m sg)) eqn:E; [discriminate|].
    unfold Rltb in E. destruct (Rlt_dec 0 (objective m sg)); [discriminate|].
    destruct Hv as [Hv | (thr & Et & Hv)]; [lra|]. destruct (o_optimal (l_opt L)); [discriminate|].
    injection Et as <-. lra.
  - intros Hv0. assert (F := Pf (if o_optimal (l_opt L) then None else Some 0) m). rewrite Ep in F.
    assert (Q : filter (fun s => Rltb 0 (objective m s)) (sg :: rest) = []).
    { clear Ep Hv. induction F as [|s l G _ IH]; [reflexivity|]. cbn [filter].
      destruct (P2 s G) as [Dx Eo]. specialize (Hl _ Dx).
      unfold Rltb at 1. destruct (Rlt_dec 0 (objective m s)); [lra|]. exact IH. }
    cbn [filter] in Q. rewrite Q. reflexivity.
Qed.

Lemma samples_violate : forall pos lo up, adversarial_samples solve pool L = AdvSamples pos lo up ->
  Forall (fun x => l_box L x /\ 0 < pos_viol L xeq x) pos /\
  Forall (fun x => l_stays L x /\ 0 < lo_viol L xeq x) lo /\
  Forall (fun x => l_stays L x /\ 0 < up_viol L xeq x) up /\ lo <> [] /\ up <> [].
Proof.
  intros pos lo up E. unfold adversarial_samples in E. fold o in E.
  destruct (pos_program solve L) as [p|] eqn:Ep; [|discriminate].
  destruct (der_program solve L (o_eps_lo o) ExpLower) as [dl|] eqn:El; [|discriminate].
  destruct (der_program solve L (o_eps_up o) ExpUpper) as [du|] eqn:Eu; [|discriminate].
  assert (R1 := reported_viol _ _ _ (pos_exact p Ep)).
  assert (R2 := reported_viol _ _ _ (der_exact _ _ _ _ viol_lo El)).
  assert (R3 := reported_viol _ _ _ (der_exact _ _ _ _ viol_up Eu)).
  destruct (reported pool L dl) as [|a la]; [discriminate|].
  destruct (reported pool L du) as [|b lb]; [discriminate|].
  injection E as <- <- <-. repeat split; auto; discriminate.
Qed.

Lemma samples_raise : solver_total solve -> pool_ends pool ->
  (adversarial_samples solve pool L = AdvUnbound <->
   (forall x, l_stays L x -> lo_viol L xeq x <= 0) \/ (forall x, l_stays L x -> up_viol L xeq x <= 0)) /\
  adversarial_samples solve pool L <> AdvFails.
Proof.
  intros St Pe. destruct (programs_built St) as [[p Ep] Ed].
  destruct (Ed (o_eps_lo o) ExpLower) as [dl El]. destruct (Ed (o_eps_up o) ExpUpper) as [du Eu].
  destruct (lo_largest dl El) as (v & Ov & Lv). destruct (up_largest du Eu) as (w & Ow & Lw).
  assert (R1 := reported_none Pe _ _ dl v (der_exact _ _ _ _ viol_lo El) Ov Lv).
  assert (R2 := reported_none Pe _ _ du w (der_exact _ _ _ _ viol_up Eu) Ow Lw).
  unfold adversarial_samples. fold o. rewrite Ep, El, Eu.
  assert (Q : forall f u, largest (l_stays L) f u -> (u <= 0 <-> forall x, l_stays L x -> f x <= 0)).
  { intros f u [(x & Dx & Ex) Hu]. split; [intros H y Dy; specialize (Hu y Dy); lra|].
    intros H. specialize (H x Dx). lra. }
  rewrite <- (Q _ _ Lv), <- (Q _ _ Lw), <- R1, <- R2.
  destruct (reported pool L dl) as [|a la]; [split; [tauto|discriminate]|].
  destruct (reported pool L du) as [|b lb]; [split; [tauto|discriminate]|].
  split; [|discriminate]. split; [discriminate|]. intros [H|H]; discriminate.
Qed.

(** Nothing reported about positivity: it holds. *)
Lemma no_pos_sample : pool_ends pool -> forall lo up,
  adversarial_samples solve pool L = AdvSamples [] lo up ->
  forall x, l_box L x -> pos_viol L xeq x <= 0.
Proof.
  intros Pe lo up E. unfold adversarial_samples in E. fold o in E.
  destruct (pos_program solve L) as [p|] eqn:Ep; [|discriminate].
  destruct (der_program solve L (o_eps_lo o) ExpLower) as [dl|] eqn:El; [|discriminate].
  destruct (der_program solve L (o_eps_up o) ExpUpper) as [du|] eqn:Eu; [|discriminate].
  destruct (reported pool L dl) as [|a la]; [discriminate|].
  destruct (reported pool L du) as [|b lb]; [discriminate|].
  injection E as E1 _ _. destruct (pos_largest p Ep) as (v & Ov & Lv).
  apply (reported_none Pe _ _ p v (pos_exact p Ep) Ov Lv) in E1.
  intros x B. destruct Lv as [_ Lv]. specialize (Lv x B). lra.
Qed.

(** ** The losses *)
Variables (inverse : mat -> option mat) (ill : mat -> bool).
Lemma match_outcome_loop : forall n m rs zs pl tol pe ot,
  match match_outcome inverse ill n m rs zs pl tol pe ot with Value v => Some v | _ => None end
  = match_loop inverse ill n m rs zs pl tol pe ot.
Proof.
  induction n as [|n IH]; intros; cbn [match_outcome match_loop];
    destruct (milp_objective _ _ _ _ _ _); auto; destruct (Rltb _ _); auto.
Qed.
Lemma outcome_close : forall m sg rest v, pool_objective inverse ill m (sg :: rest) = Value v ->
  Rabs (v - objective m sg) <= / 10 ^ 3.
Proof.
  intros m sg rest v E. unfold pool_objective in E.
  assert (K := match_outcome_loop 9 m (map sg (r_ m)) (map sg (zeta_ m)) (objective m sg) (/ 10 ^ 6) 0 (/ 10 ^ 3)).
  rewrite E in K. symmetry in K. eapply match_loop_close. exact K.
Qed.

Lemma loss_optimal : pool_ends pool -> o_optimal o = true -> forall D f p v t l, exact_program D f p ->
  optimum (fst p) v -> largest D f v -> program_loss pool inverse ill L t p = Some l -> Rabs (l - v) <= / 10 ^ 3.
Proof.
  intros Pe Op D f [m xv] v t l P Ho Lg E. cbn [fst snd] in *. unfold program_loss in E. fold o in E.
  rewrite Op in E. cbn [fst] in E.
  destruct (Pe None m v Ho) as (sg & rest & Ep & [Hv | (thr & Et & _)]); [|discriminate]. rewrite Ep in E.
  destruct (pool_objective inverse ill m (sg :: rest)) as [u| |] eqn:Es; try discriminate.
  injection E as <-. rewrite <- Hv. eapply outcome_close. exact Es.
Qed.
(** With the callback: never above the largest violation, and either zero, or the
    largest violation, or above the threshold. *)
Lemma loss_early : pool_ends pool -> o_optimal o = false -> forall D f p v t l, exact_program D f p ->
  optimum (fst p) v -> largest D f v -> program_loss pool inverse ill L t p = Some l ->
  l = 0 \/ (l <= v + / 10 ^ 3 /\ (v - / 10 ^ 3 <= l \/ t - / 10 ^ 3 < l)).
Proof.
  intros Pe Op D f [m xv] v t l (P1 & P2 & P3) Ho [_ Lg] E. cbn [fst snd] in *. unfold program_loss in E. fold o in E.
  rewrite Op in E. cbn [fst] in E.
  destruct (Pe (Some t) m v Ho) as (sg & rest & Ep & Hv). rewrite Ep in E.
  assert (F := Pf (Some t) m). rewrite Ep in F. inversion F as [|? ? G _]; subst.
  destruct (P2 sg G) as [Dx Eo]. specialize (Lg _ Dx).
  destruct (pool_objective inverse ill m (sg :: rest)) as [u| |] eqn:Es; try discriminate.
  2: { injection E as <-. auto. }
  injection E as <-. right. apply outcome_close in Es. unfold Rabs in Es.
  destruct (Rcase_abs (u - objective m sg)); (split; [lra|]); destruct Hv as [Hv | (thr & Et & Hv)]; try lra;
    injection Et as <-; lra.
Qed.

Lemma losses_optimal : pool_ends pool -> o_optimal o = true -> forall tp tl tu a b c,
  lyapunov_loss solve pool inverse ill L tp tl tu = Some (a, b, c) ->
  exists p l u vp vl vu, a = o_w_pos o * p /\ b = o_w_lo o * l /\ c = o_w_up o * u /\
    largest (l_box L) (pos_viol L xeq) vp /\ largest (l_stays L) (lo_viol L xeq) vl /\
    largest (l_stays L) (up_viol L xeq) vu /\ 0 <= vp /\ 0 <= vl /\ 0 <= vu /\
    Rabs (p - vp) <= / 10 ^ 3 /\ Rabs (l - vl) <= / 10 ^ 3 /\ Rabs (u - vu) <= / 10 ^ 3.
Proof.
  intros Pe Op tp tl tu a b c E. unfold lyapunov_loss in E. fold o in E.
  destruct (pos_program solve L) as [pp|] eqn:Ep; [|discriminate].
  destruct (der_program solve L (o_eps_lo o) ExpLower) as [dl|] eqn:El; [|discriminate].
  destruct (der_program solve L (o_eps_up o) ExpUpper) as [du|] eqn:Eu; [|discriminate].
  destruct (program_loss pool inverse ill L tp pp) as [p|] eqn:E1; [|discriminate].
  destruct (program_loss pool inverse ill L tl dl) as [l|] eqn:E2; [|discriminate].
  destruct (program_loss pool inverse ill L tu du) as [u|] eqn:E3; [|discriminate].
  injection E as <- <- <-.
  destruct (pos_largest pp Ep) as (vp & Op1 & Lp). destruct (lo_largest dl El) as (vl & Ol & Ll).
  destruct (up_largest du Eu) as (vu & Ou & Lu). destruct viols_eq as (Z1 & Z2 & Z3). assert (Bq := stays_eq).
  exists p, l, u, vp, vl, vu. repeat split; auto; try apply Lp; try apply Ll; try apply Lu.
  - rewrite <- Z1. apply Lp. apply Bq.
  - rewrite <- Z2. apply Ll. apply Bq.
  - rewrite <- Z3. apply Lu. apply Bq.
  - eapply loss_optimal; eauto using pos_exact.
  - eapply loss_optimal; eauto. eapply der_exact; [apply viol_lo|exact El].
  - eapply loss_optimal; eauto. eapply der_exact; [apply viol_up|exact Eu].
Qed.
Lemma losses_early : pool_ends pool -> o_optimal o = false -> forall tp tl tu a b c,
  lyapunov_loss solve pool inverse ill L tp tl tu = Some (a, b, c) ->
  exists p l u vp vl vu, a = o_w_pos o * p /\ b = o_w_lo o * l /\ c = o_w_up o * u /\
    largest (l_box L) (pos_viol L xeq) vp /\ largest (l_stays L) (lo_viol L xeq) vl /\
    largest (l_stays L) (up_viol L xeq) vu /\
    early_value tp vp p /\ early_value tl vl l /\ early_value tu vu u.
Proof.
  intros Pe Op tp tl tu a b c E. unfold lyapunov_loss in E. fold o in E.
  destruct (pos_program solve L) as [pp|] eqn:Ep; [|discriminate].
  destruct (der_program solve L (o_eps_lo o) ExpLower) as [dl|] eqn:El; [|discriminate].
  destruct (der_program solve L (o_eps_up o) ExpUpper) as [du|] eqn:Eu; [|discriminate].
  destruct (program_loss pool inverse ill L tp pp) as [p|] eqn:E1; [|discriminate].
  destruct (program_loss pool inverse ill L tl dl) as [l|] eqn:E2; [|discriminate].
  destruct (program_loss pool inverse ill L tu du) as [u|] eqn:E3; [|discriminate].
  injection E as <- <- <-.
  destruct (pos_largest pp Ep) as (vp & Op1 & Lp). destruct (lo_largest dl El) as (vl & Ol & Ll).
  destruct (up_largest du Eu) as (vu & Ou & Lu).
  exists p, l, u, vp, vl, vu. repeat split; auto; try apply Lp; try apply Ll; try apply Lu.
  - eapply loss_early; eauto using pos_exact.
  - eapply loss_early; eauto. eapply der_exact; [apply viol_lo|exact El].
  - eapply loss_early; eauto. eapply der_exact; [apply viol_up|exact Eu].
Qed.
End L.
