(** What the optimum of the hybrid derivative programs says. *)

Require Import Reals List Lia Lra Bool Arith.
Require Import Verif.Vec Verif.VecFacts Verif.ModelMip Verif.SpecMip Verif.SpecCore
  Verif.ModelUtils Verif.SpecUtils Verif.ModelNet Verif.SpecNet Verif.SpecStep
  Verif.ModelPattern Verif.SpecPattern
  Verif.ModelGrad Verif.ModelLyapunov Verif.SpecLyapunov Verif.ModelContinuous Verif.SpecContinuous
  Verif.ModelHybrid Verif.SpecHybrid Verif.ModelContHybrid Verif.SpecContHybrid
  Verif.ProofUtils Verif.ProofMip Verif.ProofSat Verif.ProofConcat Verif.ProofTorch
  Verif.ProofBounds Verif.ProofNet Verif.ProofNetBounds Verif.ProofNetTotal Verif.ProofMaxBox Verif.ProofGrad
  Verif.ProofPattern Verif.ProofGradVec
  Verif.ProofStep Verif.ProofLyapunov Verif.ProofLyapCert Verif.ProofLyapMore Verif.ProofContinuous
  Verif.ProofContinuous2 Verif.ProofContinuous3 Verif.ProofContinuous4 Verif.ProofContinuous5 Verif.ProofContinuous6
  Verif.ProofHybrid Verif.ProofHybrid2
  Verif.ProofContHybrid Verif.ProofContHybrid2 Verif.ProofContHybrid3 Verif.ProofContHybrid4 Verif.ProofContHybrid5.
Import ListNotations.
Open Scope R_scope.

Section Hybrid.
Variable solve : mip -> gresult.
Hypothesis Hsolve : solver_ok solve.
Variable meth : method.
Variable N : network.
Variable h : hybrid.
Variables x_lo x_up xeq : vec.
Variable axb : mat -> vec -> vec -> option (Vec.ext * Vec.ext).
Hypothesis Args : hybrid_args N h x_lo x_up xeq axb.
Variables lam eps : R.
Let n := h_nx h.
Let M := eye n.

Let La := ha_lyap _ _ _ _ _ _ Args.
Let W := la_net _ _ _ _ _ _ La.
Let L1 := la_lo _ _ _ _ _ _ La.
Let L2 := la_up _ _ _ _ _ _ La.
Let Leq : length xeq = n := in_box_length _ _ _ _ (la_eq _ _ _ _ _ _ La) L1.

Lemma hybrid_facts : h_nu h = 0%nat /\ Forall (mode_wf n 0) (h_modes h) /\ Forall (mode_valid n 0) (h_modes h).
Proof.
  destruct (ha_built _ _ _ _ _ _ Args) as (bounds & bounded & Vb & Bu).
  destruct (built_inv _ _ _ _ _ Vb Bu) as (_ & Enu & Wm & Va). auto.
Qed.

Lemma hybrid_forced : forall et R0 lower upper d,
  hybrid_derivative solve axb meth N h x_lo x_up xeq lam eps et R0 lower upper d ->
  et = ExpLower /\ forced_program solve meth N h x_lo x_up xeq lam eps true lower upper d.
Proof.
  intros et R0 lower upper d H. destruct hybrid_facts as (Enu & Wm & Va).
  assert (Hx := ha_axb _ _ _ _ _ _ Args). assert (Hb := ha_box _ _ _ _ _ _ Args).
  assert (Hs := ha_slopes _ _ _ _ _ _ Args).
  destruct H as [H|H].
  - eapply program1_forced; eauto.
  - eapply program2_forced; eauto.
Qed.

Lemma hybrid_exact : forall et R0 lower upper d,
  hybrid_derivative solve axb meth N h x_lo x_up xeq lam eps et R0 lower upper d ->
  et = ExpLower /\ derivative_program_exact N h x_lo x_up xeq lam eps lower upper d.
Proof.
  intros et R0 lower upper d E.
  destruct (hybrid_forced _ _ _ _ _ E) as (Q1 & Q2 & Q3 & _ & blo & bup & ls & us & _ & Q5 & K1 & K2 & K3 & K4 & K5 & K6 & K7).
  split; auto. unfold derivative_program_exact.
  split; auto. split; auto. split.
  { intros sg G. destruct (Q5 sg G) as (U1 & U2 & k & v & pats & sgs & U3 & U4 & U5 & U6 & U7 & _).
    split; auto. split; auto. exists k, v, pats, sgs. auto. }
  intros x k v pats sgs Lx Mv Hw [Sel1 Sel2] [At1 At2].
  assert (Sh : pattern_shape (hidden N) pats).
  { eapply shape_of_consistent; [apply W| |exact Sel1]. auto. }
  assert (Lp : length (concat pats) = num_units (hidden N)).
  { rewrite <- (flat_length _ _ Sh). unfold flat. rewrite map_length. auto. }
  assert (Lsg : length sgs = length M).
  { apply Forall2_len in Sel2. rewrite mv_length in Sel2. auto. }
  apply (K7 x k v pats sgs); auto; [split; auto| |].
  - eapply attained_forced; [exact At1|congruence|congruence|exact K5].
  - eapply attained_forced; [exact At2|exact (eq_trans K3 (eq_sym Lsg))|exact (eq_trans K4 (eq_sym Lsg))|exact K6].
Qed.

Lemma moves_in_box : forall k x v, length x = n -> moves h k x v -> in_box x_lo x_up x.
Proof.
  intros k x v Lx Mv. destruct hybrid_facts as (Enu & Wm & Va).
  exact (moves_box h n eq_refl Wm x_lo x_up Enu Va (ha_box _ _ _ _ _ _ Args) _ _ _ Lx Mv).
Qed.

(** Some gradient that the program represents exists at every state. *)
Lemma some_selection : forall x blo bup ls us, length x = n -> in_box x_lo x_up x ->
  length blo = num_units (hidden N) -> length bup = num_units (hidden N) ->
  (forall y, in_box x_lo x_up y -> in_box blo bup (concat (pre_acts (hidden N) y))) ->
  (forall y, in_box x_lo x_up y -> in_box ls us (mv M (vsub y xeq))) ->
  exists pats sgs, selects N M xeq x pats sgs /\ forced_all blo bup (concat pats) /\ forced_all ls us sgs.
Proof.
  intros x blo bup ls us Lx Bx K1 K2 K5 K6.
  destruct (V_rderiv N n M lam xeq W Leq (fun _ => x) 0 (zeros n) blo bup ls us) as (pats & sgs & U1 & U2 & U3 & _); auto.
  - intros i. unfold zeros. assert (Z : nth i (repeat 0 n) 0 = 0).
    { destruct (Nat.lt_ge_cases i n); [apply nth_repeat|apply nth_overflow; rewrite repeat_length; auto]. }
    rewrite Z. apply rderiv_const.
  - exists 1. split; [lra|]. auto.
  - exists pats, sgs. auto.
Qed.

Lemma hybrid_verdict : forall et R0 lower upper d,
  hybrid_derivative solve axb meth N h x_lo x_up xeq lam eps et R0 lower upper d ->
  (forall v, solve (hd_mip d) = GOptimal v -> v <= 0 ->
     forall x k w pats sgs, length x = n -> moves h k x w ->
       within lower upper (V N M lam xeq x) -> selects N M xeq x pats sgs ->
       selection_attained x_lo x_up N M xeq pats sgs ->
       Vdot N M lam pats sgs w + eps * V N M lam xeq x <= 0) /\
  (forall v, solve (hd_mip d) = GOptimal v ->
     exists x k w pats sgs, length x = n /\ moves h k x w /\ within lower upper (V N M lam xeq x) /\
       selects N M xeq x pats sgs /\ v = Vdot N M lam pats sgs w + eps * V N M lam xeq x) /\
  (solve (hd_mip d) = GInfeasible ->
     forall x k w, length x = n -> moves h k x w -> ~ within lower upper (V N M lam xeq x)).
Proof.
  intros et R0 lower upper d E.
  destruct (hybrid_exact _ _ _ _ _ E) as (_ & Q2 & Q3 & Q5 & Q6).
  destruct (hybrid_forced _ _ _ _ _ E) as (_ & _ & _ & _ & blo & bup & ls & us & _ & _ & K1 & K2 & K3 & K4 & K5 & K6 & K7).
 
  assert (Hs := Hsolve (hd_mip d)). split; [|split].
  - intros v S Hv x k w pats sgs Lx Mv Wi Sel At. rewrite S, Q2 in Hs. destruct Hs as [_ Mx].
    destruct (Q6 x k w pats sgs Lx Mv Wi Sel At) as (sg & G & _ & _ & _ & Eo).
    specialize (Mx sg G). rewrite Eo in Mx. fold n in Mx. fold M in Mx. lra.
  - intros v S. rewrite S, Q2 in Hs. destruct Hs as [(sg & G & Ev) _].
    destruct (Q5 sg G) as (Bx & Wi & k & w & pats & sgs & Mv & Sel & _ & _ & Eo).
    exists (map sg (hd_x d)), k, w, pats, sgs.
    split; [rewrite map_length; exact Q3|]. split; auto. split; auto. split; auto. rewrite <- Ev. exact Eo.
  - intros S x k w Lx Mv Wi. rewrite S in Hs.
    destruct (some_selection x blo bup ls us Lx (moves_in_box _ _ _ Lx Mv) K1 K2 K5 K6)
      as (pats & sgs & U1 & U2 & U3).
    destruct (K7 x k w pats sgs Lx Mv Wi U1 U2 U3) as (sg & G & _). exact (Hs sg G).
Qed.

Lemma hybrid_decay : forall et R0 lower upper d v,
  hybrid_derivative solve axb meth N h x_lo x_up xeq lam eps et R0 lower upper d ->
  solve (hd_mip d) = GOptimal v -> v <= 0 ->
  forall b x, flow x_lo x_up (fun y w => exists k, moves h k y w) b x ->
    (forall t, 0 <= t < b -> within lower upper (V N M lam xeq (x t))) ->
    forall t, 0 <= t <= b -> V N M lam xeq (x t) <= exp (- eps * t) * V N M lam xeq (x 0).
Proof.
  intros et R0 lower upper d v E S Hv.
  destruct (hybrid_forced _ _ _ _ _ E) as (_ & Q2 & _ & _ & blo & bup & ls & us & _ & _ & K1 & K2 & K3 & K4 & K5 & K6 & K7).
 
  assert (Hs := Hsolve (hd_mip d)). rewrite S, Q2 in Hs. destruct Hs as [_ Mx].
  apply (flow_decay N n M lam eps xeq W Leq x_lo x_up L1 (fun y w => exists k, moves h k y w) blo bup ls us K1 K2 K5 K6
    (fun y => within lower upper (V N M lam xeq y))).
  intros x w pats sgs Bx (k & Tx) Lw Wi Sel F1 F2.
  assert (Lx : length x = n) by (eapply in_box_length; eauto).
  destruct (K7 x k w pats sgs Lx Tx Wi Sel F1 F2) as (sg & G & _ & _ & _ & Eo).
  specialize (Mx sg G). rewrite Eo in Mx. fold n in Mx. fold M in Mx. lra.
Qed.

Lemma hybrid_certified : forall et R0 d v eps1 mp xp vp,
  positivity_milp solve meth N n x_lo x_up xeq lam eps1 None = Some (mp, xp) ->
  solve mp = GOptimal vp -> vp <= 0 ->
  hybrid_derivative solve axb meth N h x_lo x_up xeq lam eps et R0 None None d ->
  solve (hd_mip d) = GOptimal v -> v <= 0 ->
  forall b x, flow x_lo x_up (fun y w => exists k, moves h k y w) b x ->
    forall t, 0 <= t <= b ->
      eps1 * error1 M xeq (x t) <= V N M lam xeq (x t) <= exp (- eps * t) * V N M lam xeq (x 0).
Proof.
  intros et R0 d v eps1 mp xp vp Ep Sp Hp E S Hv b x F t Ht. split.
  - apply (positivity_verdict solve Hsolve meth N n x_lo x_up None xeq La lam eps1 mp xp vp Ep Sp); auto.
    apply F. auto.
  - eapply hybrid_decay; eauto. intros s Hs. split; intros ? X; discriminate X.
Qed.

(** The two programs are the same program. *)
Lemma hybrid_agree : forall et1 et2 R1 R2 lower upper d1 d2,
  hybrid_derivative solve axb meth N h x_lo x_up xeq lam eps et1 R1 lower upper d1 ->
  hybrid_derivative solve axb meth N h x_lo x_up xeq lam eps et2 R2 lower upper d2 ->
  same_points d1 d2.
Proof.
  intros et1 et2 R1 R2 lower upper d1 d2 E1 E2 sg G.
  destruct (hybrid_forced _ _ _ _ _ E1) as (_ & _ & P3 & _ & blo & bup & ls & us & (Er & c & B & out & Eo & El & Eu) & P5 & _).
  destruct (hybrid_forced _ _ _ _ _ E2) as (_ & _ & _ & _ & blo' & bup' & ls' & us' & (Er' & c' & B' & out' & Eo' & El' & Eu') &
    _ & _ & _ & _ & _ & _ & _ & K7).
  assert (Ec := eq_trans (eq_sym Eo) Eo'). apply Some_inj in Ec. injection Ec as _ EB _.
  assert (Ec := eq_trans (eq_sym Er) Er'). apply Some_inj in Ec. apply pair_equal_spec in Ec. destruct Ec as [Els Eus].
  subst ls' us' B'. rewrite <- El in El'. rewrite <- Eu in Eu'. subst blo' bup'. 
  destruct (P5 sg G) as (U1 & U2 & k & v & pats & sgs & U3 & U4 & U5 & U6 & U7 & U8 & U9).
  destruct (K7 (map sg (hd_x d1)) k v pats sgs) as (sg2 & G2 & Q1 & Q2 & Q3 & Q4); auto.
  { rewrite map_length. exact P3. }
  exists sg2. split; auto. split; auto. split; [congruence|]. split; [congruence|]. rewrite Q4, U7. reflexivity.
Qed.

Lemma hybrid_same_optimum : forall et1 et2 R1 R2 lower upper d1 d2 v1 v2,
  hybrid_derivative solve axb meth N h x_lo x_up xeq lam eps et1 R1 lower upper d1 ->
  hybrid_derivative solve axb meth N h x_lo x_up xeq lam eps et2 R2 lower upper d2 ->
  solve (hd_mip d1) = GOptimal v1 -> solve (hd_mip d2) = GOptimal v2 -> v1 = v2.
Proof.
  intros et1 et2 R1 R2 lower upper d1 d2 v1 v2 E1 E2 S1 S2.
  assert (A := hybrid_agree _ _ _ _ _ _ _ _ E1 E2). assert (B := hybrid_agree _ _ _ _ _ _ _ _ E2 E1).
  destruct (hybrid_forced _ _ _ _ _ E1) as (_ & O1 & _). destruct (hybrid_forced _ _ _ _ _ E2) as (_ & O2 & _).
  assert (H1 := Hsolve (hd_mip d1)). assert (H2 := Hsolve (hd_mip d2)). rewrite S1, O1 in H1. rewrite S2, O2 in H2.
  destruct H1 as [(s1 & G1 & V1) X1]. destruct H2 as [(s2 & G2 & V2) X2].
  destruct (A s1 G1) as (t1 & T1 & _ & _ & _ & Eo1). destruct (B s2 G2) as (t2 & T2 & _ & _ & _ & Eo2).
  assert (Y1 := X2 _ T1). assert (Y2 := X1 _ T2). lra.
Qed.
End Hybrid.
