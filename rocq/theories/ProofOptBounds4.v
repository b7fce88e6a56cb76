(** The separate programs of the modelled systems cover their dynamics. *)

Require Import Reals List Bool Arith Lra Lia.
Require Import Verif.Vec Verif.VecFacts Verif.ModelMip Verif.SpecMip
  Verif.ModelUtils Verif.ModelNet Verif.SpecCore Verif.SpecUtils Verif.SpecNet Verif.SpecStep
  Verif.ModelPattern Verif.SpecPattern Verif.SpecLyapunov Verif.ModelContinuous Verif.SpecContinuous
  Verif.ModelHybrid Verif.SpecHybrid Verif.ModelSystems Verif.SpecSystems Verif.ModelContSys Verif.SpecContSys
  Verif.ModelOptBounds Verif.SpecOptBounds
  Verif.ProofUtils Verif.ProofMaxBox Verif.ProofMip Verif.ProofTorch Verif.ProofConcat Verif.ProofBounds
  Verif.ProofGrad Verif.ProofNet Verif.ProofNetBounds Verif.ProofNetTotal Verif.ProofRelaxed Verif.ProofPattern
  Verif.ProofStep Verif.ProofNetStep Verif.ProofLyapCert Verif.ProofSystems Verif.ProofSystems2
  Verif.ProofFeedback Verif.ProofContSys Verif.ProofContSys2.
Import ListNotations.
Open Scope R_scope.

Lemma bin_dom_relaxed : forall vt b, bin_dom vt b -> relaxed b.
Proof. intros [| |] b H; cbn in H; auto. apply bins_relaxed. exact H. Qed.

Lemma feas_init : forall vt sg, feas vt init_mip sg.
Proof.
  intros vt sg. split; [|constructor]. split; [|constructor]. intros [|i] v H; discriminate H.
Qed.
Lemma agree_map : forall m (sg sg' : assignment) l, agree m sg sg' -> below (nvars m) l -> map sg' l = map sg l.
Proof.
  intros m sg sg' l A B. apply map_ext_in. intros i Hi. unfold below in B. rewrite Forall_forall in B.
  symmetry. apply A. apply B. auto.
Qed.

Lemma output_length : forall c x s b, mic_ok c -> length (output c x s b) = num_out c.
Proof.
  intros c x s b ((W1 & W2 & W3 & W4 & _) & _).
  assert (Lt : forall (A : option mat) k z, owf (num_out c) k A -> length (term (num_out c) A z) = num_out c).
  { intros [A|] k z H; cbn [term]; [rewrite mv_length; apply H|apply zeros_length]. }
  assert (L1 := Lt _ _ x W1). assert (L2 := Lt _ _ s W2). assert (L3 := Lt _ _ b W3).
  unfold output, lhs.
  destruct (Cout c) as [C|]; cbn in W4; rewrite ?vadd_length; rewrite ?vadd_length; try congruence;
    rewrite ?vadd_length, ?zeros_length; congruence.
Qed.

Section Solver.
Variable solve : mip -> gresult.
Hypothesis Hsolve : solver_ok solve.

(** ** Autonomous systems *)

Record auto_form (n : nat) (A : auto_sys) (c : mic) : Prop := {
  af_ok : mic_ok c;
  af_nin : nin c = n;
  af_out : num_out c = n;
  af_complete : forall x, in_box (au_lo A) (au_up A) x ->
     exists s b, bins b /\ mic_sat c x s b /\ auto_step A x = output c x s b;
  af_sound : forall x s b, bins b -> mic_sat c x s b ->
     in_box (au_lo A) (au_up A) x /\ auto_step A x = output c x s b;
  af_relaxed : exists K, forall x s b, relaxed b -> mic_sat c x s b -> vbound K (output c x s b)
}.

Lemma auto_mic_facts : forall n A c B out, auto_built n A -> auto_mic solve A = Some (c, B, out) ->
  auto_form n A c.
Proof.
  intros n A c B out Bt Em.
  destruct (auto_mic_form solve Hsolve _ _ _ _ _ Bt Em) as (c0 & Ai & As & C & Eo & M & Ec & W1 & W2 & LC & F).
  destruct (auto_built_facts _ _ Bt) as (Lu & Lo & Le & Lq). destruct Bt as (W & L & _).
  destruct (with_output_ok n _ _ _ c0 n Ai As C M W1 W2 LC) as [Ok No].
  assert (Ok' : mic_ok c) by (rewrite Ec; exact Ok). assert (No' : num_out c = n) by (rewrite Ec; exact No).
  clear Ok No. rename Ok' into Ok. rename No' into No.
  destruct M as [C1 C2 C3 C4 C5 (C6 & C7 & C8 & C9) (C10 & C11) _ _ C13 C14 C15 C16].
  assert (Eq : forall x s b, output c x s b = vadd (vadd (term n Ai x) (mv As s)) C).
  { intros x s b. unfold output, lhs. rewrite No. rewrite Ec.
    cbn [with_output Aout_input Aout_slack Aout_binary Cout term]. rewrite C11. cbn [term].
    assert (Lt : length (term n Ai x) = n).
    { destruct Ai; cbn [term]; [rewrite mv_length; apply W1|apply zeros_length]. }
    assert (Ls : length (mv As s) = n) by (rewrite mv_length; apply W2).
    f_equal. apply vadd_zeros_r. rewrite vadd_length; congruence. }
  assert (Sat : forall x s b, mic_sat c x s b <-> mic_sat c0 x s b) by (intros; subst c; reflexivity).
  constructor; auto.
  - subst c. exact C2.
  - intros x Bx. destruct (C13 _ Bx) as (b & Hb & Hm).
    eexists. exists b. split; [exact Hb|]. split; [apply Sat; exact Hm|].
    rewrite Eq, <- F by (apply in_box_lengths in Bx; unfold vec in *; lia). reflexivity.
  - intros x s b Hb Hm. apply Sat in Hm. assert (Bx := C14 _ _ _ Hm). split; auto.
    rewrite Eq, <- F by (apply in_box_lengths in Bx; unfold vec in *; lia).
    rewrite (C15 _ _ _ Hb Hm). reflexivity.
  - destruct (output_constraint_relaxed solve Hsolve n _ _ _ _ _ _ _ W L Lu Eo) as (K1 & P1 & Q1).
    destruct (output_bounded c K1 P1) as (K2 & P2 & Q2). exists K2. intros x s b Hb Hm. apply Sat in Hm.
    destruct (Q1 _ _ _ Hb Hm) as (V1 & V2 & V3). apply Q2; auto.
Qed.

Lemma auto_prog_facts : forall n A p, auto_built n A -> auto_bound_prog solve A = Some p ->
  covers n p (au_lo A) (au_up A) (auto_next A) /\ bounded_velocity p /\
  (au_meth A = MIP \/ au_meth A = IA_MIP -> no_more p (au_lo A) (au_up A) (auto_next A)).
Proof.
  intros n A p Bt E. unfold auto_bound_prog in E.
  destruct (auto_mic solve A) as [[[c B] out]|] eqn:Em; [|discriminate].
  destruct (auto_mic_facts _ _ _ _ _ Bt Em) as [C1 C2 C3 C4 C5 C6].
  assert (L : length (au_lo A) = n) by apply Bt. rewrite L in E. unfold autonomous_bound_prog in E.
  destruct (addVars (repeat (NInf, PInf) n) VCont init_mip) as [m0 xn] eqn:E0.
  destruct (addVars (repeat (NInf, PInf) n) VCont m0) as [m1 xv] eqn:E1.
  set (vt := match au_meth A with LP => VCont | _ => VBin end) in *.
  destruct (add_mic c xv (Some xn) NewBinary vt m1) as [[m2 sl] bi] eqn:E2.
  assert (Hp : au_meth A <> IA /\ p = mkBP m2 xn xv)
    by (destruct (au_meth A); try discriminate E; injection E as <-; split; auto; discriminate).
  destruct Hp as [Hm ->]. clear E.
  destruct (step_free VBin false _ _ _ _ E0 (h_init false)) as (I0 & V0 & H0 & _ & X0).
  destruct (step_free VBin false _ _ _ _ E1 H0) as (I1 & V1 & H1 & _ & X1).
  assert (Bn : below (nvars m1) xn).
  { rewrite I0. apply below_seq. lia. }
  assert (Bv : below (nvars m1) xv).
  { rewrite I1. apply below_seq. lia. }
  assert (Lv : length xv = n) by (rewrite I1; apply seq_length).
  assert (Ln : length xn = n) by (rewrite I0; apply seq_length).
  assert (Lvc : length xv = nin c) by congruence.
  assert (Ov : ov_wf (nvars m1) (num_out c) (Some xn)) by (split; auto; congruence).
  destruct (add_mic_new _ _ _ _ _ _ _ _ E2 C1 (history_wf _ _ H1) Bv Lvc Ov) as (Q1 & Q2 & Q3 & Q4 & Q5).
  split; [|split].
  - constructor; cbn [bp_mip bp_next bp_x].
    + eapply history_mic; [exact H1| | | | |exact E2].
      * apply (history_allk false); auto.
      * apply (history_allk false); auto.
      * constructor.
      * discriminate.
    + split; [eapply below_le; [|exact Bn]; lia|]. split; auto. rewrite I0. apply seq_NoDup.
    + split; [eapply below_le; [|exact Bv]; lia|]. auto.
    + intros x d Bx [_ ->].
      assert (Lx : length x = n) by (apply in_box_lengths in Bx; unfold vec in *; lia).
      destruct (C4 x Bx) as (s & b & Hb & Hs & Ho).
      assert (Ld : length (auto_step A x) = n).
      { rewrite Ho. rewrite output_length by exact C1. exact C3. }
      destruct (X0 (fun _ => 0) (auto_step A x)) as (s0 & G0 & A0 & M0); auto.
      { apply feas_init. }
      destruct (X1 s0 x G0 Lx) as (s1 & G1 & A1 & M1).
      assert (M0' : map s1 xn = auto_step A x).
      { rewrite (agree_map _ _ _ _ A1); auto. rewrite I0. apply below_seq. lia. }
      destruct (add_mic_extend _ _ _ _ _ _ _ _ s1 s b E2 C1 (history_wf _ _ H1) Bv Lvc Ov) as (s2 & G2 & A2 & _).
      { apply G1. }
      { apply bins_dom. auto. }
      { rewrite M1. exact Hs. }
      { cbn [out_ok]. rewrite M0', M1. exact Ho. }
      exists s2. split; auto. split.
      * rewrite (agree_map _ _ _ _ A2); auto.
      * rewrite (agree_map _ _ _ _ A2); auto.
  - destruct C6 as [K HK]. exists K. cbn [bp_mip bp_next]. intros sg G. apply Q5 in G.
    destruct G as (_ & Hb & Hs & Ho). cbn [out_ok] in Ho. rewrite Ho. apply HK; auto.
    eapply bin_dom_relaxed; eauto.
  - intros Me sg G. cbn [bp_mip bp_next bp_x] in *. apply Q5 in G.
    destruct G as (_ & Hb & Hs & Ho). cbn [out_ok] in Ho.
    assert (Hb' : bins (map sg bi)).
    { unfold vt in Hb. destruct Me as [Me | Me]; rewrite Me in Hb; exact Hb. }
    destruct (C5 _ _ _ Hb' Hs) as [Bx Ex]. split; auto. split; auto. congruence.
Qed.

Lemma auto_bound_prog_total : solver_total solve -> forall n A, auto_built n A -> au_meth A <> IA ->
  exists p, auto_bound_prog solve A = Some p.
Proof.
  intros St n A Bt Hm. unfold auto_bound_prog.
  assert (T := auto_total solve Hsolve St n false A Bt).
  destruct (auto_built_facts _ _ Bt) as (Lu & Lo & Le & Lq). destruct Bt as (W & L & _).
  destruct (auto_mic solve A) as [[[c B] out]|] eqn:Em.
  - unfold autonomous_bound_prog.
    destruct (addVars _ VCont init_mip) as [m0 xn]. destruct (addVars _ VCont m0) as [m1 xv].
    destruct (add_mic c xv (Some xn) NewBinary (match au_meth A with LP => VCont | _ => VBin end) m1) as [[m2 sl] bi].
    destruct (au_meth A); [congruence| | |]; eexists; reflexivity.
  - exfalso.
    destruct (addVars (repeat (NInf, PInf) n) VCont init_mip) as [m0 xn] eqn:E0.
    destruct (addVars (repeat (NInf, PInf) n) VCont m0) as [m1 xv] eqn:E1.
    destruct (step_free VBin false _ _ _ _ E0 (h_init false)) as (I0 & V0 & H0 & _).
    destruct (step_free VBin false _ _ _ _ E1 H0) as (I1 & V1 & H1 & _).
    apply (T VBin m1 xv xn); auto; try discriminate.
    + rewrite I1. apply below_seq. lia.
    + rewrite I0. apply below_seq. lia.
    + rewrite I1. apply seq_length.
    + rewrite I0. apply seq_length.
    + rewrite I0, I1. apply NoDup_app'; try apply seq_NoDup.
      intros i J1 J2. apply in_seq in J1. apply in_seq in J2. lia.
    + unfold auto_add, auto_add_ret. rewrite Em. reflexivity.
Qed.

Lemma auto_flow_contract : forall n st A, auto_built n A ->
  flow_contract n st (auto_flow solve A) (au_lo A) (au_up A) (auto_next A).
Proof.
  intros n st A Bt. split.
  - intros vt m m' xv xn Vt H B1 B2 L1 L2 ND E.
    apply (auto_contract solve Hsolve n st A Bt vt m m' xv xn); auto.
    unfold auto_add. unfold auto_flow in E. destruct (auto_add_ret solve A xv xn vt m) as [[[m1 r] b]|]; [|discriminate].
    exact E.
  - intros xv xn vt m m' a b E. unfold auto_flow in E.
    destruct (auto_add_ret solve A xv xn vt m) as [[[m1 r] b1]|] eqn:Ea; [|discriminate].
    injection E as -> ->.
    assert (Hb := auto_bounds solve Hsolve n A xv xn vt m m' r a b Bt Ea).
    destruct (auto_built_facts _ _ Bt) as (Lu & Lo & Le & Lq).
    assert (L : length (au_lo A) = n) by apply Bt.
    assert (B0 : in_box (au_lo A) (au_up A) (au_lo A)) by (split; [apply vle_refl|exact Le]).
    assert (N0 : auto_next A (au_lo A) (auto_step A (au_lo A))) by (split; auto).
    assert (I := Hb _ _ N0). split; [eapply in_box_ordered; eauto|]. split.
    + unfold auto_add_ret in Ea. destruct (auto_mic solve A) as [[[c B] out]|] eqn:Em; [|discriminate].
      destruct (auto_mic_facts _ _ _ _ _ Bt Em) as [C1 C2 C3 C4 C5 C6].
      destruct (C4 _ B0) as (s & b2 & _ & _ & Eo).
      apply in_box_lengths in I. rewrite Eo, output_length in I by exact C1. unfold vec in *. lia.
    + intros x d _ T. eapply Hb; eauto.
Qed.

Lemma auto_flow_total : solver_total solve -> forall n st A, auto_built n A ->
  system_total n st (fun xv xn vt m => option_map fst (auto_flow solve A xv xn vt m)).
Proof.
  intros St n st A Bt vt m xv xn Vt H B1 B2 L1 L2 ND E.
  apply (auto_total solve Hsolve St n st A Bt vt m xv xn); auto.
  unfold auto_add. unfold auto_flow in E. destruct (auto_add_ret solve A xv xn vt m) as [[[m1 r] b]|]; auto.
  
Qed.
End Solver.
