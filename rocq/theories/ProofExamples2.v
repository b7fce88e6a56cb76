(** A concrete loop around a hybrid system with an input — lemmas. *)

Require Import Reals List Bool Arith Lra Lia Psatz.
Require Import Verif.Vec Verif.VecFacts Verif.ModelMip Verif.SpecMip Verif.ModelNet Verif.SpecCore
  Verif.SpecUtils Verif.SpecNet Verif.ModelStrengthen Verif.SpecStrengthen Verif.ModelLyapunov
  Verif.SpecLyapunov Verif.ModelHybrid Verif.SpecHybrid Verif.ModelSystems Verif.SpecSystems
  Verif.ProofUtils Verif.ProofStep Verif.ProofMip Verif.ProofMaxBox Verif.ProofHybrid Verif.ProofHybrid2
  Verif.ProofNetTotal Verif.ProofFeedback Verif.ProofDynamics
  Verif.ModelExamples Verif.ModelExamples2 Verif.ProofExamples
  Verif.ModelFeedbackCuts Verif.SpecFeedbackCuts Verif.ProofFeedbackCuts Verif.ProofCutsTotal.
Import ListNotations.
Open Scope R_scope.

Lemma sysu_built : built row_bounds (fun _ => true) 1 1 sysu.
Proof.
  eapply built_add with (h := mkHybrid 1 1 [nth 0 (h_modes sysu) (mkMode [] [] [] [] [] [] [])])
    (A := [[-1/4]]) (B := [[1]]) (c := [0])
    (P := [[1; 0]; [-1; 0]; [0; 1]; [0; -1]]) (q := [1; 0; 1; 1]) (check := true).
  - eapply built_add with (h := new_hybrid 1 1)
      (A := [[1/2]]) (B := [[1]]) (c := [0])
      (P := [[1; 0]; [-1; 0]; [0; 1]; [0; -1]]) (q := [0; 1; 1; 1]) (check := true).
    + constructor.
    + unfold add_mode. cbn [h_nx h_nu new_hybrid shape_ok length Nat.eqb forallb andb negb orb seq Nat.add map].
      rowcalc. reflexivity.
  - unfold add_mode. cbn [h_nx h_nu new_hybrid shape_ok length Nat.eqb forallb andb negb orb seq Nat.add map].
    rowcalc. reflexivity.
Qed.

Lemma sysu_finite : finite_modes sysu.
Proof.
  unfold finite_modes, sysu. cbn [h_modes].
  repeat (apply Forall_cons || apply Forall_nil); cbn [md_lo md_up]; split;
    repeat (apply Forall_cons || apply Forall_nil); eauto.
Qed.

Lemma sysu_fwd : hybrid_fwd sysu = Some fwd_u.
Proof.
  assert (E1 : firstn 1 (lo_all sysu) = [Fin (-1)]).
  { unfold lo_all. cbn. repeat f_equal. unfold Rmin. destruct (Rle_dec _ _); lra. }
  assert (E2 : firstn 1 (up_all sysu) = [Fin 1]).
  { unfold up_all. cbn. repeat f_equal. unfold Rmax. destruct (Rle_dec _ _); lra. }
  unfold hybrid_fwd. cbn [h_nx h_nu sysu]. rewrite E1, E2. reflexivity.
Qed.

Lemma fb_u_built : feedback_built fb_u.
Proof.
  unfold feedback_built. cbn [fb_u fb_fwd fb_ctl fb_lower fb_upper].
  split; [split; [exact net_abs_wf|reflexivity]|]. split; [reflexivity|]. split; [reflexivity|].
  split; [|reflexivity]. constructor; [cbn; lra|constructor].
Qed.

Lemma fb_u_control : compute_u fb_u [0] = Some [0].
Proof.
  destruct fb_u_built as (Cw & _ & _ & Lm & Bt).
  destruct (compute_u_spec fb_u [0] Cw Bt) as (u & Eu & _ & _ & _ & _ & Q).
  - constructor; [cbn; lra|constructor].
  - reflexivity.
  - rewrite Eu. f_equal. apply Q; [reflexivity|].
    cbn. split; (constructor; [cbn; lra|constructor]).
Qed.

Lemma fb_u_fixed : fb_next fb_u (hybrid_next sysu) [0] [0].
Proof.
  split.
  - cbn. split; repeat (constructor; [lra|]); constructor.
  - exists [0]. split; [exact fb_u_control|].
    eexists. split; [left; reflexivity|]. unfold inside, image.
    cbn [md_A md_B md_c md_P md_q mv map dot map2 vsum vadd app]. vle_simpl.
    split; [lra|]. apply cons_eq_iff. split; [lra|auto].
Qed.

Lemma fb_u_rounds : exists d,
  strengthen_derivative ideal_solve IA net_abs 1 [-1] [1] (fb_add ideal_solve fb_u)
    (fun _ => Some (fun _ => 1/2)) (fb_sys_cuts ideal_solve None fb_u) [0] 1 (1/2) ExpLower None
    None None 3 = Some d.
Proof.
  apply (hybrid_rounds_total ideal_solve ideal_ok ideal_total row_bounds (fun _ => true) 1 1 sysu fwd_u fb_u
    None row_bounds_valid sysu_built sysu_fwd eq_refl fb_u_built).
  - cbn. repeat (constructor; [lra|]). constructor.
  - exact sysu_finite.
  - apply relu_cut_slopes.
  - discriminate.
  - exact abs_args.
  - apply relu_cut_slopes.
  - exact (abs_out _ ideal_ok).
  - exists [0], [0]. split; [split; vle_simpl; lra|]. split; [split; vle_simpl; lra|].
    split; [exact fb_u_fixed|]. split; discriminate.
  - discriminate.
Qed.
