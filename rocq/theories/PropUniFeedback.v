(** The unicycle controller (C62). *)

Require Import Reals List.
Require Import Verif.Vec Verif.ModelMip Verif.SpecMip Verif.SpecCore Verif.ModelNet Verif.SpecNet
  Verif.SpecStep Verif.SpecLyapunov Verif.ModelSystems Verif.SpecSystems Verif.ModelExamples
  Verif.ModelUniFeedback Verif.SpecUniFeedback Verif.ModelExamplesUni Verif.ProofExamples
  Verif.ProofUniFeedback Verif.ProofUniFeedback2 Verif.ProofUniFeedback3.
Import ListNotations.
Open Scope R_scope.

(** C62.  compute_u succeeds at every state; its result is the point of the limits
    nearest to the command, and its velocity is not negative. *)
Theorem C62_input : forall U px py th, uni_built U ->
  exists v w, uni_u U [px; py; th] = Some [v; w] /\
    within_limits (fb_lower (uf_fb U)) (fb_upper (uf_fb U)) [v; w] /\ 0 <= v /\
    (forall v' w', within_limits (fb_lower (uf_fb U)) (fb_upper (uf_fb U)) [v'; w'] ->
       Rabs (v - fst (uni_command U px py th)) <= Rabs (v' - fst (uni_command U px py th)) /\
       Rabs (w - snd (uni_command U px py th)) <= Rabs (w' - snd (uni_command U px py th))) /\
    (0 < fst (uni_command U px py th) -> (forall b r, fb_upper (uf_fb U) = Fin b :: r -> 0 < b) -> 0 < v).
Proof. exact uni_input. Qed.
Print Assumptions C62_input.
(** At the origin the car is at rest. *)
Theorem C62_origin : forall U, uni_built U -> exists w, uni_u U [0; 0; 0] = Some [0; w] /\
  (within_limits (fb_lower (uf_fb U)) (fb_upper (uf_fb U)) [0; 0] -> w = 0).
Proof. exact uni_origin. Qed.
Print Assumptions C62_origin.
(** For network controllers: the program holds exactly for the steps of the closed
    loop from states in the box.  Missing: linear controllers, see C62_linear_refuted. *)
Theorem C62_exact_partial : forall solve, solver_ok solve -> forall U Tf st N, uni_built U ->
  fb_ctl (uf_fb U) = CtlNet N -> forward_contract st (fb_fwd (uf_fb U)) Tf ->
  vle (f_lo (fb_fwd (uf_fb U))) (f_up (fb_fwd (uf_fb U))) ->
  system_contract 3 st (uni_add solve U) (uni_next U Tf).
Proof. exact uni_loop_contract. Qed.
Print Assumptions C62_exact_partial.
(** It can be built whenever the control at some state of the box is admissible. *)
Theorem C62_total_partial : forall solve, solver_ok solve -> solver_total solve ->
  forall U st P x0 u0, uni_built U ->
  forward_total P (fb_fwd (uf_fb U)) -> vle (f_lo (fb_fwd (uf_fb U))) (f_up (fb_fwd (uf_fb U))) ->
  in_box (f_lo (fb_fwd (uf_fb U))) (f_up (fb_fwd (uf_fb U))) x0 -> uni_u U x0 = Some u0 -> P u0 ->
  is_net (fb_ctl (uf_fb U)) -> system_total 3 st (uni_add solve U).
Proof. exact uni_total. Qed.
Print Assumptions C62_total_partial.
(** The documentation says that the velocity is strictly positive around the origin.
    It is not: the network can cancel the additional term. *)
Theorem C62_moves_refuted : forall solve, uni_built (uni_brake solve) /\
  ~ uni_moves_near_origin (uni_brake solve).
Proof. exact uni_positive_refuted. Qed.
Print Assumptions C62_moves_refuted.
(** With a linear controller the program is written but leaves the additional term
    of compute_u out. *)
Theorem C62_linear_refuted : forall st,
  uni_built (uni_lin ideal_solve) /\ system_total 3 st (uni_add ideal_solve (uni_lin ideal_solve)) /\
  ~ system_contract 3 st (uni_add ideal_solve (uni_lin ideal_solve))
      (uni_next (uni_lin ideal_solve) (ctl_next uni_plant)).
Proof. exact uni_linear_refuted. Qed.
Print Assumptions C62_linear_refuted.

(** A car with a network that brakes on one side. *)
Example C62_case : uni_built (uni_brake ideal_solve) /\
  (forall st, system_total 3 st (uni_add ideal_solve (uni_brake ideal_solve))) /\
  (forall st, system_contract 3 st (uni_add ideal_solve (uni_brake ideal_solve))
     (uni_next (uni_brake ideal_solve) (ctl_next uni_plant))).
Proof. exact (conj (uni_brake_built ideal_solve) (conj uni_case_total uni_case_contract)). Qed.
