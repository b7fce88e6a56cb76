(** The optimal control problem, the program that is returned, and the optimal cost-to-go. *)

Require Import Reals List.
Require Import Verif.Vec Verif.SpecMip Verif.ModelNet Verif.SpecNet Verif.ModelValueBound.
Import ListNotations.
Open Scope R_scope.

(** The matrices have the shapes the tuple promises. *)
Definition traj_wf (T : traj_opt) : Prop :=
  let m := length (tj_rhs_in T) in
  let p := length (tj_rhs_eq T) in
  wfm m (tj_x T) (tj_Ain1 T) /\ wfm m (tj_s T) (tj_Ain2 T) /\ wfm m (tj_a T) (tj_Ain3 T) /\
  wfm p (tj_x T) (tj_Aeq1 T) /\ wfm p (tj_s T) (tj_Aeq2 T) /\ wfm p (tj_a T) (tj_Aeq3 T) /\
  wfm (tj_x T) (tj_x T) (tj_Q1 T) /\ wfm (tj_s T) (tj_s T) (tj_Q2 T) /\ wfm (tj_a T) (tj_a T) (tj_Q3 T) /\
  length (tj_q1 T) = tj_x T /\ length (tj_q2 T) = tj_s T /\ length (tj_q3 T) = tj_a T.

(** A plan [s], [a] from the state [x], and what it costs. *)
Definition plan (T : traj_opt) (x s a : vec) : Prop :=
  length x = tj_x T /\ length s = tj_s T /\ length a = tj_a T /\ bins a /\
  vle (vadd (vadd (mv (tj_Ain1 T) x) (mv (tj_Ain2 T) s)) (mv (tj_Ain3 T) a)) (tj_rhs_in T) /\
  vadd (vadd (mv (tj_Aeq1 T) x) (mv (tj_Aeq2 T) s)) (mv (tj_Aeq3 T) a) = tj_rhs_eq T.
Definition quad (Q : mat) (v : vec) : R := / 2 * dot v (mv Q v).
Definition plan_cost (T : traj_opt) (x s a : vec) : R :=
  quad (tj_Q1 T) x + quad (tj_Q2 T) s + quad (tj_Q3 T) a + dot x (tj_q1 T) + dot s (tj_q2 T) + dot a (tj_q3 T) + tj_c T.
(** [v] is the optimal cost-to-go of [x]. *)
Definition cost_to_go (T : traj_opt) (x : vec) (v : R) : Prop :=
  (exists s a, plan T x s a /\ plan_cost T x s a = v) /\ forall s a, plan T x s a -> v <= plan_cost T x s a.

(** The program as the documentation of epsilon_opt writes it. *)
Definition eps_feasible (P : eps_prog) (x y g : vec) : Prop :=
  length x = length (ep_q0 P) /\ length y = length (ep_q1 P) /\ length g = length (ep_q2 P) /\ bins g /\
  vle (vadd (vadd (mv (ep_G0 P) x) (mv (ep_G1 P) y)) (mv (ep_G2 P) g)) (ep_h P) /\
  vadd (vadd (mv (ep_A0 P) x) (mv (ep_A1 P) y)) (mv (ep_A2 P) g) = ep_b P.
Definition eps_cost (P : eps_prog) (x y g : vec) : R :=
  quad (ep_Q0 P) x + quad (ep_Q1 P) y + quad (ep_Q2 P) g + dot x (ep_q0 P) + dot y (ep_q1 P) + dot g (ep_q2 P) + ep_k P.
(** Its minimum with [x] fixed, and with [x] free. *)
Definition eps_at (P : eps_prog) (x : vec) (v : R) : Prop :=
  (exists y g, eps_feasible P x y g /\ eps_cost P x y g = v) /\ forall y g, eps_feasible P x y g -> v <= eps_cost P x y g.
Definition eps_min (P : eps_prog) (v : R) : Prop :=
  (exists x y g, eps_feasible P x y g /\ eps_cost P x y g = v) /\ forall x y g, eps_feasible P x y g -> v <= eps_cost P x y g.
(** The value the network gives a state. *)
Definition eta (N : network) (x : vec) : R := nth 0 (net_eval N x) 0.
