(** C54: conditions at vertices hold on whole cells. *)

Require Import Reals List.
Require Import Verif.Vec Verif.SpecCore Verif.ModelPwl Verif.SpecPwl Verif.ProofPwl Verif.ProofPwlEx.
Import ListNotations.
Open Scope R_scope.

(** After any history of successful calls the vertex constraints say exactly that the conditions hold on
    the whole hulls, up to the slacks. *)
Theorem C54_exact : forall x_dim modes eps1 eps2 xstar eq_mode o0 calls o v,
  (0 < x_dim)%nat -> pwl_init x_dim modes eps1 eps2 xstar eq_mode = PwlOk o0 -> pwl_run o0 calls = PwlOk o -> lp_shaped o v ->
  (Forall (fun k => k v) (pwl_constraints o) <->
   0 <= lp_s1 v /\ 0 <= lp_s2 v /\ V_of v eq_mode xstar = 0 /\ Forall (call_holds x_dim eps1 eps2 xstar v) calls).
Proof. exact pwl_exact. Qed.
Print Assumptions C54_exact.
Example C54_run_case : exists o0 o, pwl_init 1 2 (/ 2) (/ 2) [0] 0 = PwlOk o0 /\ pwl_run o0 ex_calls = PwlOk o.
Proof. exact ex_run. Qed.

(** Zero violation: V vanishes at the equilibrium, decreases at rate eps2, is positive definite, and agrees
    on the shared faces. *)
Theorem C54_certificate : forall x_dim modes eps1 eps2 xstar eq_mode o0 calls o weight v,
  (0 < x_dim)%nat -> pwl_init x_dim modes eps1 eps2 xstar eq_mode = PwlOk o0 -> pwl_run o0 calls = PwlOk o ->
  0 < weight -> weight < 1 -> lp_feasible o v -> pwl_cost weight v = 0 ->
  V_of v eq_mode xstar = 0 /\
  (forall m vs A g, In (Derivative m vs A g) calls -> forall x, in_hull x_dim vs x ->
     dot (c_of v m) (vadd (mv A x) g) <= - eps2 * V_of v m x) /\
  (forall m vs sign, In (Positivity m vs sign) calls -> forall x, in_hull x_dim vs x ->
     eps1 * norm1 (vsub x xstar) <= V_of v m x /\ (0 < eps1 -> x <> xstar -> 0 < V_of v m x)) /\
  (forall i j us, In (Continuity i j us) calls -> forall x, in_hull x_dim us x -> V_of v i x = V_of v j x).
Proof. exact certificate. Qed.
Print Assumptions C54_certificate.
Example C54_feasible_case : forall o0 o, pwl_init 1 2 (/ 2) (/ 2) [0] 0 = PwlOk o0 -> pwl_run o0 ex_calls = PwlOk o ->
  lp_feasible o ex_v /\ pwl_cost (/ 2) ex_v = 0.
Proof. exact ex_feasible. Qed.

(** The optimal cost is zero exactly when some function meets every condition without slack. *)
Theorem C54_zero_iff : forall x_dim modes eps1 eps2 xstar eq_mode o0 calls o weight v,
  (0 < x_dim)%nat -> pwl_init x_dim modes eps1 eps2 xstar eq_mode = PwlOk o0 -> pwl_run o0 calls = PwlOk o ->
  0 < weight -> weight < 1 -> lp_optimal o weight v ->
  (pwl_cost weight v = 0 <->
   exists v', lp_shaped o v' /\ lp_s1 v' = 0 /\ lp_s2 v' = 0 /\ V_of v' eq_mode xstar = 0 /\
     Forall (call_holds x_dim eps1 eps2 xstar v') calls).
Proof. exact zero_iff. Qed.
Print Assumptions C54_zero_iff.

(** Along every trajectory through the cells, switching on shared faces, V decays exponentially, and with it
    the distance to the equilibrium. *)
Theorem C54_decay : forall x_dim modes eps1 eps2 xstar eq_mode o0 calls o weight v phi a b i j,
  (0 < x_dim)%nat -> pwl_init x_dim modes eps1 eps2 xstar eq_mode = PwlOk o0 -> pwl_run o0 calls = PwlOk o ->
  0 < weight -> weight < 1 -> lp_feasible o v -> pwl_cost weight v = 0 ->
  passes x_dim calls phi a b i j ->
  V_of v j (phi b) <= V_of v i (phi a) * exp (- eps2 * (b - a)).
Proof. exact decay. Qed.
Print Assumptions C54_decay.
Theorem C54_convergence : forall x_dim modes eps1 eps2 xstar eq_mode o0 calls o weight v phi a b i j vs sign,
  (0 < x_dim)%nat -> pwl_init x_dim modes eps1 eps2 xstar eq_mode = PwlOk o0 -> pwl_run o0 calls = PwlOk o ->
  0 < weight -> weight < 1 -> lp_feasible o v -> pwl_cost weight v = 0 ->
  passes x_dim calls phi a b i j -> In (Positivity j vs sign) calls -> in_hull x_dim vs (phi b) ->
  eps1 * norm1 (vsub (phi b) xstar) <= V_of v i (phi a) * exp (- eps2 * (b - a)).
Proof. exact converges. Qed.
Print Assumptions C54_convergence.
Example C54_passes_case : passes 1 ex_calls ex_phi 0 (ln 4) 1 0.
Proof. exact ex_passes. Qed.

(** The continuity call raises unless the number of common vertices is x_dim, or one of the two is 1. *)
Theorem C54_continuity_raises : forall o i j vs,
  has_cols (pwl_x_dim o) vs = true -> (i < pwl_modes o)%nat -> (j < pwl_modes o)%nat ->
  (add_continuity o i j vs = PwlShapeError <->
   length vs <> pwl_x_dim o /\ length vs <> 1%nat /\ pwl_x_dim o <> 1%nat).
Proof. exact continuity_shape. Qed.
Print Assumptions C54_continuity_raises.
Theorem C54_continuity_refuted : exists x_dim modes eps1 eps2 xstar eq_mode o0 i j vs,
  pwl_init x_dim modes eps1 eps2 xstar eq_mode = PwlOk o0 /\
  Forall (fun u => length u = x_dim) vs /\ (i < modes)%nat /\ (j < modes)%nat /\
  (forall o, add_continuity o0 i j vs <> PwlOk o) /\ add_continuity o0 i j vs = PwlShapeError.
Proof. exact square_refused. Qed.
Print Assumptions C54_continuity_refuted.
