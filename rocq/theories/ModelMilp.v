(** Model of the objective reconstruction of
    /repo/neural_network_lyapunov/gurobi_torch_mip.py:958-1343. *)

Require Import Reals List Bool.
Require Import Verif.Vec Verif.ModelMip.
Import ListNotations.
Open Scope R_scope.

(** The coefficient of variable [v] in the objective: the entry of c_r/c_zeta
    written at 1107/1114 of GurobiTorchMILP.setObjective (every variable occurs
    at most once, duplicates raise). *)
Definition obj_coeff (m : mip) (v : nat) : R :=
  vsum (map fst (filter (fun t => Nat.eqb (snd t) v) (obj_terms m))).
(** c_r, c_zeta.  Python sizes them when setObjective is called; variables
    created later would make the product at 1136 raise, here they get
    coefficient 0. *)
Definition c_r (m : mip) : vec := map (obj_coeff m) (r_ m).
Definition c_zeta (m : mip) : vec := map (obj_coeff m) (zeta_ m).

Definition madd (A B : mat) : mat := map2 vadd A B.

(** Oracles: [inverse] is torch.inverse (None = it raises), [ill] is the test
    np.linalg.cond(.) > 1e15. *)
Section Objective.
Variable inverse : mat -> option mat.
Variable ill : mat -> bool.

(** GurobiTorchMILP.compute_objective_from_mip_data — lines 1116-1139.  Python
    groups c_r @ inv @ A.T @ b from the left; over the reals the grouping does
    not matter. *)
Definition milp_objective (m : mip) (active : list nat) (zeta_sol : vec)
           (penalty : R) : option R :=
  let n := length (r_ m) in
  let '(A, b) := get_active_constraints m active zeta_sol in
  let At := transpose n A in
  let AtA := mm n At A in
  let p := if ill AtA then / 10 ^ 10 else penalty in
  match inverse (madd AtA (eyek n p)) with
  | None => None
  | Some G => Some (dot (c_r m) (mv G (mv At b)) + dot (c_zeta m) zeta_sol
                    + obj_const m)
  end.

(** np.abs(lhs_in - rhs_in) < tol — lines 1011-1014 (and 951-955). *)
Definition active_rows (m : mip) (r_sol zeta_sol : vec) (tol : R) : list nat :=
  let '(Ar, Az, b) := get_inequality_constraints m in
  let d := vsub (vadd (mv Ar r_sol) (mv Az zeta_sol)) b in
  filter (fun i => Rltb (Rabs (nth i d 0)) tol) (seq 0 (length b)).

(** The loop of compute_objective_from_mip_data_and_solution — lines
    1009-1033; [n] is the number of trials left.  None is the exception
    IncorrectActiveConstraint (or a failing inverse). *)
Fixpoint match_loop (n : nat) (m : mip) (r_sol zeta_sol : vec) (pool : R)
         (tol penalty objective_tol : R) : option R :=
  match milp_objective m (active_rows m r_sol zeta_sol tol) zeta_sol penalty with
  | None => None
  | Some obj =>
      if Rltb objective_tol (Rabs (obj - pool)) then
        match n with
        | O => None
        | S n' => match_loop n' m r_sol zeta_sol pool (tol + tol) penalty
                             objective_tol
        end
      else Some obj
  end.
(** compute_objective_from_mip_data_and_solution — lines 958-1033, once the
    asserts passed: [r_sol] are the values var.xn, [zeta_sol] the rounded
    binaries and [pool] is PoolObjVal of the selected solution. *)
Definition objective_from_solution (m : mip) (r_sol zeta_sol : vec) (pool : R)
           (tol penalty objective_tol : R) : option R :=
  match_loop 9 m r_sol zeta_sol pool tol penalty objective_tol.

(** GurobiTorchMIQP.compute_objective_from_mip_data — lines 1298-1343, on the
    data Q_r, Q_zeta, Q_rzeta, c_r, c_zeta, c_constant and the pair A_act,
    b_act of get_active_constraints; [n] = len(self.r). *)
Definition kkt_matrix (n : nat) (Qr A : mat) (b : vec) (penalty : R) : mat :=
  hcat (madd (map (vscale 2) Qr) (eyek n penalty)) (transpose n A)
  ++ hcat A (eyek (length b) penalty).
Definition miqp_objective (n : nat) (Qr Qz Qrz : mat) (cr cz : vec) (k : R)
           (A : mat) (b zeta_sol : vec) (penalty : R) : option R :=
  match inverse (kkt_matrix n Qr A b penalty) with
  | None => None
  | Some G =>
      let r := firstn n (mv G (vneg cr ++ b)) in
      Some (dot r (mv Qr r) + dot zeta_sol (mv Qz zeta_sol)
            + dot r (mv Qrz zeta_sol) + dot cr r + dot cz zeta_sol + k)
  end.
End Objective.
