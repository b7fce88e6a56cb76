(** Model of ModelBounds — /repo/neural_network_lyapunov/model_bounds.py lines 9-148.

    The module it imports for ValueFunction is not part of the repository, so what traj_opt_constraint returns is an
    argument: a program over an initial state, continuous variables s and binaries alpha. *)

Require Import Reals List Arith.
Require Import Verif.Vec Verif.ModelMip Verif.ModelNet.
Import ListNotations.
Open Scope R_scope.

(** The tuple unpacked at 59-60, with the numbers of columns (65-67). *)
Record traj_opt := mkTraj {
  tj_x : nat; tj_s : nat; tj_a : nat;
  tj_Ain1 : mat; tj_Ain2 : mat; tj_Ain3 : mat; tj_rhs_in : vec;
  tj_Aeq1 : mat; tj_Aeq2 : mat; tj_Aeq3 : mat; tj_rhs_eq : vec;
  tj_Q1 : mat; tj_Q2 : mat; tj_Q3 : mat; tj_q1 : vec; tj_q2 : vec; tj_q3 : vec; tj_c : R }.
(** The constructor (19-24). *)
Record model_bounds := mkBounds { mb_traj : traj_opt; mb_net : network }.
(** The tuple returned at 148; [ep_k] is the one entry of k. *)
Record eps_prog := mkEps {
  ep_Q0 : mat; ep_Q1 : mat; ep_Q2 : mat; ep_q0 : vec; ep_q1 : vec; ep_q2 : vec; ep_k : R;
  ep_G0 : mat; ep_G1 : mat; ep_G2 : mat; ep_h : vec; ep_A0 : mat; ep_A1 : mat; ep_A2 : mat; ep_b : vec }.

(** Rows of zeros of width [w] with a block written from column [off]. *)
Definition in_columns (w off : nat) (A : mat) : mat := map (fun r => splice off r (zeros w)) A.
(** squeeze() of a right hand side, to be concatenated: one entry alone becomes a scalar, which torch.cat refuses. *)
Definition squeezed (v : vec) : option vec := match v with [_] => None | _ => Some v end.

(** epsilon_opt (26-148).  Interval arithmetic asks no solver.  The argument [model] is not used.  An output
    layer of other than one unit does not fit into q1 (141). *)
Definition epsilon_opt (mb : model_bounds) (model : network) (x_lo x_up : vec) : option eps_prog :=
  let T := mb_traj mb in
  match output_constraint (fun _ => GOther) IA (mb_net mb) x_lo x_up with
  | None => None
  | Some (c, _, _) =>
      if negb (Nat.eqb (nin c) (tj_x T)) then None else
      match Ain_input c, Ain_slack c, Ain_binary c, rhs_in c, Aeq_input c, Aeq_slack c, Aeq_binary c, rhs_eq c with
      | Some P1, Some P2, Some P3, Some pin, Some E1, Some E2, Some E3, Some peq =>
          match Aout_slack c, Cout c, squeezed pin, squeezed peq with
          | Some [w], Some [k], Some pin, Some peq =>
              let nx := tj_x T in
              let ny := (tj_s T + nsl c)%nat in
              let ng := (tj_a T + nbin c)%nat in
              Some (mkEps
                (tj_Q1 T)
                (in_columns ny 0 (tj_Q2 T) ++ zerom (nsl c) ny)
                (in_columns ng 0 (tj_Q3 T) ++ zerom (nbin c) ng)
                (tj_q1 T)
                (splice (tj_s T) (vneg w) (splice 0 (tj_q2 T) (zeros ny)))
                (splice 0 (tj_q3 T) (zeros ng))
                (tj_c T - k)
                (tj_Ain1 T ++ P1 ++ eye nx ++ eyek nx (-1))
                (in_columns ny 0 (tj_Ain2 T) ++ in_columns ny (tj_s T) P2 ++ zerom (nx + nx) ny)
                (in_columns ng 0 (tj_Ain3 T) ++ in_columns ng (tj_a T) P3 ++ zerom (nx + nx) ng)
                (tj_rhs_in T ++ pin ++ x_up ++ vneg x_lo)
                (tj_Aeq1 T ++ E1)
                (in_columns ny 0 (tj_Aeq2 T) ++ in_columns ny (tj_s T) E2)
                (in_columns ng 0 (tj_Aeq3 T) ++ in_columns ng (tj_a T) E3)
                (tj_rhs_eq T ++ peq))
          | _, _, _, _ => None
          end
      | _, _, _, _, _, _, _, _ => None
      end
  end.
