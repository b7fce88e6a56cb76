(** Model of neural_network_lyapunov/barrier.py and of the barrier sample losses
    of train_lyapunov_barrier.py.

    [None] is a raised exception; [meth], [N], [n], [x_lo], [x_up] are
    network_bound_propagate_method, barrier_relu, system.x_dim, x_lo_all and
    x_up_all.  dtypes, variable names and the bound objects that are only passed
    through are left out. *)

Require Import Reals List Bool Arith.
Require Import Verif.Vec Verif.ModelMip Verif.ModelUtils Verif.ModelGrad Verif.ModelNet Verif.ModelLyapunov.
Import ListNotations.
Open Scope R_scope.

Section Barrier.
Variable N : network.

(** Barrier.value — lines 60-70, one state; the assertion c > 0. *)
Definition barrier_value (x x_star : vec) (c : R) : option R :=
  if Rltb 0 c then
    match scalar (forward N x), scalar (forward N x_star) with
    | Some a, Some b => Some (a - b + c)
    | _, _ => None
    end
  else None.

(** DiscreteTimeBarrier.derivative — lines 148-155; [x_next] is
    system.step_forward(x). *)
Definition barrier_derivative (x x_next x_star : vec) (c eps : R) : option R :=
  match barrier_value x_next x_star c, barrier_value x x_star c with
  | Some a, Some b => Some (- a + (1 - eps) * b)
  | _, _ => None
  end.

(** derivative_loss_at_samples_and_next_states — lines 212-235. *)
Definition barrier_derivative_loss (x_star : vec) (c eps : R) (samples next : list vec)
           (margin : R) (red : reduction) : option R :=
  if negb (Nat.eqb (length samples) (length next)) then None else
  match traverse (fun x => barrier_value x x_star c) next,
        traverse (fun x => barrier_value x x_star c) samples with
  | Some vn, Some v =>
      loss_reduction (map2 (fun a b => hinge margin (- (- a + (1 - eps) * b))) vn v) red
  | _, _ => None
  end.

(** The three parts of barrier_sample_loss — train_lyapunov_barrier.py:275-322.
    [next] is system.step_forward of the samples. *)
Definition weighted (w : R) (samples : list vec) (loss : option R) : option R :=
  if Req_EM_T w 0 then Some 0
  else match samples with [] => Some 0 | _ => match loss with Some l => Some (w * l) | None => None end end.
Definition safe_sample_loss (x_star : vec) (c w : R) (samples : list vec) (red : reduction)
  : option R :=
  weighted w samples
    (match traverse (fun x => barrier_value x x_star c) samples with
     | Some v => loss_reduction (map (fun a => Rmax (- a) 0) v) red
     | None => None
     end).
Definition unsafe_sample_loss (x_star : vec) (c w : R) (samples : list vec) (red : reduction)
  : option R :=
  weighted w samples
    (match traverse (fun x => barrier_value x x_star c) samples with
     | Some v => loss_reduction (map (fun a => Rmax a 0) v) red
     | None => None
     end).
Definition derivative_sample_loss (x_star : vec) (c eps w : R) (samples next : list vec)
           (red : reduction) : option R :=
  weighted w samples (barrier_derivative_loss x_star c eps samples next 0 red).

Variable solve : mip -> gresult.
Variable meth : method.
Variable n : nat.
Variables x_lo x_up : vec.

(** Aout_slack.squeeze(0): the only row (out_features = 1 is asserted). *)
Definition only_row (A : option mat) : option vec :=
  match A with Some [r] => Some r | _ => None end.
(** output_constraint followed by add_mixed_integer_linear_constraints and the
    affine output phi = a . slack + b — lines 109-128, 178-199. *)
Definition add_barrier_output (xv : list nat) (vt : vtype) (m : mip) : option (mip * relu_ret) :=
  match output_constraint solve meth N x_lo x_up with
  | None => None
  | Some (c, B, _) =>
      let '(m', z, beta) := add_mic c xv None NewBinary vt m in
      match only_row (Aout_slack c), squeeze_const (Cout c) with
      | Some a, Some b => Some (m', mkRet z beta a b B)
      | _, _ => None
      end
  end.

(** value_as_milp — lines 70-141: the program and x. *)
Definition barrier_value_milp (x_star : vec) (c : R) (region : mic) (safe : bool)
  : option (mip * list nat) :=
  let '(m0, xv) := addVars (repeat (NInf, PInf) n) VCont init_mip in
  let '(m1, _, _) := add_mic region xv None NewBinary VBin m0 in
  match add_barrier_output xv VBin m1, scalar (forward N x_star) with
  | Some (m2, rr), Some phi_star =>
      let k := ret_b rr - phi_star + c in
      match setObjective [if safe then vneg (ret_a rr) else ret_a rr] [ret_z rr]
                         (if safe then k * -1 else k) true m2 with
      | Some m3 => Some (m3, xv)
      | None => None
      end
  | _, _ => None
  end.

(** dynamic_system._add_system_constraint, see ModelSystems. *)
Variable add_system : list nat -> list nat -> vtype -> mip -> option mip.

(** derivative_as_milp — lines 157-210: the program, x and x_next. *)
Definition barrier_derivative_milp (x_star : vec) (c eps : R) (vt : vtype)
  : option (mip * list nat * list nat) :=
  let '(m0, xv) := addVars (repeat (NInf, PInf) n) VCont init_mip in
  let '(m1, xn) := addVars (repeat (NInf, PInf) n) VCont m0 in
  match add_system xv xn vt m1 with
  | None => None
  | Some m2 =>
  match add_barrier_output xv vt m2 with
  | None => None
  | Some (m3, rr) =>
  match add_barrier_output xn vt m3 with
  | None => None
  | Some (m4, rn) =>
  match scalar (forward N x_star) with
  | None => None
  | Some phi_star =>
      match setObjective [vscale (1 - eps) (ret_a rr); vneg (ret_a rr)] [ret_z rr; ret_z rn]
                         (eps * (- ret_b rr + phi_star - c)) true m4 with
      | None => None
      | Some m5 => Some (m5, xv, xn)
      end
  end end end end.
End Barrier.
