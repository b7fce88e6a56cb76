(** feedback_system.py — the strengthening of the constraints of a closed loop,
    and its use by lyapunov.py:865-927. *)

Require Import Reals List.
Require Import Verif.Vec Verif.ModelMip Verif.ModelNet Verif.ModelStrengthen Verif.ModelLyapunov
  Verif.ModelSystems.
Import ListNotations.
Open Scope R_scope.

Section Solver.
Variable solve : mip -> gresult.

(** strengthen_mip_at_point at the values of the variables of a network, with
    the bounds returned with its constraints, and addMConstr of the rows —
    feedback_system.py:404-431 (forward network). *)
Definition nn_cuts (N : network) (r : nn_ret) (sol : nat -> R) (m : mip) : option mip :=
  strengthen_relu_mip_at_solution N (nn_in r) (nn_z r) (nn_be r) (nn_lo r) (nn_up r)
    (b_post_lo (nn_bounds r)) (b_post_up (nn_bounds r)) sol m.
(** strengthen_controller_mip_constraint — lines 302-343: the bounds of the
    state are those of the forward system; the assertion on the type of the
    controller is line 318. *)
Definition controller_cuts (F : feedback) (r : nn_ret) (sol : nat -> R) (m : mip) : option mip :=
  match fb_ctl F with
  | CtlNet N =>
      strengthen_relu_mip_at_solution N (nn_in r) (nn_z r) (nn_be r)
        (f_lo (fb_fwd F)) (f_up (fb_fwd F))
        (b_post_lo (nn_bounds r)) (b_post_up (nn_bounds r)) sol m
  | CtlLinear _ => None
  end.
(** strengthen_dynamics_constraint — lines 380-440.  [fwd_net] is
    forward_system.dynamics_relu_free_pattern, None when the attribute does not
    exist. *)
Definition fb_cuts (fwd_net : option network) (F : feedback) (r : fb_ret)
    (sol : nat -> R) (m : mip) : option mip :=
  match (match fr_fwd r with
         | None => Some m
         | Some rf => match fwd_net with
                      | Some N => nn_cuts N rf sol m
                      | None => None
                      end
         end) with
  | None => None
  | Some m1 =>
      match fr_ctl r with
      | None => Some m1
      | Some rc => controller_cuts F rc sol m1
      end
  end.

(** system_constraint_return of the relaxed program: what
    add_dynamics_mip_constraint returned while lyapunov_derivative_as_milp
    (lyapunov.py:575-782) ran.  The call there is made on a program with the two
    state vectors and nothing else; here it is made once more on that program,
    which gives the same value. *)
Definition fb_system_return (F : feedback) : option fb_ret :=
  let n := f_nx (fb_fwd F) in
  let '(m0, xn) := addVars (repeat (NInf, PInf) n) VCont init_mip in
  let '(m1, xv) := addVars (repeat (NInf, PInf) n) VCont m0 in
  match fb_add_ret solve F xv xn VBinRelax m1 with
  | Some (_, r) => Some r
  | None => None
  end.
(** The call of strengthen_dynamics_constraint — lyapunov.py:916-922. *)
Definition fb_sys_cuts (fwd_net : option network) (F : feedback) (sol : nat -> R) (m : mip)
  : option mip :=
  match fb_system_return F with
  | Some r => fb_cuts fwd_net F r sol m
  | None => None
  end.

End Solver.
