(** Model of the continuous-time derivative program of
    /repo/neural_network_lyapunov/continuous_time_lyapunov.py, class
    LyapunovContinuousTimeSystem (lines 17-243).

    [None] is a raised exception.  Variable names, dtype/device handling and the
    unused argument x_warmstart are left out.  The argument binary_var_type has
    its default BINARY: [VBin] throughout.  [meth] is
    self.network_bound_propagate_method, [N] is self.lyapunov_relu (the network of
    lyapunov_relu_free_pattern), [n], [x_lo], [x_up] are system.x_dim, x_lo_all,
    x_up_all. *)

Require Import Reals List Bool Arith.
Require Import Verif.Vec Verif.ModelMip Verif.ModelUtils Verif.ModelGrad Verif.ModelNet
  Verif.ModelPattern Verif.ModelLyapunov.
Import ListNotations.
Open Scope R_scope.

(** torch.sum(R, dim=0) of a matrix with n columns — line 242. *)
Definition colsum (n : nat) (M : mat) : vec := fold_right vadd (zeros n) M.

(** The loop of _add_dl1dx_times_xdot — lines 223-236, one row of R per turn;
    [lb], [ub], [ts], [als] are the remaining entries of Rxdot_lb, Rxdot_ub,
    dl1dx_times_xdot_slack and l1_binary. *)
Fixpoint dl1_loop (M : mat) (lb ub : vec) (ts als xd : list nat) (m : mip) : option mip :=
  match M, lb, ub, ts, als with
  | [], [], [], [], _ => Some m
  | r :: M', l :: lb', u :: ub', t :: ts', al :: als' =>
      match replace_binary_continuous_product l u with
      | None => None
      | Some rw =>
          dl1_loop M' lb' ub' ts' als' xd
            (addMConstr [outer (rw_x rw) r; col (rw_y rw); col (rw_b rw)]
                        [xd; [t]; [al]] SLe (rw_rhs rw) m)
      end
  | _, _, _, _, _ => None
  end.

(** The named tuple returned by lyapunov_derivative_as_milp — lines 184-193;
    relu_binary is [ret_beta]. *)
Record cderiv := mkCD { cd_mip : mip; cd_x : list nat; cd_xdot : list nat;
                        cd_relu : relu_ret; cd_l1 : list nat }.

Section Continuous.
Variable solve : mip -> gresult.
Variable meth : method.
Variable N : network.
Variable n : nat.
Variables x_lo x_up : vec.
(** dynamic_system._add_system_constraint: the program, and the pair
    (x_next_lb_IA, x_next_ub_IA) of the returned object when it has one. *)
Variable add_system : list nat -> list nat -> vtype -> mip -> option (mip * option (vec * vec)).
(** What the LP and MIP methods obtain by optimising over x_next_bound_prog:
    the bounds of _compute_Wz_bounds_optimization (lines 140-153) and the bounds
    of R xdot (lines 206-221).  An argument here; ModelOptBounds has the
    function that is passed.  [None] is an exception. *)
Variable opt_bounds : mat -> option (wzb * (vec * vec)).

(** The bounds used for the two products — lines 128-155 and 200-221. *)
Definition product_bounds (M : mat) (ia : option (vec * vec)) : option (wzb * (vec * vec)) :=
  match meth with
  | IA =>
      match ia with
      | None => None
      | Some (lo, up) =>
          match compute_Wz_bounds_IA N lo up,
                compute_range_by_IA n M (zeros (length M)) lo up with
          | Some B, Some r => Some (B, r)
          | _, _ => None
          end
      end
  | LP | MIP => opt_bounds M
  | IA_MIP => None
  end.

(** lyapunov_derivative_as_milp — lines 67-193.  The two rows that bound V
    (lines 117-126) are those of add_lyapunov_bounds_constraint. *)
Definition continuous_milp (xeq : vec) (lam eps : R) (et : eps_type) (R0 : option mat)
           (lower upper : option R) : option cderiv :=
  match et with
  | ExpLower =>
  match get_R n R0 with
  | None => None
  | Some M =>
      let '(m0, xv) := addVars (repeat (NInf, PInf) n) VCont init_mip in
      let '(m1, xd) := addVars (repeat (NInf, PInf) n) VCont m0 in
      match add_system xv xd VBin m1 with
      | None => None
      | Some (m2, ia) =>
      match add_relu_output solve meth N x_lo x_up xv VBin m2 with
      | None => None
      | Some (m3, rr) =>
      match add_state_error n x_lo x_up false xeq (Some M) xv VBin m3 with
      | None => None
      | Some (m4, s, al) =>
      match scalar (forward N xeq) with
      | None => None
      | Some phi_eq =>
      match add_value_bounds lower upper (ret_a rr) (ret_b rr) lam (ret_z rr) phi_eq s m4 with
      | None => None
      | Some m5 =>
      match product_bounds M ia with
      | None => None
      | Some (B, (lb, ub)) =>
      match output_gradient_times_vector_w_bounds N B with
      | None => None
      | Some c =>
      let '(m6, gs, _) := add_mic c xd None (GivenBinary (ret_beta rr)) VBin m5 in
      let '(m7, ts) := addVars (repeat (NInf, PInf) (length M)) VCont m6 in
      match dl1_loop M lb ub ts (concat al) xd m7, Aout_slack c with
      | Some m8, Some A =>
          match setObjective
                  [vscale eps (ret_a rr); repeat (eps * lam) (length M); concat A;
                   repeat (2 * lam) (length M) ++ vscale (- lam) (colsum n M)]
                  [ret_z rr; s; gs; ts ++ xd] (eps * (ret_b rr - phi_eq)) true m8 with
          | None => None
          | Some m9 => Some (mkCD m9 xv xd rr (concat al))
          end
      | _, _ => None
      end
      end end end end end end end
  end
  | _ => None
  end.

End Continuous.
