(** Model of the bounds that the LP and MIP methods compute for the
    continuous-time derivative program by optimising over a separate program:
    _compute_Wz_bounds_optimization
    (/repo/neural_network_lyapunov/relu_to_optimization.py:1210-1328) and its
    caller LyapunovContinuousTimeSystem (continuous_time_lyapunov.py:135-153,
    206-221), with the separate program x_next_bound_prog of the autonomous ReLU
    systems (relu_system.py:74-92) and of the closed loops around the
    continuous-time plants of the examples (relu_system.py:1033-1052,
    feedback_system.py:191-208, 276-291).

    [None] is a raised exception: a failed assert on the status (1248-1312), or
    reading ObjVal when there is no optimum (continuous_time_lyapunov.py:214,
    220).  A solver that stops early with an incumbent, so that ObjVal can be
    read without an optimum, is not modelled. *)

Require Import Reals List Bool Arith.
Require Import Verif.Vec Verif.ModelMip Verif.ModelUtils Verif.ModelNet Verif.ModelPattern
  Verif.ModelGrad Verif.ModelLyapunov Verif.ModelSystems Verif.ModelContSys.
Import ListNotations.
Open Scope R_scope.

(** ** Methods of the Gurobi model itself (the torch side is not touched) *)

(** prog.setObjective(LinExpr, sense). *)
Definition g_objective (ts : list (R * nat)) (mx : bool) (m : mip) : mip :=
  mkMip (gvars m) (grows m) (r_ m) (zeta_ m) (Ain_r m) (Ain_zeta m) (rhs_in_ m)
        (Aeq_r m) (Aeq_zeta m) (rhs_eq_ m) ts 0 mx.
(** prog.addVar(lb=-inf) and prog.addMConstr(.., LESS_EQUAL, ..). *)
Definition g_unit (rows : list grow) (m : mip) : mip :=
  mkMip (gvars m ++ [mkVar false NInf PInf]) (grows m ++ rows)
        (r_ m) (zeta_ m) (Ain_r m) (Ain_zeta m) (rhs_in_ m)
        (Aeq_r m) (Aeq_zeta m) (rhs_eq_ m) (obj_terms m) (obj_const m) (obj_max m).

(** x_next_bound_prog, x_next_bound_var and x_var of the object returned by
    add_dynamics_constraint. *)
Record bound_prog := mkBP { bp_mip : mip; bp_next : list nat; bp_x : list nat }.

Section Solver.
Variable solve : mip -> gresult.

(** Maximise, then minimise a linear expression — lines 1246-1256, 1272-1281,
    1315-1326.  Result: (lower, upper). *)
Definition extremes (ts : list (R * nat)) (m : mip) : option (R * R) :=
  match solve (g_objective ts true m) with
  | GOptimal u => match solve (g_objective ts false m) with
                  | GOptimal l => Some (l, u)
                  | _ => None
                  end
  | _ => None
  end.

(** The bounds of the variables z0 — lines 1243-1256. *)
Fixpoint var_extremes (vs : list nat) (m : mip) : option (vec * vec) :=
  match vs with
  | [] => Some ([], [])
  | v :: vs' =>
      match extremes [(1, v)] m, var_extremes vs' m with
      | Some (l, u), Some (ls, us) => Some (l :: ls, u :: us)
      | _, _ => None
      end
  end.

(** The rows of z_next(j) = ((1 - c) beta + c) W(j, :) z — lines 1286-1312:
    A_relu = hstack(A_pre W(j, :), A_z_next, A_beta). *)
Definition unit_rows (a : act) (w : vec) (l u : R) (zs : list nat) (zn be : nat) : option (list grow) :=
  match grad_unit w a l u with
  | None => None
  | Some r =>
      Some (map2 (fun cs b => mkRow cs SLe b)
              (map2 (fun cz cy => cz ++ cy)
                 (map (fun ws => combine ws zs) (n_x r))
                 (map2 (fun y b => [(y, zn); (b, be)]) (n_y r) (n_b r)))
              (n_rhs r))
  end.

(** The loop over the units j of a layer that is followed by an activation —
    lines 1268-1326.  [bs] are the binaries of the layer,
    beta[relu_unit_index[layer][j]].  Result: the program, the variables z of
    the next layer, their bounds and the bounds of W z. *)
Fixpoint layer_units (a : act) (W : mat) (bs zs : list nat) (m : mip)
  : option (mip * list nat * (vec * vec) * (vec * vec)) :=
  match W, bs with
  | [], [] => Some (m, [], ([], []), ([], []))
  | w :: W', be :: bs' =>
      match extremes (combine w zs) m with
      | None => None
      | Some (l, u) =>
          match unit_rows a w l u zs (nvars m) be with
          | None => None
          | Some rows =>
              let m1 := g_unit rows m in
              match extremes [(1, nvars m)] m1 with
              | None => None
              | Some (zl, zu) =>
                  match layer_units a W' bs' zs m1 with
                  | None => None
                  | Some (m', zn, (zls, zus), (ls, us)) =>
                      Some (m', nvars m :: zn, (zl :: zls, zu :: zus), (l :: ls, u :: us))
                  end
              end
          end
      end
  | _, _ => None
  end.
(** The same loop for the last linear layer — lines 1268-1281. *)
Fixpoint last_units (W : mat) (zs : list nat) (m : mip) : option (vec * vec) :=
  match W with
  | [] => Some ([], [])
  | w :: W' =>
      match extremes (combine w zs) m, last_units W' zs m with
      | Some (l, u), Some (ls, us) => Some (l :: ls, u :: us)
      | _, _ => None
      end
  end.

(** The loop over the linear layers — lines 1258-1327; [lo], [up] are the
    bounds of [zs], [beta] the binaries of the remaining layers. *)
Fixpoint layer_loop (hs : list (linear * act)) (last : linear) (lo up : vec)
         (zs beta : list nat) (m : mip) : option (mip * wzb) :=
  match hs with
  | [] =>
      match last_units (weight last) zs m with
      | None => None
      | Some (p, q) => Some (m, mkWzb [lo] [up] [p] [q])
      end
  | (l, a) :: hs' =>
      match layer_units a (weight l) (firstn (out_features l) beta) zs m with
      | None => None
      | Some (m', zn, (zl, zu), (p, q)) =>
          match layer_loop hs' last zl zu zn (skipn (out_features l) beta) m' with
          | None => None
          | Some (m'', B) =>
              Some (m'', mkWzb (lo :: w_zlo B) (up :: w_zup B) (p :: w_lo B) (q :: w_up B))
          end
      end
  end.
Definition compute_Wz_bounds_optimization (N : network) (z0 beta : list nat) (m : mip)
  : option (mip * wzb) :=
  match var_extremes z0 m with
  | None => None
  | Some (lo, up) => layer_loop (hidden N) (last_layer N) lo up z0 beta m
  end.

(** The bounds of R xdot — continuous_time_lyapunov.py:206-221.  setObjective is
    the method of GurobiTorchMILP. *)
Fixpoint Rxdot_extremes (M : mat) (xd : list nat) (m : mip) : option (vec * vec) :=
  match M with
  | [] => Some ([], [])
  | r :: M' =>
      match setObjective [r] [xd] 0 true m with
      | None => None
      | Some m1 =>
          match solve m1 with
          | GOptimal u =>
              match setObjective [r] [xd] 0 false m1 with
              | None => None
              | Some m2 =>
                  match solve m2 with
                  | GOptimal l =>
                      match Rxdot_extremes M' xd m2 with
                      | None => None
                      | Some (ls, us) => Some (l :: ls, u :: us)
                      end
                  | _ => None
                  end
              end
          | _ => None
          end
      end
  end.

(** What the LP and MIP methods do — continuous_time_lyapunov.py:135-153 and
    206-221.  The constraint of the Lyapunov network is the one returned by
    add_lyap_relu_output_constraint (line 97).  A system that returns no
    x_next_bound_prog raises. *)
Definition optimisation_bounds (meth : method) (N : network) (x_lo x_up : vec) (p : option bound_prog)
    (M : mat) : option (wzb * (vec * vec)) :=
  match p, output_constraint solve meth N x_lo x_up with
  | Some p, Some (c, _, _) =>
      let vt := match meth with LP => VCont | _ => VBin end in
      let '(m, _, beta) := add_mic c (bp_x p) None NewBinary vt (bp_mip p) in
      match compute_Wz_bounds_optimization N (bp_next p) beta m with
      | None => None
      | Some (m', B) =>
          match Rxdot_extremes M (bp_next p) m' with
          | None => None
          | Some r => Some (B, r)
          end
      end
  | _, _ => None
  end.
End Solver.

(** x_next_bound_prog of the autonomous ReLU systems — relu_system.py:74-92;
    [c] is mixed_integer_constraints() of the system, [meth] the method of the
    system. *)
Definition autonomous_bound_prog (n : nat) (meth : method) (c : mic) : option bound_prog :=
  match meth with
  | IA => None
  | _ =>
      let '(m0, xn) := addVars (repeat (NInf, PInf) n) VCont init_mip in
      let '(m1, xv) := addVars (repeat (NInf, PInf) n) VCont m0 in
      let vt := match meth with LP => VCont | _ => VBin end in
      let '(m2, _, _) := add_mic c xv (Some xn) NewBinary vt m1 in
      Some (mkBP m2 xn xv)
  end.

(** The autonomous systems of relu_system.py: add_dynamics_constraint as the
    derivative program uses it (the program and x_next_lb_IA, x_next_ub_IA), and
    its x_next_bound_prog. *)
Definition auto_flow (solve : mip -> gresult) (A : auto_sys) (xv xn : list nat) (vt : vtype) (m : mip)
  : option (mip * option (vec * vec)) :=
  match auto_add_ret solve A xv xn vt m with
  | None => None
  | Some (m', _, b) => Some (m', b)
  end.
Definition auto_bound_prog (solve : mip -> gresult) (A : auto_sys) : option bound_prog :=
  match auto_mic solve A with
  | None => None
  | Some (c, _, _) => autonomous_bound_prog (length (au_lo A)) (au_meth A) c
  end.

(** control_bound_prog: free x and u, with the constraints of the controller
    unless its method is IA — feedback_system.py:191-208 and 276-291.  The
    variables are x, then u. *)
Definition control_bound_prog (solve : mip -> gresult) (F : feedback)
  : option (mip * list nat * list nat) :=
  let '(m0, xv) := addVars (repeat (NInf, PInf) (f_nx (fb_fwd F))) VCont init_mip in
  let '(m1, uv) := addVars (repeat (NInf, PInf) (f_nu (fb_fwd F))) VCont m0 in
  match binary_var_type (fb_meth F) with
  | None => Some (m1, xv, uv)
  | Some vt =>
      match add_controller solve F xv uv vt m1 with
      | Some (m2, _, _) => Some (m2, xv, uv)
      | None => None
      end
  end.
(** x_next_bound_prog of the closed loop — relu_system.py:1033-1052; the input
    bounds given to the constraints of the plant are those of the controller. *)
Definition cp_bound_prog (solve : mip -> gresult) (S : cp_sys) (F : feedback) (ulo uup : vec)
  : option bound_prog :=
  match binary_var_type (cp_meth S) with
  | None => None
  | Some vt =>
      match cp_mic solve S ulo uup, control_bound_prog solve F with
      | Some (c, _, _, _), Some (m2, xv, uv) =>
          let '(m3, xn) := addVars (repeat (NInf, PInf) (cp_nx (cp_kind_ S))) VCont m2 in
          let '(m4, _, _) := add_mic c (xv ++ uv) (Some xn) NewBinary vt m3 in
          Some (mkBP m4 xn xv)
      | _, _ => None
      end
  end.
(** The program that goes with the call in lyapunov_derivative_as_milp
    (continuous_time_lyapunov.py:86-97): the bounds of u are those of the
    controller constraints added there. *)
Definition loop_bound_prog (solve : mip -> gresult) (S : cp_sys) (F : feedback) : option bound_prog :=
  let n := cp_nx (cp_kind_ S) in
  let '(m0, xv) := addVars (repeat (NInf, PInf) n) VCont init_mip in
  let '(m1, _) := addVars (repeat (NInf, PInf) n) VCont m0 in
  let '(m2, uv) := addVars (repeat (NInf, PInf) (f_nu (fb_fwd F))) VCont m1 in
  match add_controller solve F xv uv VBin m2 with
  | Some (_, (ulo, uup), _) => cp_bound_prog solve S F ulo uup
  | None => None
  end.
