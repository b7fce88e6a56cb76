(** Model of /repo/neural_network_lyapunov/lyapunov.py: the Lyapunov function
    V(x) = phi(x) - phi(x_eq) + lambda |R (x - x_eq)|_1, the programs that verify
    positivity and decrease, the sample losses, the strengthening with binaries
    and the region-of-attraction programs of the discrete-time class.

    [None] is a raised exception.  dtype/device handling, variable names, the
    start values written by set_activation_warmstart (modelled in ModelNet) and
    Gurobi parameters are left out: they do not change the constraints.
    [meth] is self.network_bound_propagate_method, [N] is self.lyapunov_relu,
    [n], [x_lo], [x_up] are system.x_dim, x_lo_all, x_up_all. *)

Require Import Reals List Bool Arith.
Require Import Verif.Vec Verif.ModelMip Verif.ModelUtils Verif.ModelGrad Verif.ModelNet
  Verif.ModelPattern Verif.ModelStrengthen.
Import ListNotations.
Open Scope R_scope.

(** _get_R — lyapunov.py:1262-1271. *)
Definition get_R (n : nat) (R : option mat) : option mat :=
  match R with
  | None => Some (eye n)
  | Some M => if forallb (fun r => Nat.eqb (length r) n) M then Some M else None
  end.

(** self.lyapunov_relu.forward(x).squeeze() of a network with one output. *)
Definition forward (N : network) (x : vec) : vec :=
  snd (compute_relu_unit_outputs_and_activation N x).
Definition scalar (v : vec) : option R :=
  match v with [a] => Some a | _ => None end.

(** torch.norm(., p=1). *)
Definition norm_p1 (x : vec) : R := vsum (map Rabs x).

(** lyapunov_value — lines 160-186 (a single state; a batch is the map of it). *)
Definition lyapunov_value (N : network) (n : nat) (R0 : option mat) (xeq : vec)
           (lam : R) (x : vec) : option R :=
  match get_R n R0, scalar (forward N x), scalar (forward N xeq) with
  | Some M, Some a, Some b => Some (a - b + lam * norm_p1 (mv M (vsub x xeq)))
  | _, _, _ => None
  end.

(** mip_constr_return.Aout_slack.squeeze(): the row of a 1 x M matrix.  With a
    single unit squeeze() gives a 0-dimensional tensor, which raises when it is
    indexed in setObjective/addLConstr. *)
Definition squeeze_row (A : option mat) : option vec :=
  match A with
  | Some [[_]] => None
  | Some [r] => Some r
  | _ => None
  end.
(** mip_constr_return.Cout.squeeze(). *)
Definition squeeze_const (v : option vec) : option R :=
  match v with Some l => scalar l | None => None end.

(** What add_lyap_relu_output_constraint returns (lines 64-90). *)
Record relu_ret := mkRet { ret_z : list nat; ret_beta : list nat;
                           ret_a : vec; ret_b : R; ret_bounds : bounds }.

Inductive eps_type := ExpUpper | ExpLower | Asymp.

Section Lyapunov.
Variable solve : mip -> gresult.
Variable meth : method.
Variable N : network.
Variable n : nat.
Variables x_lo x_up : vec.

(** add_lyap_relu_output_constraint — lines 64-90. *)
Definition add_relu_output (xv : list nat) (vt : vtype) (m : mip)
  : option (mip * relu_ret) :=
  match output_constraint solve meth N x_lo x_up with
  | None => None
  | Some (c, B, _) =>
      let '(m', z, beta) := add_mic c xv None NewBinary vt m in
      match squeeze_row (Aout_slack c), squeeze_const (Cout c) with
      | Some a, Some b => Some (m', mkRet z beta a b B)
      | _, _ => None
      end
  end.

(** The loop of add_state_error_l1_constraint — lines 136-157, one row of R per
    turn; [ls], [us] are the remaining entries of Rx_lb, Rx_ub. *)
Fixpoint l1_loop (bz : bool) (xeq : vec) (M : mat) (ls us : vec)
         (xv : list nat) (vt : vtype) (m : mip)
  : option (mip * list nat * list (list nat)) :=
  match M, ls, us with
  | [], [], [] => Some (m, [], [])
  | r :: M', l :: ls', u :: us' =>
      match abs_mic l u bz with
      | None => None
      | Some c =>
          match transform_input n [r] [- dot r xeq] c with
          | None => None
          | Some c' =>
              let '(m', s_i, alpha_i) := add_mic c' xv None NewBinary vt m in
              match s_i with
              | [s0] =>
                  match l1_loop bz xeq M' ls' us' xv vt m' with
                  | Some (m'', s, alpha) => Some (m'', s0 :: s, alpha_i :: alpha)
                  | None => None
                  end
              | _ => None
              end
          end
      end
  | _, _, _ => None
  end.

(** add_state_error_l1_constraint — lines 92-158. *)
Definition add_state_error (bz : bool) (xeq : vec) (R0 : option mat)
           (xv : list nat) (vt : vtype) (m : mip)
  : option (mip * list nat * list (list nat)) :=
  if negb (vleb x_lo xeq && vleb xeq x_up)%bool then None
  else match get_R n R0 with
       | None => None
       | Some M =>
           if negb (Nat.leb n (length M)) then None
           else match compute_range_by_IA n M (vneg (mv M xeq)) x_lo x_up with
                | None => None
                | Some (lb, ub) => l1_loop bz xeq M lb ub xv vt m
                end
       end.

(** lyapunov_positivity_as_milp — lines 223-303: the program and x. *)
Definition positivity_milp (xeq : vec) (lam eps : R) (R0 : option mat)
  : option (mip * list nat) :=
  let '(m0, xv) := addVars (repeat (NInf, PInf) n) VCont init_mip in
  match add_relu_output xv VBin m0 with
  | None => None
  | Some (m1, rr) =>
      match add_state_error false xeq R0 xv VBin m1 with
      | None => None
      | Some (m2, s, _) =>
          match scalar (forward N xeq) with
          | None => None
          | Some phi_eq =>
              match setObjective [vneg (ret_a rr); repeat (eps - lam) (length s)]
                                 [ret_z rr; s] (- ret_b rr + phi_eq) true m2 with
              | None => None
              | Some m3 => Some (m3, xv)
              end
          end
      end
  end.

(** add_lyapunov_bounds_constraint — lines 368-406. *)
Definition add_value_bounds (lower upper : option R) (a : vec) (b lam : R)
           (z : list nat) (phi_eq : R) (s : list nat) (m : mip) : option mip :=
  match (match lower with
         | None => Some m
         | Some l => addLConstr [a; repeat lam (length s)] [z; s] SGe (l - b + phi_eq) m
         end) with
  | None => None
  | Some m1 =>
      match upper with
      | None => Some m1
      | Some u => addLConstr [a; repeat lam (length s)] [z; s] SLe (u - b + phi_eq) m1
      end
  end.

(** The objective of lyapunov_derivative_as_milp — lines 722-757: the
    coefficients and the constant. *)
Definition derivative_objective (et : eps_type) (eps lam : R) (a : vec) (b phi_eq : R)
           (sdim : nat) : list vec * R :=
  let c := [a; vscale (eps - 1) a; repeat lam sdim; repeat ((eps - 1) * lam) sdim] in
  let k := eps * (b - phi_eq) in
  match et with
  | ExpLower => (c, k)
  | ExpUpper => (map vneg c, - k)
  | Asymp => ([a; vneg a; repeat lam sdim; repeat (eps - lam) sdim], 0)
  end.

(** What lyapunov_derivative_as_milp returns (the fields used elsewhere). *)
Record deriv_ret := mkDeriv { d_mip : mip; d_x : list nat; d_next : list nat;
                              d_relu : relu_ret; d_relu_next : relu_ret }.

(** dynamic_system._add_system_constraint on variables x and x_next (see
    ModelSystems for the systems). *)
Variable add_system : list nat -> list nat -> vtype -> mip -> option mip.

(** lyapunov_derivative_as_milp — lines 575-782. *)
Definition derivative_milp (xeq : vec) (lam eps : R) (et : eps_type) (R0 : option mat)
           (lower upper : option R) (vt : vtype) : option deriv_ret :=
  match get_R n R0 with
  | None => None
  | Some M =>
      let '(m0, xn) := addVars (repeat (NInf, PInf) n) VCont init_mip in
      let '(m1, xv) := addVars (repeat (NInf, PInf) n) VCont m0 in
      match add_system xv xn vt m1 with
      | None => None
      | Some m2 =>
      match add_relu_output xv vt m2 with
      | None => None
      | Some (m3, rr) =>
      match scalar (forward N xeq) with
      | None => None
      | Some phi_eq =>
      match add_state_error false xeq (Some M) xv vt m3 with
      | None => None
      | Some (m4, s, _) =>
      match add_state_error false xeq (Some M) xn vt m4 with
      | None => None
      | Some (m5, sn, _) =>
      match add_value_bounds lower upper (ret_a rr) (ret_b rr) lam (ret_z rr) phi_eq s m5 with
      | None => None
      | Some m6 =>
      match add_relu_output xn vt m6 with
      | None => None
      | Some (m7, rn) =>
          let '(c, k) := derivative_objective et eps lam (ret_a rr) (ret_b rr) phi_eq
                           (length M) in
          match setObjective c [ret_z rn; ret_z rr; sn; s] k true m7 with
          | None => None
          | Some m8 => Some (mkDeriv m8 xv xn rr rn)
          end
      end end end end end end end
  end.

(** lyapunov_derivative — lines 551-573; [dx] is system.possible_dx(x). *)
Fixpoint traverse (f : vec -> option R) (l : list vec) : option vec :=
  match l with
  | [] => Some []
  | x :: l' => match f x, traverse f l' with
               | Some v, Some r => Some (v :: r)
               | _, _ => None
               end
  end.
Definition lyapunov_derivative (dx : list vec) (x xeq : vec) (lam eps : R)
           (R0 : option mat) : option vec :=
  match traverse (lyapunov_value N n R0 xeq lam) dx, lyapunov_value N n R0 xeq lam x with
  | Some vs, Some v => Some (map (fun vn => vn - v + eps * v) vs)
  | _, _ => None
  end.

(** strengthen_lyapunov_derivative_milp_binary — lines 784-863.  The two
    temporary constraints are added on the Gurobi side only and removed again;
    [infeasible m rows] is the status INFEASIBLE of optimize() on [m] with the
    extra [rows].  Terminating at the first solution (SolutionLimit) is one of
    the other statuses. *)
Definition objective_row (m : mip) : grow :=
  mkRow (obj_terms m) SGe (- obj_const m).
Definition straddles (B : bounds) (i : nat) : bool :=
  (Rltb (nth i (b_pre_lo B) 0) 0 && Rltb 0 (nth i (b_pre_up B) 0))%bool.
Variable infeasible : mip -> list grow -> bool.
Fixpoint strengthen_loop (m : mip) (obj : grow) (B Bn : bounds) (i : nat)
         (beta betan : list nat) : option mip :=
  match beta, betan with
  | [], [] => Some m
  | b :: beta', bn :: betan' =>
      if (straddles B i && straddles Bn i
          && infeasible m [obj; mkRow [(1, b); (1, bn)] SEq 1])%bool
      then match addLConstr [[1; -1]] [[b; bn]] SEq 0 m with
           | Some m' => strengthen_loop m' obj B Bn (S i) beta' betan'
           | None => None
           end
      else strengthen_loop m obj B Bn (S i) beta' betan'
  | _, _ => None
  end.
Definition strengthen_binary (d : deriv_ret) : option mip :=
  strengthen_loop (d_mip d) (objective_row (d_mip d))
    (ret_bounds (d_relu d)) (ret_bounds (d_relu_next d)) 0
    (ret_beta (d_relu d)) (ret_beta (d_relu_next d)).

(** ** Sample losses *)

(** torch.nn.HingeEmbeddingLoss(margin, reduction="none")(input, -1) on one
    entry: max(0, margin - input). *)
Definition hinge (margin v : R) : R := Rmax 0 (margin - v).
(** torch.mean(weight * loss) with weight optional; None: no samples. *)
Definition weighted_mean (w : option vec) (l : vec) : option R :=
  match w with
  | None => loss_reduction l RMean
  | Some ws => if Nat.eqb (length ws) (length l) then loss_reduction (vmul ws l) RMean
               else None
  end.
Definition reduce (red : reduction) (w : option vec) (l : vec) : option R :=
  match red with
  | RMean => weighted_mean w l
  | _ => loss_reduction l red
  end.

(** lyapunov_positivity_loss_at_samples — lines 305-366. *)
Definition positivity_loss (xeq : vec) (samples : list vec) (lam eps : R)
           (R0 : option mat) (margin : R) (red : reduction) (w : option vec)
  : option R :=
  match get_R n R0, traverse (lyapunov_value N n R0 xeq lam) samples with
  | Some M, Some vs =>
      reduce red w
        (map2 (fun v x => hinge margin (v - eps * norm_p1 (mv M (vsub x xeq))))
              vs samples)
  | _, _ => None
  end.

(** lyapunov_derivative_loss_at_samples_and_next_states — lines 985-1076. *)
Definition derivative_loss (xeq : vec) (samples next : list vec) (lam eps : R)
           (et : eps_type) (R0 : option mat) (margin : R) (red : reduction)
           (w : option vec) : option R :=
  if negb (Nat.eqb (length samples) (length next)) then None else
  match get_R n R0, traverse (lyapunov_value N n R0 xeq lam) samples,
        traverse (lyapunov_value N n R0 xeq lam) next with
  | Some M, Some v1, Some v2 =>
      let l := match et with
               | ExpLower => map2 (fun a b => - (b - a + eps * a)) v1 v2
               | ExpUpper => map2 (fun a b => b - a + eps * a) v1 v2
               | Asymp => map2 (fun ab x => - (snd ab - fst ab
                                   + eps * norm_p1 (mv M (vsub x xeq))))
                               (combine v1 v2) samples
               end in
      reduce red w (map (hinge margin) l)
  | _, _, _ => None
  end.

(** ** Region of attraction *)

(** The box number [i] of the union — lines 1204-1215: coordinate [i] (or
    [i - n]) is replaced. *)
Definition roa_box (x_lo_larger x_up_larger : vec) (i : nat) : vec * vec :=
  if Nat.ltb i n
  then (splice i [nth i x_up 0] x_lo, splice i [nth i x_up_larger 0] x_up)
  else let j := (i - n)%nat in
       (splice j [nth j x_lo_larger 0] x_lo, splice j [nth j x_lo 0] x_up).

(** The loop over the boxes — lines 1198-1230; [zs] are the remaining
    box_zeta variables. *)
Fixpoint roa_loop (lol upl : vec) (i : nat) (zs : list nat) (m : mip)
  : mip * list (list nat) :=
  match zs with
  | [] => (m, [])
  | z :: zs' =>
      let '(m, t) := addVars (repeat (NInf, PInf) n) VCont m in
      let '(blo, bup) := roa_box lol upl i in
      let m := addMConstr [col blo; eyek n (-1)] [[z]; t] SLe (zeros n) m in
      let m := addMConstr [eye n; col (vneg bup)] [t; [z]] SLe (zeros n) m in
      let '(m, ts) := roa_loop lol upl (S i) zs' m in
      (m, t :: ts)
  end.

(** _construct_milp_for_roa — lines 1133-1259. *)
Definition roa_milp (xeq : vec) (lam : R) (R0 : option mat) (lol upl : vec)
           (curr_in_box : bool) : option (mip * list nat * list nat) :=
  let '(m, xv) := addVars (repeat (NInf, PInf) n) VCont init_mip in
  let '(m, xn) := addVars (repeat (NInf, PInf) n) VCont m in
  match add_system xv xn VBin m with
  | None => None
  | Some m =>
      let outv := if curr_in_box then xn else xv in
      let m := if curr_in_box then m
               else addMConstr [eyek n (-1)] [xn] SLe (vneg x_lo)
                      (addMConstr [eye n] [xn] SLe x_up m) in
      match add_relu_output xv VBin m with
      | None => None
      | Some (m, rr) =>
          let '(m, zs) := addVars (repeat (NInf, PInf) (2 * n)) VBin m in
          match addLConstr [ones (2 * n)] [zs] SEq 1 m with
          | None => None
          | Some m =>
              let '(m, ts) := roa_loop lol upl 0 zs m in
              let m := addMConstr (eye n :: repeat (eyek n (-1)) (2 * n)) (outv :: ts)
                         SEq (zeros n) m in
              match add_state_error false xeq R0 xv VBin m, scalar (forward N xeq) with
              | Some (m, s, _), Some phi_eq =>
                  match setObjective [ret_a rr; repeat lam (length s)] [ret_z rr; s]
                          (ret_b rr - phi_eq) false m with
                  | Some m => Some (m, xv, xn)
                  | None => None
                  end
              | _, _ => None
              end
          end
      end
  end.

(** compute_region_of_attraction — lines 1078-1131; the result is an extended
    real because a program that is not solved to optimality counts as inf. *)
Definition roa_value (r : gresult) : ext :=
  match r with GOptimal v => Fin v | _ => PInf end.
Definition region_of_attraction (xeq : vec) (lam : R) (R0 : option mat)
           (upper : option R) (lol upl : vec) : option ext :=
  match roa_milp xeq lam R0 lol upl true, roa_milp xeq lam R0 lol upl false with
  | Some (m1, _, _), Some (m2, _, _) =>
      Some (ext_min (roa_value (solve m1))
              (ext_min (roa_value (solve m2))
                       (match upper with Some u => Fin u | None => PInf end)))
  | _, _ => None
  end.

(** _construct_milp_for_roa_boundary — lines 408-480. *)
Definition roa_boundary_milp (xeq : vec) (lam : R) (R0 : option mat)
  : option (mip * list nat) :=
  let '(m, xv) := addVars (combine (map Fin x_lo) (map Fin x_up)) VCont init_mip in
  match add_relu_output xv VBin m with
  | None => None
  | Some (m, rr) =>
      let '(m, zlo) := addVars (repeat (Fin 0, Fin 1) n) VBin m in
      let '(m, zup) := addVars (repeat (Fin 0, Fin 1) n) VBin m in
      match addLConstr [ones n; ones n] [zlo; zup] SEq 1 m with
      | None => None
      | Some m =>
          let m := addMConstr [eye n; diag (vsub x_lo x_up)] [xv; zup] SGe x_lo m in
          let m := addMConstr [eye n; diag (vsub x_up x_lo)] [xv; zlo] SLe x_up m in
          match scalar (forward N xeq), add_state_error false xeq R0 xv VBin m with
          | Some phi_eq, Some (m, s, _) =>
              match setObjective [ret_a rr; repeat lam (length s)] [ret_z rr; s]
                      (ret_b rr - phi_eq) false m with
              | Some m => Some (m, xv)
              | None => None
              end
          | _, _ => None
          end
      end
  end.

(** strengthen_lyapunov_derivative_as_milp — lines 865-927.  [lp m] is the
    solution of the relaxed program, None when the status is not OPTIMAL (the
    assertion of line 905 raises); [sys_cuts] is
    system.strengthen_dynamics_constraint, the identity for the systems other
    than FeedbackSystem. *)
Variable lp : mip -> option (nat -> R).
Variable sys_cuts : (nat -> R) -> mip -> option mip.
Definition relu_cuts (xv : list nat) (rr : relu_ret) (sol : nat -> R) (m : mip)
  : option mip :=
  strengthen_relu_mip_at_solution N xv (ret_z rr) (ret_beta rr) x_lo x_up
    (b_post_lo (ret_bounds rr)) (b_post_up (ret_bounds rr)) sol m.
Fixpoint strengthen_rounds (k : nat) (d : deriv_ret) (m : mip) : option mip :=
  match k with
  | O => Some m
  | S k' =>
      match lp m with
      | None => None
      | Some sol =>
          match relu_cuts (d_x d) (d_relu d) sol m with
          | None => None
          | Some m1 =>
              match relu_cuts (d_next d) (d_relu_next d) sol m1 with
              | None => None
              | Some m2 =>
                  match sys_cuts sol m2 with
                  | None => None
                  | Some m3 => strengthen_rounds k' d m3
                  end
              end
          end
      end
  end.
Definition strengthen_derivative (xeq : vec) (lam eps : R) (et : eps_type) (R0 : option mat)
           (lower upper : option R) (num_pts : nat) : option deriv_ret :=
  match derivative_milp xeq lam eps et R0 lower upper VBinRelax with
  | None => None
  | Some d =>
      match strengthen_rounds num_pts d (d_mip d) with
      | None => None
      | Some m => Some (mkDeriv (remove_binary_relaxation m) (d_x d) (d_next d)
                                (d_relu d) (d_relu_next d))
      end
  end.

End Lyapunov.
