(** Model of the derivative programs for continuous-time hybrid linear systems:
    /repo/neural_network_lyapunov/continuous_time_lyapunov.py, class
    LyapunovContinuousTimeHybridSystem (lines 305-1120), and of the velocity
    bounds of AutonomousHybridLinearSystem
    (/repo/neural_network_lyapunov/hybrid_linear_system.py, lines 417-461,
    629-656).

    The system is a [hybrid] of input dimension 0 (see ModelHybrid.v): A_i is
    [md_A], g_i is [md_c].  [None] is a raised exception; a call whose bounds
    are not finite is modelled as [None] as well (its rows would hold inf).
    Variable names and the warm start (lines 1045-1048, which only sets Start
    attributes) are left out.  The bounds of A_i x are stored in the object when
    the mode is added; here they are recomputed from the same A_i, P_i, q_i. *)

Require Import Reals List Bool Arith.
Require Import Verif.Vec Verif.ModelMip Verif.ModelUtils Verif.ModelGrad Verif.ModelNet
  Verif.ModelPattern Verif.ModelLyapunov Verif.ModelContinuous Verif.ModelHybrid.
Import ListNotations.
Open Scope R_scope.

Definition ext_plus (e : ext) (r : R) : ext :=
  match e with Fin a => Fin (a + r) | _ => e end.

(** R is None or equal to the identity — lines 823-826, 1003-1006. *)
Definition vec_eqb (a b : vec) : bool :=
  (Nat.eqb (length a) (length b) && forallb (fun c => c) (map2 Reqb a b))%bool.
Definition mat_eqb (A B : mat) : bool :=
  (Nat.eqb (length A) (length B) && forallb (fun c => c) (map2 vec_eqb A B))%bool.
Definition R_identity (n : nat) (R0 : option mat) : bool :=
  match R0 with None => true | Some M => mat_eqb M (eye n) end.

Section Bounds.
(** [axb P q a]: the minimum and the maximum of a x over P x <= q reported by
    the two linear programs (hybrid_linear_system.py:633-644). *)
Variable axb : mat -> vec -> vec -> option (ext * ext).

(** __compute_Ai_times_x_bounds — hybrid_linear_system.py:629-645. *)
Definition Ai_times_x (md : mode_data) : option (list (ext * ext)) :=
  all_some (map (axb (md_P md) (md_q md)) (md_A md)).

(** dx_lower, dx_upper — hybrid_linear_system.py:414-415, 460-461. *)
Definition dx_bounds (h : hybrid) : option (list ext * list ext) :=
  match all_some (map Ai_times_x (h_modes h)) with
  | None => None
  | Some axs =>
      Some (fold_left (fun acc p => map2 ext_min acc (map2 ext_plus (map fst (fst p)) (md_c (snd p))))
                      (combine axs (h_modes h)) (repeat PInf (h_nx h)),
            fold_left (fun acc p => map2 ext_max acc (map2 ext_plus (map snd (fst p)) (md_c (snd p))))
                      (combine axs (h_modes h)) (repeat NInf (h_nx h)))
  end.

(** __compute_Aisi_bounds — lines 401-418: one mode. *)
Definition Aisi_bounds (md : mode_data) : option (vec * vec) :=
  match Ai_times_x md with
  | None => None
  | Some ax =>
      match all_some (map (fun b => fin (ext_min (fst b) (Fin 0))) ax),
            all_some (map (fun b => fin (ext_max (snd b) (Fin 0))) ax) with
      | Some lo, Some up => Some (lo, up)
      | _, _ => None
      end
  end.
End Bounds.

(** __compute_gigammai_bounds — lines 420-436: one mode. *)
Definition gigammai_bounds (md : mode_data) : vec * vec :=
  (map (Rmin 0) (md_c md), map (Rmax 0) (md_c md)).

(** One gradient product: the rows of output_gradient_times_vector for bounds
    [lo], [up], with the columns of the vector replaced by [lin] of them, on the
    variables [vs]; returns the new slack variables and A_out.
    add_relu_gradient_times_Aisi, lines 437-493 (vs = s_i, lin = right
    multiplication by A_i); add_relu_gradient_times_xdot, 495-542 (vs = xdot);
    add_relu_gradient_times_gigammai, 544-602 (vs = gamma_i, lin = product with
    g_i). *)
Definition add_gradient (N : network) (beta : list nat) (lin : mat -> mat) (lo up : vec)
    (vs : list nat) (m : mip) : option (mip * list nat * vec) :=
  match output_gradient_times_vector N lo up with
  | None => None
  | Some (c, _) =>
      match Ain_input c, Ain_slack c, Ain_binary c, rhs_in c, Aout_slack c with
      | Some Ax, Some As, Some Ab, Some rhs, Some A =>
          let '(m1, z) := addVars (repeat (NInf, PInf) (nsl c)) VCont m in
          Some (addMConstr [lin Ax; As; Ab] [vs; z; beta] SLe rhs m1, z, concat A)
      | _, _, _, _, _ => None
      end
  end.

(** One sign product: z_j = alpha_j (M v)_j for the rows of M; returns the new
    variables and z_coeff.  add_sign_state_error_times_Aisi, lines 604-666 (M =
    A_i, v = s_i; every product row is Ain_Aisi times the row of A_i), and
    add_sign_state_error_times_gigammai, 668-730 (M = g_i as a column, v =
    gamma_i). *)
Definition add_sign (n : nat) (al : list nat) (M : mat) (lo up : vec) (vs : list nat) (m : mip)
  : option (mip * list nat * vec) :=
  let '(m1, z) := addVars (repeat (NInf, PInf) n) VCont m in
  match dl1_loop M lo up z al vs m1 with
  | None => None
  | Some m2 => Some (m2, z, repeat 2 n)
  end.

(** The loops over the modes: [vs] holds the variables of each mode (s_i or
    gamma_i), [bs] the bounds of each mode. *)
Fixpoint mode_loop (add : mode_data -> vec -> vec -> list nat -> mip -> option (mip * list nat * vec))
    (ms : list mode_data) (bs : list (vec * vec)) (vs : list (list nat)) (m : mip)
  : option (mip * list (list nat) * list vec) :=
  match ms, bs, vs with
  | [], _, _ => Some (m, [], [])
  | md :: ms', (lo, up) :: bs', v :: vs' =>
      match add md lo up v m with
      | None => None
      | Some (m1, z, co) =>
          match mode_loop add ms' bs' vs' m1 with
          | None => None
          | Some (m2, zs, cos) => Some (m2, z :: zs, co :: cos)
          end
      end
  | _, _, _ => None
  end.

(** The rows of add_sign_state_error_times_xdot — lines 732-778: [lo], [up],
    [xd], [z], [al] are the remaining entries. *)
Fixpoint sign_xdot_loop (lo up : vec) (xd z al : list nat) (m : mip) : option mip :=
  match lo, up, xd, z, al with
  | [], [], [], [], [] => Some m
  | l :: lo', u :: up', d :: xd', t :: z', a :: al' =>
      match replace_binary_continuous_product l u with
      | None => None
      | Some rw =>
          sign_xdot_loop lo' up' xd' z' al'
            (addMConstr [col (rw_x rw); col (rw_y rw); col (rw_b rw)]
                        [[d]; [t]; [a]] SLe (rw_rhs rw) m)
      end
  | _, _, _, _, _ => None
  end.

(** s[i * x_dim : (i + 1) * x_dim] for i = 0 .. K - 1. *)
Definition chunks (n K : nat) (s : list nat) : list (list nat) :=
  map (fun i => slice (i * n) n s) (seq 0 K).

(** The named tuple of lines 953-955, 1118-1120. *)
Record hderiv := mkHD { hd_mip : mip; hd_x : list nat; hd_beta : list nat; hd_gamma : list nat }.

Section Programs.
Variable solve : mip -> gresult.
Variable axb : mat -> vec -> vec -> option (ext * ext).
Variable meth : method.
Variable N : network.
Variable h : hybrid.
Variables x_lo x_up : vec.

(** lyapunov_derivative_as_milp — lines 957-1120. *)
Definition hybrid_ct_milp (xeq : vec) (lam eps : R) (et : eps_type) (R0 : option mat)
           (lower upper : option R) : option hderiv :=
  let n := h_nx h in
  match et, R_identity n R0 with
  | ExpLower, true =>
      let '(m0, xv) := addVars (repeat (NInf, PInf) n) VCont init_mip in
      let '(m1, xd) := addVars (repeat (NInf, PInf) n) VCont m0 in
      match hybrid_mic h None None None None with
      | None => None
      | Some c =>
      let '(m2, _, gv) := add_mic c xv (Some xd) NewBinary VBin m1 in
      match add_relu_output solve meth N x_lo x_up xv VBin m2 with
      | None => None
      | Some (m3, rr) =>
      match add_state_error n x_lo x_up false xeq None xv VBin m3 with
      | None => None
      | Some (m4, s, al) =>
      match scalar (forward N xeq) with
      | None => None
      | Some phi_eq =>
      match add_value_bounds lower upper (ret_a rr) (ret_b rr) lam (ret_z rr) phi_eq s m4 with
      | None => None
      | Some m5 =>
      match dx_bounds axb h with
      | None => None
      | Some (dlo, dup) =>
      match all_some (map fin dlo), all_some (map fin dup) with
      | Some lo, Some up =>
          match add_gradient N (ret_beta rr) (fun A => A) lo up xd m5 with
          | None => None
          | Some (m6, z1, co) =>
              let '(m7, z2) := addVars (repeat (NInf, PInf) n) VCont m6 in
              match sign_xdot_loop lo up xd z2 (concat al) m7 with
              | None => None
              | Some m8 =>
                  match setObjective
                          [co; repeat (2 * lam) n; repeat (-1 * lam) n;
                           vscale eps (ret_a rr); repeat (eps * lam) n]
                          [z1; z2; xd; ret_z rr; s] (eps * ret_b rr - eps * phi_eq) true m8 with
                  | None => None
                  | Some m9 => Some (mkHD m9 xv (ret_beta rr) gv)
                  end
              end
          end
      | _, _ => None
      end
      end end end end end end
  | _, _ => None
  end.

(** lyapunov_derivative_as_milp2 — lines 780-955.  cost_z4_coef is computed
    from z3_coef (line 897). *)
Definition hybrid_ct_milp2 (xeq : vec) (lam eps : R) (et : eps_type) (R0 : option mat)
           (lower upper : option R) : option hderiv :=
  let n := h_nx h in
  let ms := h_modes h in
  match et, R_identity n R0 with
  | ExpLower, true =>
      let '(m0, xv) := addVars (repeat (NInf, PInf) n) VCont init_mip in
      match hybrid_mic h None None None None with
      | None => None
      | Some c =>
      let '(m2, sv, gv) := add_mic c xv None NewBinary VBin m0 in
      match add_relu_output solve meth N x_lo x_up xv VBin m2 with
      | None => None
      | Some (m3, rr) =>
      match add_state_error n x_lo x_up false xeq None xv VBin m3 with
      | None => None
      | Some (m4, t, al) =>
      match scalar (forward N xeq) with
      | None => None
      | Some phi_eq =>
      match add_value_bounds lower upper (ret_a rr) (ret_b rr) lam (ret_z rr) phi_eq t m4 with
      | None => None
      | Some m5 =>
      match all_some (map (Aisi_bounds axb) ms) with
      | None => None
      | Some ab =>
      let gb := map gigammai_bounds ms in
      let sc := chunks n (length ms) sv in
      let gc := map (fun g => [g]) gv in
      let beta := ret_beta rr in
      match mode_loop (fun md => add_gradient N beta (fun A => mm n A (md_A md))) ms ab sc m5 with
      | None => None
      | Some (m6, z1, co1) =>
      match mode_loop (fun md => add_gradient N beta (fun A => col (mv A (md_c md)))) ms gb gc m6 with
      | None => None
      | Some (m7, z2, co2) =>
      match mode_loop (fun md => add_sign n (concat al) (md_A md)) ms ab sc m7 with
      | None => None
      | Some (m8, z3, co3) =>
      match mode_loop (fun md => add_sign n (concat al) (col (md_c md))) ms gb gc m8 with
      | None => None
      | Some (m9, z4, co4) =>
          let cs := map (fun md => vscale lam (vneg (colsum n (md_A md)))) ms in
          let cg := map (fun md => (- vsum (md_c md)) * lam) ms in
          match setObjective
                  (co1 ++ co2 ++ map (vscale lam) co3 ++ map (vscale lam) co3 ++
                   [concat cs; cg; vscale eps (ret_a rr); repeat (eps * lam) n])
                  (z1 ++ z2 ++ z3 ++ z4 ++ [sv; gv; ret_z rr; t])
                  (eps * ret_b rr - eps * phi_eq) true m9 with
          | None => None
          | Some m10 => Some (mkHD m10 xv beta gv)
          end
      end end end end end end end end end end
  | _, _ => None
  end.
End Programs.
