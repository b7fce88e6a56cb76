(** Continuous-time hybrid linear systems: velocities, and what a derivative
    program has to say. *)

Require Import Reals List.
Require Import Verif.Vec Verif.ModelMip Verif.SpecMip Verif.SpecCore Verif.ModelNet Verif.SpecNet
  Verif.ModelPattern Verif.SpecPattern Verif.SpecUtils Verif.ModelLyapunov Verif.SpecLyapunov Verif.ModelHybrid
  Verif.SpecHybrid Verif.ModelContinuous
  Verif.SpecContinuous Verif.ModelContHybrid.
Import ListNotations.
Open Scope R_scope.

(** The bounds that the two linear programs report for a linear function on a
    polytope hold at every point of the polytope. *)
Definition row_bounds_valid (axb : mat -> vec -> vec -> option (ext * ext)) : Prop :=
  forall P q a lo up x, axb P q a = Some (lo, up) ->
    Forall (fun r => length r = length x) P -> length a = length x ->
    vle (mv P x) q -> ext_le_r lo (dot a x) /\ r_le_ext (dot a x) up.

(** x_lo_all, x_up_all are finite. *)
Definition hybrid_box (h : hybrid) (x_lo x_up : vec) : Prop :=
  lo_all h = map Fin x_lo /\ up_all h = map Fin x_up.

(** x lies in mode k (P_k x <= q_k) and moves with velocity A_k x + g_k there. *)
Definition moves (h : hybrid) (k : nat) (x v : vec) : Prop :=
  exists md, nth_error (h_modes h) k = Some md /\ vle (mv (md_P md) x) (md_q md) /\
    v = vadd (mv (md_A md) x) (md_c md).

(** The derivative program [d]: its feasible points are the states, modes and
    selected gradients; the objective is dV/dt + eps V there. *)
Definition derivative_program_exact (N : network) (h : hybrid) (x_lo x_up xeq : vec) (lam eps : R)
    (lower upper : option R) (d : hderiv) : Prop :=
  let n := h_nx h in
  obj_max (hd_mip d) = true /\ length (hd_x d) = n /\
  (forall sg, gfeas (hd_mip d) sg ->
     let x := map sg (hd_x d) in
     in_box x_lo x_up x /\ within lower upper (V N (eye n) lam xeq x) /\
     exists k v pats sgs, moves h k x v /\ selects N (eye n) xeq x pats sgs /\
       map sg (hd_beta d) = flat pats /\ map sg (hd_gamma d) = one_hot (length (h_modes h)) k /\
       objective (hd_mip d) sg = Vdot N (eye n) lam pats sgs v + eps * V N (eye n) lam xeq x) /\
  (forall x k v pats sgs, length x = n -> moves h k x v ->
     within lower upper (V N (eye n) lam xeq x) ->
     selects N (eye n) xeq x pats sgs -> selection_attained x_lo x_up N (eye n) xeq pats sgs ->
     exists sg, gfeas (hd_mip d) sg /\ map sg (hd_x d) = x /\ map sg (hd_beta d) = flat pats /\
       map sg (hd_gamma d) = one_hot (length (h_modes h)) k /\
       objective (hd_mip d) sg = Vdot N (eye n) lam pats sgs v + eps * V N (eye n) lam xeq x).

(** The program that lyapunov_derivative_as_milp or lyapunov_derivative_as_milp2
    returns. *)
Definition hybrid_derivative (solve : mip -> gresult) (axb : mat -> vec -> vec -> option (ext * ext))
    (meth : method) (N : network) (h : hybrid) (x_lo x_up xeq : vec) (lam eps : R) (et : eps_type)
    (R0 : option mat) (lower upper : option R) (d : hderiv) : Prop :=
  hybrid_ct_milp solve axb meth N h x_lo x_up xeq lam eps et R0 lower upper = Some d \/
  hybrid_ct_milp2 solve axb meth N h x_lo x_up xeq lam eps et R0 lower upper = Some d.

(** What the user has to supply. *)
Record hybrid_args (N : network) (h : hybrid) (x_lo x_up xeq : vec)
    (axb : mat -> vec -> vec -> option (ext * ext)) : Prop := {
  ha_built : exists bounds bounded, bounds_valid bounds /\ built bounds bounded (h_nx h) 0 h;
  ha_axb : row_bounds_valid axb;
  ha_box : hybrid_box h x_lo x_up;
  ha_lyap : lyap_args (h_nx h) N x_lo x_up None xeq;
  ha_slopes : no_slope_one (hidden N)
}.

(** The two programs describe the same states, modes, gradients and objective
    values. *)
Definition same_points (d1 d2 : hderiv) : Prop :=
  forall sg1, gfeas (hd_mip d1) sg1 -> exists sg2, gfeas (hd_mip d2) sg2 /\
    map sg2 (hd_x d2) = map sg1 (hd_x d1) /\ map sg2 (hd_beta d2) = map sg1 (hd_beta d1) /\
    map sg2 (hd_gamma d2) = map sg1 (hd_gamma d1) /\
    objective (hd_mip d2) sg2 = objective (hd_mip d1) sg1.

(** The linear programs behind the velocity bounds have finite optima. *)
Definition finite_rows (axb : mat -> vec -> vec -> option (ext * ext)) (h : hybrid) : Prop :=
  Forall (fun md => Forall (fun r => exists l u, axb (md_P md) (md_q md) r = Some (Fin l, Fin u)) (md_A md))
         (h_modes h).
