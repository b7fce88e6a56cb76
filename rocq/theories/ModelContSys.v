(** The continuous-time plants of the examples whose acceleration is a network:
    examples/pendulum/pendulum.py (PendulumReluContinuousTime 132-241) and
    examples/quadrotor2d/quadrotor_2d.py (QuadrotorReluContinuousTime 176-308),
    with relu_system.py 1007-1056 (_add_forward_dynamics_mip_constraints) and, for
    their closed loops, dynamic_system.py 10-60 (_add_system_constraint).

    [None] is a raised exception.  Only single states are modelled, not the batch
    branches of step_forward; the separate bound program for the methods other
    than IA (1033-1052) does not touch the given program and is in ModelOptBounds. *)

Require Import Reals List Bool Arith.
Require Import Verif.Vec Verif.ModelMip Verif.ModelUtils Verif.ModelNet Verif.ModelPattern
  Verif.ModelLyapunov Verif.ModelSystems
  Verif.ModelExSystems.
Import ListNotations.
Open Scope R_scope.

Inductive cp_kind := CPend | CQuad (ueq : vec).
Record cp_sys := mkCp { cp_net : network; cp_xlo : vec; cp_xup : vec; cp_ulo : vec; cp_uup : vec;
                        cp_meth : method; cp_kind_ : cp_kind }.

(** self.x_dim, self.u_dim, self.x_equilibrium, self.u_equilibrium — pendulum.py
    137-153, quadrotor_2d.py 182-199. *)
Definition cp_nx (k : cp_kind) : nat := match k with CPend => 2 | CQuad _ => 6 end.
Definition cp_nu (k : cp_kind) : nat := match k with CPend => 1 | CQuad _ => 2 end.
Definition cp_nout (k : cp_kind) : nat := match k with CPend => 1 | CQuad _ => 3 end.
Definition cp_xeq (k : cp_kind) : vec := match k with CPend => [PI; 0] | CQuad _ => zeros 6 end.
Definition cp_ueq (k : cp_kind) : vec := match k with CPend => [0] | CQuad ueq => ueq end.

(** The constructors.  The propagation method is IA there and can be assigned
    later; the shape of u_equilibrium is not checked. *)
Definition new_cp (N : network) (xlo xup ulo uup : vec) (meth : method) (k : cp_kind)
  : option cp_sys :=
  if (Nat.eqb (length xlo) (cp_nx k) && Nat.eqb (length xup) (cp_nx k)
      && Nat.eqb (length ulo) (cp_nu k) && Nat.eqb (length uup) (cp_nu k)
      && Nat.eqb (x_size N) 3 && Nat.eqb (out_features (last_layer N)) (cp_nout k))%bool
  then Some (mkCp N xlo xup ulo uup meth k) else None.

(** dynamics_relu at the equilibrium — pendulum.py 183-184, 199-200; quadrotor_2d.py
    211-213, 247-249. *)
Definition cp_at_eq (S : cp_sys) : vec :=
  match cp_kind_ S with
  | CPend => forward (cp_net S) (cp_xeq CPend ++ cp_ueq CPend)
  | CQuad ueq => forward (cp_net S) ([0] ++ ueq)
  end.

(** step_forward — pendulum.py 207-212, quadrotor_2d.py 210-217.  Vectors of the
    wrong length raise. *)
Definition cp_step (S : cp_sys) (x u : vec) : option vec :=
  match cp_kind_ S with
  | CPend =>
      match x, u with
      | [th; w], [_] =>
          Some [w; nth 0 (vsub (forward (cp_net S) (x ++ u)) (cp_at_eq S)) 0]
      | _, _ => None
      end
  | CQuad _ =>
      if (Nat.eqb (length x) 6 && Nat.eqb (length u) 2)%bool then
        Some (skipn 3 x ++ vsub (forward (cp_net S) (part 2 3 x ++ u)) (cp_at_eq S))
      else None
  end.

(** All four fields of the output replaced. *)
Definition set_output (c : mic) (Ai As Ab : option mat) (C : option vec) : mic :=
  mkMic (nin c) (nsl c) (nbin c) Ai As Ab C
        (Ain_input c) (Ain_slack c) (Ain_binary c) (rhs_in c)
        (Aeq_input c) (Aeq_slack c) (Aeq_binary c) (rhs_eq c)
        (input_lo c) (input_up c) (slack_lo c) (slack_up c) (binary_lo c) (binary_up c).
(** Inequality rows A x <= r appended; torch.cat with None raises. *)
Definition add_rows (A : mat) (r : vec) (c : mic) : option mic :=
  match Ain_input c, Ain_slack c, Ain_binary c, rhs_in c with
  | Some Ai, Some As, Some Ab, Some b =>
      Some (mkMic (nin c) (nsl c) (nbin c) (Aout_input c) (Aout_slack c) (Aout_binary c) (Cout c)
              (Some (Ai ++ A)) (Some (As ++ zerom (length A) (nsl c)))
              (Some (Ab ++ zerom (length A) (nbin c))) (Some (b ++ r))
              (Aeq_input c) (Aeq_slack c) (Aeq_binary c) (rhs_eq c)
              (input_lo c) (input_up c) (slack_lo c) (slack_up c) (binary_lo c) (binary_up c))
  | _, _, _, _ => None
  end.
(** A row of n zeros except for k at position i. *)
Definition entry (n i : nat) (k : R) : vec :=
  map (fun j => if Nat.eqb j i then k else 0) (seq 0 n).

Section Solver.
Variable solve : mip -> gresult.

(** mixed_integer_constraints once u_lo, u_up are known — pendulum.py 173-205,
    quadrotor_2d.py 234-290: the constraint, the layer bounds, the bounds of the
    network input, and x_next_lb, x_next_ub. *)
Definition cp_mic (S : cp_sys) (u_lo u_up : vec)
  : option (mic * bounds * (vec * vec) * (vec * vec)) :=
  let N := cp_net S in
  let e := cp_at_eq S in
  match cp_kind_ S with
  | CPend =>
      let nlo := cp_xlo S ++ u_lo in let nup := cp_xup S ++ u_up in
      match output_constraint solve (cp_meth S) N nlo nup with
      | None => None
      | Some (c, B, (olo, oup)) =>
          match Cout c, Aout_input c, Aout_slack c with
          | Some (c0 :: _), None, Some As =>
              Some (set_output c
                      (Some [[0; 1; 0]; [0; 0; 0]])
                      (Some (zerom 1 (nsl c) ++ As))
                      (Some (match Aout_binary c with
                             | None => zerom 2 (nbin c)
                             | Some Ab => zerom 1 (nbin c) ++ Ab
                             end))
                      (Some ([0] ++ map (fun v => c0 - v) e)),
                    B, (nlo, nup),
                    ([nth 1 (cp_xlo S) 0; nth 0 olo 0 - nth 0 e 0],
                     [nth 1 (cp_xup S) 0; nth 0 oup 0 - nth 0 e 0]))
          | _, _, _ => None
          end
      end
  | CQuad _ =>
      let nlo := part 2 3 (cp_xlo S) ++ u_lo in let nup := part 2 3 (cp_xup S) ++ u_up in
      match output_constraint solve (cp_meth S) N nlo nup with
      | None => None
      | Some (c, B, (olo, oup)) =>
          match transform_input 8 [entry 8 2 1; entry 8 6 1; entry 8 7 1] (zeros 3) c with
          | None => None
          | Some c1 =>
              match Cout c1, Aout_input c1, Aout_slack c1 with
              | Some C, None, Some As =>
                  match add_rows
                      (map (fun i => entry 8 i 1) [0; 1]%nat ++ map (fun i => entry 8 i (-1)) [0; 1]%nat
                       ++ map (fun i => entry 8 i 1) [3; 4; 5]%nat
                       ++ map (fun i => entry 8 i (-1)) [3; 4; 5]%nat)
                      (firstn 2 (cp_xup S) ++ vneg (firstn 2 (cp_xlo S))
                       ++ part 3 6 (cp_xup S) ++ vneg (part 3 6 (cp_xlo S)))
                      (set_output c1
                        (Some (map (fun i => entry 8 i 1) [3; 4; 5]%nat ++ zerom 3 8))
                        (Some (zerom 3 (nsl c1) ++ As))
                        (match Aout_binary c1 with
                         | None => None
                         | Some Ab => Some (zerom 3 (nbin c1) ++ Ab)
                         end)
                        (Some (zeros 3 ++ vsub C e))) with
                  | None => None
                  | Some c2 =>
                      Some (c2, B, (nlo, nup),
                            (skipn 3 (cp_xlo S) ++ vsub olo e, skipn 3 (cp_xup S) ++ vsub oup e))
                  end
              | _, _, _ => None
              end
          end
      end
  end.

(** The input bounds of the constraints: given ones replace those of the plant —
    pendulum.py 169-172, quadrotor_2d.py 230-233. *)
Definition given (own : vec) (o : option vec) : vec :=
  match o with Some v => v | None => own end.

(** add_dynamics_constraint, i.e. _add_forward_dynamics_mip_constraints: the
    program, the network data (nn_input = x_var + u_var, 1054-1055) and, with the
    method IA, the bounds of the derivative. *)
Definition cp_add_ret (S : cp_sys) (xv xn uv : list nat) (alo aup : option vec)
    (vt : vtype) (m : mip) : option (mip * nn_ret * option (vec * vec)) :=
  match cp_mic S (given (cp_ulo S) alo) (given (cp_uup S) aup) with
  | None => None
  | Some (c, B, (nlo, nup), bnd) =>
      let '(m', z, be) := add_mic c (xv ++ uv) (Some xn) NewBinary vt m in
      Some (m', mkNN (xv ++ uv) z be nlo nup B,
            match cp_meth S with IA => Some bnd | _ => None end)
  end.

Definition cp_fwd (S : cp_sys) : fwd_sys :=
  mkFwd (cp_nx (cp_kind_ S)) (cp_nu (cp_kind_ S)) (cp_xlo S) (cp_xup S)
    (fun xv xn uv alo aup vt m =>
       match cp_add_ret S xv xn uv alo aup vt m with
       | Some (m', r, _) => Some (m', Some r)
       | None => None
       end)
    (cp_step S).

(** _add_system_constraint for the feedback system [F] whose forward system is
    [S] (dynamic_system.py 31-52 and feedback_system.py 345-379): the bounds of
    the derivative are those of the forward system. *)
Definition cp_loop_add (S : cp_sys) (F : feedback) (xv xn : list nat) (vt : vtype) (m : mip)
  : option (mip * option (vec * vec)) :=
  let '(m1, uv) := addVars (repeat (NInf, PInf) (f_nu (fb_fwd F))) VCont m in
  match add_controller solve F xv uv vt m1 with
  | None => None
  | Some (m2, (ulo, uup), _) =>
      match cp_add_ret S xv xn uv (Some ulo) (Some uup) vt m2 with
      | None => None
      | Some (m3, _, bnd) => Some (m3, bnd)
      end
  end.

End Solver.
