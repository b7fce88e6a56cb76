(** The forward systems of the examples: a network on some entries of the state
    and of the input, and linear rows for the rest of the next state.
    examples/car/unicycle.py (UnicycleReLUModel 72-291, UnicycleReLUZeroVelModel
    294-460), examples/car/acceleration_car.py (AccelerationCarReLUModel 47-225),
    examples/quadrotor3d/quadrotor.py (QuadrotorWithPixhawkReLUSystem 187-349,
    QuadrotorReLUSystem 352-583), examples/pole/pole_relu_system.py.
    Only single states are modelled (not the batch branches of step_forward). *)

Require Import Reals List Arith Bool.
Require Import Verif.Vec Verif.ModelMip Verif.ModelNet Verif.ModelLyapunov Verif.ModelSystems.
Import ListNotations.
Open Scope R_scope.

(** Python's [l[a:b]]. *)
Definition part {A} (a b : nat) (l : list A) : list A := firstn (b - a) (skipn a l).

Inductive ex_kind :=
  | KUnicycle (thetadot_as_input : bool)
  | KZeroVel (thetadot_as_input : bool)
  | KAccel
  | KPixhawk (hover : R)
  | KQuad (hover : R) (meth : method)
  | KPole (uz : R) (meth : method).
Record ex_sys := mkEx { ex_net : network; ex_xlo : vec; ex_xup : vec;
                        ex_ulo : vec; ex_uup : vec; ex_dt : R; ex_kind_ : ex_kind }.

(** self.x_dim, self.u_dim; the sizes that the constructors ask of the network —
    unicycle.py 98-116, acceleration_car.py 74-90, quadrotor.py 213-231, 377-394,
    pole_relu_system.py 35-50. *)
Definition ex_nx (k : ex_kind) : nat :=
  match k with KUnicycle _ | KZeroVel _ => 3 | KAccel => 4 | KPixhawk _ => 9
             | KQuad _ _ => 12 | KPole _ _ => 7 end.
Definition ex_nu (k : ex_kind) : nat :=
  match k with KUnicycle _ | KZeroVel _ | KAccel => 2 | KPixhawk _ | KQuad _ _ => 4
             | KPole _ _ => 3 end.
Definition ex_nin (k : ex_kind) : nat :=
  match k with KUnicycle td | KZeroVel td => if td then 3 else 2 | KAccel => 4
             | KPixhawk _ => 7 | KQuad _ _ => 10 | KPole _ _ => 7 end.
Definition ex_nout (k : ex_kind) : nat :=
  match k with KUnicycle _ | KZeroVel _ | KAccel => 2 | KPixhawk _ => 6
             | KQuad _ _ => 9 | KPole _ _ => 5 end.

(** The constructors — unicycle.py 97-125, acceleration_car.py 73-99, quadrotor.py
    212-240, 376-404, pole_relu_system.py 34-55.  Not every shape is checked:
    unicycle and car accept any x_up; the pole accepts any u_lo, u_up and dt. *)
Definition new_ex (N : network) (xlo xup ulo uup : vec) (dt : R) (k : ex_kind) : option ex_sys :=
  let net_ok := (Nat.eqb (x_size N) (ex_nin k) &&
                 Nat.eqb (out_features (last_layer N)) (ex_nout k))%bool in
  let xlo_ok := Nat.eqb (length xlo) (ex_nx k) in
  let xup_ok := Nat.eqb (length xup) (ex_nx k) in
  let u_ok := (Nat.eqb (length ulo) (ex_nu k) && Nat.eqb (length uup) (ex_nu k))%bool in
  if (match k with
      | KUnicycle _ | KZeroVel _ | KAccel => xlo_ok && u_ok && net_ok && Rltb 0 dt
      | KPixhawk _ | KQuad _ _ => xlo_ok && xup_ok && u_ok && net_ok && Rltb 0 dt
      | KPole _ _ => xlo_ok && xup_ok && net_ok
      end)%bool
  then Some (mkEx N xlo xup ulo uup dt k) else None.

(** self.x_equilibrium, self.u_equilibrium — unicycle.py 120-121,
    acceleration_car.py 94-95, quadrotor.py 234-236, 397-398,
    pole_relu_system.py 46-48. *)
Definition ex_xeq (k : ex_kind) : vec := zeros (ex_nx k).
Definition ex_ueq (k : ex_kind) : vec :=
  match k with
  | KUnicycle _ | KZeroVel _ | KAccel => zeros 2
  | KPixhawk h => [0; 0; 0; h]
  | KQuad h _ => repeat h 4
  | KPole uz _ => [0; 0; uz]
  end.

(** step_forward — unicycle.py 135-163, 327-356; acceleration_car.py 109-137;
    quadrotor.py 250-275, 414-439; pole_relu_system.py 65-75.  Vectors of the
    wrong length raise.  Unicycles assert that u is within the limits. *)
Definition ex_step (S : ex_sys) (x u : vec) : option vec :=
  let phi := forward (ex_net S) in
  let dt := ex_dt S in
  let k := ex_kind_ S in
  match k with
  | KUnicycle td =>
      match x, u with
      | [px; py; th], [v; w] =>
          if (vleb u (ex_uup S) && vleb (ex_ulo S) u)%bool then
            let d := if td then vsub (phi [th; v; w]) (phi (zeros 3))
                     else vsub (phi [th; v]) (phi (zeros 2)) in
            Some (vadd [px; py] d ++ [th + w * dt])
          else None
      | _, _ => None
      end
  | KZeroVel td =>
      match x, u with
      | [px; py; th], [v; w] =>
          if (vleb u (ex_uup S) && vleb (ex_ulo S) u)%bool then
            let d := if td then vsub (phi [th; v; w]) (phi [th; 0; w])
                     else vsub (phi [th; v]) (phi [th; 0]) in
            Some (vadd [px; py] d ++ [th + w * dt])
          else None
      | _, _ => None
      end
  | KAccel =>
      match x, u with
      | [px; py; th; v], [w; a] =>
          let d := vsub (phi [th; v; w; a]) (phi (skipn 2 (ex_xeq k) ++ ex_ueq k)) in
          Some (vadd [px; py] d ++ [th + w * dt; v + a * dt])
      | _, _ => None
      end
  | KPixhawk _ =>
      if (Nat.eqb (length x) 9 && Nat.eqb (length u) 4)%bool then
        let pos := firstn 3 x in let rpy := part 3 6 x in let vel := part 6 9 x in
        let d := vsub (phi (rpy ++ u)) (phi (zeros 3 ++ ex_ueq k)) in
        let vel' := vadd vel (firstn 3 d) in
        let rpy' := vadd rpy (skipn 3 d) in
        let pos' := vadd pos (vscale (dt / 2) (vadd vel' vel)) in
        Some (pos' ++ rpy' ++ vel')
      else None
  | KQuad _ _ =>
      if (Nat.eqb (length x) 12 && Nat.eqb (length u) 4)%bool then
        let d := vsub (phi (part 3 6 x ++ part 9 12 x ++ u))
                      (phi (part 3 6 (ex_xeq k) ++ part 9 12 (ex_xeq k) ++ ex_ueq k)) in
        let v' := vadd (part 6 9 x) (part 3 6 d) in
        let pos' := vadd (firstn 3 x) (vscale (dt / 2) (vadd (part 6 9 x) v')) in
        Some (pos' ++ firstn 3 d ++ v' ++ part 6 9 d)
      else None
  | KPole _ _ =>
      if (Nat.eqb (length x) 7 && Nat.eqb (length u) 3)%bool then
        let v' := vsub (vadd (skipn 2 x) (phi (firstn 2 x ++ skipn 5 x ++ u)))
                       (phi (firstn 2 (ex_xeq k) ++ skipn 5 (ex_xeq k) ++ ex_ueq k)) in
        let xy' := vadd (firstn 2 x) (vscale (dt / 2) (vadd (skipn 3 v') (skipn 5 x))) in
        Some (xy' ++ v')
      else None
  end.

(** What add_dynamics_constraint returns: a ReLUDynamicsConstraintReturn, or
    (UnicycleReLUZeroVelModel, unicycle.py 460) the pair (slack, binary). *)
Inductive ex_ret :=
  | ExReLU (r : nn_ret)
  | ExPair (slack binary : list nat).

Section Add.
Variable solve : mip -> gresult.

(** The encoding of the network for inputs within [lo] and [up].  QuadrotorReLUSystem
    calls _compute_layer_bound and _output_constraint_given_bounds (quadrotor.py
    476-477, 572-576); the others call output_constraint. *)
Definition ex_encode (k : ex_kind) (N : network) (lo up : vec) : option (mic * bounds) :=
  match k with
  | KQuad _ meth =>
      match compute_layer_bound solve meth N lo up with
      | None => None
      | Some B =>
          match output_constraint_given_bounds N (b_pre_lo B) (b_pre_up B) lo up with
          | None => None
          | Some c => Some (c, B)
          end
      end
  | KUnicycle _ | KZeroVel _ | KAccel =>
      match output_constraint solve LP N lo up with
      | None => None | Some (c, B, _) => Some (c, B)
      end
  | KPixhawk _ =>
      match output_constraint solve IA N lo up with
      | None => None | Some (c, B, _) => Some (c, B)
      end
  | KPole _ meth =>
      match output_constraint solve meth N lo up with
      | None => None | Some (c, B, _) => Some (c, B)
      end
  end.

(** Aout_input and Aout_binary are asserted to be None. *)
Definition ex_out (c : mic) : option (mat * vec) :=
  match Aout_input c, Aout_binary c, Aout_slack c, Cout c with
  | None, None, Some A, Some C => Some (A, C)
  | _, _, _, _ => None
  end.

(** The network inputs among variables — unicycle.py 252-255, 420-425,
    acceleration_car.py 182; the same selection from the bounds — unicycle.py
    236-243, 388-411, acceleration_car.py 171-174. *)
Definition uni_in {A} (td : bool) (th v w : A) : list A := if td then [th; v; w] else [th; v].

(** add_dynamics_constraint of UnicycleReLUModel — unicycle.py 203-291.  The
    binary variables have the default type of
    add_mixed_integer_linear_constraints (BINARY). *)
Definition unicycle_add (S : ex_sys) (td : bool) (xv xn uv : list nat) (u_lo u_up : vec)
    (vt : vtype) (m : mip) : option (mip * ex_ret) :=
  let N := ex_net S in
  match xv, xn, uv, ex_xlo S, ex_xup S, u_lo, u_up with
  | [x0; x1; x2], [n0; n1; n2], [v0; v1], _ :: _ :: tlo :: _, _ :: _ :: tup :: _,
    [l0; l1], [p0; p1] =>
      let lo := uni_in td tlo l0 l1 in
      let up := uni_in td tup p0 p1 in
      let iv := uni_in td x2 v0 v1 in
      match ex_encode (KUnicycle td) N lo up with
      | None => None
      | Some (c, B) =>
          let '(m1, z, be) := add_mic c iv None NewBinary vt m in
          match ex_out c with
          | None => None
          | Some (A, C) =>
              let m2 := addMConstr [eye 2; eyek 2 (-1); map vneg A] [[n0; n1]; [x0; x1]; z] SEq
                          (vsub C (forward N (zeros (if td then 3 else 2)))) m1 in
              match addLConstr [[1; -1; - ex_dt S]] [[n2; x2; v1]] SEq 0 m2 with
              | None => None
              | Some m3 => Some (m3, ExReLU (mkNN iv z be lo up B))
              end
          end
      end
  | _, _, _, _, _, _, _ => None
  end.

(** add_dynamics_constraint of UnicycleReLUZeroVelModel — unicycle.py 358-460. *)
Definition zerovel_add (S : ex_sys) (td : bool) (xv xn uv : list nat) (u_lo u_up : vec)
    (vt : vtype) (m : mip) : option (mip * ex_ret) :=
  let N := ex_net S in
  match xv, xn, uv, ex_xlo S, ex_xup S, u_lo, u_up with
  | [x0; x1; x2], [n0; n1; n2], [v0; v1], _ :: _ :: tlo :: _, _ :: _ :: tup :: _,
    [l0; l1], [p0; p1] =>
      match ex_encode (KZeroVel td) N (uni_in td tlo l0 l1) (uni_in td tup p0 p1),
            ex_encode (KZeroVel td) N (uni_in td tlo 0 l1) (uni_in td tup 0 p1) with
      | Some (c, _), Some (c0, _) =>
          let '(m1, zid) := addVars [(Fin 0, Fin 0)] VCont m in
          match zid with
          | [zv] =>
              let '(m2, z, be) := add_mic c (uni_in td x2 v0 v1) None NewBinary vt m1 in
              let '(m3, z0, _) := add_mic c0 (uni_in td x2 zv v1) None NewBinary vt m2 in
              match ex_out c, ex_out c0 with
              | Some (A, C), Some (A0, C0) =>
                  let m4 := addMConstr [eye 2; eyek 2 (-1); map vneg A; A0]
                              [[n0; n1]; [x0; x1]; z; z0] SEq (vsub C C0) m3 in
                  match addLConstr [[1; -1; - ex_dt S]] [[n2; x2; v1]] SEq 0 m4 with
                  | None => None
                  | Some m5 => Some (m5, ExPair z be)
                  end
              | _, _ => None
              end
          | _ => None
          end
      | _, _ => None
      end
  | _, _, _, _, _, _, _ => None
  end.

(** add_dynamics_constraint of AccelerationCarReLUModel — acceleration_car.py
    146-225. *)
Definition accel_add (S : ex_sys) (xv xn uv : list nat) (u_lo u_up : vec)
    (vt : vtype) (m : mip) : option (mip * ex_ret) :=
  let N := ex_net S in
  match xv, xn, uv, ex_xlo S, ex_xup S, u_lo, u_up with
  | [x0; x1; x2; x3], [n0; n1; n2; n3], [v0; v1], _ :: _ :: tlo :: slo :: _,
    _ :: _ :: tup :: sup :: _, [l0; l1], [p0; p1] =>
      let lo := [tlo; slo; l0; l1] in
      let up := [tup; sup; p0; p1] in
      let iv := [x2; x3; v0; v1] in
      match ex_encode KAccel N lo up with
      | None => None
      | Some (c, B) =>
          let '(m1, z, be) := add_mic c iv None NewBinary vt m in
          match ex_out c with
          | None => None
          | Some (A, C) =>
              let m2 := addMConstr [eye 2; eyek 2 (-1); map vneg A] [[n0; n1]; [x0; x1]; z] SEq
                          (vsub C (forward N (zeros 4))) m1 in
              match addLConstr [[1; -1; - ex_dt S]] [[n2; x2; v0]] SEq 0 m2 with
              | None => None
              | Some m3 =>
                  match addLConstr [[1; -1; - ex_dt S]] [[n3; x3; v1]] SEq 0 m3 with
                  | None => None
                  | Some m4 => Some (m4, ExReLU (mkNN iv z be lo up B))
                  end
              end
          end
      end
  | _, _, _, _, _, _, _ => None
  end.

(** The rows [q' - q - dt/2 (v' + v) = 0] — quadrotor.py 334-345, 503-514,
    pole_relu_system.py 132-142. *)
Definition midpoint_rows (k : nat) (dt : R) (qn q vn v : list nat) (m : mip) : mip :=
  addMConstr [eye k; eyek k (-1); eyek k (- dt / 2); eyek k (- dt / 2)] [qn; q; vn; v] SEq
    (zeros k) m.

(** add_dynamics_constraint of QuadrotorWithPixhawkReLUSystem — quadrotor.py 281-349. *)
Definition pixhawk_add (S : ex_sys) (xv xn uv : list nat) (u_lo u_up : vec)
    (vt : vtype) (m : mip) : option (mip * ex_ret) :=
  let N := ex_net S in
  let k := ex_kind_ S in
  let lo := part 3 6 (ex_xlo S) ++ u_lo in
  let up := part 3 6 (ex_xup S) ++ u_up in
  let iv := part 3 6 xv ++ uv in
  match ex_encode k N lo up with
  | None => None
  | Some (c, B) =>
      let '(m1, z, be) := add_mic c iv None NewBinary vt m in
      match ex_out c with
      | None => None
      | Some (A, C) =>
          let m2 := addMConstr [eye 6; eyek 6 (-1); map vneg A]
                      [part 6 9 xn ++ part 3 6 xn; part 6 9 xv ++ part 3 6 xv; z] SEq
                      (vsub C (forward N (zeros 3 ++ ex_ueq k))) m1 in
          let m3 := midpoint_rows 3 (ex_dt S) (firstn 3 xn) (firstn 3 xv)
                      (part 6 9 xn) (part 6 9 xv) m2 in
          Some (m3, ExReLU (mkNN iv z be lo up B))
      end
  end.

(** _add_dynamics_constraint_given_relu_bounds of QuadrotorReLUSystem — quadrotor.py
    474-526, after the encoding [c] of the network for inputs within [lo] and [up] is
    computed from the bounds [B] (479-480). *)
Definition quad_given (S : ex_sys) (xv xn uv : list nat) (lo up : vec) (c : mic) (B : bounds)
    (vt : vtype) (m : mip) : option (mip * ex_ret) :=
  let N := ex_net S in
  let k := ex_kind_ S in
  let iv := part 3 6 xv ++ part 9 12 xv ++ uv in
  let '(m1, z, be) := add_mic c iv None NewBinary vt m in
  match ex_out c with
  | None => None
  | Some (A, C) =>
      let m2 := addMConstr [eye 9; zerom 3 3 ++ eyek 3 (-1) ++ zerom 3 3; map vneg A]
                  [part 3 12 xn; part 6 9 xv; z] SEq
                  (vsub C (forward N (part 3 6 (ex_xeq k) ++ part 9 12 (ex_xeq k) ++ ex_ueq k)))
                  m1 in
      let m3 := midpoint_rows 3 (ex_dt S) (firstn 3 xn) (firstn 3 xv)
                  (part 6 9 xn) (part 6 9 xv) m2 in
      Some (m3, ExReLU (mkNN iv z be lo up B))
  end.
(** add_dynamics_constraint of QuadrotorReLUSystem — quadrotor.py 528-570, without a
    callback (with one: ModelQuadLoop.v). *)
Definition quad_add (S : ex_sys) (xv xn uv : list nat) (u_lo u_up : vec)
    (vt : vtype) (m : mip) : option (mip * ex_ret) :=
  let lo := part 3 6 (ex_xlo S) ++ part 9 12 (ex_xlo S) ++ u_lo in
  let up := part 3 6 (ex_xup S) ++ part 9 12 (ex_xup S) ++ u_up in
  match ex_encode (ex_kind_ S) (ex_net S) lo up with
  | None => None
  | Some (c, B) => quad_given S xv xn uv lo up c B vt m
  end.

(** Python's [l[-2:]]. *)
Definition last2 {A} (l : list A) : list A := skipn (length l - 2) l.

(** add_dynamics_constraint of PoleReluSystem — pole_relu_system.py 87-148. *)
Definition pole_add (S : ex_sys) (xv xn uv : list nat) (u_lo u_up : vec)
    (vt : vtype) (m : mip) : option (mip * ex_ret) :=
  let N := ex_net S in
  let k := ex_kind_ S in
  let lo := firstn 2 (ex_xlo S) ++ last2 (ex_xlo S) ++ u_lo in
  let up := firstn 2 (ex_xup S) ++ last2 (ex_xup S) ++ u_up in
  let iv := firstn 2 xv ++ last2 xv ++ uv in
  match ex_encode k N lo up with
  | None => None
  | Some (c, B) =>
      let '(m1, z, be) := add_mic c iv None NewBinary vt m in
      match ex_out c with
      | None => None
      | Some (A, C) =>
          let m2 := addMConstr [eye 5; eyek 5 (-1); map vneg A] [skipn 2 xn; skipn 2 xv; z] SEq
                      (vsub C (forward N (firstn 2 (ex_xeq k) ++ last2 (ex_xeq k) ++ ex_ueq k)))
                      m1 in
          let m3 := midpoint_rows 2 (ex_dt S) (firstn 2 xn) (firstn 2 xv)
                      (last2 xn) (last2 xv) m2 in
          Some (m3, ExReLU (mkNN iv z be lo up B))
      end
  end.

(** add_dynamics_constraint called with positional arguments and the additional
    bounds.  [vt]: the type of the binary variables. *)
Definition ex_add_ret (S : ex_sys) (xv xn uv : list nat) (alo aup : option vec)
    (vt : vtype) (m : mip) : option (mip * ex_ret) :=
  let u_lo := tight_lo (ex_ulo S) alo in
  let u_up := tight_up (ex_uup S) aup in
  match ex_kind_ S with
  | KUnicycle td => unicycle_add S td xv xn uv u_lo u_up vt m
  | KZeroVel td => zerovel_add S td xv xn uv u_lo u_up vt m
  | KAccel => accel_add S xv xn uv u_lo u_up vt m
  | KPixhawk _ => pixhawk_add S xv xn uv u_lo u_up vt m
  | KQuad _ _ => quad_add S xv xn uv u_lo u_up vt m
  | KPole _ _ => pole_add S xv xn uv u_lo u_up vt m
  end.

(** Which keyword arguments the signatures have: binary_var_type, u_input_prog —
    unicycle.py 203-211, 358-367; acceleration_car.py 146-155; quadrotor.py 281-290,
    528-539; pole_relu_system.py 87-96. *)
Definition takes_binary_var_type (k : ex_kind) : bool :=
  match k with KUnicycle _ => false | _ => true end.
Definition takes_u_input_prog (k : ex_kind) : bool :=
  match k with KQuad _ _ => true | _ => false end.

(** The forward system as FeedbackSystem sees it: add_dynamics_mip_constraint
    (feedback_system.py 368-376) passes both keywords; a signature without one of
    them raises a TypeError. *)
Definition ex_fwd (S : ex_sys) : fwd_sys :=
  mkFwd (ex_nx (ex_kind_ S)) (ex_nu (ex_kind_ S)) (ex_xlo S) (ex_xup S)
    (fun xv xn uv alo aup vt m =>
       if (takes_binary_var_type (ex_kind_ S) && takes_u_input_prog (ex_kind_ S))%bool then
         match ex_add_ret S xv xn uv alo aup vt m with
         | Some (m', ExReLU r) => Some (m', Some r)
         | Some (m', ExPair _ _) => Some (m', None)
         | None => None
         end
       else None)
    (ex_step S).

End Add.
