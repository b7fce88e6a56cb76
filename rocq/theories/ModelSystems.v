(** Model of /repo/neural_network_lyapunov/relu_system.py (systems whose dynamics
    is a network) and feedback_system.py (a forward system closed with a
    controller that is saturated at input limits).

    [None] is a raised exception.  dtype/device handling, names of variables and
    batches of states (the map of the single-state function) are left out.  The
    separate programs x_next_bound_prog / control_bound_prog that are only
    returned to the caller (relu_system.py:78-92, feedback_system.py:188-205,
    276-294) do not touch the given program; they are in ModelOptBounds. *)

Require Import Reals List Bool Arith.
Require Import Verif.Vec Verif.ModelMip Verif.ModelUtils Verif.ModelNet Verif.ModelPattern
  Verif.ModelStrengthen Verif.ModelLyapunov Verif.ModelHybrid.
Import ListNotations.
Open Scope R_scope.

(** The fields Aout_input, Aout_slack, Cout of a constraint replaced. *)
Definition with_output (c : mic) (Ai As : option mat) (C : option vec) : mic :=
  mkMic (nin c) (nsl c) (nbin c) Ai As (Aout_binary c) C
        (Ain_input c) (Ain_slack c) (Ain_binary c) (rhs_in c)
        (Aeq_input c) (Aeq_slack c) (Aeq_binary c) (rhs_eq c)
        (input_lo c) (input_up c) (slack_lo c) (slack_up c) (binary_lo c) (binary_up c).
(** result.Cout += v *)
Definition add_Cout (v : vec) (c : mic) : option mic :=
  match Cout c with
  | Some C => Some (with_output c (Aout_input c) (Aout_slack c) (Some (vadd C v)))
  | None => None
  end.

(** The data about the network of a system that add_dynamics_constraint returns
    (ReLUDynamicsConstraintReturn, lines 9-47): input variables, slacks,
    binaries, input bounds, layer bounds. *)
Record nn_ret := mkNN { nn_in : list nat; nn_z : list nat; nn_be : list nat;
                        nn_lo : vec; nn_up : vec; nn_bounds : bounds }.

(** ** Autonomous systems *)

(** AutonomousReLUSystem (96-180), AutonomousReLUSystemGivenEquilibrium
    (183-287), AutonomousResidualReLUSystemGivenEquilibrium (290-398); [discrete]
    is discrete_time_flag. *)
Inductive auto_kind :=
  | APlain
  | AGiven (xeq : vec) (discrete : bool)
  | AResidual (xeq : vec) (discrete : bool).
Record auto_sys := mkAuto { au_net : network; au_lo : vec; au_up : vec;
                            au_meth : method; au_kind : auto_kind }.

(** The constructors — lines 120-122, 208-219, 314-325. *)
Definition new_auto (N : network) (lo up : vec) (meth : method) (k : auto_kind)
  : option auto_sys :=
  if (Nat.eqb (length lo) (length up) && vleb lo up
      && Nat.eqb (x_size N) (out_features (last_layer N))
      && match k with
         | APlain => true
         | AGiven xeq _ | AResidual xeq _ => Nat.eqb (length xeq) (length lo)
         end)%bool
  then Some (mkAuto N lo up meth k) else None.

(** step_forward — 157-159, 257-264, 369-376. *)
Definition auto_step (S : auto_sys) (x : vec) : vec :=
  let N := au_net S in
  match au_kind S with
  | APlain => forward N x
  | AGiven xeq true => vadd (vsub (forward N x) (forward N xeq)) xeq
  | AGiven xeq false => vsub (forward N x) (forward N xeq)
  | AResidual xeq true => vadd (vsub (forward N x) (forward N xeq)) x
  | AResidual xeq false => vsub (forward N x) (forward N xeq)
  end.

Section Solver.
Variable solve : mip -> gresult.

(** mixed_integer_constraints — 137-150, 230-250, 336-362. *)
Definition auto_mic (S : auto_sys) : option (mic * bounds * (vec * vec)) :=
  let N := au_net S in
  match output_constraint solve (au_meth S) N (au_lo S) (au_up S) with
  | None => None
  | Some (c, B, out) =>
      match (match au_kind S with
             | APlain => Some c
             | AGiven xeq true => add_Cout (vadd (vneg (forward N xeq)) xeq) c
             | AGiven xeq false => add_Cout (vneg (forward N xeq)) c
             | AResidual xeq true =>
                 match add_Cout (vneg (forward N xeq)) c with
                 | None => None
                 | Some c1 =>
                     Some (with_output c1
                             (Some (match Aout_input c1 with
                                    | None => eye (length (au_lo S))
                                    | Some A => map2 vadd A (eye (length (au_lo S)))
                                    end))
                             (Aout_slack c1) (Cout c1))
                 end
             | AResidual xeq false => add_Cout (vneg (forward N xeq)) c
             end) with
      | None => None
      | Some c' => Some (c', B, out)
      end
  end.

(** x_next_lb_IA, x_next_ub_IA — 168-172, 273-280, 385-391 (given only for the
    methods IA and IA_MIP). *)
Definition auto_next_IA (S : auto_sys) (out : vec * vec) : option (vec * vec) :=
  match au_meth S with
  | IA | IA_MIP =>
      let N := au_net S in let '(lo, up) := out in
      Some (match au_kind S with
            | APlain => (lo, up)
            | AGiven xeq true => (vadd (vsub lo (forward N xeq)) xeq,
                                  vadd (vsub up (forward N xeq)) xeq)
            | AGiven xeq false => (vsub lo (forward N xeq), vsub up (forward N xeq))
            | AResidual xeq true => (vadd (vsub lo (forward N xeq)) (au_lo S),
                                     vadd (vsub up (forward N xeq)) (au_up S))
            | AResidual xeq false => (vsub lo (forward N xeq), vsub up (forward N xeq))
            end)
  | _ => None
  end.

(** add_dynamics_constraint — 161-180, 266-287, 378-398 with
    _add_dynamics_constraint_autonmous 50-93.  Also returned: the network data
    and the bounds of the next state. *)
Definition auto_add_ret (S : auto_sys) (xv xn : list nat) (vt : vtype) (m : mip)
  : option (mip * nn_ret * option (vec * vec)) :=
  match auto_mic S with
  | None => None
  | Some (c, B, out) =>
      let '(m', z, be) := add_mic c xv (Some xn) NewBinary vt m in
      Some (m', mkNN xv z be (au_lo S) (au_up S) B, auto_next_IA S out)
  end.
Definition auto_add (S : auto_sys) (xv xn : list nat) (vt : vtype) (m : mip) : option mip :=
  match auto_add_ret S xv xn vt m with
  | Some (m', _, _) => Some m'
  | None => None
  end.

(** ** Systems with an input *)

(** ReLUSystem (401-501), ReLUSystemGivenEquilibrium (504-622),
    ReLUSecondOrderSystemGivenEquilibrium (625-783),
    ReLUSecondOrderResidueSystemGivenEquilibrium (786-961).  Network input
    indices are natural numbers (Python's negative indices are not modelled). *)
Inductive ctl_kind :=
  | CPlain
  | CGiven (xeq ueq : vec) (discrete : bool)
  | CSecond (qeq ueq : vec) (dt : R)
  | CResidue (qeq ueq : vec) (dt : R) (idx : list nat).
Record ctl_sys := mkCtl { ct_net : network; ct_xlo : vec; ct_xup : vec;
                          ct_ulo : vec; ct_uup : vec; ct_kind : ctl_kind }.

Definition ct_nx (S : ctl_sys) : nat := length (ct_xlo S).
Definition ct_nu (S : ctl_sys) : nat := length (ct_ulo S).
(** self.nv, self.nq — 673-674, 834-835. *)
Definition ct_nv (S : ctl_sys) : nat := out_features (last_layer (ct_net S)).
Definition ct_nq (S : ctl_sys) : nat := (ct_nx S - ct_nv S)%nat.
(** self.x_equilibrium, self.u_equilibrium — 549, 553, 681-682, 841-843. *)
Definition ct_eq (S : ctl_sys) : option (vec * vec) :=
  match ct_kind S with
  | CPlain => None
  | CGiven xeq ueq _ => Some (xeq, ueq)
  | CSecond qeq ueq _ | CResidue qeq ueq _ _ => Some (qeq ++ zeros (ct_nv S), ueq)
  end.

(** The constructors — lines 427-443, 530-554, 654-692, 813-855. *)
Definition new_ctl (N : network) (xlo xup ulo uup : vec) (k : ctl_kind) : option ctl_sys :=
  let S := mkCtl N xlo xup ulo uup k in
  let shapes := (Nat.eqb (length xlo) (length xup) && Nat.eqb (length ulo) (length uup))%bool in
  let ordered := (vleb xlo xup && vleb ulo uup)%bool in
  let eq_in xeq ueq := (Nat.eqb (length ueq) (length ulo) && vleb xlo xeq && vleb xeq xup
                        && vleb ulo ueq && vleb ueq uup)%bool in
  let full := Nat.eqb (x_size N) (length xlo + length ulo) in
  let out_x := Nat.eqb (out_features (last_layer N)) (length xlo) in
  if (shapes &&
      match k with
      | CPlain => ordered && full && out_x
      | CGiven xeq ueq _ =>
          ordered && full && out_x && Nat.eqb (length xeq) (length xlo) && eq_in xeq ueq
      | CSecond qeq ueq dt =>
          full && Nat.leb (ct_nv S) (length xlo) && Nat.eqb (length qeq) (ct_nq S)
          && eq_in (qeq ++ zeros (ct_nv S)) ueq && Rltb 0 dt
      | CResidue qeq ueq dt idx =>
          Nat.eqb (x_size N) (length idx + length ulo)
          && Nat.leb (ct_nv S) (length xlo) && Nat.eqb (length qeq) (ct_nq S)
          && eq_in (qeq ++ zeros (ct_nv S)) ueq && Rltb 0 dt
      end)%bool
  then Some S else None.

(** v[idx]; an index out of range raises. *)
Definition gather {A} (idx : list nat) (v : list A) : option (list A) :=
  all_some (map (nth_error v) idx).

(** [q_next; v_next] with q_next = q + (v + v_next) * dt / 2.  Vectors of
    different length raise (PyTorch would broadcast a vector of length one:
    not modelled). *)
Definition midpoint (dt : R) (q v v' : vec) : option vec :=
  if Nat.eqb (length q) (length v)
  then Some (vadd q (vscale (dt / 2) (vadd v v')) ++ v') else None.

(** step_forward — 475-478, 592-600, 743-760, 862-892. *)
Definition ctl_step (S : ctl_sys) (x u : vec) : option vec :=
  let N := ct_net S in
  match ct_kind S with
  | CPlain => Some (forward N (x ++ u))
  | CGiven xeq ueq disc =>
      let d := vsub (forward N (x ++ u)) (forward N (xeq ++ ueq)) in
      Some (if disc then vadd d xeq else d)
  | CSecond qeq ueq dt =>
      let v' := vsub (forward N (x ++ u)) (forward N ((qeq ++ zeros (ct_nv S)) ++ ueq)) in
      midpoint dt (firstn (ct_nq S) x) (skipn (ct_nq S) x) v'
  | CResidue qeq ueq dt idx =>
      match gather idx x, gather idx (qeq ++ zeros (ct_nv S)) with
      | Some xi, Some xei =>
          let v := skipn (ct_nq S) x in
          let v' := vsub (vadd v (forward N (xi ++ u))) (forward N (xei ++ ueq)) in
          midpoint dt (firstn (ct_nq S) x) v v'
      | _, _ => None
      end
  end.

(** u_lo = max(self.u_lo, additional_u_lo), u_up = min(self.u_up,
    additional_u_up) — 904-907, 973-976. *)
Definition tight_lo (lo : vec) (alo : option vec) : vec :=
  match alo with None => lo | Some a => map2 Rmax lo a end.
Definition tight_up (up : vec) (aup : option vec) : vec :=
  match aup with None => up | Some a => map2 Rmin up a end.

(** mixed_integer_constraints — 453-473, 564-590, 702-741 (the residue class has
    none: its constraints are added by [ctl_add_ret]). *)
Definition ctl_mic (S : ctl_sys) (u_lo u_up : vec) : option (mic * bounds) :=
  let N := ct_net S in
  match output_constraint solve IA N (ct_xlo S ++ u_lo) (ct_xup S ++ u_up) with
  | None => None
  | Some (c, B, _) =>
      match ct_kind S with
      | CPlain => Some (c, B)
      | CGiven xeq ueq disc =>
          match add_Cout (vneg (forward N (xeq ++ ueq))) c with
          | None => None
          | Some c1 =>
              if disc then match add_Cout xeq c1 with
                           | None => None
                           | Some c2 => Some (c2, B)
                           end
              else Some (c1, B)
          end
      | CSecond qeq ueq dt =>
          match Aout_input c, Aout_binary c, Aout_slack c, Cout c with
          | None, None, Some A, Some C0 =>
              let C := vsub C0 (forward N ((qeq ++ zeros (ct_nv S)) ++ ueq)) in
              if Nat.eqb (ct_nq S) (ct_nv S)
              then Some (with_output c
                     (Some (hcat (hcat (eye (ct_nq S)) (eyek (ct_nv S) (dt / 2)))
                                 (zerom (ct_nq S) (ct_nu S))
                            ++ zerom (ct_nv S) (ct_nx S + ct_nu S)))
                     (Some (map (vscale (dt / 2)) A ++ A))
                     (Some (vscale (dt / 2) C ++ C)), B)
              else None
          | _, _, _, _ => None
          end
      | CResidue _ _ _ _ => None
      end
  end.

(** add_dynamics_constraint — _add_dynamics_mip_constraints 964-986 and, for the
    residue class, 900-961. *)
Definition ctl_add_ret (S : ctl_sys) (xv xn uv : list nat) (alo aup : option vec)
    (vt : vtype) (m : mip) : option (mip * nn_ret) :=
  let N := ct_net S in
  let u_lo := tight_lo (ct_ulo S) alo in
  let u_up := tight_up (ct_uup S) aup in
  match ct_kind S with
  | CResidue qeq ueq dt idx =>
      match gather idx (ct_xlo S), gather idx (ct_xup S), gather idx xv,
            gather idx (qeq ++ zeros (ct_nv S)) with
      | Some xlo, Some xup, Some xi, Some xei =>
          match output_constraint solve IA N (xlo ++ u_lo) (xup ++ u_up) with
          | None => None
          | Some (c, B, _) =>
              let '(m1, z, be) := add_mic c (xi ++ uv) None NewBinary vt m in
              match Aout_input c, Aout_binary c, Aout_slack c, Cout c with
              | None, None, Some A, Some C =>
                  if Nat.eqb (ct_nq S) (ct_nv S) then
                    let vn := skipn (ct_nq S) xn in
                    let vc := skipn (ct_nq S) xv in
                    let m2 := addMConstr [eye (ct_nv S); eyek (ct_nv S) (-1); map vneg A]
                                [vn; vc; z] SEq
                                (vsub C (forward N (xei ++ ueq))) m1 in
                    let m3 := addMConstr [eye (ct_nq S); eyek (ct_nq S) (-1);
                                          eyek (ct_nv S) (- dt / 2); eyek (ct_nv S) (- dt / 2)]
                                [firstn (ct_nq S) xn; firstn (ct_nq S) xv; vn; vc] SEq
                                (zeros (ct_nv S)) m2 in
                    Some (m3, mkNN (xi ++ uv) z be (xlo ++ u_lo) (xup ++ u_up) B)
                  else None
              | _, _, _, _ => None
              end
          end
      | _, _, _, _ => None
      end
  | _ =>
      match ctl_mic S u_lo u_up with
      | None => None
      | Some (c, B) =>
          let '(m', z, be) := add_mic c (xv ++ uv) (Some xn) NewBinary vt m in
          Some (m', mkNN (xv ++ uv) z be (ct_xlo S ++ u_lo) (ct_xup S ++ u_up) B)
      end
  end.
Definition ctl_add (S : ctl_sys) (xv xn uv : list nat) (alo aup : option vec)
    (vt : vtype) (m : mip) : option mip :=
  match ctl_add_ret S xv xn uv alo aup vt m with
  | Some (m', _) => Some m'
  | None => None
  end.

(** ** Feedback systems *)

(** What FeedbackSystem uses of its forward system: x_dim, u_dim, x_lo_all,
    x_up_all, add_dynamics_constraint, step_forward. *)
Record fwd_sys := mkFwd {
  f_nx : nat; f_nu : nat; f_lo : vec; f_up : vec;
  f_add : list nat -> list nat -> list nat -> option vec -> option vec ->
          vtype -> mip -> option (mip * option nn_ret);
  f_step : vec -> vec -> option vec
}.

Definition ctl_fwd (S : ctl_sys) : fwd_sys :=
  mkFwd (ct_nx S) (ct_nu S) (ct_xlo S) (ct_xup S)
    (fun xv xn uv alo aup vt m =>
       match ctl_add_ret S xv xn uv alo aup vt m with
       | Some (m', r) => Some (m', Some r)
       | None => None
       end)
    (ctl_step S).
(** HybridLinearSystem — hybrid_linear_system.py: the bounds of all modes
    (infinite ones raise later: None) and the constraints, where the additional
    input bounds are ignored (264-300); step_forward(...)[0]
    (feedback_system.py:464-466). *)
Definition hybrid_fwd (h : hybrid) : option fwd_sys :=
  match all_some (map fin (firstn (h_nx h) (lo_all h))),
        all_some (map fin (firstn (h_nx h) (up_all h))) with
  | Some lo, Some up =>
      Some (mkFwd (h_nx h) (h_nu h) lo up
              (fun xv xn uv _ _ vt m =>
                 match hybrid_add_dynamics h xv xn uv vt m with
                 | Some m' => Some (m', None)
                 | None => None
                 end)
              (fun x u => step_forward h x u None))
  | _, _ => None
  end.

(** torch.nn.Sequential or torch.nn.Linear. *)
Inductive controller := CtlNet (N : network) | CtlLinear (l : linear).
(** self.controller_network(x). *)
Definition linear_forward (l : linear) (x : vec) : vec := vadd (mv (weight l) x) (bias_of l).
Definition controller_forward (k : controller) (x : vec) : vec :=
  match k with
  | CtlNet N => forward N x
  | CtlLinear l => linear_forward l x
  end.

Record feedback := mkFb { fb_fwd : fwd_sys; fb_ctl : controller; fb_xeq : vec; fb_ueq : vec;
                          fb_lower : list ext; fb_upper : list ext; fb_meth : method }.

(** The constructor — lines 48-107; [meth] is
    controller_network_bound_propagate_method. *)
Definition new_feedback (f : fwd_sys) (k : controller) (xeq ueq : vec)
    (lower upper : list ext) (meth : method) : option feedback :=
  if ((match k with
       | CtlNet N => Nat.eqb (x_size N) (f_nx f) && Nat.eqb (out_features (last_layer N)) (f_nu f)
       | CtlLinear l => Nat.eqb (in_features l) (f_nx f) && Nat.eqb (out_features l) (f_nu f)
       end)
      && Nat.eqb (length xeq) (f_nx f) && Nat.eqb (length ueq) (f_nu f)
      && Nat.eqb (length lower) (f_nu f) && Nat.eqb (length upper) (f_nu f))%bool
  then Some (mkFb f k xeq ueq lower upper meth) else None.

(** u_pre_sat of compute_u — lines 446-447. *)
Definition pre_saturation (F : feedback) (x : vec) : vec :=
  vadd (vsub (controller_forward (fb_ctl F) x) (controller_forward (fb_ctl F) (fb_xeq F)))
       (fb_ueq F).
(** compute_u — lines 441-458; None: an infinite input. *)
Definition compute_u (F : feedback) (x : vec) : option vec :=
  all_some (map fin (map2 ext_max
     (map2 ext_min (map Fin (pre_saturation F x)) (fb_upper F)) (fb_lower F))).
(** step_forward — lines 464-470. *)
Definition fb_step (F : feedback) (x : vec) : option vec :=
  match compute_u F x with
  | Some u => f_step (fb_fwd F) x u
  | None => None
  end.

Definition ext_leb (a b : ext) : bool :=
  match a, b with
  | NInf, _ | _, PInf => true
  | Fin x, Fin y => Rleb x y
  | _, _ => false
  end.

(** The loop of _add_input_saturation_constraint — lines 497-511. *)
Fixpoint saturation_loop (uv pv : list nat) (lower upper : list ext) (plo pup : vec)
    (vt : vtype) (m : mip) : option mip :=
  match uv, pv, lower, upper, plo, pup with
  | [], _, _, _, _, _ => Some m
  | u :: uv', p :: pv', lo :: lower', up :: upper', pl :: plo', pu :: pup' =>
      match (match lo, up with
             | Fin l, Fin h =>
                 match add_saturation p u l h pl pu vt m with
                 | Some (m1, _) => Some m1
                 | None => None
                 end
             | Fin _, _ | _, Fin _ => None
             | _, _ => addLConstr [[1; -1]] [[u; p]] SEq 0 m
             end) with
      | Some m1 => saturation_loop uv' pv' lower' upper' plo' pup' vt m1
      | None => None
      end
  | _, _, _, _, _, _ => None
  end.
(** _add_input_saturation_constraint — lines 478-513: the program and
    u_lower_bound, u_upper_bound.  Infinite input bounds (both limits the same
    infinity) are the error value: they raise in output_constraint. *)
Definition add_input_saturation (uv pv : list nat) (lower upper : list ext) (plo pup : vec)
    (vt : vtype) (m : mip) : option (mip * (vec * vec)) :=
  if (forallb (fun b => b) (map2 ext_leb lower upper) && vleb plo pup)%bool then
    match all_some (map fin (map2 ext_min (map2 ext_max lower (map Fin plo)) upper)),
          all_some (map fin (map2 ext_max (map2 ext_min upper (map Fin pup)) lower)) with
    | Some ulo, Some uup =>
        match saturation_loop uv pv lower upper plo pup vt m with
        | Some m' => if vleb ulo uup then Some (m', (ulo, uup)) else None
        | None => None
        end
    | _, _ => None
    end
  else None.

(** _add_controller_mip_constraint — lines 263-300: for a network 109-186, for a
    linear layer 221-261.  Returns the program, the bounds of u and, for a
    network, its data. *)
Definition add_controller (F : feedback) (xv uv : list nat) (vt : vtype) (m : mip)
  : option (mip * (vec * vec) * option nn_ret) :=
  let f := fb_fwd F in
  let lo := f_lo f in let up := f_up f in
  match fb_ctl F with
  | CtlNet N =>
      match compute_layer_bound solve (fb_meth F) N lo up with
      | None => None
      | Some B =>
          match compute_network_output_bounds solve (fb_meth F) N (b_pre_lo B) (b_pre_up B) lo up,
                output_constraint_given_bounds N (b_pre_lo B) (b_pre_up B) lo up with
          | Some (olo, oup), Some c =>
              match Aout_input c, Aout_binary c, Aout_slack c, Cout c with
              | None, None, Some A, Some C =>
                  let '(m1, z, be) := add_mic c xv None NewBinary vt m in
                  let '(m2, pv) := addVars (repeat (NInf, PInf) (f_nu f)) VCont m1 in
                  let eqv := forward N (fb_xeq F) in
                  let m3 := addMConstr [A; eyek (f_nu f) (-1)] [z; pv] SEq
                              (vsub (vsub eqv (fb_ueq F)) C) m2 in
                  match add_input_saturation uv pv (fb_lower F) (fb_upper F)
                          (vadd (vsub olo eqv) (fb_ueq F)) (vadd (vsub oup eqv) (fb_ueq F))
                          vt m3 with
                  | Some (m4, b) => Some (m4, b, Some (mkNN xv z be lo up B))
                  | None => None
                  end
              | _, _, _, _ => None
              end
          | _, _ => None
          end
      end
  | CtlLinear l =>
      let '(m1, pv) := addVars (repeat (NInf, PInf) (f_nu f)) VCont m in
      let eqv := linear_forward l (fb_xeq F) in
      let m2 := addMConstr [eyek (f_nu f) (-1); weight l] [pv; xv] SEq
                  (vsub (vadd (vneg (fb_ueq F)) eqv) (bias_of l)) m1 in
      match propagate_linear l lo up with
      | None => None
      | Some (olo, oup) =>
          match add_input_saturation uv pv (fb_lower F) (fb_upper F)
                  (vadd (vsub olo eqv) (fb_ueq F)) (vadd (vsub oup eqv) (fb_ueq F)) vt m2 with
          | Some (m3, b) => Some (m3, b, None)
          | None => None
          end
      end
  end.

(** What add_dynamics_mip_constraint returns: the input variables and the data
    of the forward network and of the controller network. *)
Record fb_ret := mkFbRet { fr_u : list nat; fr_fwd : option nn_ret; fr_ctl : option nn_ret }.

(** add_dynamics_mip_constraint — lines 345-379. *)
Definition fb_add_ret (F : feedback) (xv xn : list nat) (vt : vtype) (m : mip)
  : option (mip * fb_ret) :=
  let f := fb_fwd F in
  let '(m1, uv) := addVars (repeat (NInf, PInf) (f_nu f)) VCont m in
  match add_controller F xv uv vt m1 with
  | None => None
  | Some (m2, (ulo, uup), rc) =>
      match f_add f xv xn uv (Some ulo) (Some uup) vt m2 with
      | None => None
      | Some (m3, rf) => Some (m3, mkFbRet uv rf rc)
      end
  end.
Definition fb_add (F : feedback) (xv xn : list nat) (vt : vtype) (m : mip) : option mip :=
  match fb_add_ret F xv xn vt m with
  | Some (m', _) => Some m'
  | None => None
  end.

End Solver.
