(** Model of examples/quadrotor3d/quadrotor_feedback_system.py: a quadrotor closed
    with a network controller, where the bounds of the forward network are computed by
    programs that contain the controller too; and of the create_prog_callback argument
    of relu_to_optimization.py, through which these programs are handed over.

    Names of variables and the control_bound_prog of the return value (95-117, 130;
    the forward system ignores it) are not modelled. *)

Require Import Reals List Bool Arith.
Require Import Verif.Vec Verif.ModelMip Verif.ModelUtils Verif.ModelNet Verif.ModelLyapunov
  Verif.ModelSystems Verif.ModelExSystems.
Import ListNotations.
Open Scope R_scope.

Section Bounds.
Variable solve : mip -> gresult.

(** What calling create_prog_callback gives: a program and the variables of the network
    input; None: it raises.  It is called anew for every bound; being a function without
    arguments of fixed data it returns the same program every time. *)
Definition callback := option (mip * list nat).

(** _compute_linear_output_bound_by_optimization — relu_to_optimization.py 413-516, with
    a callback. [n]: input_dim. *)
Definition bound_by_callback (n : nat) (cb : callback) (hs : list (linear * act)) (w : vec) (b : R)
           (pre_lo pre_up x_lo x_up : vec) (vt : vtype) : option (R * R) :=
  match cb with
  | None => None
  | Some (p, xv) =>
      if Nat.eqb (length xv) n then
        let p1 := addMConstr [eye n] [xv] SLe x_up p in
        let m0 := addMConstr [eye n] [xv] SGe x_lo p1 in
        match program_layers hs 0 pre_lo pre_up vt xv m0 with
        | None => None
        | Some (m1, zv) =>
            match setObjective [w] [zv] b true m1 with
            | None => None
            | Some m2 =>
                match setObjective [w] [zv] b false m2 with
                | None => None
                | Some m3 =>
                    match read_bound (solve m2), read_bound (solve m3) with
                    | Some u, Some l => Some (l, u)
                    | _, _ => None
                    end
                end
            end
        end
      else None
  end.

(** Per-row optimisation over a linear layer — lines 545-555. *)
Definition callback_rows (n : nat) (cb : callback) (prev : list (linear * act)) (l : linear)
           (pre_lo pre_up x_lo x_up : vec) (vt : vtype) : option (list (R * R)) :=
  all_some (map2 (fun w b => bound_by_callback n cb prev w b pre_lo pre_up x_lo x_up vt)
                 (weight l) (bias_of l)).

(** The bounds of one linear layer before its activation — lines 533-598. *)
Definition callback_layer (n : nat) (cb : callback) (meth : method) (prev : list (linear * act))
           (l : linear) (in_lo in_up pre_lo pre_up x_lo x_up : vec) : option (vec * vec) :=
  match binary_var_type meth with
  | None => compute_range_by_IA (in_features l) (weight l) (bias_of l) in_lo in_up
  | Some vt =>
      match callback_rows n cb prev l pre_lo pre_up x_lo x_up vt with
      | None => None
      | Some rs =>
          match meth with
          | IA_MIP =>
              match compute_range_by_IA (in_features l) (weight l) (bias_of l) in_lo in_up with
              | None => None
              | Some (ilo, iup) =>
                  Some (map2 mix_lo (map fst rs) ilo, map2 mix_up (map snd rs) iup)
              end
          | _ => Some (map fst rs, map snd rs)
          end
      end
  end.

(** _compute_layer_bound — lines 518-606, with a callback. *)
Fixpoint callback_loop (n : nat) (cb : callback) (meth : method) (x_lo x_up : vec)
         (prev hs : list (linear * act)) (in_lo in_up : vec) (acc : bounds) : option bounds :=
  match hs with
  | [] => Some acc
  | (l, a) :: hs' =>
      match callback_layer n cb meth prev l in_lo in_up (b_pre_lo acc) (b_pre_up acc) x_lo x_up with
      | None => None
      | Some (lo, up) =>
          let '(plo, pup) := propagate_act_layer a lo up in
          callback_loop n cb meth x_lo x_up (prev ++ [(l, a)]) hs' plo pup
            (mkBounds (b_pre_lo acc ++ lo) (b_pre_up acc ++ up)
                      (b_post_lo acc ++ plo) (b_post_up acc ++ pup))
      end
  end.
Definition callback_layer_bound (cb : callback) (meth : method) (N : network) (x_lo x_up : vec)
  : option bounds :=
  callback_loop (x_size N) cb meth x_lo x_up [] (hidden N) x_lo x_up (mkBounds [] [] [] []).

(** add_dynamics_constraint of QuadrotorReLUSystem — quadrotor.py 528-570, with a callback. *)
Definition quad_add_callback (S : ex_sys) (meth : method) (cb : callback) (xv xn uv : list nat)
    (u_lo u_up : vec) (vt : vtype) (m : mip) : option (mip * ex_ret) :=
  let lo := part 3 6 (ex_xlo S) ++ part 9 12 (ex_xlo S) ++ u_lo in
  let up := part 3 6 (ex_xup S) ++ part 9 12 (ex_xup S) ++ u_up in
  match callback_layer_bound cb meth (ex_net S) lo up with
  | None => None
  | Some B =>
      match output_constraint_given_bounds (ex_net S) (b_pre_lo B) (b_pre_up B) lo up with
      | None => None
      | Some c => quad_given S xv xn uv lo up c B vt m
      end
  end.

(** ** QuadrotorFeedbackSystem *)

(** create_prog_callback — lines 139-165: the controller, the state in its box and the
    input in [tl], [tu].  The bounds of the controller network are those computed before
    (60-77); [add_controller] computes them again from the same data. *)
Definition loop_callback (S : ex_sys) (F : feedback) (tl tu : vec) : callback :=
  let '(p1, pxv) := addVars (combine (map Fin (ex_xlo S)) (map Fin (ex_xup S))) VCont init_mip in
  let '(p2, puv) := addVars (combine (map Fin tl) (map Fin tu)) VCont p1 in
  match add_controller solve F pxv puv
          (match fb_meth F with MIP => VBin | _ => VCont end) p2 with
  | None => None
  | Some (p3, _, _) => Some (p3, part 3 6 pxv ++ part 9 12 pxv ++ puv)
  end.

Definition is_IA (k : method) : bool := match k with IA => true | _ => false end.
Definition LP_or_MIP (k : method) : bool := match k with LP | MIP => true | _ => false end.

(** add_dynamics_mip_constraint — lines 21-174.  [meth]: the forward system's
    network_bound_propagate_method.  A linear controller has no
    controller_relu_free_pattern (67: AttributeError) unless one method is IA. *)
Definition quad_loop_add_ret (S : ex_sys) (F : feedback) (meth : method)
    (xv xn : list nat) (vt : vtype) (m : mip) : option (mip * fb_ret) :=
  if (is_IA meth || is_IA (fb_meth F))%bool then fb_add_ret solve F xv xn vt m
  else if (LP_or_MIP meth && LP_or_MIP (fb_meth F))%bool then
    match fb_ctl F with
    | CtlLinear _ => None
    | CtlNet _ =>
        let '(m1, uv) := addVars (repeat (NInf, PInf) (f_nu (fb_fwd F))) VCont m in
        match add_controller solve F xv uv vt m1 with
        | None => None
        | Some (m2, (ulo, uup), rc) =>
            let tl := tight_lo (ex_ulo S) (Some ulo) in
            let tu := tight_up (ex_uup S) (Some uup) in
            match quad_add_callback S meth (loop_callback S F tl tu) xv xn uv tl tu vt m2 with
            | None => None
            | Some (m3, ExReLU r) => Some (m3, mkFbRet uv (Some r) rc)
            | Some (m3, ExPair _ _) => Some (m3, mkFbRet uv None rc)
            end
        end
    end
  else None.
Definition quad_loop_add (S : ex_sys) (F : feedback) (meth : method)
    (xv xn : list nat) (vt : vtype) (m : mip) : option mip :=
  match quad_loop_add_ret S F meth xv xn vt m with
  | Some (m', _) => Some m'
  | None => None
  end.

(** The constructor — lines 12-19: the equilibrium is the forward system's, the bound
    method of the controller the default (feedback_system.py 48-107: IA). *)
Definition new_quad_loop (S : ex_sys) (k : controller) (lower upper : list ext) : option feedback :=
  match ex_kind_ S with
  | KQuad _ _ => new_feedback (ex_fwd solve S) k (ex_xeq (ex_kind_ S)) (ex_ueq (ex_kind_ S))
                   lower upper IA
  | _ => None
  end.

End Bounds.
