(** Model of examples/car/unicycle_feedback_system.py: a closed loop whose
    velocity command has an additional term lambda_u |R_u [p_x, p_y]|_1.

    Not modelled: the batch branch of compute_u (lines 45-56, the same formula
    row by row), gradients.  R_u is the matrix Ru_options.R() (r_options.py is in
    ModelROptions.v). *)

Require Import Reals List Bool Arith.
Require Import Verif.Vec Verif.ModelMip Verif.ModelUtils Verif.ModelNet Verif.ModelPattern
  Verif.ModelStrengthen Verif.ModelLyapunov Verif.ModelHybrid Verif.ModelSystems.
Import ListNotations.
Open Scope R_scope.

Record uni_feedback := mkUni { uf_fb : feedback; uf_lambda : R; uf_R : mat }.

(** The constructor — lines 20-34: the base constructor with x* = 0 (3 states)
    and u* = 0 (2 inputs), then the asserts on the lower velocity limit and on
    lambda_u. *)
Definition new_uni (f : fwd_sys) (k : controller) (lower upper : list ext) (meth : method)
    (lam : R) (Ru : mat) : option uni_feedback :=
  match new_feedback f k (zeros 3) (zeros 2) lower upper meth with
  | None => None
  | Some F =>
      match lower with
      | Fin l0 :: _ => if (Reqb l0 0 && Rltb 0 lam)%bool then Some (mkUni F lam Ru) else None
      | _ => None
      end
  end.

(** u_pre_sat of compute_u — lines 39-43. *)
Definition uni_pre (U : uni_feedback) (x : vec) : vec :=
  vadd (vsub (controller_forward (fb_ctl (uf_fb U)) x)
             (controller_forward (fb_ctl (uf_fb U)) (zeros 3)))
       [uf_lambda U * norm_p1 (mv (uf_R U) (firstn 2 x)); 0].
(** compute_u — lines 36-46. *)
Definition uni_u (U : uni_feedback) (x : vec) : option vec :=
  all_some (map fin (map2 ext_max
     (map2 ext_min (map Fin (uni_pre U x)) (fb_upper (uf_fb U))) (fb_lower (uf_fb U)))).

(** The bounds of s[i] — lines 104-111. *)
Definition abs_range (l u : R) : R * R :=
  if (Rltb l 0 && Rltb 0 u)%bool then (0, Rmax (- l) u)
  else if Rleb 0 l then (l, u)
  else if Rleb u 0 then (- u, - l)
  else (0, 0).

(** The loop over the rows of R_u — lines 90-111: the program, s and the two
    bound vectors s_lb, s_ub. *)
Fixpoint uni_abs_loop (M : mat) (ls us : vec) (xv : list nat) (m : mip)
  : option (mip * list nat * (vec * vec)) :=
  match M, ls, us with
  | [], [], [] => Some (m, [], ([], []))
  | r :: M', l :: ls', u :: us' =>
      match abs_mic l u false with
      | None => None
      | Some c =>
          match transform_input 2 [r] [0] c with
          | None => None
          | Some c' =>
              let '(m', s_i, alpha_i) := add_mic c' xv None NewBinary VBin m in
              match s_i, alpha_i with
              | [s0], [_] =>
                  match uni_abs_loop M' ls' us' xv m' with
                  | Some (m'', s, (sl, su)) =>
                      Some (m'', s0 :: s, (fst (abs_range l u) :: sl, snd (abs_range l u) :: su))
                  | None => None
                  end
              | _, _ => None
              end
          end
      end
  | _, _, _ => None
  end.

Section Solver.
Variable solve : mip -> gresult.

(** _add_network_controller_mip_constraint_given_relu_bound — lines 58-140, inside
    feedback_system.py:158-186 which computes the bounds of the network. *)
Definition add_uni_network (U : uni_feedback) (N : network) (xv uv : list nat) (vt : vtype) (m : mip)
  : option (mip * (vec * vec) * option nn_ret) :=
  let F := uf_fb U in
  let f := fb_fwd F in
  let lo := f_lo f in let up := f_up f in
  match compute_layer_bound solve (fb_meth F) N lo up with
  | None => None
  | Some B =>
      match compute_network_output_bounds solve (fb_meth F) N (b_pre_lo B) (b_pre_up B) lo up,
            output_constraint_given_bounds N (b_pre_lo B) (b_pre_up B) lo up with
      | Some (olo, oup), Some c =>
          match Aout_input c, Aout_binary c, Aout_slack c, Cout c with
          | None, None, Some A, Some C =>
              let '(m1, z, be) := add_mic c xv None NewBinary vt m in
              match compute_range_by_IA 2 (uf_R U) (zeros (length (uf_R U))) (firstn 2 lo) (firstn 2 up) with
              | None => None
              | Some (rlo, rup) =>
                  match uni_abs_loop (uf_R U) rlo rup (firstn 2 xv) m1 with
                  | None => None
                  | Some (m2, s, (sl, su)) =>
                      let '(m3, pv) := addVars (repeat (NInf, PInf) (f_nu f)) VCont m2 in
                      let eqv := forward N (zeros 3) in
                      let k := length (uf_R U) in
                      let m4 := addMConstr
                                  [eyek 2 1; map vneg A; map (vscale (- uf_lambda U)) [ones k; zeros k]]
                                  [pv; z; s] SEq (vsub C eqv) m3 in
                      match add_input_saturation uv pv (fb_lower F) (fb_upper F)
                              (vadd (vsub olo eqv) [uf_lambda U * vsum sl; 0])
                              (vadd (vsub oup eqv) [uf_lambda U * vsum su; 0]) vt m4 with
                      | Some (m5, b) => Some (m5, b, Some (mkNN xv z be lo up B))
                      | None => None
                      end
                  end
              end
          | _, _, _, _ => None
          end
      | _, _ => None
      end
  end.

(** _add_controller_mip_constraint — feedback_system.py:263-300, inherited: a
    network controller calls the method above; a linear controller calls the
    inherited method for linear controllers. *)
Definition add_uni_controller (U : uni_feedback) (xv uv : list nat) (vt : vtype) (m : mip)
  : option (mip * (vec * vec) * option nn_ret) :=
  match fb_ctl (uf_fb U) with
  | CtlNet N => add_uni_network U N xv uv vt m
  | CtlLinear _ => add_controller solve (uf_fb U) xv uv vt m
  end.

(** add_dynamics_mip_constraint — feedback_system.py:345-379, inherited. *)
Definition uni_add_ret (U : uni_feedback) (xv xn : list nat) (vt : vtype) (m : mip)
  : option (mip * fb_ret) :=
  let f := fb_fwd (uf_fb U) in
  let '(m1, uv) := addVars (repeat (NInf, PInf) (f_nu f)) VCont m in
  match add_uni_controller U xv uv vt m1 with
  | None => None
  | Some (m2, (ulo, uup), rc) =>
      match f_add f xv xn uv (Some ulo) (Some uup) vt m2 with
      | None => None
      | Some (m3, rf) => Some (m3, mkFbRet uv rf rc)
      end
  end.
Definition uni_add (U : uni_feedback) (xv xn : list nat) (vt : vtype) (m : mip) : option mip :=
  match uni_add_ret U xv xn vt m with
  | Some (m', _) => Some m'
  | None => None
  end.

End Solver.
