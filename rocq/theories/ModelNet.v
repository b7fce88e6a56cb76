(** Model of the bound propagation in
    /repo/neural_network_lyapunov/mip_utils.py:413-498, utils.py:898-934 and of
    the network encoding in relu_to_optimization_utils.py and
    relu_to_optimization.py (ReLUFreePattern).

    A network is the torch.nn.Sequential that the code expects: linear and
    activation layers alternate and the last layer is linear
    (relu_to_optimization.py indexes model[2*i], model[2*i+1] and model[-1];
    other shapes are outside this model). *)

Require Import Reals List Bool Arith.
Require Import Verif.Vec Verif.ModelMip Verif.ModelUtils.
Import ListNotations.
Open Scope R_scope.

(** torch.nn.ReLU / torch.nn.LeakyReLU(negative_slope). *)
Inductive act := Relu | Leaky (c : R).

(** torch.nn.Linear: weight of shape (out_features, in_features) and an
    optional bias.  [in_features] is kept because a matrix without rows forgets
    its number of columns. *)
Record linear := mkLin { in_features : nat; weight : mat; bias : option vec }.
Definition out_features (l : linear) : nat := length (weight l).

Record network := mkNet { hidden : list (linear * act); last_layer : linear }.

(** [bias if bias is not None else zeros] — e.g.
    relu_to_optimization_utils.py:109-110. *)
Definition bias_of (l : linear) : vec :=
  match bias l with Some b => b | None => zeros (out_features l) end.

(** ** mip_utils.py *)

(** Boolean mask selection [x[mask]]. *)
Fixpoint select (mask : list bool) (x : vec) : vec :=
  match mask, x with
  | true :: m', a :: x' => a :: select m' x'
  | false :: m', _ :: x' => select m' x'
  | _, _ => []
  end.

(** One row of compute_range_by_IA — mip_utils.py:433-440. *)
Definition ia_row (a : vec) (b : R) (lb ub : vec) : R * R :=
  let mask1 := map (fun v => Rltb 0 v) a in
  let mask2 := map (fun v => Rleb v 0) a in
  (dot (select mask1 a) (select mask1 lb) + dot (select mask2 a) (select mask2 ub) + b,
   dot (select mask1 a) (select mask1 ub) + dot (select mask2 a) (select mask2 lb) + b).

(** compute_range_by_IA — mip_utils.py:413-440 ([n] = A.shape[1]; the shape
    asserts are the error case). *)
Definition compute_range_by_IA (n : nat) (A : mat) (b lb ub : vec)
  : option (vec * vec) :=
  if (Nat.eqb (length b) (length A) && Nat.eqb (length lb) n
      && Nat.eqb (length ub) n)%bool
  then let rs := map2 (fun a bi => ia_row a bi lb ub) A b in
       Some (map fst rs, map snd rs)
  else None.

(** The layer applied to a scalar by torch: relu(x) = max(x,0);
    leaky_relu(x) = x if x > 0 else c*x. *)
Definition act_forward (a : act) (x : R) : R :=
  match a with
  | Relu => Rmax x 0
  | Leaky c => if Rltb 0 x then x else c * x
  end.

(** propagate_bounds for one unit of a ReLU / LeakyReLU layer —
    mip_utils.py:477-490. *)
Definition propagate_act (a : act) (lo up : R) : R * R :=
  match a with
  | Relu => (act_forward a lo, act_forward a up)
  | Leaky c =>
      let l := act_forward a lo in
      let u := act_forward a up in
      if Rltb c 0
      then (if (Rltb lo 0 && Rltb 0 up)%bool then 0 else Rmin l u, Rmax l u)
      else (l, u)
  end.
(** The same for a whole activation layer. *)
Definition propagate_act_layer (a : act) (lo up : vec) : vec * vec :=
  let rs := map2 (propagate_act a) lo up in (map fst rs, map snd rs).
(** propagate_bounds for a Linear layer — mip_utils.py:491-495. *)
Definition propagate_linear (l : linear) (lo up : vec) : option (vec * vec) :=
  compute_range_by_IA (in_features l) (weight l) (bias_of l) lo up.

(** leaky_relu_interval — utils.py:898-934. *)
Definition leaky_relu_interval (c lo up : R) : option (R * R) :=
  if negb (Rltb lo up) then None
  else if Rleb 0 c then
    Some (if Rleb 0 lo then (lo, up)
          else if Rleb up 0 then (c * lo, c * up)
          else (c * lo, up))
  else
    Some (if Rleb 0 lo then (lo, up)
          else if Rleb up 0 then (c * up, c * lo)
          else (0, Rmax (c * lo) up)).

(** ** relu_to_optimization_utils.py *)

(** Rows over (linear input, one neuron output, one binary). *)
Record nrows := mkN { n_x : mat; n_y : vec; n_b : vec; n_rhs : vec }.

(** [a.reshape((-1,1)) @ w.reshape((1,-1))]. *)
Definition outer (a w : vec) : mat := map (fun k => vscale k w) a.

(** _add_constraint_by_neuron — relu_to_optimization_utils.py:9-80: inequality
    rows, equality rows, and the output range (76-77). *)
Definition constraint_by_neuron (w : vec) (b : R) (a : act) (lo up : R)
  : option (nrows * nrows * (R * R)) :=
  if (Rltb lo 0 && Rltb 0 up)%bool then
    match (match a with
           | Relu => replace_relu lo up
           | Leaky c => replace_leaky_relu c lo up
           end) with
    | None => None
    | Some rw =>
        Some (mkN (outer (rw_x rw) w) (rw_y rw) (rw_b rw)
                  (vsub (rw_rhs rw) (vscale b (rw_x rw))),
              mkN [] [] [] [],
              propagate_act a lo up)
    end
  else
    let '(slope, bv) :=
      if Rleb 0 lo then (1, 1)
      else (match a with Leaky c => c | Relu => 0 end, 0) in
    Some (mkN [w; vneg w] [0; 0] [0; 0] [up - b; b - lo],
          mkN [vscale (- slope) w; zeros (length w)] [1; 0] [0; 1] [slope * b; bv],
          propagate_act a lo up).

(** Rows over (z_curr, z_next, binary) of a whole layer. *)
Record lrows := mkL { l_c : mat; l_n : mat; l_b : mat; l_rhs : vec }.

(** Writing the column of neuron [j] into zeros — lines 120-125, 129-136. *)
Definition place (n j : nat) (r : nrows) : lrows :=
  mkL (n_x r) (map (unit_row n j) (n_y r)) (map (unit_row n j) (n_b r)) (n_rhs r).
Definition lapp (p q : lrows) : lrows :=
  mkL (l_c p ++ l_c q) (l_n p ++ l_n q) (l_b p ++ l_b q) (l_rhs p ++ l_rhs q).

(** The loop over the neurons — lines 111-139; [j] is the current neuron, [n]
    the layer width.  The ranges z_next_lo/z_next_up (137-138) are collected in
    the last component. *)
Fixpoint layer_loop (n j : nat) (a : act) (W : mat) (b lo up : vec)
  : option (lrows * lrows * list (R * R)) :=
  match W, b, lo, up with
  | [], [], [], [] => Some (mkL [] [] [] [], mkL [] [] [] [], [])
  | w :: W', bj :: b', l :: lo', u :: up' =>
      match constraint_by_neuron w bj a l u, layer_loop n (S j) a W' b' lo' up' with
      | Some (ri, re, rg), Some (si, se, sg) =>
          Some (lapp (place n j ri) si, lapp (place n j re) se, rg :: sg)
      | _, _ => None
      end
  | _, _, _, _ => None
  end.

(** _add_constraint_by_layer — lines 83-145. *)
Definition constraint_by_layer (l : linear) (a : act) (lo up : vec)
  : option (lrows * lrows * list (R * R)) :=
  layer_loop (out_features l) 0 a (weight l) (bias_of l) lo up.

(** _add_constraint_to_program_by_layer — lines 148-188: the loop 167-187. *)
Fixpoint program_neurons (a : act) (W : mat) (b lo up : vec)
         (zv yv bv : list nat) (m : mip) : option mip :=
  match W, b, lo, up, yv, bv with
  | [], [], [], [], [], [] => Some m
  | w :: W', bj :: b', l :: lo', u :: up', y :: yv', be :: bv' =>
      match constraint_by_neuron w bj a l u with
      | None => None
      | Some (ri, re, _) =>
          let m := addMConstr [n_x ri; col (n_y ri); col (n_b ri)]
                              [zv; [y]; [be]] SLe (n_rhs ri) m in
          let m := addMConstr [n_x re; col (n_y re); col (n_b re)]
                              [zv; [y]; [be]] SEq (n_rhs re) m in
          program_neurons a W' b' lo' up' zv yv' bv' m
      end
  | _, _, _, _, _, _ => None
  end.
Definition program_layer (l : linear) (a : act) (zv : list nat) (lo up : vec)
           (vt : vtype) (m : mip) : option (mip * list nat) :=
  let n := out_features l in
  let '(m, yv) := addVars (repeat (NInf, PInf) n) VCont m in
  let '(m, bv) := addVars (repeat (Fin 0, Fin 1) n) vt m in
  match program_neurons a (weight l) (bias_of l) lo up zv yv bv m with
  | Some m' => Some (m', yv)
  | None => None
  end.

(** ** relu_to_optimization.py *)

(** num_relu_units — ctor, lines 266-289.  relu_unit_index[i] is the contiguous
    range of the units of layer i, here given by its offset. *)
Fixpoint num_units (hs : list (linear * act)) : nat :=
  match hs with [] => 0 | (l, _) :: hs' => out_features l + num_units hs' end.
(** x_size — line 277. *)
Definition x_size (N : network) : nat :=
  match hidden N with
  | (l, _) :: _ => in_features l
  | [] => in_features (last_layer N)
  end.

(** What Gurobi reports after optimize(). *)
Inductive gresult := GOptimal (v : R) | GUnbounded | GInfeasible | GOther.

Inductive method := IA | LP | MIP | IA_MIP.

(** binary_var_type_per_method — mip_utils.py:454-467. *)
Definition binary_var_type (meth : method) : option vtype :=
  match meth with
  | LP => Some VBinRelax
  | MIP => Some VBin
  | IA_MIP => Some VBin
  | IA => None
  end.

Section Bounds.

Variable solve : mip -> gresult.

(** The loop over the previous layers — relu_to_optimization.py:470-483; [off]
    is the offset of the layer in the flat bound vectors. *)
Fixpoint program_layers (hs : list (linear * act)) (off : nat) (lo up : vec)
         (vt : vtype) (zv : list nat) (m : mip) : option (mip * list nat) :=
  match hs with
  | [] => Some (m, zv)
  | (l, a) :: hs' =>
      let n := out_features l in
      match program_layer l a zv (slice off n lo) (slice off n up) vt m with
      | None => None
      | Some (m', zv') => program_layers hs' (off + n) lo up vt zv' m'
      end
  end.

(** The value read after the two optimize() calls — 497-504 and 509-516.  An
    infinite bound is represented by the error value: big-M rows with infinite
    coefficients are outside the model. *)
Definition read_bound (r : gresult) : option R :=
  match r with GOptimal v => Some v | _ => None end.

(** _compute_linear_output_bound_by_optimization — lines 413-516, with
    create_prog_callback = None.  [w], [b]: the row of the linear layer that
    follows the layers [hs]. *)
Definition bound_by_optimization (hs : list (linear * act)) (w : vec) (b : R)
           (pre_lo pre_up x_lo x_up : vec) (vt : vtype) : option (R * R) :=
  let '(m0, xv) := addVars (combine (map Fin x_lo) (map Fin x_up)) VCont init_mip in
  match program_layers hs 0 pre_lo pre_up vt xv m0 with
  | None => None
  | Some (m1, zv) =>
      match setObjective [w] [zv] b true m1 with
      | None => None
      | Some m2 =>
          match setObjective [w] [zv] b false m2 with
          | None => None
          | Some m3 =>
              match read_bound (solve m2), read_bound (solve m3) with
              | Some u, Some l => Some (l, u)
              | _, _ => None
              end
          end
      end
  end.

(** The relaxed IA_MIP bounds of a neuron — lines 571-596.  [ia]: the interval
    arithmetic value, [v]: the optimised value. *)
Definition mix_lo (v ia : R) : R :=
  if Rltb (Rabs (v - ia)) (1 / 10000) then ia
  else if Rltb 0 v then v * (99 / 100) + (1 / 100) * Rmin ia 0
  else v * (99 / 100) + (1 / 100) * ia.
Definition mix_up (v ia : R) : R :=
  if Rltb (Rabs (v - ia)) (1 / 10000) then ia
  else if Rleb v 0 then v * (99 / 100) + (1 / 100) * Rmin ia 0
  else v * (99 / 100) + (1 / 100) * ia.
(** The relaxed IA_MIP bounds of a network output — lines 649-662. *)
Definition mix_out_lo (v ia : R) : R :=
  if Rltb (Rabs (v - ia)) (1 / 10000) then ia
  else v * (99 / 100) + (1 / 100) * ia.
Definition mix_out_up (v ia : R) : R :=
  if Rltb (Rabs (v - ia)) (1 / 1000) then ia
  else v * (99 / 100) + (1 / 100) * ia.

(** Sequence of per-row results. *)
Fixpoint all_some {A} (l : list (option A)) : option (list A) :=
  match l with
  | [] => Some []
  | Some a :: l' => match all_some l' with Some r => Some (a :: r) | None => None end
  | None :: _ => None
  end.

(** Per-row optimisation over a linear layer — lines 551-563 and 638-648. *)
Definition optimize_rows (prev : list (linear * act)) (l : linear)
           (pre_lo pre_up x_lo x_up : vec) (vt : vtype) : option (list (R * R)) :=
  all_some (map2 (fun w b => bound_by_optimization prev w b pre_lo pre_up x_lo x_up vt)
                 (weight l) (bias_of l)).

(** The bounds of one linear layer before its activation — lines 537-596. *)
Definition layer_input_bounds (meth : method) (prev : list (linear * act))
           (l : linear) (in_lo in_up pre_lo pre_up x_lo x_up : vec)
  : option (vec * vec) :=
  match binary_var_type meth with
  | None => compute_range_by_IA (in_features l) (weight l) (bias_of l) in_lo in_up
  | Some vt =>
      match optimize_rows prev l pre_lo pre_up x_lo x_up vt with
      | None => None
      | Some rs =>
          match meth with
          | IA_MIP =>
              match compute_range_by_IA (in_features l) (weight l) (bias_of l)
                      in_lo in_up with
              | None => None
              | Some (ilo, iup) =>
                  Some (map2 mix_lo (map fst rs) ilo, map2 mix_up (map snd rs) iup)
              end
          | _ => Some (map fst rs, map snd rs)
          end
      end
  end.

Record bounds := mkBounds { b_pre_lo : vec; b_pre_up : vec;
                            b_post_lo : vec; b_post_up : vec }.

(** The loop of _compute_layer_bound — lines 531-605.  [prev]: layers done;
    the vectors filled so far are the accumulators. *)
Fixpoint layer_bounds_loop (meth : method) (x_lo x_up : vec)
         (prev hs : list (linear * act)) (in_lo in_up : vec) (acc : bounds)
  : option bounds :=
  match hs with
  | [] => Some acc
  | (l, a) :: hs' =>
      match layer_input_bounds meth prev l in_lo in_up
              (b_pre_lo acc) (b_pre_up acc) x_lo x_up with
      | None => None
      | Some (lo, up) =>
          let '(plo, pup) := propagate_act_layer a lo up in
          layer_bounds_loop meth x_lo x_up (prev ++ [(l, a)]) hs' plo pup
            (mkBounds (b_pre_lo acc ++ lo) (b_pre_up acc ++ up)
                      (b_post_lo acc ++ plo) (b_post_up acc ++ pup))
      end
  end.
(** _compute_layer_bound — lines 518-606. *)
Definition compute_layer_bound (meth : method) (N : network) (x_lo x_up : vec)
  : option bounds :=
  layer_bounds_loop meth x_lo x_up [] (hidden N) x_lo x_up (mkBounds [] [] [] []).

(** [v[relu_unit_index[-1]]]; None: there is no hidden layer (IndexError). *)
Definition last_units (N : network) (v : vec) : option vec :=
  match rev (hidden N) with
  | [] => None
  | (l, _) :: _ =>
      Some (slice (num_units (hidden N) - out_features l) (out_features l) v)
  end.
(** The IA branch of _compute_network_output_bounds — lines 615-623. *)
Definition output_bounds_IA (N : network) (pre_lo pre_up : vec)
  : option (vec * vec) :=
  match rev (hidden N), last_units N pre_lo, last_units N pre_up with
  | (_, a) :: _, Some lo, Some up =>
      let '(plo, pup) := propagate_act_layer a lo up in
      propagate_linear (last_layer N) plo pup
  | _, _, _ => None
  end.
(** _compute_network_output_bounds — lines 608-663. *)
Definition compute_network_output_bounds (meth : method) (N : network)
           (pre_lo pre_up x_lo x_up : vec) : option (vec * vec) :=
  match binary_var_type meth with
  | None => output_bounds_IA N pre_lo pre_up
  | Some vt =>
      match optimize_rows (hidden N) (last_layer N) pre_lo pre_up x_lo x_up vt with
      | None => None
      | Some rs =>
          match meth with
          | IA_MIP =>
              match output_bounds_IA N pre_lo pre_up with
              | None => None
              | Some (ilo, iup) =>
                  Some (map2 mix_out_lo (map fst rs) ilo,
                        map2 mix_out_up (map snd rs) iup)
              end
          | _ => Some (map fst rs, map snd rs)
          end
      end
  end.

(** Rows over (network input, slack, binary). *)
Record blk := mkBlk { k_x : mat; k_s : mat; k_b : mat; k_rhs : vec }.
Definition bapp (p q : blk) : blk :=
  mkBlk (k_x p ++ k_x q) (k_s p ++ k_s q) (k_b p ++ k_b q) (k_rhs p ++ k_rhs q).

(** Writing the rows of one layer into the preallocated zero matrices — lines
    714-754.  [M] = num_relu_units, [nx] = x_size, [off] the offset of the
    layer, [prev] the offset of the previous one (None for the first layer).
    Allocating rows of zeros and filling [count : count + k] is modelled as
    appending k rows; the final slices [:count] (764-771) keep exactly the
    appended rows. *)
Definition write_rows (nx M : nat) (prev : option nat) (off : nat) (r : lrows)
  : blk :=
  let base := map2 (fun c n => match prev with
                               | None => splice off n (zeros M)
                               | Some p => splice off n (splice p c (zeros M))
                               end) (l_c r) (l_n r) in
  mkBlk (match prev with
         | None => l_c r
         | Some _ => map (fun _ => zeros nx) (l_c r)
         end)
        base
        (map (fun b => splice off b (zeros M)) (l_b r))
        (l_rhs r).

Fixpoint write_layers (nx M : nat) (prev : option nat) (off : nat)
         (hs : list (linear * act)) (lo up : vec) : option (blk * blk) :=
  match hs with
  | [] => Some (mkBlk [] [] [] [], mkBlk [] [] [] [])
  | (l, a) :: hs' =>
      let n := out_features l in
      match constraint_by_layer l a (slice off n lo) (slice off n up),
            write_layers nx M (Some off) (off + n) hs' lo up with
      | Some (ri, re, _), Some (bi, be) =>
          Some (bapp (write_rows nx M prev off ri) bi,
                bapp (write_rows nx M prev off re) be)
      | _, _ => None
      end
  end.

(** _output_constraint_given_bounds — lines 665-775. *)
Definition output_constraint_given_bounds (N : network) (pre_lo pre_up x_lo x_up : vec)
  : option mic :=
  let nx := x_size N in
  let M := num_units (hidden N) in
  match write_layers nx M None 0 (hidden N) pre_lo pre_up, rev (hidden N) with
  | Some (bi, be), (l, _) :: _ =>
      let bi := bapp (mkBlk (eye nx ++ eyek nx (-1)) (zerom (nx + nx) M)
                            (zerom (nx + nx) M) (x_up ++ vneg x_lo)) bi in
      Some (mkMic nx M M
              None
              (Some (map (fun w => splice (M - out_features l) w (zeros M))
                         (weight (last_layer N))))
              None
              (Some (bias_of (last_layer N)))
              (Some (k_x bi)) (Some (k_s bi)) (Some (k_b bi)) (Some (k_rhs bi))
              (Some (k_x be)) (Some (k_s be)) (Some (k_b be)) (Some (k_rhs be))
              None None None None None None)
  | _, _ => None
  end.

(** output_constraint — lines 777-857: the constraint and the bounds attached
    to it (nn_output_lo/up, relu_input_lo/up, relu_output_lo/up).  The assert at 837 is
    the error case. *)
Fixpoint vleb (a b : vec) : bool :=
  match a, b with
  | [], [] => true
  | x :: a', y :: b' => (Rleb x y && vleb a' b')%bool
  | _, _ => false
  end.
Definition output_constraint (meth : method) (N : network) (x_lo x_up : vec)
  : option (mic * bounds * (vec * vec)) :=
  if negb (vleb x_lo x_up) then None else
  match compute_layer_bound meth N x_lo x_up with
  | None => None
  | Some B =>
      match compute_network_output_bounds meth N (b_pre_lo B) (b_pre_up B) x_lo x_up,
            output_constraint_given_bounds N (b_pre_lo B) (b_pre_up B) x_lo x_up with
      | Some out, Some c => Some (c, B, out)
      | _, _ => None
      end
  end.

End Bounds.

(** compute_relu_unit_outputs_and_activation — lines 859-894. *)
Fixpoint unit_outputs (hs : list (linear * act)) (x : vec) : vec * vec * vec :=
  match hs with
  | [] => ([], [], x)
  | (l, a) :: hs' =>
      let p := vadd (mv (weight l) x) (bias_of l) in
      let y := map (act_forward a) p in
      let '(z, be, last) := unit_outputs hs' y in
      (y ++ z, map (fun v => if Rltb 0 v then 1 else 0) p ++ be, last)
  end.
Definition compute_relu_unit_outputs_and_activation (N : network) (x : vec)
  : vec * vec * vec :=
  let '(z, be, last) := unit_outputs (hidden N) x in
  (z, be, vadd (mv (weight (last_layer N)) last) (bias_of (last_layer N))).

(** ComputeReLUActivationPattern — lines 17-37, one list per layer. *)
Fixpoint activation_pattern (hs : list (linear * act)) (x : vec) : list (list bool) :=
  match hs with
  | [] => []
  | (l, a) :: hs' =>
      let p := vadd (mv (weight l) x) (bias_of l) in
      map (Rleb 0) p :: activation_pattern hs' (map (act_forward a) p)
  end.
(** set_activation_warmstart — lines 131-153: the values written into the
    start attribute of the binaries. *)
Definition warmstart_binaries (N : network) (x : vec) : vec :=
  map (fun b : bool => if b then 1 else 0) (concat (activation_pattern (hidden N) x)).
