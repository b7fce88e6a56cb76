(** Model of the activation-pattern functions of
    /repo/neural_network_lyapunov/relu_to_optimization.py: enumeration of the
    patterns, conversion of flat binaries, the affine map of a pattern, the
    product-of-binaries form of the gradient and the gradient-times-vector
    encoding. *)

Require Import Reals List Bool Arith.
Require Import Verif.Vec Verif.ModelMip Verif.ModelUtils Verif.ModelNet.
Import ListNotations.
Open Scope R_scope.

(** The factor applied to the row of an inactive unit: 0 for ReLU, the negative
    slope for LeakyReLU. *)
Definition slope_of (a : act) : R := match a with Relu => 0 | Leaky c => c end.

(** ** Enumeration — lines 40-95 *)

(** Extensions of a prefix for one unit — lines 63-78. *)
Definition unit_choices (v : R) : list bool :=
  if Rltb 0 v then [true] else if Rltb v 0 then [false] else [true; false].
(** One pass over the queue of prefixes — lines 60-78; the queue is FIFO: each
    prefix is taken from the front and its extensions put at the back. *)
Definition extend_unit (v : R) (q : list (list bool)) : list (list bool) :=
  flat_map (fun front => map (fun b => front ++ [b]) (unit_choices v)) q.
Definition layer_patterns (p : vec) : list (list bool) :=
  fold_left (fun q v => extend_unit v q) p [[]].
(** Lines 82-91: every pattern is extended by every layer pattern (the inner
    queue is rotated completely, hence unchanged after each pass). *)
Definition extend_patterns (lps : list (list bool)) (ps : list (list (list bool)))
  : list (list (list bool)) :=
  flat_map (fun p => map (fun lp => p ++ [lp]) lps) ps.
Fixpoint all_patterns_loop (hs : list (linear * act)) (x : vec)
         (ps : list (list (list bool))) : list (list (list bool)) :=
  match hs with
  | [] => ps
  | (l, a) :: hs' =>
      let p := vadd (mv (weight l) x) (bias_of l) in
      all_patterns_loop hs' (map (act_forward a) p) (extend_patterns (layer_patterns p) ps)
  end.
Definition compute_all_relu_activation_patterns (N : network) (x : vec)
  : list (list (list bool)) :=
  all_patterns_loop (hidden N) x [[]].

(** ** relu_activation_binary_to_pattern — lines 98-128 *)

Fixpoint split_layers (hs : list (linear * act)) (count : nat) (b : vec)
  : list (list bool) :=
  match hs with
  | [] => []
  | (l, _) :: hs' =>
      map (fun v => Reqb v 1) (slice count (out_features l) b)
      :: split_layers hs' (count + out_features l) b
  end.
Definition relu_activation_binary_to_pattern (N : network) (b : vec)
  : option (list (list bool)) :=
  if (forallb (fun v => Reqb v 1 || Reqb v 0) b
      && Nat.eqb (length b) (num_units (hidden N)))%bool
  then Some (split_layers (hidden N) 0 b)
  else None.

(** ** ReLUGivenActivationPattern — lines 156-211 *)

(** One activation layer — lines 186-204: (A_layer, b_layer) after the loop and
    the rows appended to (P, q). *)
Fixpoint pattern_units (s : R) (pat : list bool) (A : mat) (b : vec)
  : option (mat * vec * mat * vec) :=
  match pat, A, b with
  | [], [], [] => Some ([], [], [], [])
  | p :: pat', r :: A', k :: b' =>
      match pattern_units s pat' A' b' with
      | None => None
      | Some (A2, b2, P, q) =>
          if p then Some (r :: A2, k :: b2, vneg r :: P, k :: q)
          else Some (vscale s r :: A2, s * k :: b2, r :: P, - k :: q)
      end
  | _, _, _ => None
  end.
(** A linear layer — lines 178-183. *)
Definition affine_linear (n : nat) (l : linear) (A : mat) (b : vec) : mat * vec :=
  (mm n (weight l) A, vadd (mv (weight l) b) (bias_of l)).
(** The loop over the hidden layers.  A pattern with too few layers is the
    IndexError of line 185. *)
Fixpoint pattern_loop (n : nat) (hs : list (linear * act)) (pats : list (list bool))
         (A : mat) (b : vec) (P : mat) (q : vec) : option (mat * vec * mat * vec) :=
  match hs, pats with
  | [], _ => Some (A, b, P, q)
  | (l, a) :: hs', pat :: pats' =>
      let '(A1, b1) := affine_linear n l A b in
      match pattern_units (slope_of a) pat A1 b1 with
      | None => None
      | Some (A2, b2, P2, q2) => pattern_loop n hs' pats' A2 b2 (P ++ P2) (q ++ q2)
      end
  | _, [] => None
  end.
(** The result (g, h, P, q); h and q are column vectors in the code. *)
Definition relu_given_activation_pattern (N : network) (n : nat)
           (pats : list (list bool)) : option (mat * vec * mat * vec) :=
  match pattern_loop n (hidden N) pats (eye n) (zeros n) [] [] with
  | None => None
  | Some (A, b, P, q) =>
      let '(A1, b1) := affine_linear n (last_layer N) A b in
      Some (transpose n A1, b1, P, q)
  end.

(** ** compute_alpha_index — lines 896-915 (indices are naturals, so the test
    [>= 0] is in the type) *)
Fixpoint alpha_loop (widths idx : list nat) (index : nat) : option nat :=
  match widths, idx with
  | [], [] => Some index
  | w :: ws, i :: is =>
      if Nat.ltb i w then alpha_loop ws is (index * w + i) else None
  | _, _ => None
  end.
Definition compute_alpha_index (widths idx : list nat) : option nat :=
  alpha_loop widths idx 0.
(** len(self.relu_unit_index[i]) for the layers of a network. *)
Definition widths_of (hs : list (linear * act)) : list nat :=
  map (fun la => out_features (fst la)) hs.

(** ** output_gradient_times_vector — lines 1065-1208, 1330-1408 *)

(** One row of W_i z_i — lines 1360-1373. *)
Fixpoint wz_row (w lo up : vec) : R * R :=
  match w, lo, up with
  | a :: w', l :: lo', u :: up' =>
      let '(s, t) := wz_row w' lo' up' in
      if Rltb 0 a then (a * l + s, a * u + t) else (a * u + s, a * l + t)
  | _, _, _ => (0, 0)
  end.
Definition wz_bounds (l : linear) (lo up : vec) : vec * vec :=
  (map (fun w => fst (wz_row w lo up)) (weight l),
   map (fun w => snd (wz_row w lo up)) (weight l)).
(** The range of z_{i+1} — lines 1383-1402; the assert c >= 0 is the error. *)
Definition z_bounds (a : act) (lo up : vec) : option (vec * vec) :=
  match a with
  | Relu => Some (map (Rmin 0) lo, map (Rmax 0) up)
  | Leaky c =>
      if Rleb 0 c
      then Some (map (fun v => Rmin v (c * v)) lo, map (fun v => Rmax v (c * v)) up)
      else None
  end.
(** _compute_Wz_bounds_IA — lines 1330-1408: the lists z_lo, z_up, Wz_lo,
    Wz_up, of one entry per linear layer. *)
Record wzb := mkWzb { w_zlo : list vec; w_zup : list vec;
                      w_lo : list vec; w_up : list vec }.
Fixpoint wz_loop (hs : list (linear * act)) (last : linear) (lo up : vec)
  : option wzb :=
  match hs with
  | [] => let '(p, q) := wz_bounds last lo up in Some (mkWzb [lo] [up] [p] [q])
  | (l, a) :: hs' =>
      let '(p, q) := wz_bounds l lo up in
      match z_bounds a p q with
      | None => None
      | Some (lo', up') =>
          match wz_loop hs' last lo' up' with
          | None => None
          | Some r => Some (mkWzb (lo :: w_zlo r) (up :: w_zup r)
                                  (p :: w_lo r) (q :: w_up r))
          end
      end
  end.
Definition compute_Wz_bounds_IA (N : network) (lo up : vec) : option wzb :=
  wz_loop (hidden N) (last_layer N) lo up.

(** The four rows of one unit — lines 1121-1149. *)
Definition grad_unit (w : vec) (a : act) (lo up : R) : option nrows :=
  match (match a with
         | Relu => replace_binary_continuous_product lo up
         | Leaky c => leaky_relu_gradient_times_x lo up c
         end) with
  | None => None
  | Some rw => Some (mkN (outer (rw_x rw) w) (rw_y rw) (rw_b rw) (rw_rhs rw))
  end.
Fixpoint grad_units (n j : nat) (a : act) (W : mat) (lo up : vec) : option lrows :=
  match W, lo, up with
  | [], [], [] => Some (mkL [] [] [] [])
  | w :: W', l :: lo', u :: up' =>
      match grad_unit w a l u, grad_units n (S j) a W' lo' up' with
      | Some r, Some rs => Some (lapp (place n j r) rs)
      | _, _ => None
      end
  | _, _, _ => None
  end.
Fixpoint grad_layers (nx M : nat) (prev : option nat) (off : nat)
         (hs : list (linear * act)) (lo up : list vec) : option blk :=
  match hs, lo, up with
  | [], _, _ => Some (mkBlk [] [] [] [])
  | (l, a) :: hs', p :: lo', q :: up' =>
      match grad_units (out_features l) 0 a (weight l) p q,
            grad_layers nx M (Some off) (off + out_features l) hs' lo' up' with
      | Some r, Some k => Some (bapp (write_rows nx M prev off r) k)
      | _, _ => None
      end
  | _, _, _ => None
  end.
(** output_gradient_times_vector_w_bounds — lines 1065-1168.  The four matrices
    have exactly 4 rows per unit, so allocating them and filling
    [ineq_count : ineq_count + 4] is appending. *)
Definition output_gradient_times_vector_w_bounds (N : network) (B : wzb) : option mic :=
  let nx := x_size N in
  let M := num_units (hidden N) in
  match grad_layers nx M None 0 (hidden N) (w_lo B) (w_up B), rev (hidden N) with
  | Some k, (l, _) :: _ =>
      Some (mkMic nx M M
              None
              (Some (map (fun w => splice (M - out_features l) w (zeros M))
                         (weight (last_layer N))))
              None None
              (Some (k_x k)) (Some (k_s k)) (Some (k_b k)) (Some (k_rhs k))
              None None None None
              None None None None None None)
  | _, _ => None
  end.
(** output_gradient_times_vector — lines 1170-1208. *)
Definition output_gradient_times_vector (N : network) (lo up : vec) : option (mic * wzb) :=
  if (Nat.eqb (length lo) (x_size N) && Nat.eqb (length up) (x_size N))%bool then
    match compute_Wz_bounds_IA N lo up with
    | None => None
    | Some B =>
        match output_gradient_times_vector_w_bounds N B with
        | None => None
        | Some c => Some (c, B)
        end
    end
  else None.

(** ** output_gradient — lines 917-1063 *)

(** The queue of (activated units, gradient matrix) — lines 989-1024.  [n] =
    x_size. *)
Definition nthrow (i : nat) (A : mat) : vec := nth i A [].
Definition column (i : nat) (A : mat) : vec := map (fun r => nth i r 0) A.
Definition grad_step (l : linear) (width : nat) (q : list (list nat * mat))
  : list (list nat * mat) :=
  flat_map (fun pg =>
    map (fun i => (fst pg ++ [i], outer (column i (weight l)) (nthrow i (snd pg))))
        (seq 0 width)) q.
(** [layers] are the linear layers after the first one, each with the width of
    the layer before. *)
Fixpoint grad_queue (layers : list (linear * nat)) (q : list (list nat * mat))
  : list (list nat * mat) :=
  match layers with
  | [] => q
  | (l, w) :: rest => grad_queue rest (grad_step l w q)
  end.
(** The linear layers of the network and those after the first one. *)
Definition linears (N : network) : list linear := map fst (hidden N) ++ [last_layer N].
Definition later_layers (N : network) : list (linear * nat) :=
  combine (tl (linears N)) (widths_of (hidden N)).
Definition is_relu (la : linear * act) : bool :=
  match snd la with Relu => true | Leaky _ => false end.
Definition prod_list (l : list nat) : nat := fold_right Nat.mul 1%nat l.
(** Offsets of the layers, for relu_unit_index. *)
Fixpoint offsets (off : nat) (ws : list nat) : list nat :=
  match ws with [] => [] | w :: ws' => off :: offsets (off + w) ws' end.
(** The rows written for one path — lines 1042-1061: one row per layer, then
    the row of the lower bound. *)
Definition path_rows (nalpha M : nat) (offs : list nat) (ai : nat) (path : list nat)
  : list (vec * vec * R) :=
  let betas := map2 Nat.add offs path in
  map (fun be => (unit_row nalpha ai 1, unit_row M be (-1), 0)) betas
  ++ [(unit_row nalpha ai (-1),
       fold_left (fun row be => splice be [1] row) betas (zeros M),
       INR (length offs) - 1)].
(** M is filled by index; [mat_set] is [M[i] = row] on the empty matrix (whose
    unset rows hold arbitrary values: here None). *)
Fixpoint find_row (q : list (list nat * mat)) (ws : list nat) (i : nat) : option vec :=
  match q with
  | [] => None
  | (path, G) :: q' =>
      match find_row q' ws i with
      | Some r => Some r
      | None => match compute_alpha_index ws path, G with
                | Some j, [g] => if Nat.eqb j i then Some g else None
                | _, _ => None
                end
      end
  end.
(** Result (M, B1, B2, d).  Errors: a LeakyReLU layer (1022), a network with
    more than one output (the assignment to M[alpha_index], 1041). *)
Definition output_gradient (N : network) : option (list (option vec) * mat * mat * vec) :=
  let ws := widths_of (hidden N) in
  let nalpha := prod_list ws in
  let M := num_units (hidden N) in
  if (forallb is_relu (hidden N) && Nat.eqb (out_features (last_layer N)) 1)%bool then
    let q := grad_queue (later_layers N) [([], weight (hd (last_layer N) (linears N)))] in
    match all_some (map (fun pg => compute_alpha_index ws (fst pg)) q) with
    | None => None
    | Some ais =>
        let rows := concat (map2 (fun ai pg => path_rows nalpha M (offsets 0 ws) ai (fst pg)) ais q) in
        Some (map (find_row q ws) (seq 0 nalpha),
              map (fun r => fst (fst r)) rows,
              map (fun r => snd (fst r)) rows,
              map snd rows)
    end
  else None.
