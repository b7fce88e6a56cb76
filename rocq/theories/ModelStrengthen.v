(** Model of the strengthening of the big-M formulation:
    /repo/neural_network_lyapunov/mip_utils.py:11-329 and
    relu_to_optimization.py:291-411. *)

Require Import Reals List Bool Arith.
Require Import Verif.Vec Verif.ModelMip Verif.ModelUtils Verif.ModelNet Verif.ModelPattern.
Import ListNotations.
Open Scope R_scope.

(** A cut y <= x_coeff . x + binary_coeff * beta + constant. *)
Record cut := mkCut { cut_x : vec; cut_b : R; cut_k : R }.

(** The two loops of strengthen_relu_mip_w_indices — mip_utils.py:56-71.  The
    Python set is a membership test [ind] on the positions; the order of the
    additions does not matter over the reals.  [i] is the current position. *)
Fixpoint cut_loop (c : R) (i : nat) (w lo up : vec) (ind : nat -> bool) : cut :=
  match w, lo, up with
  | a :: w', l :: lo', u :: up' =>
      let r := cut_loop c (S i) w' lo' up' ind in
      if ind i then
        let lb := if Rleb 0 a then l else u in
        mkCut (a :: cut_x r) (cut_b r + (1 - c) * a * lb) (cut_k r + - (1 - c) * a * lb)
      else
        let ub := if Rleb 0 a then u else l in
        mkCut (c * a :: cut_x r) (cut_b r + (1 - c) * a * ub) (cut_k r)
  | _, _, _ => mkCut [] 0 0
  end.
(** strengthen_relu_mip_w_indices — mip_utils.py:11-72; the asserts 40, 46-47
    are the error case. *)
Definition strengthen_w_indices (c : R) (w : vec) (b : R) (lo up : vec) (ind : nat -> bool)
  : option cut :=
  if (Rleb 0 c && Rltb c 1 && Nat.eqb (length lo) (length w)
      && Nat.eqb (length up) (length lo))%bool then
    let r := cut_loop c 0 w lo up ind in
    Some (mkCut (cut_x r) (b * (1 - c) + cut_b r) (b * c + cut_k r))
  else None.

(** find_index_set_to_strengthen — mip_utils.py:68-86. *)
Definition find_index_set (w lo up xhat : vec) (be : R) : nat -> bool :=
  fun i =>
    (Nat.ltb i (length w) &&
     ((Rleb 0 (nth i w 0) &&
       Rleb (nth i xhat 0) ((1 - be) * nth i lo 0 + be * nth i up 0)) ||
      (Rltb (nth i w 0) 0 &&
       Rltb ((1 - be) * nth i up 0 + be * nth i lo 0) (nth i xhat 0))))%bool.

(** The right-hand side of a cut at a point. *)
Definition cut_rhs (k : cut) (x : vec) (be : R) : R :=
  dot (cut_x k) x + cut_b k * be + cut_k k.

(** strengthen_relu_mip_given_pts — mip_utils.py:89-127; the empty list stands
    for the result (None, None, None). *)
Fixpoint strengthen_given_pts (c : R) (w : vec) (b : R) (lo up : vec)
         (pts : list (vec * R * R)) : option (list cut) :=
  match pts with
  | [] => Some []
  | (xhat, yhat, be) :: pts' =>
      match strengthen_w_indices c w b lo up (find_index_set w lo up xhat be),
            strengthen_given_pts c w b lo up pts' with
      | Some k, Some ks =>
          Some (if Rltb (cut_rhs k xhat be) yhat then k :: ks else ks)
      | _, _ => None
      end
  end.

(** itertools.combinations(l, r). *)
Fixpoint combinations (l : list nat) (r : nat) : list (list nat) :=
  match r, l with
  | O, _ => [[]]
  | S _, [] => []
  | S r', x :: l' => map (cons x) (combinations l' r') ++ combinations l' (S r')
  end.
Definition mem (s : list nat) (i : nat) : bool := existsb (Nat.eqb i) s.

(** itertools.product of the pairs (lo[i], up[i]) — mip_utils.py:146-147. *)
Fixpoint box_vertices (lo up : vec) : list vec :=
  match lo, up with
  | l :: lo', u :: up' =>
      map (cons l) (box_vertices lo' up') ++ map (cons u) (box_vertices lo' up')
  | _, _ => [[]]
  end.
(** _get_linear_input_vertices — mip_utils.py:130-162. *)
Definition linear_input_vertices (lo up w : vec) (b ilo iup : R) : option (list vec) :=
  match compute_range_by_IA (length w) [w] [b] lo up with
  | Some ([rlo], [rup]) =>
      if (Reqb ilo rlo && Reqb iup rup)%bool then Some (box_vertices lo up)
      else if (Rleb rlo ilo && Rleb iup rup)%bool then
        Some (filter (fun v => (Rleb ilo (dot w v + b) && Rleb (dot w v + b) iup)%bool)
                     (box_vertices lo up))
      else None
  | _ => None
  end.
(** _compute_beta_range — mip_utils.py:165-184. *)
Definition beta_range (c : R) (w : vec) (b : R) (ks : list cut) (xhat : vec) : R * R :=
  let lhs := Rmax (dot w xhat + b) (c * (dot w xhat + b)) in
  let bound k := lhs - dot (cut_x k) xhat - cut_k k in
  (fold_right (fun k acc => if Rltb 0 (cut_b k) then Rmax (bound k / cut_b k) acc else acc) 0 ks,
   fold_right (fun k acc => if Rltb (cut_b k) 0 then Rmin (bound k / cut_b k) acc else acc) 1 ks).
(** One iteration of the loop over beta_hat — mip_utils.py:299-321. *)
Definition selective_step (c : R) (w : vec) (b : R) (lo up : vec) (exist : list cut)
           (xhat : vec) (be : R) (ks : option (list cut)) : option (list cut) :=
  match ks with
  | None => None
  | Some ks =>
      match strengthen_w_indices c w b lo up (find_index_set w lo up xhat be) with
      | None => None
      | Some k =>
          let vals := map (fun q => cut_rhs q xhat be) (exist ++ ks) in
          let ub := match vals with [] => 0 | v :: vs => fold_right Rmin v vs end in
          Some (if Rltb (cut_rhs k xhat be) (ub - 1 / 1000000) then ks ++ [k] else ks)
      end
  end.
(** strengthen_relu_mip — mip_utils.py:219-329. *)
Definition strengthen_relu_mip (c : R) (w : vec) (b : R) (lo up : vec) (ilo iup : R)
           (selective : bool) : option (list cut) :=
  if negb (Rltb ilo 0 && Rltb 0 iup && Nat.eqb (length lo) (length up))%bool then None
  else if negb selective then
    all_some (map (fun s => strengthen_w_indices c w b lo up (mem s))
                  (flat_map (combinations (seq 0 (length w))) (seq 1 (length w - 1))))
  else
    let exist := [mkCut (vscale c w) ((1 - c) * iup) (c * b);
                  mkCut w ((1 - c) * ilo) (b - (1 - c) * ilo)] in
    match linear_input_vertices lo up w b ilo iup with
    | None => None
    | Some vs =>
        fold_left (fun ks xhat =>
          match ks with
          | None => None
          | Some ks0 =>
              let '(blo, bup) := beta_range c w b (exist ++ ks0) xhat in
              selective_step c w b lo up exist xhat bup
                (selective_step c w b lo up exist xhat blo ks)
          end) vs (Some [])
    end.

(** ** relu_to_optimization.py *)

(** One row of the returned matrices — lines 345-366; the cut of unit
    [off + j], whose layer reads the network input ([prev] = None) or the units
    starting at [prev]. *)
Definition cut_row (nx M : nat) (prev : option nat) (u : nat) (k : cut) : blk :=
  let s1 := splice u [1] (zeros M) in
  mkBlk [match prev with None => vneg (cut_x k) | Some _ => zeros nx end]
        [match prev with None => s1 | Some p => splice p (vneg (cut_x k)) s1 end]
        [unit_row M u (- cut_b k)]
        [cut_k k].
(** The loop over the units of a layer — lines 320-366.  [lin], [lo], [up]: the
    inputs of the layer and their bounds; [outs]: linear_inputs from position
    linear_input_count on; [acts]: the activations of the units not yet done. *)
Fixpoint units_at_point (nx M : nat) (prev : option nat) (u : nat) (c : R)
         (W : mat) (b lin lo up outs acts : vec) : option blk :=
  match W, b, outs, acts with
  | [], _, _, _ => Some (mkBlk [] [] [] [])
  | w :: W', bj :: b', y :: outs', be :: acts' =>
      match strengthen_w_indices c w bj lo up (find_index_set w lo up lin be),
            units_at_point nx M prev (S u) c W' b' lin lo up outs' acts' with
      | Some k, Some rest =>
          Some (if Rltb (cut_rhs k lin be + / 10 ^ 12) y
                then bapp (cut_row nx M prev u k) rest else rest)
      | _, _ => None
      end
  | _, _, _, _ => None
  end.
(** The loop over the layers — lines 308-366.  [cnt] = linear_input_count,
    [off] = offset of the layer's units. *)
Fixpoint layers_at_point (nx M : nat) (prev : option nat) (off cnt : nat)
         (hs : list (linear * act)) (lins acts los ups : vec) : option blk :=
  match hs with
  | [] => Some (mkBlk [] [] [] [])
  | (l, a) :: hs' =>
      let n := in_features l in
      match units_at_point nx M prev off (slope_of a) (weight l) (bias_of l)
              (slice cnt n lins) (slice cnt n los) (slice cnt n ups)
              (skipn (cnt + n) lins) (skipn off acts),
            layers_at_point nx M (Some off) (off + out_features l) (cnt + n) hs' lins acts los ups with
      | Some p, Some q => Some (bapp p q)
      | _, _ => None
      end
  end.
(** strengthen_mip_at_point — lines 291-371.  [Some None] is the result
    (None, None, None, None), [None] a raised assertion. *)
Definition strengthen_mip_at_point (N : network) (lins acts los ups : vec)
  : option (option blk) :=
  match layers_at_point (x_size N) (num_units (hidden N)) None 0 0 (hidden N) lins acts los ups with
  | None => None
  | Some k => match k_rhs k with [] => Some None | _ => Some (Some k) end
  end.
(** strengthen_relu_mip_at_solution — lines 373-411.  [sol] gives the values of
    the variables after optimize(); [xv], [sv], [bv]: x_var, slack_var,
    binary_var; the bounds come from the encoding. *)
Definition strengthen_relu_mip_at_solution (N : network) (xv sv bv : list nat)
           (x_lo x_up post_lo post_up : vec) (sol : nat -> R) (m : mip) : option mip :=
  match strengthen_mip_at_point N (map sol xv ++ map sol sv) (map sol bv)
          (x_lo ++ post_lo) (x_up ++ post_up) with
  | None => None
  | Some None => Some m
  | Some (Some k) =>
      Some (addMConstr [k_x k; k_s k; k_b k] [xv; sv; bv] SLe (k_rhs k) m)
  end.
