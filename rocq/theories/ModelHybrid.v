(** Model of neural_network_lyapunov/hybrid_linear_system.py.

    [AutonomousHybridLinearSystem] (lines 372-656) is the same code as
    [HybridLinearSystem] (lines 53-369) without the input u; it is modelled as
    a hybrid system of input dimension 0 (its g_i is [md_c], its B_i has no
    columns).  The bounds Ai_times_x_lower/upper and dx_lower/dx_upper (lines
    410-415, 451-461, 629-656) are in ModelContHybrid.v. *)

Require Import Reals List Bool Lia.
Require Import Verif.Vec Verif.ModelMip Verif.ModelUtils Verif.ModelNet.
Import ListNotations.
Open Scope R_scope.

(** One mode x' = A x + B u + c if P [x;u] <= q, together with the bounds of
    every coordinate of [x;u] on its polytope (self.x_lo[i] ++ self.u_lo[i],
    self.x_up[i] ++ self.u_up[i]) — lines 83-90. *)
Record mode_data := mkMode {
  md_A : mat; md_B : mat; md_c : vec; md_P : mat; md_q : vec;
  md_lo : list ext; md_up : list ext }.

(** The object: dimensions and the list of modes — lines 69-92, 386-417. *)
Record hybrid := mkHybrid { h_nx : nat; h_nu : nat; h_modes : list mode_data }.

Definition new_hybrid (nx nu : nat) : hybrid := mkHybrid nx nu [].

(** check_shape_and_type for a 2-D tensor (utils.py:11-24). *)
Definition shape_ok (m n : nat) (A : mat) : bool :=
  (Nat.eqb (length A) m && forallb (fun r => Nat.eqb (length r) n) A)%bool.

(** add_mode — lines 94-139 and 418-446.  [bounds P q j] is
    utils.compute_bounds_from_polytope (utils.py:780-839, two linear programs;
    None = exception); [bounded P] is is_polyhedron_bounded.  None = a failed
    assertion or exception. *)
Definition add_mode (bounds : mat -> vec -> nat -> option (ext * ext))
    (bounded : mat -> bool) (h : hybrid) (A B : mat) (c : vec) (P : mat) (q : vec)
    (check : bool) : option hybrid :=
  let nx := h_nx h in let nu := h_nu h in
  if negb (shape_ok nx nx A && shape_ok nx nu B && Nat.eqb (length c) nx &&
           shape_ok (length P) (nx + nu) P && Nat.eqb (length q) (length P) &&
           (negb check || bounded P))%bool
  then None
  else match all_some (map (bounds P q) (seq 0 (nx + nu))) with
       | None => None
       | Some lu =>
           Some (mkHybrid nx nu (h_modes h ++
                   [mkMode A B c P q (map fst lu) (map snd lu)]))
       end.

(** self.x_lo_all ++ self.u_lo_all and self.x_up_all ++ self.u_up_all: the
    minimum/maximum over all modes — lines 136-139, 440-441. *)
Definition lo_all (h : hybrid) : list ext :=
  fold_left (fun acc m => map2 ext_min acc (md_lo m)) (h_modes h)
            (repeat PInf (h_nx h + h_nu h)).
Definition up_all (h : hybrid) : list ext :=
  fold_left (fun acc m => map2 ext_max acc (md_up m)) (h_modes h)
            (repeat NInf (h_nx h + h_nu h)).

(** Finite bounds as numbers.  An infinite bound would put inf/nan into the
    big-M rows; such a call is modelled as giving no constraints (None). *)
Definition fin (e : ext) : option R :=
  match e with Fin r => Some r | _ => None end.

(** The shape checks of the additional bounds — lines 173-184, 469-480. *)
Definition len_ok (n : nat) (o : option vec) : bool :=
  match o with Some v => Nat.eqb (length v) n | None => true end.

(** The additional bounds x_lo, u_lo (x_up, u_up) — lines 189-200, 483-490. *)
Definition tighten (f : ext -> ext -> ext) (all : list ext) (n1 n2 : nat) (dflt : ext)
    (x u : option vec) : list ext :=
  let g := fun n o => match o with Some v => map Fin v | None => repeat dflt n end in
  map2 f all (g n1 x ++ g n2 u).

(** s_index / t_index — lines 219-227, 503-505: the slack variable holding
    alpha_i times coordinate j of [x;u]. *)
Definition prod_index (nx nu K i j : nat) : nat :=
  if Nat.ltb j nx then (i * nx + j)%nat else (K * nx + i * nu + (j - nx))%nat.

Definition blk0 : blk := mkBlk [] [] [] [].

(** The four rows of replace_binary_continuous_product for coordinate j and
    mode i — lines 229-247, 507-518. *)
Definition product_rows (nx nu K i j : nat) (r : rows4) : blk :=
  mkBlk (map (unit_row (nx + nu) j) (rw_x r))
        (map (unit_row (K * (nx + nu)) (prod_index nx nu K i j)) (rw_y r))
        (map (unit_row K i) (rw_b r))
        (rw_rhs r).

Fixpoint join_rows (l : list (option blk)) : option blk :=
  match l with
  | [] => Some blk0
  | None :: _ => None
  | Some b :: l' => match join_rows l' with Some r => Some (bapp b r) | None => None end
  end.

(** Lines 229-247: for i in modes: for j in coordinates. *)
Definition all_product_rows (nx nu K : nat) (lo up : vec) : option blk :=
  join_rows
    (flat_map (fun i =>
       map (fun j => match replace_binary_continuous_product (nth j lo 0) (nth j up 0) with
                     | Some r => Some (product_rows nx nu K i j r)
                     | None => None
                     end) (seq 0 (nx + nu))) (seq 0 K)).

(** P_i [s_i; t_i] <= q_i alpha_i — lines 249-258, 520-529. *)
Definition polytope_rows (nx nu K i : nat) (m : mode_data) : blk :=
  mkBlk (map (fun _ => zeros (nx + nu)) (md_P m))
        (map (fun p => splice (i * nx) (firstn nx p)
                         (splice (K * nx + i * nu) (skipn nx p) (zeros (K * (nx + nu)))))
             (md_P m))
        (map (fun v => unit_row K i (- v)) (md_q m))
        (zeros (length (md_P m))).
Fixpoint all_polytope_rows (nx nu K i : nat) (ms : list mode_data) : blk :=
  match ms with
  | [] => blk0
  | m :: ms' => bapp (polytope_rows nx nu K i m) (all_polytope_rows nx nu K (S i) ms')
  end.

(** mixed_integer_constraints — lines 141-271 and 448-545.  None = a failed
    assertion or exception, or infinite bounds (see [fin]). *)
Definition hybrid_mic (h : hybrid) (x_lo x_up u_lo u_up : option vec) : option mic :=
  let nx := h_nx h in let nu := h_nu h in let K := length (h_modes h) in
  match h_modes h with
  | [] => None                          (* no x_lo_all; torch.cat of nothing *)
  | _ =>
    if negb (len_ok nx x_lo && len_ok nx x_up && len_ok nu u_lo && len_ok nu u_up)%bool
    then None else
    match all_some (map fin (tighten ext_max (lo_all h) nx nu NInf x_lo u_lo)),
          all_some (map fin (tighten ext_min (up_all h) nx nu PInf x_up u_up)) with
    | Some lo, Some up =>
        match all_product_rows nx nu K lo up with
        | None => None
        | Some pr =>
            let ineq := bapp pr (all_polytope_rows nx nu K 0 (h_modes h)) in
            Some (mkMic (nx + nu) (K * (nx + nu)) K
                    None
                    (Some (hcats (map md_A (h_modes h) ++ map md_B (h_modes h))))
                    (Some (hcats (map (fun m => col (md_c m)) (h_modes h))))
                    None
                    (Some (k_x ineq)) (Some (k_s ineq)) (Some (k_b ineq)) (Some (k_rhs ineq))
                    None None (Some [ones K]) (Some [1])
                    None None None None None None)
        end
    | _, _ => None
    end
  end.

(** add_dynamics_constraint — lines 273-295 (the additional input bounds are
    ignored with a warning) and, with nu = 0 and u_var = [], 547-555. *)
Definition hybrid_add_dynamics (h : hybrid) (x_var x_next_var u_var : list nat)
    (vt : vtype) (m : mip) : option mip :=
  match hybrid_mic h None None None None with
  | None => None
  | Some c =>
      let '(m', _, _) := add_mic c (x_var ++ u_var) (Some x_next_var) NewBinary vt m in
      Some m'
  end.

(** torch.all(P @ z <= q). *)
Definition in_mode (m : mode_data) (z : vec) : bool :=
  forallb (fun b => b) (map2 Rleb (mv (md_P m) z) (md_q m)).

Definition mode_step (m : mode_data) (x u : vec) : vec :=
  vadd (vadd (mv (md_A m) x) (mv (md_B m) u)) (md_c m).

(** mode — lines 297-317, 557-569: the first index. *)
Fixpoint mode_from (i : nat) (ms : list mode_data) (z : vec) : option nat :=
  match ms with
  | [] => None
  | m :: ms' => if in_mode m z then Some i else mode_from (S i) ms' z
  end.
Definition find_mode (h : hybrid) (x u : vec) : option nat :=
  mode_from 0 (h_modes h) (x ++ u).

(** step_forward of one state — lines 319-348 (returns (None, None) if there is
    no mode) and 574-600 (raises StepForwardException then; [given] is the
    optional mode_x).  None = no mode; indexing a mode that does not exist is
    None as well (IndexError). *)
Definition step_forward (h : hybrid) (x u : vec) (given : option nat) : option vec :=
  match (match given with Some i => Some i | None => find_mode h x u end) with
  | None => None
  | Some i => match nth_error (h_modes h) i with
              | Some m => Some (mode_step m x u)
              | None => None
              end
  end.

(** possible_dx — lines 350-369, 602-623. *)
Definition possible_dx (h : hybrid) (x u : vec) : list vec :=
  map (fun m => mode_step m x u) (filter (fun m => in_mode m (x ++ u)) (h_modes h)).

(** ** Cost to go — lines 659-711 (autonomous, discrete time). *)

(** The simulation loop, lines 690-705.  [at_goal x] is the test
    x_goal is not None and ||x - x_goal||_2 < 1e-3.  The state is the list of
    visited states and their costs, newest first; None = AssertionError (the
    state is in no mode). *)
Fixpoint simulate_cost (h : hybrid) (cost : vec -> R) (at_goal : vec -> bool)
    (steps : nat) (x : vec) (acc : list (vec * R)) : option (list (vec * R)) :=
  match steps with
  | O => Some acc
  | S k =>
      if at_goal x then Some acc
      else match find_mode h x [] with
           | None => None
           | Some i =>
               match nth_error (h_modes h) i with
               | None => None
               | Some m => let x' := mode_step m x [] in
                           simulate_cost h cost at_goal k x' ((x', cost x') :: acc)
               end
           end
  end.

(** costs_from_start (line 705): running sums of the step costs. *)
Fixpoint running (s : R) (l : vec) : vec :=
  match l with [] => [] | c :: l' => (s + c) :: running (s + c) l' end.

(** compute_discrete_time_system_cost_to_go — lines 659-711: total_cost,
    x_steps, costs with costs[i] = total_cost - costs_from_start[i] + cost_steps[i]. *)
Definition cost_to_go (h : hybrid) (cost : vec -> R) (at_goal : vec -> bool)
    (T : nat) (x0 : vec) : option (R * list vec * vec) :=
  match simulate_cost h cost at_goal T x0 [(x0, cost x0)] with
  | None => None
  | Some acc =>
      let visited := rev acc in
      let steps := map snd visited in
      let total := fold_left Rplus (tl steps) (cost x0) in
      Some (total, map fst visited,
            map2 (fun c cs => total - cs + c) steps (running 0 steps))
  end.

(** generate_cost_to_go_samples for discrete time — lines 781-836.  Only
    StepForwardException is caught (line 834); the AssertionError of the
    discrete-time simulation is not, so it aborts the whole call (None). *)
Fixpoint cost_to_go_samples (h : hybrid) (cost : vec -> R) (at_goal : vec -> bool)
    (T : nat) (pruner : vec -> bool) (x0s : list vec) : option (list (vec * R)) :=
  match x0s with
  | [] => Some []
  | x0 :: rest =>
      match cost_to_go h cost at_goal T x0 with
      | None => None
      | Some (_, xs, costs) =>
          match cost_to_go_samples h cost at_goal T pruner rest with
          | None => None
          | Some pairs =>
              Some (filter (fun p => negb (pruner (fst p))) (combine xs costs) ++ pairs)
          end
      end
  end.

(** ** Partition of the state/input space — lines 839-941. *)

(** np.linspace(lo, up, nb + 1)[k]. *)
Definition linspace (lo up : R) (nb k : nat) : R :=
  lo + INR k * ((up - lo) / INR nb).

(** One axis: cell k before the clamping, as (sample, lo, up) — lines 882-905,
    923-929. *)
Definition cell_mid (lo up : R) (nb k : nat) : R :=
  (1 / 2) * (linspace lo up nb k + linspace lo up nb (S k)).
Definition clamp_box (lo up v : R) : R := Rmin (Rmax v lo) up.
Definition cell_lo (lo up delta : R) (nb k : nat) : R :=
  clamp_box lo up (linspace lo up nb k - delta * (up - lo) / INR nb).
Definition cell_up (lo up delta : R) (nb k : nat) : R :=
  clamp_box lo up (linspace lo up nb (S k) + delta * (up - lo) / INR nb).

(** np.meshgrid of the index ranges, one index per axis — lines 906-908 (the
    rows come in meshgrid's order, which is not modelled: this is the same set
    of rows in lexicographic order). *)
Fixpoint index_grid (nbs : list nat) : list (list nat) :=
  match nbs with
  | [] => [[]]
  | nb :: rest =>
      flat_map (fun k => map (cons k) (index_grid rest)) (seq 0 nb)
  end.

(** An axis is (lo, up, delta, number of cells); state axes first, then input
    axes. *)
Definition axis := (R * R * R * nat)%type.
Definition axis_cell (a : axis) (k : nat) : R * R * R :=
  let '(lo, up, delta, nb) := a in
  (cell_mid lo up nb k, cell_lo lo up delta nb k, cell_up lo up delta nb k).

(** The result, one entry (sample, cell_lo, cell_up) per cell, each a vector
    over the x and u axes. *)
Definition partition (axes : list axis) : list (vec * vec * vec) :=
  map (fun idx =>
         let cells := map2 axis_cell axes idx in
         (map (fun c => fst (fst c)) cells, map (fun c => snd (fst c)) cells,
          map snd cells))
      (index_grid (map snd axes)).
