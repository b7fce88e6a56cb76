(** Choosing the nearest: utils.find_nearest, and nearest_node, extend_node and sample_state of
    examples/car/rrt_star.py.  An exception is the value None. *)

Require Import Reals List.
Require Import Verif.Vec Verif.SpecExt Verif.ModelValueIter Verif.ModelSampling Verif.ModelRrt.
Import ListNotations.
Open Scope R_scope.

(** find_nearest, utils.py 27-30, for an array of one dimension; argmin of an empty array raises. *)
Definition find_nearest (array : vec) (value : R) : option R :=
  match np_argmin (map (fun a => Fin (Rabs (a - value))) array) with
  | None => None
  | Some idx => nth_error array idx
  end.

(** The index of the row with the smallest state_distance to x, rrt_star.py 93 and 112-113. *)
Definition nearest_row (rows : mat) (x : vec) : option nat :=
  np_argmin (map (fun s => Fin (state_distance s x)) rows).

(** RrtStar.nearest_node, rrt_star.py 86-94. *)
Definition nearest_node (T : tree) (x : vec) : option nat := nearest_row (states T) x.

(** RrtStar.extend_node, rrt_star.py 96-115.  [U] is what torch.rand returns; [sim dt u x0] is the last
    column of what solve_ivp returns for the constant input u.  np.vstack of no rows raises, as here
    the argmin. *)
Definition extend_node (sim : R -> vec -> vec -> vec) (u_lo u_up : vec) (T : tree) (node_idx : nat) (U : mat) (dt : R)
  (x : vec) : option vec :=
  match uniform_sample_in_box u_lo u_up U, nth_error (states T) node_idx with
  | Some u_samples, Some x0 =>
      let x_sim := map (fun u => sim dt u x0) u_samples in
      match nearest_row x_sim x with
      | None => None
      | Some idx => nth_error x_sim idx
      end
  | _, _ => None
  end.

(** RrtStar.sample_state, rrt_star.py 214-221; [r] holds the draws of np.random.uniform in units of the
    interval. *)
Definition sample_state (r : vec) : vec :=
  map2 (fun b a => fst b + a * (snd b - fst b))
    (combine [-5; -5; - (12 / 10) * PI] [5; 5; 12 / 10 * PI]) r.

(** The choice of the state in a pass of grow_tree, rrt_star.py 225-230: 20 inputs, 0.05 seconds. *)
Definition propose (sim : R -> vec -> vec -> vec) (u_lo u_up : vec) (T : tree) (r : vec) (U : mat) : option vec :=
  let x_sample := sample_state r in
  match nearest_node T x_sample with
  | None => None
  | Some i => extend_node sim u_lo u_up T i U (5 / 100) x_sample
  end.
