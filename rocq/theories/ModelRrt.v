(** examples/car/rrt_star.py: the tree of the class RrtStar.

    Simplifications: a node index is a natural number (Python's negative
    indices are not modelled); a stored path keeps the columns of x and u in
    lists, so that np.fliplr reverses a list; an exception is the value Err,
    and the state of the object after an exception is not modelled. *)

Require Import Reals List Bool Arith.
Require Import Verif.Vec Verif.SpecExt Verif.ModelValueIter.
Import ListNotations.
Open Scope R_scope.

(** (x, u, dt) along a path. *)
Definition tpath : Type := list vec * list vec * list R.

(** The attributes of the object, lines 18-33. *)
Record tree : Type := mkTree {
  states : list vec;
  parents : list (option nat);
  children : list (list nat);
  to_root : list R;
  to_parent : list R;
  paths : list (option tpath) }.

Inductive res (A : Type) : Type := Ok (a : A) | Err | NoFuel.
Arguments Ok {A} a.
Arguments Err {A}.
Arguments NoFuel {A}.

(** set.add and set.remove (KeyError when absent) on a set kept as a list. *)
Definition set_add (a : nat) (s : list nat) : list nat :=
  if in_dec Nat.eq_dec a s then s else s ++ [a].
Definition set_remove (a : nat) (s : list nat) : option (list nat) :=
  if in_dec Nat.eq_dec a s then Some (remove Nat.eq_dec a s) else None.

(** _add_goal on the empty object, lines 66-77. *)
Definition rrt_init (x_goal : vec) : tree := mkTree [x_goal] [None] [[]] [0] [0] [None].

(** _add_node_with_path, lines 41-64. *)
Definition add_node (T : tree) (x : vec) (parent_idx : nat) (cost_to_parent : R) (path : option tpath)
  : res (tree * nat) :=
  match nth_error (children T) parent_idx with
  | None => Err
  | Some ch =>
    match set_nth parent_idx (set_add (length (states T)) ch) (children T), nth_error (to_root T) parent_idx with
    | Some chs, Some root =>
      Ok (mkTree (states T ++ [x]) (parents T ++ [Some parent_idx]) (chs ++ [[]])
            (to_root T ++ [cost_to_parent + root]) (to_parent T ++ [cost_to_parent]) (paths T ++ [path]),
          length (states T))
    | _, _ => Err
    end
  end.

(** The for loop over one set of children, lines 168-172. *)
Fixpoint visit (par : list (option nat)) (chi : list (list nat)) (ctp : list R) (cs : list nat)
  (ctr : list R) (queue : list (list nat)) : option (list R * list (list nat)) :=
  match cs with
  | [] => Some (ctr, queue)
  | c :: cs =>
    match nth_error par c with
    | Some (Some p) =>
      match nth_error ctr p, nth_error ctp c with
      | Some a, Some b =>
        match set_nth c (a + b) ctr, nth_error chi c with
        | Some ctr', Some s => visit par chi ctp cs ctr' (queue ++ [s])
        | _, _ => None
        end
      | _, _ => None
      end
    | _ => None
    end
  end.
(** The while loop, lines 164-172; [ord] is the order in which a set is iterated. *)
Fixpoint descend (fuel : nat) (ord : list nat -> list nat) (par : list (option nat)) (chi : list (list nat))
  (ctp : list R) (queue : list (list nat)) (ctr : list R) : res (list R) :=
  match queue with
  | [] => Ok ctr
  | s :: queue =>
    match fuel with
    | O => NoFuel
    | S fuel =>
      match visit par chi ctp (ord s) ctr queue with
      | None => Err
      | Some (ctr', queue') => descend fuel ord par chi ctp queue' ctr'
      end
    end
  end.
(** update_parent, lines 149-172. *)
Definition update_parent (fuel : nat) (ord : list nat -> list nat) (T : tree) (v q : nat) (cost : R)
  (path : option tpath) : res tree :=
  match nth_error (parents T) v with
  | Some (Some old) =>
    match nth_error (children T) old with
    | None => Err
    | Some oldset =>
      match set_remove v oldset with
      | None => Err
      | Some s =>
        match set_nth old s (children T), set_nth v (Some q) (parents T) with
        | Some chi1, Some par =>
          match nth_error chi1 q with
          | None => Err
          | Some qs =>
            match set_nth q (set_add v qs) chi1, set_nth v cost (to_parent T), nth_error (to_root T) q with
            | Some chi, Some ctp, Some root =>
              match set_nth v (root + cost) (to_root T), set_nth v path (paths T), nth_error chi v with
              | Some ctr, Some pth, Some below =>
                match descend fuel ord par chi ctp [below] ctr with
                | Ok ctr' => Ok (mkTree (states T) par chi ctr' ctp pth)
                | Err => Err
                | NoFuel => NoFuel
                end
              | _, _, _ => Err
              end
            | _, _, _ => Err
            end
          end
        | _, _ => Err
        end
      end
    end
  | _ => Err
  end.

(** What find_path (lines 118-140) returns: None for failure, else cost and path. *)
Definition find_result : Type := option (R * tpath).
Definition found_cost (f : find_result) : ext := match f with Some (c, _) => Fin c | None => Inf end.
Definition is_finite (a : ext) : bool := match a with Fin _ => true | Inf => false end.
(** np.fliplr of x and u, dt[::-1]. *)
Definition flip (p : tpath) : tpath := (rev (fst (fst p)), rev (snd (fst p)), rev (snd p)).

(** Lines 184-189: find_path to each neighbour. *)
Fixpoint find_all (find : vec -> vec -> find_result) (T : tree) (x : vec) (nbrs : list nat)
  : option (list find_result) :=
  match nbrs with
  | [] => Some []
  | i :: nbrs =>
    match nth_error (states T) i, find_all find T x nbrs with
    | Some xi, Some l => Some (find x xi :: l)
    | _, _ => None
    end
  end.
Fixpoint gather (l : list R) (is : list nat) : option (list R) :=
  match is with
  | [] => Some []
  | i :: is =>
    match nth_error l i, gather l is with Some a, Some b => Some (a :: b) | _, _ => None end
  end.
(** The rewiring loop, lines 201-209. *)
Fixpoint rewire (fuel : nat) (ord : list nat -> list nat) (new_idx : nat) (new_root : R)
  (todo : list (nat * find_result)) (T : tree) : res tree :=
  match todo with
  | [] => Ok T
  | (i, f) :: todo =>
    match nth_error (to_root T) i with
    | None => Err
    | Some root_i =>
      if eltb (eadd (found_cost f) (Fin new_root)) (Fin root_i) then
        match f with
        | None => Err
        | Some (c, p) =>
          match update_parent fuel ord T i new_idx c (Some (flip p)) with
          | Ok T' => rewire fuel ord new_idx new_root todo T'
          | Err => Err
          | NoFuel => NoFuel
          end
        end
      else rewire fuel ord new_idx new_root todo T
    end
  end.
(** connect_state_extend, lines 174-212. *)
Definition connect (fuel : nat) (ord : list nat -> list nat) (find : vec -> vec -> find_result) (T : tree) (x : vec)
  (nbrs : list nat) : res (tree * option nat) :=
  match find_all find T x nbrs with
  | None => Err
  | Some fs =>
    if existsb is_finite (map found_cost fs) then
      match gather (to_root T) nbrs with
      | None => Err
      | Some roots =>
        match np_argmin (map2 eadd (map found_cost fs) (map Fin roots)) with
        | None => Err
        | Some best =>
          match nth_error fs best, nth_error nbrs best, nth_error roots best with
          | Some (Some (c, p)), Some parent, Some root =>
            match add_node T x parent c (Some p) with
            | Ok (T1, idx) =>
              match rewire fuel ord idx (c + root) (combine nbrs fs) T1 with
              | Ok T2 => Ok (T2, Some idx)
              | Err => Err
              | NoFuel => NoFuel
              end
            | Err => Err
            | NoFuel => NoFuel
            end
          | _, _, _ => Err
          end
        end
      end
    else Ok (T, None)
  end.

(** state_distance (lines 79-83) with the weights Q = diag(1, 1, 0.5), and neighbours (lines 142-149). *)
Definition state_distance (x1 x2 : vec) : R :=
  let d := vsub x1 x2 in vsum (map2 Rmult (mv (diag [1; 1; 1 / 2]) d) d).
Definition neighbours (T : tree) (x : vec) (radius : R) : list nat :=
  filter (fun i => Rleb (state_distance (nth i (states T) []) x) radius) (seq 0 (length (states T))).
(** One pass of grow_tree (lines 223-234) after x_extend has been chosen. *)
Definition grow_step (fuel : nat) (ord : list nat -> list nat) (find : vec -> vec -> find_result) (T : tree)
  (x_extend : vec) : res tree :=
  match neighbours T x_extend (2 / 10) with
  | [] => Ok T
  | nbrs =>
    match connect fuel ord find T x_extend nbrs with
    | Ok (T', _) => Ok T'
    | Err => Err
    | NoFuel => NoFuel
    end
  end.

(** A history of calls. *)
Inductive call : Type :=
| AddNode (x : vec) (parent : nat) (cost : R) (path : option tpath)
| Connect (find : vec -> vec -> find_result) (x : vec) (nbrs : list nat)
| Grow (find : vec -> vec -> find_result) (x_extend : vec).
Definition run_call (fuel : nat) (ord : list nat -> list nat) (T : tree) (c : call) : res tree :=
  match c with
  | AddNode x p cost path =>
    match add_node T x p cost path with Ok (T', _) => Ok T' | Err => Err | NoFuel => NoFuel end
  | Connect find x nbrs =>
    match connect fuel ord find T x nbrs with Ok (T', _) => Ok T' | Err => Err | NoFuel => NoFuel end
  | Grow find x => grow_step fuel ord find T x
  end.
Fixpoint run_calls (fuel : nat) (ord : list nat -> list nat) (T : tree) (cs : list call) : res tree :=
  match cs with
  | [] => Ok T
  | c :: cs =>
    match run_call fuel ord T c with
    | Ok T' => run_calls fuel ord T' cs
    | Err => Err
    | NoFuel => NoFuel
    end
  end.

(** examples/car/unicycle.py, Unicycle.dynamics, lines 23-36. *)
Definition unicycle (x u : vec) : vec :=
  [nth 0 u 0 * cos (nth 2 x 0); nth 0 u 0 * sin (nth 2 x 0); nth 1 u 0].
(** examples/car/unicycle_traj_opt.py, dynamics_constraint_evaluator, lines 9-17: the defect of one step. *)
Definition step_defect (x x' u u' : vec) (dt : R) : vec :=
  vsub (vsub x' x) (vscale dt (vscale (1 / 2) (vadd (unicycle x' u') (unicycle x u)))).
