(** What a hybrid linear system means. *)

Require Import Reals List.
Require Import Verif.Vec Verif.SpecCore Verif.ModelHybrid.
Import ListNotations.
Open Scope R_scope.

(** [x;u] lies in the polytope of the mode. *)
Definition inside (m : mode_data) (z : vec) : Prop := vle (mv (md_P m) z) (md_q m).

(** x' = A x + B u + c. *)
Definition image (m : mode_data) (x u : vec) : vec :=
  vadd (vadd (mv (md_A m) x) (mv (md_B m) u)) (md_c m).

(** x' is the image of (x,u) under one of the modes whose polytope contains
    (x,u). *)
Definition hybrid_next (h : hybrid) (x u x' : vec) : Prop :=
  exists m, In m (h_modes h) /\ inside m (x ++ u) /\ x' = image m x u.

(** The bounds that the two linear programs report for a coordinate of a
    polytope hold at every point of the polytope. *)
Definition bounds_valid (bounds : mat -> vec -> nat -> option (ext * ext)) : Prop :=
  forall P q j lo up z, bounds P q j = Some (lo, up) ->
    Forall (fun r => length r = length z) P -> (j < length z)%nat ->
    vle (mv P z) q -> ext_le_r lo (nth j z 0) /\ r_le_ext (nth j z 0) up.

(** The systems that can be constructed: no modes at first, then add_mode. *)
Inductive built (bounds : mat -> vec -> nat -> option (ext * ext))
    (bounded : mat -> bool) (nx nu : nat) : hybrid -> Prop :=
  | built_new : built bounds bounded nx nu (new_hybrid nx nu)
  | built_add : forall h A B c P q check h', built bounds bounded nx nu h ->
      add_mode bounds bounded h A B c P q check = Some h' ->
      built bounds bounded nx nu h'.

(** v lies within the bounds that were given. *)
Definition opt_box (lo up : option vec) (v : vec) : Prop :=
  (forall l, lo = Some l -> vle l v) /\ (forall u, up = Some u -> vle v u).

(** All coordinates have finite bounds in every mode (the polytopes are
    bounded and not empty). *)
Definition finite_modes (h : hybrid) : Prop :=
  Forall (fun m => Forall (fun e => exists r, e = Fin r) (md_lo m) /\
                   Forall (fun e => exists r, e = Fin r) (md_up m)) (h_modes h).

(** ** Cost to go *)

(** Each state is the image of the one before under the mode that
    [step_forward] selects. *)
Definition run (h : hybrid) (xs : list vec) : Prop :=
  forall i, (S i < length xs)%nat ->
    step_forward h (nth i xs []) [] None = Some (nth (S i) xs []).

(** ** Partition *)

(** A nonempty interval, a nonnegative overlap and at least one cell. *)
Definition axis_ok (a : axis) : Prop :=
  let '(lo, up, delta, nb) := a in lo <= up /\ 0 <= delta /\ (0 < nb)%nat.
Definition axes_lo (axes : list axis) : vec := map (fun a => fst (fst (fst a))) axes.
Definition axes_up (axes : list axis) : vec := map (fun a => snd (fst (fst a))) axes.
