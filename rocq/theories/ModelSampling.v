(** Sampling helpers (neural_network_lyapunov/utils.py). *)

Require Import Reals List Bool Arith ZArith.
Require Import Verif.Vec Verif.ModelROptions.
Import ListNotations.
Open Scope R_scope.

(** uniform_sample_in_box, utils.py 1325-1336; [U] is what torch.rand returns, one row
    per sample. *)
Definition uniform_sample_in_box (lo hi : vec) (U : mat) : option mat :=
  check (Nat.eqb (length hi) (length lo))
    (Some (map (fun r => vadd r lo) (mm (length lo) U (diag (vsub hi lo))))).

(** uniform_sample_on_box_boundary, utils.py 1339-1353; [u] is the second call of
    torch.rand.  int() truncates; an index beyond the end is an IndexError. *)
Definition face_index (n : nat) (b : R) : nat := Z.to_nat (Int_part (Rabs b * INR n)).
Definition put_on_face (lo hi : vec) (b : R) (row : vec) : option vec :=
  let j := face_index (length lo) b in
  check (Nat.ltb j (length lo))
    (Some (splice j [if Rltb b 0 then nth j lo 0 else nth j hi 0] row)).
Fixpoint put_on_faces (lo hi : vec) (bs : vec) (rows : mat) : option mat :=
  match bs, rows with
  | b :: bs, r :: rows =>
    match put_on_face lo hi b r, put_on_faces lo hi bs rows with
    | Some r, Some rows => Some (r :: rows)
    | _, _ => None
    end
  | _, _ => Some []
  end.
Definition uniform_sample_on_box_boundary (lo hi : vec) (U : mat) (u : vec) : option mat :=
  match uniform_sample_in_box lo hi U with
  | None => None
  | Some rows => put_on_faces lo hi (map (fun r => r * 2 - 1) u) rows
  end.

(** torch.linspace(a, b, n). *)
Definition linspace (a b : R) (n : nat) : vec :=
  match n with
  | O => []
  | S O => [a]
  | S m => map (fun i => a + INR i * ((b - a) / INR m)) (seq 0 n)
  end.
(** torch.meshgrid, flattened: entry i is constant along the other axes.  [outer] is
    the product of the earlier sizes. *)
Definition sizes_prod (ms : list vec) : nat := fold_right Nat.mul 1%nat (map (@length R) ms).
Fixpoint mesh_columns (outer : nat) (ms : list vec) : list vec :=
  match ms with
  | [] => []
  | m :: r =>
    concat (repeat (concat (map (fun v => repeat v (sizes_prod r)) m)) outer)
      :: mesh_columns (outer * length m) r
  end.
(** torch.cat(..., dim=1) of the columns. *)
Fixpoint cat_columns (cs : list vec) : mat :=
  match cs with
  | [] => []
  | c :: r => match r with [] => col c | _ => hcat (col c) (cat_columns r) end
  end.
(** get_meshgrid_samples, utils.py 1089-1106; torch.meshgrid() without arguments
    raises. *)
Fixpoint linspaces (lower upper : vec) (sizes : list nat) : list vec :=
  match lower, upper, sizes with
  | a :: l, b :: u, n :: s => linspace a b n :: linspaces l u s
  | _, _, _ => []
  end.
Definition get_meshgrid_samples (lower upper : vec) (sizes : list nat) : option mat :=
  check (Nat.eqb (length upper) (length sizes) && Nat.eqb (length lower) (length sizes)
         && Nat.ltb 0 (length sizes))
    (Some (cat_columns (mesh_columns 1 (linspaces lower upper sizes)))).

(** minkowski_sum, utils.py 1545-1562, as it is computed: the rows of y repeated as a
    block, each row of x repeated len(y) times. *)
Definition minkowski_tiled (x y : mat) : mat :=
  map2 vadd (concat (repeat y (length x))) (concat (map (fun a => repeat a (length y)) x)).
