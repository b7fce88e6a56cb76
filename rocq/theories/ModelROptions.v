(** The parameterisations of the matrix R of the Lyapunov function
    (neural_network_lyapunov/r_options.py).

    An option object is a record of its fields.  A failing assert, a shape error or
    an exception of the factorisation is [None].  That the stored tensor shares its
    memory with the caller's array is the subject of ModelTrain. *)

Require Import Reals List Bool Arith.
Require Import Verif.Vec Verif.ModelMilp.
Import ListNotations.
Open Scope R_scope.

Definition check {A : Type} (b : bool) (k : option A) : option A := if b then k else None.
Definition has_shape (m n : nat) (A : mat) : bool :=
  Nat.eqb (length A) m && forallb (fun r => Nat.eqb (length r) n) A.

(** [v.reshape((m, n))]; raises unless the sizes agree. *)
Fixpoint chunks (m n : nat) (v : vec) : mat :=
  match m with O => [] | S m' => firstn n v :: chunks m' n (skipn n v) end.
Definition reshape (m n : nat) (v : vec) : option mat :=
  check (Nat.eqb (length v) (m * n)) (Some (chunks m n v)).

(** [torch.split(v, sizes)]; raises unless the sizes add up to the length. *)
Fixpoint split_at (sizes : list nat) (v : vec) : list vec :=
  match sizes with [] => [] | s :: r => firstn s v :: split_at r (skipn s v) end.
Definition split (sizes : list nat) (v : vec) : option (list vec) :=
  check (Nat.eqb (length v) (list_sum sizes)) (Some (split_at sizes v)).

(** ** SearchRwithSPDOptions *)

Record spd := mkSpd { spd_m : nat; spd_n : nat; spd_eps : R; spd_vars : vec }.

Definition tri (n : nat) : nat := Nat.div (n * (n + 1)) 2.

(** __init__, lines 38-56.  [v] is the content of torch.empty. *)
Definition spd_new (m n : nat) (eps : R) (v : vec) : option spd :=
  check (Nat.leb n m && Rltb 0 eps && Nat.eqb (length v) (tri n + (m - n) * n))
    (Some (mkSpd m n eps v)).

(** The loop of lines 66-69: [variable_val[cnt:cnt+n-i] = L[i:, i]]. *)
Definition write_columns (n : nat) (L : mat) (v : vec) : nat * vec :=
  fold_left (fun cv i =>
    ((fst cv + (n - i))%nat, splice (fst cv) (map (fun r => nth i r 0) (skipn i L)) (snd cv)))
    (seq 0 n) (O, v).

(** set_variable_value, lines 58-73.  [cholesky] raises on a matrix that is not
    positive definite; [junk] is the content of np.empty. *)
Definition spd_set (cholesky : mat -> option mat) (junk : vec) (o : spd) (Rv : mat) : option spd :=
  let m := spd_m o in let n := spd_n o in
  check (has_shape m n Rv)
    (let top := firstn n Rv in
     let top := map (vscale (/ 2)) (madd top (transpose n top)) in
     match cholesky (madd top (eyek n (- spd_eps o))) with
     | None => None
     | Some L =>
       let (cnt, v) := write_columns n L (firstn (length (spd_vars o)) junk) in
       Some (mkSpd m n (spd_eps o) (splice cnt (concat (skipn n Rv)) v))
     end).

(** set_variable_value_directly, lines 75-79. *)
Definition spd_set_directly (o : spd) (v : vec) : option spd :=
  check (Nat.eqb (length v) (length (spd_vars o))) (Some (mkSpd (spd_m o) (spd_n o) (spd_eps o) v)).

(** Lines 82-90: the factor L.  The rows of the reshaped matrix are i zeros followed
    by the i-th piece. *)
Definition spd_L (o : spd) : option mat :=
  let n := spd_n o in
  match split (rev (seq 1 n)) (firstn (tri n) (spd_vars o)) with
  | None => None
  | Some pieces =>
    match reshape n n (concat (map2 (fun i p => zeros i ++ p) (seq 0 n) pieces)) with
    | None => None
    | Some rows => Some (transpose n rows)
    end
  end.

(** R, lines 81-98. *)
Definition spd_R (o : spd) : option mat :=
  let m := spd_m o in let n := spd_n o in
  match spd_L o, reshape (m - n) n (skipn (tri n) (spd_vars o)) with
  | Some L, Some bottom => Some (madd (mm n L (transpose n L)) (eyek n (spd_eps o)) ++ bottom)
  | _, _ => None
  end.

(** ** SearchRwithSVDOptions *)

Record svd := mkSvd { svd_m : nat; svd_n : nat; svd_a : vec; svd_vars : vec; svd_U : mat; svd_V : mat }.

(** __init__, lines 152-166. *)
Definition svd_new (m n : nat) (a v : vec) : option svd :=
  check (Nat.eqb (length a) (Nat.min m n) && forallb (Rltb 0) a && Nat.eqb (length v) (length a))
    (Some (mkSvd m n a v (eye m) (eye n))).

(** set_variable_value, lines 168-175. *)
Definition svd_set (factor : mat -> mat * vec * mat) (o : svd) (Rv : mat) : option svd :=
  check (has_shape (svd_m o) (svd_n o) Rv)
    (let '(U, s, V) := factor Rv in
     check (forallb (fun b => b) (map2 (fun x y => Rleb y x) s (svd_a o)))
       (Some (mkSvd (svd_m o) (svd_n o) (svd_a o) (map sqrt (vsub s (svd_a o))) U V))).

(** set_variable_value_directly, lines 177-181. *)
Definition svd_set_directly (o : svd) (v : vec) : option svd :=
  check (Nat.eqb (length v) (Nat.min (svd_m o) (svd_n o)))
    (Some (mkSvd (svd_m o) (svd_n o) (svd_a o) v (svd_U o) (svd_V o))).

(** Lines 184-198: the m x n matrix Sigma. *)
Definition svd_sigma (m n : nat) (s : vec) : mat :=
  if Nat.ltb n m then diag s ++ zerom (m - n) n
  else if Nat.ltb m n then hcat (diag s) (zerom m (n - m))
  else diag s.

(** R, lines 183-199. *)
Definition svd_R (o : svd) : mat :=
  let m := svd_m o in let n := svd_n o in
  mm n (mm n (svd_U o) (svd_sigma m n (vadd (svd_a o) (map (fun v => v * v) (svd_vars o))))) (svd_V o).

(** ** SearchRfreeOptions and FixedROptions: the stored matrix itself (lines 119-141,
    222-258). *)
Definition free_set (m n : nat) (Rv : mat) : option mat := check (has_shape m n Rv) (Some Rv).
