(** Network parameters as one flat vector (neural_network_lyapunov/utils.py 951-1086). *)

Require Import Reals List Bool Arith.
Require Import Verif.Vec Verif.ModelNet Verif.ModelROptions.
Import ListNotations.
Open Scope R_scope.

(** A torch.nn.Sequential, layer by layer. *)
Inductive layer := LLin (l : linear) | LAct (a : act) | LOther.

(** set_param, utils.py 967-979: the layer and the parameters that remain.  The
    weights are reshaped, which raises for too few parameters; a short bias slice is
    accepted. *)
Definition set_linear (i o : nat) (has_bias : bool) (params : vec) : option (linear * vec) :=
  match reshape o i (firstn (i * o) params) with
  | None => None
  | Some W =>
    let rest := skipn (i * o) params in
    if has_bias then Some (mkLin i W (Some (firstn o rest)), skipn o rest)
    else Some (mkLin i W None, rest)
  end.
(** The loop of utils.py 981-991. *)
Fixpoint set_linears (has_bias : bool) (widths : list nat) (params : vec) : option (list linear) :=
  match widths with
  | i :: r =>
    match r with
    | o :: _ =>
      match set_linear i o has_bias params with
      | None => None
      | Some (l, rest) => option_map (cons l) (set_linears has_bias r rest)
      end
    | [] => Some []
    end
  | [] => Some []
  end.
(** utils.py 992-997; [None]: fewer than two widths, IndexError. *)
Fixpoint interleave (slope : R) (ls : list linear) : option (list layer) :=
  match ls with
  | [] => None
  | l :: r =>
    match r with
    | [] => Some [LLin l]
    | _ => option_map (fun t => LLin l :: LAct (Leaky slope) :: t) (interleave slope r)
    end
  end.
(** setup_relu with parameters, utils.py 951-999. *)
Definition setup_relu (widths : list nat) (params : vec) (slope : R) (has_bias : bool)
  : option (list layer) :=
  match set_linears has_bias widths params with
  | None => None
  | Some ls => interleave slope ls
  end.

(** update_relu_params, utils.py 1002-1018, by values. *)
Fixpoint update_relu_params (relu : list layer) (params : vec) : option (list layer) :=
  match relu with
  | [] => Some []
  | LLin l :: r =>
    match set_linear (in_features l) (out_features l) (match bias l with Some _ => true | None => false end)
            params with
    | None => None
    | Some (l', rest) => option_map (cons (LLin l')) (update_relu_params r rest)
    end
  | a :: r => option_map (cons a) (update_relu_params r params)
  end.

(** extract_relu_parameters, utils.py 1021-1032; torch.cat raises on an empty list. *)
Definition lin_params (l : linear) : list vec :=
  concat (weight l) :: match bias l with Some b => [b] | None => [] end.
Fixpoint all_params (relu : list layer) : list vec :=
  match relu with
  | [] => []
  | LLin l :: r => lin_params l ++ all_params r
  | _ :: r => all_params r
  end.
Definition extract_relu_parameters (relu : list layer) : option vec :=
  match all_params relu with [] => None | ps => Some (concat ps) end.

(** extract_relu_structure, utils.py 1057-1086. *)
Fixpoint structure (relu : list layer) (widths : list nat) (slope : option R) (has_bias : option bool)
  : option (list nat * option R * option bool) :=
  match relu with
  | [] => Some (widths, slope, has_bias)
  | LLin l :: r =>
    let widths := match widths with
                  | [] => [in_features l; out_features l]
                  | _ => widths ++ [out_features l]
                  end in
    let b := match bias l with Some _ => true | None => false end in
    match has_bias with
    | None => structure r widths slope (Some b)
    | Some b' => if Bool.eqb b' b then structure r widths slope (Some b) else None
    end
  | LAct a :: r =>
    let s := match a with Relu => 0 | Leaky c => c end in
    match slope with
    | None => structure r widths (Some s) has_bias
    | Some s' => if Reqb s' s then structure r widths slope has_bias else None
    end
  | LOther :: _ => None
  end.
Definition extract_relu_structure (relu : list layer) := structure relu [] None None.

(** ** Storage

    update_relu_params does not copy: a layer's weight and bias become views of the
    given tensor.  Tensors are cells of a memory; a view is a cell and an offset. *)
Record vlinear := mkVLin { v_in : nat; v_out : nat; v_w : nat * nat; v_b : option (nat * nat) }.
Inductive vlayer := VLin (l : vlinear) | VAct (a : act) | VOther.
Definition read_view (mem : nat -> vec) (n : nat) (v : nat * nat) : vec :=
  slice (snd v) n (mem (fst v)).
Definition read_lin (mem : nat -> vec) (l : vlinear) : linear :=
  mkLin (v_in l) (chunks (v_out l) (v_in l) (read_view mem (v_in l * v_out l) (v_w l)))
    (option_map (read_view mem (v_out l)) (v_b l)).
Definition read_layer (mem : nat -> vec) (l : vlayer) : layer :=
  match l with VLin l => LLin (read_lin mem l) | VAct a => LAct a | VOther => LOther end.
(** utils.py 1002-1018 by reference: [c] is the cell of [params]. *)
Fixpoint update_views (mem : nat -> vec) (c count : nat) (relu : list vlayer) : option (list vlayer) :=
  match relu with
  | [] => Some []
  | VLin l :: r =>
    let k := (v_in l * v_out l)%nat in
    check (Nat.eqb (length (slice count k (mem c))) (v_out l * v_in l))
      (match v_b l with
       | None => option_map (cons (VLin (mkVLin (v_in l) (v_out l) (c, count) None)))
                   (update_views mem c (count + k) r)
       | Some _ => option_map (cons (VLin (mkVLin (v_in l) (v_out l) (c, count) (Some (c, (count + k)%nat)))))
                   (update_views mem c (count + k + v_out l) r)
       end)
  | a :: r => option_map (cons a) (update_views mem c count r)
  end.
