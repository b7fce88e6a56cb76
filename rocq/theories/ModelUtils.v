(** Model of the encodings in /repo/neural_network_lyapunov/utils.py. *)

Require Import Reals List Bool Arith.
Require Import Verif.Vec Verif.ModelMip.
Import ListNotations.
Open Scope R_scope.

(** Four parallel coefficient vectors (A_x, A_y, A_binary, rhs). *)
Record rows4 := mkRows { rw_x : vec; rw_y : vec; rw_b : vec; rw_rhs : vec }.

(** replace_binary_continuous_product — utils.py:38-68.  The [assert] at 60 is
    the error case [None]. *)
Definition replace_binary_continuous_product (x_lo x_up : R) : option rows4 :=
  if Rleb x_lo x_up
  then Some (mkRows [0; 0; 1; -1] [-1; 1; -1; 1]
                    [x_lo; - x_up; x_up; - x_lo] [0; 0; x_up; - x_lo])
  else None.

(** leaky_relu_gradient_times_x — utils.py:123-157. *)
Definition leaky_relu_gradient_times_x (x_lo x_up c : R) : option rows4 :=
  if Rleb x_lo x_up then
    let A_x := [-1; 1; c; - c] in
    let A_y := [1; -1; -1; 1] in
    let A_alpha := [(c - 1) * x_lo; (1 - c) * x_up;
                    (1 - c) * x_lo; (c - 1) * x_up] in
    let rhs := [(c - 1) * x_lo; (1 - c) * x_up; 0; 0] in
    Some (if Rltb c 1 then mkRows A_x A_y A_alpha rhs
          else mkRows (vneg A_x) (vneg A_y) (vneg A_alpha) (vneg rhs))
  else None.

(** replace_relu_with_mixed_integer_constraint — utils.py:358-393. *)
Definition replace_relu (x_lo x_up : R) : option rows4 :=
  if (Rltb x_lo 0 && Rltb 0 x_up)%bool
  then Some (mkRows [0; 1; 0; -1] [-1; -1; 1; 1]
                    [0; 0; - x_up; - x_lo] [0; 0; 0; - x_lo])
  else None.

(** replace_leaky_relu_mixed_integer_constraint — utils.py:396-441. *)
Definition replace_leaky_relu (a x_lo x_up : R) : option rows4 :=
  if (Rltb x_lo 0 && Rltb 0 x_up)%bool
  then
    let A_x := [1; a; - a; -1] in
    let A_y := [-1; -1; 1; 1] in
    let A_beta := [0; 0; (a - 1) * x_up; (a - 1) * x_lo] in
    let rhs := [0; 0; 0; (a - 1) * x_lo] in
    Some (if Rleb a 1 then mkRows A_x A_y A_beta rhs
          else mkRows (vneg A_x) (vneg A_y) (vneg A_beta) (vneg rhs))
  else None.

(** max_as_mixed_integer_constraint — utils.py:71-120.
    torch.max raises on an empty tensor, hence [nx = 0] is an error.
    Lines 104-108: [squeeze().tolist()] of exactly one index is an int, and
    [len(int)] raises TypeError: that case is the error [None] too. *)
Definition vmax (d : R) (l : vec) : R := fold_right Rmax d l.
Definition non_maximal_idx (x_lo x_up : vec) : list nat :=
  filter (fun i => existsb (fun l => Rltb (nth i x_up 0 - l) 0) x_lo)
         (seq 0 (length x_up)).
Definition max_mic (x_lo x_up : vec) : option mic :=
  match x_up with
  | [] => None
  | u0 :: urest =>
    let nx := length x_lo in
    if negb (Nat.eqb (length x_up) nx) then None else
    if negb (forallb (fun p => Rleb (fst p) (snd p)) (combine x_lo x_up))
    then None else
    let mx := vmax u0 urest in
    let gap := map (fun l => mx - l) x_lo in
    let nm := non_maximal_idx x_lo x_up in
    let base_eq := [ones nx] in
    let mk aeq req blo bup :=
      mkMic nx 1 nx
        None (Some [[1]]) None None
        (Some (eye nx ++ eyek nx (-1)))
        (Some (repeat [-1] nx ++ repeat [1] nx))
        (Some (zerom nx nx ++ diag gap))
        (Some (zeros nx ++ gap))
        None None (Some aeq) (Some req)
        None None None None blo bup in
    match nm with
    | [] => Some (mk base_eq [1] None None)
    | [_] => None
    | _ =>
        Some (mk (base_eq ++ map (fun i => unit_row nx i 1) nm)
                 ([1] ++ zeros (length nm))
                 (Some (repeat (Fin 0) nx))
                 (Some (map (fun i => if existsb (Nat.eqb i) nm
                                      then Fin 0 else Fin 1) (seq 0 nx))))
    end
  end.

(** absolute_value_as_mixed_integer_constraint — utils.py:160-355.
    [bz] is binary_for_zero_input.  Line 292 assigns to the misspelt field
    [Ain_salck], so [Ain_slack] stays None in that branch. *)
Definition abs_mic (x_lo x_up : R) (bz : bool) : option mic :=
  let out := Some [[1]] in
  let fins := fun l : list R => Some (map Fin l) in
  if negb (Rleb x_lo x_up) then None
  else if (Rltb x_lo 0 && Rltb 0 x_up)%bool then
    if bz then
      Some (mkMic 1 1 3 None out None None
        (Some [[1]; [-1]; [-1]; [1]]) (Some [[-1]; [-1]; [1]; [1]])
        (Some [[0; 0; 0]; [0; 0; 0]; [2 * x_lo; 0; 0]; [0; 0; -2 * x_up]])
        (Some [0; 0; 0; 0])
        (Some [[0]]) (Some [[0]]) (Some [[1; 1; 1]]) (Some [1])
        None None None None None None)
    else
      Some (mkMic 1 1 1 None out None None
        (Some [[1]; [-1]; [-1]; [1]]) (Some [[-1]; [-1]; [1]; [1]])
        (Some [[0]; [0]; [-2 * x_lo]; [-2 * x_up]])
        (Some [0; 0; -2 * x_lo; 0])
        None None None None
        None None None None None None)
  else if (Rleb 0 x_lo && negb bz)%bool then
    Some (mkMic 1 1 1 None out None None
      (Some [[-1]; [1]]) (Some [[0]; [0]]) (Some [[0]; [0]])
      (Some [- x_lo; x_up])
      (Some [[1]; [0]]) (Some [[-1]; [0]]) (Some [[0]; [1]]) (Some [0; 1])
      None None None None (fins [1]) (fins [1]))
  else if (Rltb 0 x_lo && bz)%bool then
    Some (mkMic 1 1 3 None out None None
      (Some [[-1]; [1]]) (Some [[0]; [0]]) (Some [[0; 0; 0]; [0; 0; 0]])
      (Some [- x_lo; x_up])
      (Some [[1]; [0]; [0]; [0]]) (Some [[-1]; [0]; [0]; [0]])
      (Some [[0; 0; 0]; [1; 0; 0]; [0; 1; 0]; [0; 0; 1]])
      (Some [0; 0; 0; 1])
      None None None None (fins [0; 0; 1]) (fins [0; 0; 1]))
  else if (Reqb x_lo 0 && bz)%bool then
    Some (mkMic 1 1 3 None out None None
      (Some [[-1]; [1]; [1]]) None
      (Some [[0; 0; 0]; [0; 0; 0]; [0; 0; -2 * x_up]])
      (Some [- x_lo; x_up; 0])
      (Some [[1]; [0]; [0]]) (Some [[-1]; [0]; [0]])
      (Some [[0; 0; 0]; [1; 0; 0]; [0; 1; 1]])
      (Some [0; 0; 1])
      None None None None (fins [0; 0; 0]) (fins [0; 1; 1]))
  else if (Rleb x_up 0 && negb bz)%bool then
    Some (mkMic 1 1 1 None out None None
      (Some [[-1]; [1]]) (Some [[0]; [0]]) (Some [[0]; [0]])
      (Some [- x_lo; x_up])
      (Some [[1]; [0]]) (Some [[1]; [0]]) (Some [[0]; [1]]) (Some [0; 0])
      None None None None (fins [0]) (fins [0]))
  else if (Rltb x_up 0 && bz)%bool then
    Some (mkMic 1 1 3 None out None None
      (Some [[-1]; [1]]) (Some [[0]; [0]]) (Some [[0; 0; 0]; [0; 0; 0]])
      (Some [- x_lo; x_up])
      (Some [[1]; [0]; [0]; [0]]) (Some [[1]; [0]; [0]; [0]])
      (Some [[0; 0; 0]; [1; 0; 0]; [0; 1; 0]; [0; 0; 1]])
      (Some [0; 1; 0; 0])
      None None None None (fins [1; 0; 0]) (fins [1; 0; 0]))
  else if (Reqb x_up 0 && bz)%bool then
    Some (mkMic 1 1 3 None out None None
      (Some [[-1]; [1]; [-1]]) (Some [[0]; [0]; [1]])
      (Some [[0; 0; 0]; [0; 0; 0]; [2 * x_lo; 0; 0]])
      (Some [- x_lo; x_up; 0])
      (Some [[1]; [0]; [0]]) (Some [[1]; [0]; [0]])
      (Some [[0; 0; 0]; [0; 0; 1]; [1; 1; 0]])
      (Some [0; 0; 1])
      None None None None (fins [0; 0; 0]) (fins [1; 1; 0]))
  else
    (* 355: no branch taken; only Aout_slack is set *)
    Some (mkMic 1 1 0 None out None None None None None None None None None
                None None None None None None None).

(** add_saturation_as_mixed_integer_constraint — utils.py:444-591.
    Returns the updated program and the returned binary variables; [None] is a
    raised assertion/exception. *)
Definition add_saturation (input_var output_var : nat)
           (lower upper ilo iup : R) (vt : vtype) (m : mip)
  : option (mip * list nat) :=
  if Rleb iup lower then
    match addLConstr [[1]] [[output_var]] SEq lower m with
    | Some m => Some (m, []) | None => None end
  else if Rleb upper ilo then
    match addLConstr [[1]] [[output_var]] SEq upper m with
    | Some m => Some (m, []) | None => None end
  else if (Rleb lower ilo && Rleb iup upper)%bool then
    match addLConstr [[1; -1]] [[input_var; output_var]] SEq 0 m with
    | Some m => Some (m, []) | None => None end
  else if (Rltb ilo lower && Rleb iup upper)%bool then
    match replace_relu (ilo - lower) (iup - lower) with
    | None => None
    | Some rw =>
        let '(m, beta) := addVars [(Fin 0, Fin 1)] vt m in
        Some (addMConstr [col (rw_x rw); col (rw_y rw); col (vneg (rw_b rw))]
                [[input_var]; [output_var]; beta] SLe
                (vadd (vsub (rw_rhs rw) (rw_b rw))
                      (vscale lower (vadd (rw_x rw) (rw_y rw)))) m, beta)
    end
  else if (Rleb lower ilo && Rltb upper iup)%bool then
    match replace_relu (upper - iup) (upper - ilo) with
    | None => None
    | Some rw =>
        let '(m, beta) := addVars [(Fin 0, Fin 1)] vt m in
        Some (addMConstr [col (vneg (rw_x rw)); col (vneg (rw_y rw));
                          col (vneg (rw_b rw))]
                [[input_var]; [output_var]; beta] SLe
                (vsub (vsub (rw_rhs rw) (rw_b rw))
                      (vscale upper (vadd (rw_x rw) (rw_y rw)))) m, beta)
    end
  else
    let '(m, z) := addVars [(NInf, PInf)] VCont m in
    let '(m, beta) := addVars [(Fin 0, Fin 1); (Fin 0, Fin 1)] vt m in
    let b0 := nth 0 beta 0%nat in
    let b1 := nth 1 beta 0%nat in
    match addLConstr [[1; 1]] [beta] SLe 1 m,
          replace_relu (ilo - lower) (iup - lower),
          replace_relu (upper - iup) (upper - ilo) with
    | Some m, Some r1, Some r2 =>
        let m := addMConstr [col (rw_x r1); col (rw_y r1); col (vneg (rw_b r1))]
                   [[input_var]; z; [b0]] SLe
                   (vadd (vsub (rw_rhs r1) (rw_b r1))
                         (vscale lower (vadd (rw_x r1) (rw_y r1)))) m in
        let m := addMConstr [col (vneg (rw_x r2)); col (vneg (rw_y r2));
                             col (vneg (rw_b r2))]
                   [z; [output_var]; [b1]] SLe
                   (vsub (vsub (rw_rhs r2) (rw_b r2))
                         (vscale upper (vadd (rw_x r2) (rw_y r2)))) m in
        Some (m, beta)
    | _, _, _ => None
    end.
