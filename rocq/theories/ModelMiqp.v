(** Model of GurobiTorchMIQP.setObjective — /repo/neural_network_lyapunov/gurobi_torch_mip.py
    lines 1164-1297.

    [None] is a raised exception.  A variable is its creation index, as in ModelMip; [rs] and
    [zs] are self.r and self.zeta.  A used flag and the entry it belongs to are one cell: [None] while the flag
    is False and the entry 0. *)

Require Import Reals List Bool Arith.
Require Import Verif.Vec Verif.ModelMip.
Import ListNotations.
Open Scope R_scope.

Definition cells := list (option R).
Definition cell_value (c : option R) : R := match c with Some v => v | None => 0 end.
Definition values (l : cells) : vec := map cell_value l.

(** Raise if the flag is set, else set it and write (1218-1223, 1241-1247). *)
Fixpoint put (i : nat) (v : R) (l : cells) : option cells :=
  match l, i with
  | [], _ => None
  | None :: l', 0%nat => Some (Some v :: l')
  | Some _ :: _, 0%nat => None
  | c :: l', S i' => match put i' v l' with Some l'' => Some (c :: l'') | None => None end
  end.
Fixpoint put2 (i j : nat) (v : R) (M : list cells) : option (list cells) :=
  match M, i with
  | [], _ => None
  | row :: M', 0%nat => match put j v row with Some row' => Some (row' :: M') | None => None end
  | row :: M', S i' => match put2 i' j v M' with Some M'' => Some (row :: M'') | None => None end
  end.

(** c_r, c_zeta, Q_r, Q_zeta, Q_rzeta (1203-1209) with their flags (1195-1202). *)
Record quad_cells := mkCells {
  k_cr : cells; k_cz : cells; k_Qr : list cells; k_Qz : list cells; k_Qrz : list cells }.
Definition no_cells (n m : nat) : quad_cells :=
  mkCells (repeat None n) (repeat None m) (repeat (repeat None n) n) (repeat (repeat None m) m) (repeat (repeat None m) n).

Section Objective.
Variable rs zs : list nat.

(** The body of the linear loop for one variable (1213-1232): a variable that is in neither list is passed
    over; [coeff] is coeff[i], looked up only for a known variable. *)
Definition put_linear (v : nat) (coeff : option R) (k : quad_cells) : option quad_cells :=
  match index_of v rs with
  | Some i =>
      match coeff with
      | None => None
      | Some c => match put i c (k_cr k) with
                  | Some l => Some (mkCells l (k_cz k) (k_Qr k) (k_Qz k) (k_Qrz k))
                  | None => None
                  end
      end
  | None =>
      match index_of v zs with
      | Some i =>
          match coeff with
          | None => None
          | Some c => match put i c (k_cz k) with
                      | Some l => Some (mkCells (k_cr k) l (k_Qr k) (k_Qz k) (k_Qrz k))
                      | None => None
                      end
          end
      | None => Some k
      end
  end.
(** for i in range(len(var)) (1212). *)
Fixpoint linear_block (coeff : vec) (vars : list nat) (k : quad_cells) : option quad_cells :=
  match vars with
  | [] => Some k
  | v :: vars' =>
      match put_linear v (hd_error coeff) k with
      | Some k' => linear_block (tl coeff) vars' k'
      | None => None
      end
  end.
(** for coeff, var in zip(lin_coeffs, lin_variables) (1210). *)
Fixpoint linear_blocks (coeffs : list vec) (vars : list (list nat)) (k : quad_cells) : option quad_cells :=
  match coeffs, vars with
  | c :: coeffs', v :: vars' =>
      match linear_block c v k with Some k' => linear_blocks coeffs' vars' k' | None => None end
  | _, _ => Some k
  end.

(** The body of the quadratic loops (1238-1276).  A variable in neither list is a KeyError (1266, 1270). *)
Definition put_quad (v w : nat) (c : R) (k : quad_cells) : option quad_cells :=
  match index_of v rs, index_of w rs with
  | Some i, Some j =>
      match put2 i j c (k_Qr k) with
      | Some Q => Some (mkCells (k_cr k) (k_cz k) Q (k_Qz k) (k_Qrz k)) | None => None end
  | Some i, None =>
      match index_of w zs with
      | Some j => match put2 i j c (k_Qrz k) with
                  | Some Q => Some (mkCells (k_cr k) (k_cz k) (k_Qr k) (k_Qz k) Q) | None => None end
      | None => None
      end
  | None, Some i =>
      match index_of v zs with
      | Some j => match put2 i j c (k_Qrz k) with
                  | Some Q => Some (mkCells (k_cr k) (k_cz k) (k_Qr k) (k_Qz k) Q) | None => None end
      | None => None
      end
  | None, None =>
      match index_of v zs, index_of w zs with
      | Some i, Some j =>
          match put2 i j c (k_Qz k) with
          | Some Q => Some (mkCells (k_cr k) (k_cz k) (k_Qr k) Q (k_Qrz k)) | None => None end
      | _, _ => None
      end
  end.
(** for j in range(len(var_right)) (1237). *)
Fixpoint quad_row (v : nat) (row : vec) (right : list nat) (k : quad_cells) : option quad_cells :=
  match row, right with
  | c :: row', w :: right' =>
      match put_quad v w c k with Some k' => quad_row v row' right' k' | None => None end
  | _, _ => Some k
  end.
(** for i in range(len(var_left)) (1236). *)
Fixpoint quad_block (coeff : mat) (left right : list nat) (k : quad_cells) : option quad_cells :=
  match coeff, left with
  | row :: coeff', v :: left' =>
      match quad_row v row right k with Some k' => quad_block coeff' left' right k' | None => None end
  | _, _ => Some k
  end.
(** The assert on the shape (1235). *)
Definition shape_ok (coeff : mat) (vs : list nat * list nat) : bool :=
  (Nat.eqb (length coeff) (length (fst vs)) && forallb (fun row => Nat.eqb (length row) (length (snd vs))) coeff)%bool.
(** for coeff, (var_left, var_right) in zip(quad_coeffs, quad_variables) (1233). *)
Fixpoint quad_blocks (coeffs : list mat) (vars : list (list nat * list nat)) (k : quad_cells) : option quad_cells :=
  match coeffs, vars with
  | c :: coeffs', v :: vars' =>
      if shape_ok c v then
        match quad_block c (fst v) (snd v) k with Some k' => quad_blocks coeffs' vars' k' | None => None end
      else None
  | _, _ => Some k
  end.

(** What is left in the object and what Gurobi is given: terms of a QuadExpr and of two LinExprs. *)
Record quad_objective := mkQuadObj {
  qo_Qr : mat; qo_Qz : mat; qo_Qrz : mat; qo_cr : vec; qo_cz : vec; qo_k : R;
  qo_gquad : list (R * nat * nat); qo_glin : list (R * nat); qo_max : bool }.
(** if Q[i, j] != 0: quad_obj.add(...) (1284-1297). *)
Definition quad_terms (Q : mat) (vs ws : list nat) : list (R * nat * nat) :=
  concat (map2 (fun v row => concat (map2 (fun w q => if Reqb q 0 then [] else [(q, v, w)]) ws row)) vs Q).
Definition set_quad_objective (quad_coeffs : list mat) (quad_vars : list (list nat * list nat))
    (lin_coeffs : list vec) (lin_vars : list (list nat)) (constant : R) (maximize : bool) : option quad_objective :=
  if negb (Nat.eqb (length lin_coeffs) (length lin_vars)) then None
  else if negb (Nat.eqb (length quad_coeffs) (length quad_vars)) then None
  else
    match linear_blocks lin_coeffs lin_vars (no_cells (length rs) (length zs)) with
    | None => None
    | Some k1 =>
        match quad_blocks quad_coeffs quad_vars k1 with
        | None => None
        | Some k =>
            let Qr := map values (k_Qr k) in
            let Qz := map values (k_Qz k) in
            let Qrz := map values (k_Qrz k) in
            Some (mkQuadObj Qr Qz Qrz (values (k_cr k)) (values (k_cz k)) constant
                    (quad_terms Qr rs rs ++ quad_terms Qz zs zs ++ quad_terms Qrz rs zs)
                    (combine (values (k_cr k)) rs ++ combine (values (k_cz k)) zs) maximize)
        end
    end.
End Objective.
