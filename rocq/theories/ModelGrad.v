(** Model of more helpers of /repo/neural_network_lyapunov/utils.py. *)

Require Import Reals List Bool Arith.
Require Import Verif.Vec Verif.ModelMip.
Import ListNotations.
Open Scope R_scope.

(** torch.sign *)
Definition sgn (x : R) : R :=
  if Rltb 0 x then 1 else if Rltb x 0 then -1 else 0.

(** [x[:k]] and [x[k+1:]] for the first index k with |x[k]| <= tol
    (utils.py:1458-1459); [None] when there is none. *)
Fixpoint split_zero (tol : R) (x : vec) : option (vec * vec) :=
  match x with
  | [] => None
  | a :: x' =>
      if Rleb (Rabs a) tol then Some ([], x')
      else match split_zero tol x' with
           | Some (p, q) => Some (a :: p, q)
           | None => None
           end
  end.

(** [s[torch.abs(s) <= tol] = v] — lines 1441-1451. *)
Definition fill_small (tol v : R) (s : vec) : vec :=
  map (fun a => if Rleb (Rabs a) tol then v else a) s.

(** l1_gradient — utils.py:1411-1483.  [subs] are the subgradient samples
    ([] for None: the two branches 1466-1472 / 1474-1482 then coincide).
    Asserts: tol >= 0, samples in (-1, 1).  [fuel] bounds the recursion on the
    tail; [None] is an assertion failure or exhausted fuel. *)
Fixpoint l1_gradient_fuel (fuel : nat) (tol : R) (subs x : vec) : option mat :=
  match fuel with
  | O => None
  | S fuel' =>
      match split_zero tol x with
      | None => Some [map sgn x]
      | Some (before, after) =>
          if Nat.eqb (length (filter (fun a => Rltb (Rabs a) tol) x)) 1 then
            Some (map (fun v => fill_small tol v (map sgn x))
                      (1 :: -1 :: subs))
          else
            match l1_gradient_fuel fuel' tol subs after with
            | None => None
            | Some ga =>
                Some (concat (map (fun v =>
                                map (fun g => map sgn before ++ v :: g) ga)
                              (1 :: -1 :: subs)))
            end
      end
  end.
Definition l1_gradient (tol : R) (subs x : vec) : option mat :=
  if (Rleb 0 tol && forallb (fun v => Rltb (-1) v && Rltb v 1) subs)%bool
  then l1_gradient_fuel (S (length x)) tol subs x
  else None.

(** torch.norm(x, p=inf); raises on an empty tensor. *)
Definition inf_norm (x : vec) : R := fold_right Rmax 0 (map Rabs x).

(** The vector [grad] of lines 1507-1508. *)
Definition linf_sign (tol n a : R) : R :=
  (if Rleb (Rabs (a - n)) tol then 1 else 0)
  + (if Rleb (Rabs (a + n)) tol then -1 else 0).

(** l_infinity_gradient — utils.py:1486-1513.  With one nonzero entry the code
    returns [grad] itself (1510), which is the same row as the general formula
    of 1511-1513. *)
Definition l_infinity_gradient (tol : R) (x : vec) : option mat :=
  match x with
  | [] => None
  | _ =>
      let d := length x in
      let n := inf_norm x in
      if Rleb n tol then Some (eye d ++ eyek d (-1))
      else
        let grad := map (linf_sign tol n) x in
        let idx := filter (fun i => negb (Reqb (nth i grad 0) 0)) (seq 0 d) in
        if Nat.eqb (length idx) 1 then Some [grad]
        else Some (map (fun i => unit_row d i (nth i grad 0)) idx)
  end.

(** box_boundary — utils.py:1516-1542. *)
Definition box_boundary (x_lo x_up : vec) : option mic :=
  let nx := length x_lo in
  if negb (Nat.eqb (length x_up) nx) then None else
  let w := vsub x_up x_lo in
  Some (mkMic nx 0 (nx + nx)
          None None None None
          (Some (eyek nx (-1) ++ eye nx)) None
          (Some (block_diag nx nx (diag w) (diag w)))
          (Some (vneg x_lo ++ x_up))
          None None (Some [ones (nx + nx)]) (Some [1])
          None None None None None None).

(** minkowski_sum — utils.py:1545-1563 for 2-D tensors. *)
Definition minkowski_sum (x y : mat) : mat :=
  concat (map (fun a => map (fun b => vadd b a) y) x).

(** loss_reduction — utils.py:1566-1575.  Mean/max of an empty tensor is
    NaN/an exception: [None]. *)
Inductive reduction := RMean | RMax | RFourNorm.
Definition loss_reduction (l : vec) (r : reduction) : option R :=
  match l with
  | [] => None
  | a :: rest =>
      match r with
      | RMean => Some (vsum l / INR (length l))
      | RMax => Some (fold_right Rmax a rest)
      | RFourNorm => Some (sqrt (sqrt (vsum (map (fun v => v * v * v * v) l))))
      end
  end.
