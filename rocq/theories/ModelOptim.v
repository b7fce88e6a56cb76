(** Gradient projection (neural_network_lyapunov/train_utils.py) and the two line
    searches (line_search_gd.py, line_search_adam.py).

    A parameter, its gradient and its search direction are flat vectors; reshaping
    to the parameter's shape is the identity on them.  The gradients that
    [backward] computes and the loss that [closure] returns are arguments. *)

Require Import Reals List Bool Arith.
Require Import Verif.Vec.
Import ListNotations.
Open Scope R_scope.

(** ** project_gradient, train_utils.py 17-83 *)

(** ProjectGradientMode, lines 9-14. *)
Inductive project_mode := LOSS1 | LOSS2 | BOTH | EMPHASIZE_LOSS1 | EMPHASIZE_LOSS2.

(** [backward] adds to the gradient that a parameter already has.  [None] is a
    parameter without gradient: [p.grad.reshape] raises. *)
Definition accumulate (old new : option vec) : option vec :=
  match old, new with
  | Some a, Some b => Some (vadd a b)
  | Some a, None => Some a
  | None, b => b
  end.
Fixpoint all_some {A : Type} (l : list (option A)) : option (list A) :=
  match l with
  | [] => Some []
  | None :: _ => None
  | Some a :: r => match all_some r with Some s => Some (a :: s) | None => None end
  end.

(** [a - (a @ b / (b @ b)) * b], lines 67, 74.  With b = 0 every entry is NaN; a
    gradient with NaN entries is [None]. *)
Definition perp (a b : vec) : option vec :=
  if Req_EM_T (dot b b) 0 then None else Some (vsub a (vscale (dot a b / dot b b) b)).
(** [grad += v]. *)
Definition add_to (v : option vec) (g : option vec) : option vec :=
  match v, g with Some v, Some g => Some (vadd g v) | _, _ => None end.

(** Lines 55-77: the flag and the flat gradient. *)
Definition project (mode : project_mode) (n1 n2 : vec) : bool * option vec :=
  if Rltb 0 (dot n1 n2) then (false, Some (vadd n1 n2))
  else
    let g := Some (zeros (length n1)) in
    let g := match mode with LOSS1 | BOTH | EMPHASIZE_LOSS2 => add_to (perp n1 n2) g | _ => g end in
    let g := match mode with EMPHASIZE_LOSS1 => add_to (Some n1) g | _ => g end in
    let g := match mode with LOSS2 | BOTH | EMPHASIZE_LOSS1 => add_to (perp n2 n1) g | _ => g end in
    let g := match mode with EMPHASIZE_LOSS2 => add_to (Some n2) g | _ => g end in
    (true, g).

(** Lines 79-84: the flat gradient is cut into the sizes of the parameters. *)
Fixpoint write_back (sizes : list nat) (g : vec) : list vec :=
  match sizes with [] => [] | s :: r => firstn s g :: write_back r (skipn s g) end.

Record projected := mkProjected {
  pr_flag : bool; pr_n1 : vec; pr_n2 : vec;
  pr_grads : option (list vec)  (* the new gradients, None: NaN *)
}.
(** [old] are the gradients before the call, [d1] and [d2] those that the two calls
    of backward add.  [None]: a parameter has no gradient. *)
Definition project_gradient (mode : project_mode) (old d1 d2 : list (option vec)) : option projected :=
  match all_some (map2 accumulate old d1) with
  | None => None
  | Some g1 =>
    let zeroed := map (fun g => Some (zeros (length g))) g1 in
    match all_some (map2 accumulate zeroed d2) with
    | None => None
    | Some g2 =>
      let n1 := concat g1 in
      let n2 := concat g2 in
      let (flag, g) := project mode n1 n2 in
      Some (mkProjected flag n1 n2
        (match g with Some g => Some (write_back (map (@length R) g1) g) | None => None end))
    end
  end.

(** ** The line searches *)

(** add_grad for every parameter (line_search_gd.py 98-103, line_search_adam.py 72-77):
    [p[i] += (a * t[i]) * d[i]]. *)
Fixpoint move (a : R) (t : vec) (d p : list vec) : list vec :=
  match t, d, p with
  | t0 :: t', d0 :: d', p0 :: p' => vadd p0 (vscale (a * t0) d0) :: move a t' d' p'
  | _, _, _ => []
  end.

Inductive searched :=
| Unbound                                  (* loss was never assigned: UnboundLocalError *)
| Running                                  (* out of fuel *)
| Returned (accepted : bool) (loss alpha : R) (p : list vec).

(** The loop, line_search_gd.py 117-127 and line_search_adam.py 97-111.  [accept] is
    the test, [k] counts the calls of [closure], which may depend on anything. *)
Fixpoint search (fuel : nat) (closure : nat -> list vec -> R) (accept : R -> R -> bool)
  (reduction least : R) (t : vec) (d : list vec)
  (k : nat) (last : option (R * R)) (alpha alpha_prev : R) (p : list vec) : searched :=
  if Rltb least alpha then
    match fuel with
    | O => Running
    | S fuel =>
      let p := move (alpha - alpha_prev) t d p in
      let loss := closure k p in
      if accept alpha loss then Returned true loss alpha p
      else search fuel closure accept reduction least t d (S k) (Some (loss, alpha))
             (alpha * reduction) alpha p
    end
  else match last with
       | None => Unbound
       | Some (loss, a) => Returned false loss a p
       end.

(** The sum of the products of gradient and direction. *)
Fixpoint slope (g d : list vec) : R :=
  match g, d with g0 :: g', d0 :: d' => dot g0 d0 + slope g' d' | _, _ => 0 end.
(** The same, weighted with the step sizes. *)
Fixpoint weighted_slope (t : vec) (g d : list vec) : R :=
  match t, g, d with
  | t0 :: t', g0 :: g', d0 :: d' => t0 * dot g0 d0 + weighted_slope t' g' d'
  | _, _, _ => 0
  end.

(** LineSearchGD.line_search, line_search_gd.py 105-128: one step size t. *)
Definition gd_accept (c t improvement loss0 : R) (g d : list vec) (alpha loss : R) : bool :=
  Rleb loss (loss0 + t * (c * slope g d)) && Rleb loss (loss0 - improvement).
Definition gd_search (fuel : nat) (closure : nat -> list vec -> R)
  (c reduction least improvement loss0 t : R) (g d p : list vec) : searched :=
  search fuel closure (gd_accept c t improvement loss0 g d) reduction least
    (repeat t (length p)) d O None 1 0 p.

(** LineSearchAdam.line_search, line_search_adam.py 79-112: a step size for every
    parameter; [c] may be None. *)
Definition adam_accept (c : option R) (improvement loss0 : R) (t : vec) (g d : list vec)
  (alpha loss : R) : bool :=
  match c with
  | Some c => Rltb loss (loss0 + alpha * (c * weighted_slope t g d)) && Rltb loss (loss0 - improvement)
  | None => Rltb loss (loss0 - improvement)
  end.
Definition adam_search (fuel : nat) (closure : nat -> list vec -> R) (c : option R)
  (reduction least improvement loss0 : R) (t : vec) (g d p : list vec) : searched :=
  search fuel closure (adam_accept c improvement loss0 t g d) reduction least t d O None 1 0 p.

(** The direction of LineSearchGD.step, line_search_gd.py 130-171, for one parameter:
    the gradient (to which the weight decay is added in place) and the new momentum
    buffer.  [buf] is the buffer of the previous step. *)
Definition gd_direction (decay momentum dampening : R) (nesterov : bool)
  (p g : vec) (buf : option vec) : vec * vec * option vec :=
  let g := if Req_EM_T decay 0 then g else vadd g (vscale decay p) in
  if Req_EM_T momentum 0 then (g, vscale (-1) g, buf)
  else
    let b := match buf with
             | None => g
             | Some b => vadd (vscale momentum b) (vscale (1 - dampening) g)
             end in
    let dp := if nesterov then vadd g (vscale momentum b) else b in
    (g, vscale (-1) dp, Some b).
(** The buffer after several steps whose gradients (with the weight decay) are [gs]. *)
Fixpoint gd_buffer (momentum dampening : R) (nesterov : bool) (gs : list vec) (buf : option vec) : option vec :=
  match gs with
  | [] => buf
  | g :: gs =>
    let '(_, _, b) := gd_direction 0 momentum dampening nesterov [] g buf in
    gd_buffer momentum dampening nesterov gs b
  end.
