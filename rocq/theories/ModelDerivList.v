(** Model of the functions that list the values of dV/dt at a state, and of the
    sample losses of the continuous-time Lyapunov functions:
    relu_network_gradient (/repo/neural_network_lyapunov/utils.py:1356-1408),
    _lyapunov_gradient and _lyapunov_gradient_batch (lyapunov.py:491-523), and
    continuous_time_lyapunov.py:44-64, 242-302 (LyapunovContinuousTimeSystem) and
    322-399, 1122-1264 (LyapunovContinuousTimeHybridSystem).

    [None] is a raised exception. *)

Require Import Reals List Bool Arith.
Require Import Verif.Vec Verif.ModelMip Verif.ModelUtils Verif.ModelGrad Verif.ModelNet
  Verif.ModelPattern Verif.ModelLyapunov Verif.ModelContHybrid Verif.ModelHybrid.
Import ListNotations.
Open Scope R_scope.

(** ** relu_network_gradient — utils.py:1356-1408 *)

(** dphi_dx[k, i, :] *= c for one matrix dphi_dx[k]. *)
Fixpoint scale_row (c : R) (i : nat) (A : mat) : mat :=
  match A, i with
  | [], _ => []
  | r :: A', O => vscale c r :: A'
  | r :: A', S i' => r :: scale_row c i' A'
  end.
(** The unit i with input v — lines 1396-1404. *)
Definition unit_gradients (tol c : R) (i : nat) (v : R) (G : list mat) : list mat :=
  if Rltb tol v then G
  else if Rltb v (- tol) then map (scale_row c i) G
  else G ++ map (scale_row c i) G.
Fixpoint units_gradients (tol c : R) (i : nat) (p : vec) (G : list mat) : list mat :=
  match p with
  | [] => G
  | v :: p' => units_gradients tol c (S i) p' (unit_gradients tol c i v G)
  end.
(** The loop over the layers — lines 1383-1406; [n] is the number of columns. *)
Fixpoint gradient_loop (n : nat) (tol : R) (hs : list (linear * act)) (x : vec) (G : list mat)
  : list mat :=
  match hs with
  | [] => G
  | (l, a) :: hs' =>
      let p := vadd (mv (weight l) x) (bias_of l) in
      gradient_loop n tol hs' (map (act_forward a) p)
        (units_gradients tol (slope_of a) 0 p (map (mm n (weight l)) G))
  end.
Definition relu_network_gradient (N : network) (tol : R) (x : vec) : option (list mat) :=
  let n := x_size N in
  if (Nat.eqb (length x) n && Rleb 0 tol)%bool
  then Some (map (mm n (weight (last_layer N))) (gradient_loop n tol (hidden N) x [eye n]))
  else None.

(** ** _lyapunov_gradient — lyapunov.py:491-505 *)

(** .squeeze(1): the rows of 1 x n matrices; with more outputs the tensor keeps
    three dimensions and minkowski_sum raises. *)
Definition squeeze_rows (G : list mat) : option mat :=
  all_some (map (fun g => match g with [r] => Some r | _ => None end) G).
Definition lyapunov_gradient (N : network) (n : nat) (M : mat) (xeq : vec) (lam tol : R) (x : vec)
  : option mat :=
  match relu_network_gradient N tol x, l1_gradient tol [] (mv M (vsub x xeq)) with
  | Some G, Some Sg =>
      match squeeze_rows G with
      | Some rows => Some (minkowski_sum rows (map (fun s => vm n (vscale lam s) M) Sg))
      | None => None
      end
  | _, _ => None
  end.

(** ** lyapunov_derivative of LyapunovContinuousTimeSystem —
    continuous_time_lyapunov.py:44-64.  [step] is system.step_forward.  R = None
    raises: line 502 of lyapunov.py multiplies with it. *)
Definition ct_derivative (N : network) (n : nat) (step : vec -> option vec) (xeq : vec) (lam eps : R)
    (R0 : option mat) (tol : R) (x : vec) : option vec :=
  match R0 with
  | None => None
  | Some M =>
      match lyapunov_gradient N n M xeq lam tol x, step x, lyapunov_value N n R0 xeq lam x with
      | Some G, Some d, Some v => Some (map (fun g => dot g d + eps * v) G)
      | _, _, _ => None
      end
  end.

(** ** lyapunov_derivative of LyapunovContinuousTimeHybridSystem —
    continuous_time_lyapunov.py:322-399 *)

(** One turn of the queue of signs — lines 358-376. *)
Definition sign_choices (a b : R) : vec :=
  if Rltb b a then [1] else if Rltb a b then [-1] else [1; -1].
Definition extend_signs (c : vec) (q : mat) : mat :=
  flat_map (fun front => map (fun s => front ++ [s]) c) q.
Definition error_signs (x xeq : vec) : mat :=
  fold_left (fun q c => extend_signs c q) (map2 sign_choices x xeq) [[]].
(** ReLUGivenActivationPattern(..)[0].squeeze() of a network with one output:
    the column g of the n x 1 matrix. *)
Definition pattern_gradient (N : network) (n : nat) (pats : list (list bool)) : option vec :=
  match relu_given_activation_pattern N n pats with
  | Some (g, _, _, _) => all_some (map scalar g)
  | None => None
  end.
(** For n = 1 squeeze() leaves tensors without dimension and dV_dx[i] @ xdot
    raises (line 397), unless there is no xdot to multiply with. *)
Definition hybrid_ct_derivative (N : network) (h : hybrid) (xeq : vec) (lam eps : R) (R0 : option mat)
    (x : vec) : option vec :=
  let n := h_nx h in
  if R_identity n R0 then
    match lyapunov_value N n R0 xeq lam x,
          all_some (map (pattern_gradient N n) (compute_all_relu_activation_patterns N x)) with
    | Some v, Some D =>
        let dx := possible_dx h x [] in
        let grads := flat_map (fun g => map (fun s => vadd g (vscale lam s)) (error_signs x xeq)) D in
        if (Nat.eqb n 1 && negb (Nat.eqb (length grads * length dx) 0))%bool then None
        else Some (map (fun vd => vd + eps * v)
                     (flat_map (fun g => map (dot g) dx) grads))
    | _, _ => None
    end
  else None.

(** ** Sample losses *)

(** torch.autograd.grad of the network output with respect to its input: the
    backward pass of ReLU and LeakyReLU multiplies with 1 where the input is
    positive and with the slope elsewhere. *)
Fixpoint backward (hs : list (linear * act)) (last : linear) (x : vec) : vec :=
  match hs with
  | [] => nth 0 (weight last) []
  | (l, a) :: hs' =>
      let p := vadd (mv (weight l) x) (bias_of l) in
      vm (in_features l)
        (map2 (fun v g => if Rltb 0 v then g else slope_of a * g) p
           (backward hs' last (map (act_forward a) p)))
        (weight l)
  end.
(** dV/dx by automatic differentiation — lyapunov.py:507-523 (the gradient of
    torch.norm(., p=1) is torch.sign) and continuous_time_lyapunov.py:1236-1248
    (there R is the identity). *)
Definition autograd_V (N : network) (n : nat) (M : mat) (xeq : vec) (lam : R) (x : vec) : vec :=
  vadd (backward (hidden N) (last_layer N) x)
       (vscale lam (vm n (map sgn (mv M (vsub x xeq))) M)).

(** lyapunov_derivative_loss_at_samples_and_next_states of
    LyapunovContinuousTimeSystem — lines 242-302.  [tol] is the argument
    zero_tol, which is only checked. *)
Definition ct_loss (N : network) (n : nat) (xeq : vec) (samples xdots : list vec) (lam eps : R)
    (et : eps_type) (R0 : option mat) (margin : R) (red : reduction) (w : option vec) (tol : R)
  : option R :=
  match et with
  | ExpLower =>
      if negb (Nat.eqb (length samples) (length xdots) && Rleb 0 tol)%bool then None else
      match get_R n R0, traverse (lyapunov_value N n R0 xeq lam) samples with
      | Some M, Some vs =>
          let vdot := map2 (fun x d => dot (autograd_V N n M xeq lam x) d) samples xdots in
          reduce red w (map2 (fun vd v => hinge margin (- (vd + eps * v))) vdot vs)
      | _, _ => None
      end
  | _ => None
  end.

(** lyapunov_derivative_loss_at_samples_and_next_states of
    LyapunovContinuousTimeHybridSystem — lines 1187-1264.  Only the reduction
    "mean" passes the assert of line 1228; the argument [w] is not used. *)
Definition hybrid_ct_loss (N : network) (n : nat) (xeq : vec) (samples xdots : list vec) (lam eps : R)
    (et : eps_type) (R0 : option mat) (margin : R) (red : reduction) (w : option vec) : option R :=
  match red with
  | RMean =>
      if negb (Nat.eqb (length samples) (length xdots) && R_identity n R0)%bool then None else
      match traverse (lyapunov_value N n R0 xeq lam) samples with
      | Some vs =>
          let vdot := map2 (fun x d => dot (autograd_V N n (eye n) xeq lam x) d) samples xdots in
          let l := match et with
                   | ExpLower => map2 (fun vd v => vd + eps * v) vdot vs
                   | ExpUpper => map2 (fun vd v => - (vd + eps * v)) vdot vs
                   | Asymp => map2 (fun vd x => vd + eps * norm_p1 (vsub x xeq)) vdot samples
                   end in
          loss_reduction (map (fun v => hinge margin (- v)) l) RMean
      | None => None
      end
  | _ => None
  end.
(** lyapunov_derivative_loss_at_samples — lines 1122-1185; a sample in no mode
    raises. *)
Definition hybrid_ct_loss_at_samples (N : network) (h : hybrid) (xeq : vec) (samples : list vec)
    (lam eps : R) (et : eps_type) (R0 : option mat) (margin : R) (red : reduction) (w : option vec)
  : option R :=
  if R_identity (h_nx h) R0 then
    match all_some (map (fun x => match find_mode h x [] with
                                  | None => None
                                  | Some k => step_forward h x [] (Some k)
                                  end) samples) with
    | Some xdots => hybrid_ct_loss N (h_nx h) xeq samples xdots lam eps et R0 margin red w
    | None => None
    end
  else None.
