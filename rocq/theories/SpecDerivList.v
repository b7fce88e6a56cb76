(** Vocabulary for the lists of derivative values at a state. *)

Require Import Reals List.
Require Import Verif.Vec Verif.ModelMip Verif.SpecMip Verif.SpecCore Verif.ModelNet Verif.SpecNet
  Verif.SpecPattern Verif.ModelLyapunov Verif.SpecLyapunov Verif.SpecContinuous Verif.ModelHybrid Verif.SpecHybrid.
Import ListNotations.
Open Scope R_scope.

(** A choice of active units that agrees with the inputs of the units up to [tol]. *)
Definition flag_tol (tol : R) (b : bool) (v : R) : Prop := if b then - tol <= v else v <= tol.
Definition consistent_tol (tol : R) (pats : list (list bool)) (pres : list vec) : Prop :=
  Forall2 (Forall2 (flag_tol tol)) pats pres.

(** [g] is the derivative of the network when the units are on as in [pats]. *)
Definition is_jacobian (N : network) (n : nat) (pats : list (list bool)) (g : mat) : Prop :=
  wfm (out_features (last_layer N)) n g /\ forall d, length d = n -> mv g d = jvp N pats d.

(** No unit has input zero at x, and no entry of R (x - x_eq) is zero. *)
Definition smooth_at (N : network) (M : mat) (xeq x : vec) : Prop :=
  Forall (fun v => v <> 0) (concat (pre_acts (hidden N) x)) /\
  Forall (fun v => v <> 0) (mv M (vsub x xeq)).

(** A curve in R^n that leaves y t with velocity d. *)
Definition leaves (n : nat) (y : R -> vec) (t : R) (d : vec) : Prop :=
  (forall s, length (y s) = n) /\ forall i, rderiv (fun s => nth i (y s) 0) t (nth i d 0).

(** The number of zero entries. *)
Fixpoint zero_count (v : vec) : nat :=
  match v with
  | [] => 0
  | a :: v' => if Req_EM_T a 0 then S (zero_count v') else zero_count v'
  end.

(** What automatic differentiation reports for the derivative of V along d: a
    unit with input zero counts as off, a zero entry of R (x - x_eq)
    contributes nothing. *)
Definition sample_flags (pres : list vec) : list (list bool) :=
  map (map (fun v => if Rlt_dec 0 v then true else false)) pres.
Definition sign3 (v : R) : R :=
  if Rlt_dec 0 v then 1 else if Rlt_dec v 0 then -1 else 0.
Definition sample_rate (N : network) (M : mat) (lam : R) (xeq x d : vec) : R :=
  nth 0 (jvp N (sample_flags (pre_acts (hidden N) x)) d) 0 +
  lam * dot (map sign3 (mv M (vsub x xeq))) (mv M d).

(** What the sample loss of a hybrid system wants to be at most minus the margin. *)
Definition rate_violation (et : eps_type) (N : network) (M : mat) (lam eps : R) (xeq x d : vec) : R :=
  match et with
  | ExpLower => sample_rate N M lam xeq x d + eps * V N M lam xeq x
  | ExpUpper => - (sample_rate N M lam xeq x d + eps * V N M lam xeq x)
  | Asymp => sample_rate N M lam xeq x d + eps * norm1 (vsub x xeq)
  end.

(** The velocity at x of the first mode that contains x. *)
Definition first_velocity (h : hybrid) (x d : vec) : Prop :=
  exists i m, nth_error (h_modes h) i = Some m /\ inside m x /\
    (forall j m', (j < i)%nat -> nth_error (h_modes h) j = Some m' -> ~ inside m' x) /\
    d = vadd (mv (md_A m) x) (md_c m).
