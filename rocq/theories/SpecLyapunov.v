(** The Lyapunov function and what the verification programs are about. *)

Require Import Reals List.
Require Import Verif.Vec Verif.ModelMip Verif.SpecMip Verif.SpecCore Verif.ModelGrad Verif.ModelNet
  Verif.SpecNet Verif.SpecStep Verif.ModelLyapunov.
Import ListNotations.
Open Scope R_scope.

(** The value of a network with one output. *)
Definition phi (N : network) (x : vec) : R := nth 0 (net_eval N x) 0.

(** R, the identity when it is not given. *)
Definition R_of (n : nat) (R0 : option mat) : mat :=
  match R0 with None => eye n | Some M => M end.

(** |R (x - x_eq)|_1 *)
Definition error1 (M : mat) (xeq x : vec) : R := norm1 (mv M (vsub x xeq)).

(** V(x) = phi(x) - phi(x_eq) + lambda |R (x - x_eq)|_1 *)
Definition V (N : network) (M : mat) (lam : R) (xeq x : vec) : R :=
  phi N x - phi N xeq + lam * error1 M xeq x.

(** R x = 0 only for x = 0. *)
Definition full_column_rank (n : nat) (M : mat) : Prop :=
  forall x, length x = n -> mv M x = zeros (length M) -> x = zeros n.

(** The arguments fit together: the network maps R^n to R and has at least two
    units, R has n columns and at least n rows, the box has dimension n. *)
Record lyap_args (n : nat) (N : network) (x_lo x_up : vec) (R0 : option mat)
       (xeq : vec) : Prop := {
  la_net : net_wf n N;
  la_out : out_features (last_layer N) = 1%nat;
  la_units : (2 <= num_units (hidden N))%nat;
  la_lo : length x_lo = n;
  la_up : length x_up = n;
  la_R : wfm (length (R_of n R0)) n (R_of n R0);
  la_rows : (n <= length (R_of n R0))%nat;
  la_eq : in_box x_lo x_up xeq
}.

(** The constraints added for a system describe the transitions [T]. *)
Definition system_contract (n : nat) (st : bool)
    (add : list nat -> list nat -> vtype -> mip -> option mip)
    (T : vec -> vec -> Prop) : Prop :=
  forall vt m m' xv xn, vt <> VCont -> history st m ->
    below (nvars m) xv -> below (nvars m) xn -> length xv = n -> length xn = n ->
    NoDup (xv ++ xn) -> add xv xn vt m = Some m' ->
    step vt st m m' (fun sg => T (map sg xv) (map sg xn))
                    (fun sg => T (map sg xv) (map sg xn)).

(** The quantity that has to be nonpositive for one transition x -> x':
    ExpLower: V(x') - V(x) + eps V(x); ExpUpper: its negation;
    Asymp: V(x') - V(x) + eps |R (x - x_eq)|_1. *)
Definition violation (et : eps_type) (N : network) (M : mat) (lam eps : R)
    (xeq x x' : vec) : R :=
  match et with
  | ExpLower => V N M lam xeq x' - V N M lam xeq x + eps * V N M lam xeq x
  | ExpUpper => - (V N M lam xeq x' - V N M lam xeq x + eps * V N M lam xeq x)
  | Asymp => V N M lam xeq x' - V N M lam xeq x + eps * error1 M xeq x
  end.

(** lower <= v <= upper, where a missing bound is no bound. *)
Definition within (lower upper : option R) (v : R) : Prop :=
  (forall l, lower = Some l -> l <= v) /\ (forall u, upper = Some u -> v <= u).

(** The constraints of a system can always be added. *)
Definition system_total (n : nat) (st : bool)
    (add : list nat -> list nat -> vtype -> mip -> option mip) : Prop :=
  forall vt m xv xn, vt <> VCont -> history st m ->
    below (nvars m) xv -> below (nvars m) xn -> length xv = n -> length xn = n ->
    NoDup (xv ++ xn) -> add xv xn vt m <> None.

(** A trajectory of the transitions [T] inside the box. *)
Definition trajectory_in (x_lo x_up : vec) (T : vec -> vec -> Prop) (x : nat -> vec) : Prop :=
  (forall k, in_box x_lo x_up (x k)) /\ forall k, T (x k) (x (S k)).

(** The solver's INFEASIBLE answers about the program with extra rows are right. *)
Definition infeasible_ok (infeasible : mip -> list grow -> bool) : Prop :=
  forall m rows, infeasible m rows = true ->
    forall sg, gfeas m sg -> ~ Forall (row_ok sg) rows.

(** The cuts of the system remove no point with binary values (after which the
    relaxation is removed) and change neither the objective nor the variables. *)
Definition cuts_ok (sys_cuts : assignment -> mip -> option mip)
    (P : assignment -> Prop) : Prop :=
  forall sol m1 m2, sys_cuts sol m1 = Some m2 ->
    (forall sg, gfeas m2 sg -> gfeas m1 sg) /\
    (forall sg, gfeas m1 sg -> P sg -> gfeas m2 sg) /\
    zeta_ m2 = zeta_ m1 /\ nvars m2 = nvars m1 /\
    obj_terms m2 = obj_terms m1 /\ obj_const m2 = obj_const m1 /\ obj_max m2 = obj_max m1.

(** f 0 + ... + f (k - 1) *)
Fixpoint partial_sum (f : nat -> R) (k : nat) : R :=
  match k with O => 0 | S k' => partial_sum f k' + f k' end.

(** Weights are only used by the mean; there they are positive, one per sample. *)
Definition weights_ok (red : reduction) (w : option vec) (k : nat) : Prop :=
  match red, w with
  | RMean, Some ws => length ws = k /\ Forall (fun a => 0 < a) ws
  | _, _ => True
  end.
