(** Derivatives of the Lyapunov function along a continuous-time system. *)

Require Import Reals List.
Require Import Verif.Vec Verif.ModelMip Verif.SpecMip Verif.SpecCore Verif.ModelNet Verif.SpecNet Verif.ModelPattern
  Verif.SpecPattern Verif.SpecLyapunov.
Import ListNotations.
Open Scope R_scope.

(** The signs of the entries of R (x - x_eq). *)
Definition sign_of (b : bool) : R := if b then 1 else -1.
Definition signs_ok (sgs : list bool) (v : vec) : Prop := Forall2 flag_ok sgs v.

(** A choice of active units and of signs agrees with the state x: it selects
    one of the generalised gradients of V at x. *)
Definition selects (N : network) (M : mat) (xeq x : vec) (pats : list (list bool))
    (sgs : list bool) : Prop :=
  consistent pats (pre_acts (hidden N) x) /\ signs_ok sgs (mv M (vsub x xeq)).

(** The selected gradient of V applied to the velocity d. *)
Definition Vdot (N : network) (M : mat) (lam : R) (pats : list (list bool))
    (sgs : list bool) (d : vec) : R :=
  nth 0 (jvp N pats d) 0 + lam * dot (map sign_of sgs) (mv M d).

(** Every flag is the strict sign of its quantity somewhere in the box. *)
Definition attained (lo up : vec) (f : vec -> vec) (flags : list bool) : Prop :=
  forall i b, nth_error flags i = Some b ->
    exists y, in_box lo up y /\ if b then 0 < nth i (f y) 0 else nth i (f y) 0 < 0.
Definition selection_attained (lo up : vec) (N : network) (M : mat) (xeq : vec)
    (pats : list (list bool)) (sgs : list bool) : Prop :=
  attained lo up (fun y => concat (pre_acts (hidden N) y)) (concat pats) /\
  attained lo up (fun y => mv M (vsub y xeq)) sgs.

(** The flags that the encoding of the network can represent: a unit whose lower
    bound is nonnegative is always on, one whose upper bound is nonpositive is
    always off. *)
Definition possible (lo up : vec) (flags : list bool) : Prop :=
  forall i b, nth_error flags i = Some b ->
    (0 <= nth i lo 0 -> b = true) /\ (nth i lo 0 < 0 -> nth i up 0 <= 0 -> b = false).
Definition encodable (solve : mip -> gresult) (meth : method) (N : network) (lo up : vec)
    (pats : list (list bool)) : Prop :=
  forall c B out, output_constraint solve meth N lo up = Some (c, B, out) ->
    possible (b_pre_lo B) (b_pre_up B) (concat pats).

(** The bounds on W_i z_i and on R xdot are right at every state, velocity and
    selected gradient with flags in [A]; and they have the shape of the network. *)
Definition product_bounds_ok (lo up : vec) (N : network) (M : mat) (T : vec -> vec -> Prop)
    (A : list (list bool) -> Prop) (B : wzb) (r : vec * vec) : Prop :=
  (length (hidden N) <= length (w_lo B))%nat /\ Forall2 vle (w_lo B) (w_up B) /\
  (forall i, (i < length (hidden N))%nat ->
     length (nth i (w_lo B) []) = nth i (widths_of (hidden N)) 0%nat) /\
  forall x d, in_box lo up x -> T x d ->
    in_box (fst r) (snd r) (mv M d) /\
    forall pats, consistent pats (pre_acts (hidden N) x) -> A pats ->
      forall i, (i < length (hidden N))%nat ->
        in_box (nth i (w_lo B) []) (nth i (w_up B) []) (nth i (pre_tangents (hidden N) pats d) []).

(** Right derivative, and solutions of the inclusion x' in { d : T x d } over
    [0, b] that stay in the box. *)
Definition rderiv (f : R -> R) (t d : R) : Prop :=
  forall e, 0 < e -> exists del, 0 < del /\
    forall h, 0 < h < del -> Rabs (f (t + h) - f t - h * d) <= e * h.
Definition cont_on (b : R) (f : R -> R) : Prop :=
  forall t, 0 <= t <= b -> forall e, 0 < e -> exists del, 0 < del /\
    forall s, 0 <= s <= b -> Rabs (s - t) < del -> Rabs (f s - f t) < e.
Record flow (lo up : vec) (T : vec -> vec -> Prop) (b : R) (x : R -> vec) : Prop := {
  fl_box : forall t, 0 <= t <= b -> in_box lo up (x t);
  fl_cont : forall i, cont_on b (fun t => nth i (x t) 0);
  fl_deriv : forall t, 0 <= t < b -> exists d, T (x t) d /\ length d = length (x t) /\
      forall i, rderiv (fun s => nth i (x s) 0) t (nth i d 0)
}.

(** The contract of a system that also returns bounds of the velocity. *)
Definition flow_contract (n : nat) (st : bool)
    (add : list nat -> list nat -> vtype -> mip -> option (mip * option (vec * vec)))
    (lo up : vec) (T : vec -> vec -> Prop) : Prop :=
  system_contract n st (fun xv xn vt m => option_map fst (add xv xn vt m)) T /\
  forall xv xn vt m m' a b, add xv xn vt m = Some (m', Some (a, b)) ->
    vle a b /\ length a = n /\ forall x d, in_box lo up x -> T x d -> in_box a b d.
