(** Vocabulary of the activation-pattern properties. *)

Require Import Reals List.
Require Import Verif.Vec Verif.SpecCore Verif.ModelNet Verif.ModelPattern Verif.SpecNet.
Import ListNotations.
Open Scope R_scope.

(** A pattern agrees with the values entering the activations: an active unit
    has a nonnegative input, an inactive one a nonpositive input. *)
Definition flag_ok (b : bool) (v : R) : Prop := if b then 0 <= v else v <= 0.
Definition consistent (pats : list (list bool)) (pres : list vec) : Prop :=
  Forall2 (Forall2 flag_ok) pats pres.

(** One flag per unit. *)
Definition pattern_shape (hs : list (linear * act)) (pats : list (list bool)) : Prop :=
  Forall2 (fun la pat => length pat = out_features (fst la)) hs pats.

(** Derivative of the activation in the given state. *)
Definition act_slope (a : act) (b : bool) : R :=
  if b then 1 else match a with Relu => 0 | Leaky c => c end.
(** (d network / dx at the pattern) . y, by the chain rule; the values after
    every activation layer, and the last product. *)
Fixpoint tangents (hs : list (linear * act)) (pats : list (list bool)) (y : vec)
  : list vec :=
  match hs, pats with
  | (l, a) :: hs', pat :: pats' =>
      let y' := map2 (fun b v => act_slope a b * v) pat (mv (weight l) y) in
      y' :: tangents hs' pats' y'
  | _, _ => []
  end.
(** The products W_i z_i themselves. *)
Fixpoint pre_tangents (hs : list (linear * act)) (pats : list (list bool)) (y : vec)
  : list vec :=
  match hs, pats with
  | (l, a) :: hs', pat :: pats' =>
      let v := mv (weight l) y in
      v :: pre_tangents hs' pats' (map2 (fun b v => act_slope a b * v) pat v)
  | _, _ => []
  end.
Definition jvp (N : network) (pats : list (list bool)) (y : vec) : vec :=
  mv (weight (last_layer N)) (last (tangents (hidden N) pats y) y).

(** The binaries of a pattern. *)
Definition flat (pats : list (list bool)) : vec :=
  map (fun b : bool => if b then 1 else 0) (concat pats).

(** No unit has a negative slope. *)
Definition slopes_nonneg (hs : list (linear * act)) : Prop :=
  Forall (fun la => 0 <= act_slope (snd la) false) hs.

(** Lists of boxes: each vector lies in its box. *)
Definition boxes (los ups vs : list vec) : Prop :=
  length los = length vs /\ length ups = length vs /\
  forall i, (i < length vs)%nat -> in_box (nth i los []) (nth i ups []) (nth i vs []).
