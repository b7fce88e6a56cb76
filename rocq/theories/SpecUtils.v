(** Meaning of the four-row encodings: A_x x + A_y y + A_b b <= rhs. *)

Require Import Reals List.
Require Import Verif.Vec Verif.ModelUtils Verif.SpecCore.
Import ListNotations.
Open Scope R_scope.

Definition sat4 (rw : rows4) (x y b : R) : Prop :=
  vle (vadd (vadd (vscale x (rw_x rw)) (vscale y (rw_y rw)))
            (vscale b (rw_b rw)))
      (rw_rhs rw).

(** Meaning of the sign binary of the absolute-value encoding. *)
Definition abs_sign (bz : bool) (x : R) (b : vec) : Prop :=
  if bz
  then (b = [1; 0; 0] /\ x <= 0) \/ (b = [0; 1; 0] /\ x = 0) \/
       (b = [0; 0; 1] /\ 0 <= x)
  else (b = [1] /\ 0 <= x) \/ (b = [0] /\ x <= 0).

(** The k-th unit vector of length n. *)
Definition one_hot (n k : nat) : vec := unit_row n k 1.

(** On the boundary of the box: inside it, with a coordinate at a limit. *)
Definition on_boundary (lo up x : vec) : Prop :=
  in_box lo up x /\
  exists i, (i < length x)%nat /\ (nth i x 0 = nth i lo 0 \/ nth i x 0 = nth i up 0).

(** A selection of one-sided (or sampled) derivatives of |x_i|. *)
Definition l1_entry (subs : vec) (x g : R) : Prop :=
  (0 < x /\ g = 1) \/ (x < 0 /\ g = -1) \/ (x = 0 /\ In g (1 :: -1 :: subs)).
Definition l1_row (subs x g : vec) : Prop := Forall2 (l1_entry subs) x g.

(** A signed unit vector pointing at an entry of largest magnitude. *)
Definition linf_row (x g : vec) : Prop :=
  exists i s, (i < length x)%nat /\ (s = 1 \/ s = -1) /\
    g = unit_row (length x) i s /\ s * nth i x 0 = norminf x.
