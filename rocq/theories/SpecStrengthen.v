(** Vocabulary of the strengthening properties. *)

Require Import Reals List.
Require Import Verif.Vec Verif.SpecCore Verif.SpecMip Verif.ModelNet
  Verif.ModelPattern Verif.ModelStrengthen.
Import ListNotations.
Open Scope R_scope.

(** (x, y, beta) is reached by the unit y = leaky_c (w.x + b) on the box. *)
Definition unit_reached (c : R) (w : vec) (b : R) (lo up : vec) (x : vec) (y be : R) : Prop :=
  in_box lo up x /\ y = leaky c (dot w x + b) /\
  ((be = 1 /\ 0 <= dot w x + b) \/ (be = 0 /\ dot w x + b <= 0)).

(** The cut holds at a point. *)
Definition cut_holds (k : cut) (x : vec) (y be : R) : Prop :=
  y <= dot (cut_x k) x + cut_b k * be + cut_k k.

(** The inequality rows of a block hold. *)
Definition blk_holds (k : blk) (x s b : vec) : Prop :=
  vle (vadd (vadd (mv (k_x k) x) (mv (k_s k) s)) (mv (k_b k) b)) (k_rhs k).

(** ReLU, or leaky with slope in [0, 1). *)
Definition cut_slopes (hs : list (linear * act)) : Prop :=
  Forall (fun la => match snd la with Relu => True | Leaky c => 0 <= c < 1 end) hs.

(** At the point ([lins]: the inputs of the network followed by the outputs of
    the hidden units; [acts]: the activations) the cut of every unit and every
    index set holds up to [tol]. *)
Fixpoint all_cuts (tol : R) (hs : list (linear * act)) (lins acts los ups : vec) : Prop :=
  match hs with
  | [] => True
  | (l, a) :: hs' =>
      let n := in_features l in
      (forall j ind k, (j < out_features l)%nat ->
         strengthen_w_indices (slope_of a) (nth j (weight l) []) (nth j (bias_of l) 0)
           (firstn n los) (firstn n ups) ind = Some k ->
         cut_holds k (firstn n lins) (nth j (skipn n lins) 0 - tol) (nth j acts 0)) /\
      all_cuts tol hs' (skipn n lins) (skipn (out_features l) acts) (skipn n los) (skipn n ups)
  end.
