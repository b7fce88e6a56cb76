(** The barrier function and what its verification programs are about. *)

Require Import Reals List.
Require Import Verif.Vec Verif.ModelMip Verif.SpecMip Verif.SpecCore Verif.ModelNet Verif.SpecNet
  Verif.SpecStep Verif.ModelLyapunov Verif.SpecLyapunov Verif.ModelBarrier.
Import ListNotations.
Open Scope R_scope.

(** h(x) = phi(x) - phi(x_star) + c *)
Definition h_of (N : network) (x_star : vec) (c : R) (x : vec) : R :=
  phi N x - phi N x_star + c.

(** The points described by a region object. *)
Definition in_region (region : mic) (x : vec) : Prop :=
  exists s b, bins b /\ mic_sat region x s b.

(** The arguments fit together. *)
Record barrier_args (n : nat) (N : network) (x_lo x_up x_star : vec) : Prop := {
  ba_net : net_wf n N;
  ba_out : out_features (last_layer N) = 1%nat;
  ba_lo : length x_lo = n;
  ba_up : length x_up = n;
  ba_star : length x_star = n
}.

(** -h(x') + (1 - eps) h(x), which has to be nonpositive for a step x -> x'. *)
Definition barrier_violation (N : network) (x_star : vec) (c eps : R) (x x' : vec) : R :=
  - h_of N x_star c x' + (1 - eps) * h_of N x_star c x.
