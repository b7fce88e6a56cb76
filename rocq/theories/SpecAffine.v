(** What the constraints of a control affine system x' = f(x) + G(x) u have to say. *)

Require Import Reals List.
Require Import Verif.Vec Verif.ModelMip Verif.SpecMip Verif.SpecCore Verif.ModelNet Verif.SpecNet Verif.ModelAffine.
Import ListNotations.
Open Scope R_scope.

(** On the states [D] the two constraints compute f and the flattened G; on the box the bounds hold. *)
Definition describes (r : ca_ret) (D box : vec -> Prop) (f : vec -> vec) (G : vec -> mat) : Prop :=
  encodes (ca_f r) D f /\ encodes (ca_G r) D (fun x => concat (G x)) /\
  forall x, box x -> in_box (ca_f_lo r) (ca_f_up r) (f x) /\ in_box (ca_G_lo r) (ca_G_up r) (concat (G x)).

(** The constructor accepted the two networks. *)
Definition relu_so_built (Y : relu_so) : Prop :=
  net_wf (x_dim (rs_box Y)) (rs_a Y) /\ net_wf (x_dim (rs_box Y)) (rs_b Y) /\
  exists x_lo x_up u_lo u_up Na Nb meth, new_relu_so x_lo x_up u_lo u_up Na Nb meth = Some Y.
