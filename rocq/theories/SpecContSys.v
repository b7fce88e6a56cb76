(** What the constraints of the continuous-time plants have to say. *)

Require Import Reals List.
Require Import Verif.Vec Verif.ModelMip Verif.ModelNet Verif.SpecNet Verif.SpecCore Verif.ModelContSys.
Import ListNotations.
Open Scope R_scope.

(** The constructor accepted the plant; the equilibrium input has one entry per
    input. *)
Definition cp_built (S : cp_sys) : Prop :=
  let k := cp_kind_ S in
  net_wf 3 (cp_net S) /\ length (cp_ueq k) = cp_nu k /\
  new_cp (cp_net S) (cp_xlo S) (cp_xup S) (cp_ulo S) (cp_uup S) (cp_meth S) k = Some S.

(** From a state in the box, velocity [d] under the input [u]. *)
Definition cp_moves (S : cp_sys) (x u d : vec) : Prop :=
  in_box (cp_xlo S) (cp_xup S) x /\ cp_step S x u = Some d.
