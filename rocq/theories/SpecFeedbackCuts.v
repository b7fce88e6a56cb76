(** Which closed loops are strengthened. *)

Require Import Reals List.
Require Import Verif.Vec Verif.ModelNet Verif.SpecNet Verif.ModelHybrid Verif.ModelSystems
  Verif.ModelStrengthen Verif.SpecStrengthen Verif.SpecUtils Verif.SpecCore.
Import ListNotations.
Open Scope R_scope.

(** A controller network without leaky units of slope 1 (or a linear layer). *)
Definition controller_slopes (k : controller) : Prop :=
  match k with
  | CtlNet N => no_slope_one (hidden N)
  | CtlLinear _ => True
  end.
(** Slopes for which every cut can be computed. *)
Definition controller_cut_slopes (k : controller) : Prop :=
  match k with CtlNet N => cut_slopes (hidden N) | CtlLinear _ => True end.
