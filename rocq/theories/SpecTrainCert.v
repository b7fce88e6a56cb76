(** What the solver's reports refer to, for a model with a network, a controller and R. *)

Require Import Reals List.
Require Import Verif.Vec Verif.ModelMip Verif.SpecMip Verif.ModelNet Verif.SpecNet
  Verif.SpecStep Verif.ModelLyapunov Verif.SpecLyapunov Verif.ModelTrain.
Import ListNotations.

(** The two programs were built for these parameters and the reported objectives are
    their optimal values. *)
Definition reports_optima (solve : mip -> gresult) (meth : method) (n : nat) (x_lo x_up xeq : vec)
  (lam eps_pos eps_der : R) (et : eps_type)
  (add_system : list nat -> list nat -> vtype -> mip -> option mip)
  (N : network) (R0 : option mat) (r : report) : Prop :=
  exists m xv d,
    positivity_milp solve meth N n x_lo x_up xeq lam eps_pos R0 = Some (m, xv) /\
    solve m = GOptimal (pos_obj r) /\
    derivative_milp solve meth N n x_lo x_up add_system xeq lam eps_der et R0 None None VBin = Some d /\
    solve (d_mip d) = GOptimal (der_obj r).
