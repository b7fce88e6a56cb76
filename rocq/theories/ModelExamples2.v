(** More concrete objects used to show that hypotheses can be met. *)

Require Import Reals List.
Require Import Verif.Vec Verif.ModelMip Verif.ModelNet Verif.ModelHybrid Verif.ModelSystems
  Verif.ModelExamples.
Import ListNotations.
Open Scope R_scope.

(** One state and one input: x' = x / 2 + u for x in [-1, 0], x' = - x / 4 + u
    for x in [0, 1], u in [-1, 1]. *)
Definition sysu : hybrid := mkHybrid 1 1
  [mkMode [[1/2]] [[1]] [0] [[1; 0]; [-1; 0]; [0; 1]; [0; -1]] [0; 1; 1; 1]
          [Fin (Ropp 1); Fin (Ropp 1)] [Fin 0; Fin 1];
   mkMode [[-1/4]] [[1]] [0] [[1; 0]; [-1; 0]; [0; 1]; [0; -1]] [1; 0; 1; 1]
          [Fin (Ropp 0); Fin (Ropp 1)] [Fin 1; Fin 1]].
(** The forward system, closed with the controller |x| limited to -1/2 .. 1/2. *)
Definition fwd_u : fwd_sys := mkFwd 1 1 [-1] [1]
  (fun xv xn uv _ _ vt m => match hybrid_add_dynamics sysu xv xn uv vt m with
                            | Some m' => Some (m', None)
                            | None => None
                            end)
  (fun x u => step_forward sysu x u None).
Definition fb_u : feedback :=
  mkFb fwd_u (CtlNet net_abs) [0] [0] [Fin (-1/2)] [Fin (1/2)] IA.
