(** Concrete example systems, used only in the cases beside the theorems. *)

Require Import Reals List.
Require Import Verif.Vec Verif.ModelMip Verif.ModelNet Verif.ModelSystems Verif.ModelExSystems.
Import ListNotations.
Open Scope R_scope.

(** All k outputs are relu(s) - relu(-s) / 2 + 1/4, s the sum of the n inputs. *)
Definition enet (n k : nat) : network :=
  mkNet [(mkLin n [repeat 1 n; repeat (-1) n] (Some [0; 0]), Relu)]
        (mkLin 2 (repeat [1; -1/2] k) (Some (repeat (1/4) k))).
Definition ex_of (k : ex_kind) : ex_sys :=
  mkEx (enet (ex_nin k) (ex_nout k)) (repeat (-1) (ex_nx k)) (repeat 1 (ex_nx k))
       (repeat (-1) (ex_nu k)) (repeat 1 (ex_nu k)) (1/10) k.
(** A quadrotor closed with a network controller and limits -1/2 .. 1/2. *)
Definition quad_ex (solve : mip -> gresult) : feedback :=
  mkFb (ex_fwd solve (ex_of (KQuad (1/4) IA))) (CtlNet (enet 12 4)) (zeros 12) (repeat (1/4) 4)
       (repeat (Fin (-1/2)) 4) (repeat (Fin (1/2)) 4) IA.
