(** What the documentation of project_gradient promises. *)

Require Import Reals List.
Require Import Verif.Vec Verif.ModelOptim.
Import ListNotations.
Open Scope R_scope.

(** A parameter without gradient, or with gradient zero, before the call. *)
Definition cleared (old : option vec) (d : vec) : Prop := old = None \/ old = Some (zeros (length d)).
Definition same_size (a b : vec) : Prop := length a = length b.

(** a without its component along b. *)
Definition orthogonal_part (a b : vec) : vec := vsub a (vscale (dot a b / dot b b) b).

(** train_utils.py 27-45: the direction for two gradients in conflict. *)
Definition resolved (mode : project_mode) (n1 n2 : vec) : vec :=
  match mode with
  | LOSS1 => orthogonal_part n1 n2
  | LOSS2 => orthogonal_part n2 n1
  | BOTH => vadd (orthogonal_part n1 n2) (orthogonal_part n2 n1)
  | EMPHASIZE_LOSS1 => vadd n1 (orthogonal_part n2 n1)
  | EMPHASIZE_LOSS2 => vadd (orthogonal_part n1 n2) n2
  end.

(** The directions have the sizes of the parameters. *)
Definition fits (t : vec) (d p : list vec) : Prop := length t = length p /\ Forall2 same_size d p.

(** Entry i of the discounted sum of gradients: the last one counts fully, the one
    before it times mu, and so on. *)
Fixpoint discounted (mu : R) (i : nat) (gs : list vec) : R :=
  match gs with
  | [] => 0
  | g :: gs => mu ^ length gs * nth i g 0 + discounted mu i gs
  end.
