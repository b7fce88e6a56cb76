(** Costs that may be infinite: a real number or +inf (np.inf). *)

Require Import Reals Bool.
Require Import Verif.Vec.
Open Scope R_scope.

Inductive ext : Type := Fin (x : R) | Inf.

Definition eadd (a b : ext) : ext :=
  match a, b with Fin x, Fin y => Fin (x + y) | _, _ => Inf end.
(** k times a, for k > 0. *)
Definition escale (k : R) (a : ext) : ext := match a with Fin x => Fin (k * x) | Inf => Inf end.
Definition ele (a b : ext) : Prop :=
  match a, b with Fin x, Fin y => x <= y | _, Inf => True | Inf, Fin _ => False end.
Definition eltb (a b : ext) : bool :=
  match a, b with Fin x, Fin y => Rltb x y | Fin _, Inf => true | Inf, _ => false end.
Definition eeqb (a b : ext) : bool :=
  match a, b with Fin x, Fin y => Reqb x y | Inf, Inf => true | _, _ => false end.
(** abs(a - b), when not both are infinite. *)
Definition edist (a b : ext) : ext :=
  match a, b with Fin x, Fin y => Fin (Rabs (x - y)) | _, _ => Inf end.
