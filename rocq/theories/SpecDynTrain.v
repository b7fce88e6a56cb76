(** What the training loop (ModelDynTrain) is about. *)

Require Import Reals List ZArith.
Require Import Verif.Vec Verif.SpecCore Verif.ModelNet Verif.ModelLyapunov Verif.ModelSystems Verif.ModelDynLearn
  Verif.SpecDynLearn Verif.ModelDynTrain.
Import ListNotations.

Section S.
Context {w : world}.
Variable cfg : train_opt w.

(** The Lyapunov losses are due at the iterations that are multiples of the frequency. *)
Definition due (n : nat) : Prop := (0 < r_freq cfg)%Z /\ (r_freq cfg | Z.of_nat n)%Z.

(** The whole loop over some batches from iteration n on: every batch gives one step
    along the gradient of its own losses, and one more along the gradient of the
    Lyapunov losses when they are due. *)
Inductive iterations : nat -> list (w_B w) -> w_P w -> w_P w -> Prop :=
  | it_nil : forall n p, iterations n [] p p
  | it_plain : forall n b bs p g r, w_gdyn w b p = Some g -> ~ due n ->
      iterations (S n) bs (w_step w [g] p) r -> iterations n (b :: bs) p r
  | it_lyap : forall n b bs p g g' r, w_gdyn w b p = Some g -> due n ->
      w_glyap w b (w_step w [g] p) = Some g' ->
      iterations (S n) bs (w_step w [g'] (w_step w [g] p)) r -> iterations n (b :: bs) p r.

(** The parameters after some of the steps of this loop. *)
Inductive reached : nat -> list (w_B w) -> w_P w -> w_P w -> Prop :=
  | re_here : forall n bs p, reached n bs p p
  | re_one : forall n b bs p g, w_gdyn w b p = Some g -> reached n (b :: bs) p (w_step w [g] p)
  | re_plain : forall n b bs p g r, w_gdyn w b p = Some g -> ~ due n ->
      reached (S n) bs (w_step w [g] p) r -> reached n (b :: bs) p r
  | re_lyap : forall n b bs p g g' r, w_gdyn w b p = Some g -> due n ->
      w_glyap w b (w_step w [g] p) = Some g' ->
      reached (S n) bs (w_step w [g'] (w_step w [g] p)) r -> reached n (b :: bs) p r.

(** The batches of the epochs first, ..., first + left - 1. *)
Fixpoint all_batches (left first : nat) : list (w_B w) :=
  match left with
  | 0%nat => []
  | S l => w_loader w first ++ all_batches l (S first)
  end.

(** The log of the loop. *)
Inductive logged : nat -> nat -> list entry -> Prop :=
  | lo_nil : forall n, logged n n []
  | lo_plain : forall n m l, ~ due n -> logged (S n) m l -> logged n m (EDynamics n :: l)
  | lo_lyap : forall n m l, due n -> logged (S n) m l -> logged n m (EDynamics n :: ELyapunov n :: l)
  | lo_valid : forall n m l, r_validate cfg = true -> logged n m l -> logged n m (EValidation n :: l).

(** A file holds the networks with these parameters, on this device. *)
Definition holds (d : w_dev w) (p : w_P w) (f : file w) : Prop :=
  load cfg f = Some ((d, w_lyap w p) :: (if r_latent cfg then [(d, w_enc w p); (d, w_dec w p); (d, w_eq w)] else [])).
(** An unfinished file. *)
Definition unfinished (f : file w) : Prop := exists l, f = Some l /\ load cfg f = None.
(** Everything is on one device. *)
Definition on_device (d : w_dev w) (s : tstate w) : Prop :=
  s_lyap_dev s = d /\ (r_latent cfg = true -> s_coder_dev s = d).
End S.

(** The epochs after which the networks are saved. *)
Definition saves {w} (cfg : train_opt w) (e : nat) : Prop :=
  (0 < r_save_rate cfg)%Z /\ (r_save_rate cfg | Z.of_nat e)%Z.
(** The number of the first iteration: the iterations of earlier calls count. *)
Definition first_iteration {w} (s : tstate w) : nat := if s_opt s then s_iter s else 0.

(** Batches for the validation: states and their successors, in one case inside the
    stable box; and all batches as one. *)
Definition good_batch (L : learner) (b : list vec * list vec) : Prop :=
  fst b <> [] /\ length (fst b) = length (snd b) /\
  Forall (fun x : vec => length x = l_dim L) (fst b) /\ Forall (fun x : vec => length x = l_dim L) (snd b).
Definition inside (L : learner) (b : list vec * list vec) : Prop :=
  Forall (in_box (o_x_lo (l_opt L)) (o_x_up (l_opt L))) (fst b).
Definition joined (bs : list (list vec * list vec)) : list vec * list vec :=
  (concat (map fst bs), concat (map snd bs)).
