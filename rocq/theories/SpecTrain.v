(** Histories of the training loops. *)

Require Import Reals List Bool Arith.
Require Import Verif.Vec Verif.ModelTrain.
Import ListNotations.
Open Scope R_scope.

(** The k most recent elements. *)
Definition last_n {A : Type} (k : nat) (l : list A) : list A := skipn (length l - k) l.

Inductive subseq {A : Type} : list A -> list A -> Prop :=
| sub_nil : subseq [] []
| sub_skip : forall x a b, subseq a b -> subseq a (x :: b)
| sub_keep : forall x a b, subseq a b -> subseq (x :: a) (x :: b).

(** A list cut into runs of consecutive elements. *)
Definition cut_into {A : Type} (runs : list (list A)) (l : list A) : Prop :=
  concat runs = l /\ Forall (fun r => r <> []) runs.

(** Consecutive elements are related. *)
Fixpoint chained {A : Type} (P : A -> A -> Prop) (l : list A) : Prop :=
  match l with
  | x :: t => match t with y :: _ => P x y /\ chained P t | [] => True end
  | [] => True
  end.
Definition near (radius : R) (a b : vec) : Prop := dist2 b a <= radius * radius.

Section Histories.
Context {NetT CtlT RV : Type}.
Variable cfg : setting.

Definition same_params (m m' : model NetT CtlT RV) : Prop :=
  net m = net m' /\ ctl m = ctl m' /\ r_value m = r_value m'.

(** The models after each of n epochs of an optimiser. *)
Fixpoint trajectory (opt : nat -> model NetT CtlT RV -> NetT * CtlT * RV) (oc n t : nat)
  (m : model NetT CtlT RV) : list (model NetT CtlT RV) :=
  match n with
  | O => []
  | S n => let m1 := opt_step cfg oc (opt t m) m in m1 :: trajectory opt oc n (S t) m1
  end.

Variable sample_loss : list vec -> list vec -> NetT -> CtlT -> RV -> R * R.
Variable opt : nat -> nat -> model NetT CtlT RV -> NetT * CtlT * RV.
Variable solver : nat -> NetT -> CtlT -> RV -> report.
Variable radius : option R.
Variable perturb : nat -> list vec -> list vec.
Variables (pos_size der_size num_epochs : nat).

(** train_adversarial at the beginning of iteration k. *)
Fixpoint adv_at (oc : nat) (s : adv_state NetT CtlT RV) (k : nat) : adv_state NetT CtlT RV :=
  match k with
  | O => s
  | S k => descend cfg sample_loss opt num_epochs oc k
             (snd (solve_and_collect solver radius perturb pos_size der_size k (adv_at oc s k)))
  end.
(** The report of the solver for a model, and the states that iteration k contributes. *)
Definition report_of (k : nat) (m : model NetT CtlT RV) : report :=
  solver k (net m) (ctl m) (r_value m).
Definition contributed_pos (oc : nat) (s : adv_state NetT CtlT RV) (k : nat) : list vec :=
  clustered radius (pos_adv (report_of k (a_model (adv_at oc s k)))).
Definition contributed_der (oc : nat) (s : adv_state NetT CtlT RV) (k : nat) : list vec :=
  let d := clustered radius (der_adv (report_of k (a_model (adv_at oc s k)))) in d ++ perturb k d.
End Histories.
