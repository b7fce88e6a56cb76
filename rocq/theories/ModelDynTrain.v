(** Model of the training loop of /repo/neural_network_lyapunov/dynamics_learning.py
    (DynamicsLearning.train, save and load of the two learners).

    The loop is a sequence of operations; a KeyboardInterrupt or a crash may come between
    any two of them.  Parameters, gradients and losses are abstract: [w_gdyn b p] is the
    gradient of the dynamics loss and the losses at samples of a batch, [w_glyap b p] the
    gradient of the Lyapunov losses found by optimisation with the thresholds of the
    batch, [w_step] one step of Adam (whose state is part of the parameters) with the
    accumulated gradients; [None] is a raised exception. *)

Require Import Reals List Bool Arith ZArith.
Require Import Verif.Vec Verif.ModelLyapunov Verif.ModelDynLearn.
Import ListNotations.

(** What the writer logs: the name and the iteration (lines 96-102). *)
Inductive entry := EDynamics (n : nat) | ELyapunov (n : nat) | EValidation (n : nat).

(** What the loop runs with: parameters, gradients, batches, saved objects and devices;
    the losses and the optimizer; the networks of the parameters and the decoded
    equilibrium; whether the validation of an epoch goes through; the batches of the
    train_dataloader in each epoch. *)
Record world := mkWorld {
  w_P : Type; w_G : Type; w_B : Type; w_obj : Type; w_dev : Type;
  w_cpu : w_dev;
  w_gdyn : w_B -> w_P -> option w_G; w_glyap : w_B -> w_P -> option w_G;
  w_step : list w_G -> w_P -> w_P;
  w_lyap : w_P -> w_obj; w_enc : w_P -> w_obj; w_dec : w_P -> w_obj; w_eq : w_obj;
  w_validates : nat -> w_P -> bool;
  w_loader : nat -> list w_B }.

Section Train.
Variable w : world.

(** The files of save_path: [None] no file, else the objects written to it with the
    device they were on. *)
Definition file := option (list (w_dev w * w_obj w)).
Record tstate := mkT {
  s_par : w_P w; s_grad : list (w_G w); s_lyap_dev : w_dev w; s_coder_dev : w_dev w;
  s_iter : nat; s_opt : bool; s_file : file; s_log : list entry }.

Record train_opt := mkTrain {
  r_latent : bool;  (* LatentSpaceDynamicsLearning *)
  r_epochs : nat; r_validate : bool; r_device : w_dev w;
  r_save_rate : Z; r_path : bool; (* save_path is not None *)
  r_freq : Z (* lyap_loss_freq *) }.
Variable cfg : train_opt.

Inductive op :=
  | OpZero | OpBack (b : w_B w) | OpLyapBack (b : w_B w) | OpStep | OpLog (e : nat -> entry)
  | OpLyapTo (d : w_dev w) | OpAllTo (d : w_dev w) | OpIter | OpValidate (e : nat) | OpAssertPath
  | OpOpen | OpDump (k : nat).

Definition lyap_to (d : w_dev w) (s : tstate) : tstate :=
  mkT (s_par s) (s_grad s) d (s_coder_dev s) (s_iter s) (s_opt s) (s_file s) (s_log s).
(** all_to_device — lines 532-536, 664-672. *)
Definition all_to (d : w_dev w) (s : tstate) : tstate :=
  mkT (s_par s) (s_grad s) d (if r_latent cfg then d else s_coder_dev s) (s_iter s) (s_opt s) (s_file s) (s_log s).
Definition set_par (p : w_P w) (s : tstate) : tstate :=
  mkT p (s_grad s) (s_lyap_dev s) (s_coder_dev s) (s_iter s) (s_opt s) (s_file s) (s_log s).
Definition set_grad (g : list (w_G w)) (s : tstate) : tstate :=
  mkT (s_par s) g (s_lyap_dev s) (s_coder_dev s) (s_iter s) (s_opt s) (s_file s) (s_log s).
Definition set_file (f : file) (s : tstate) : tstate :=
  mkT (s_par s) (s_grad s) (s_lyap_dev s) (s_coder_dev s) (s_iter s) (s_opt s) f (s_log s).

(** The k-th object of a saved file — lines 538-547, 669-682. *)
Definition dumped (k : nat) (s : tstate) : w_dev w * w_obj w :=
  match k with
  | 0%nat => (s_lyap_dev s, w_lyap w (s_par s))
  | 1%nat => (s_coder_dev s, w_enc w (s_par s))
  | 2%nat => (s_coder_dev s, w_dec w (s_par s))
  | _ => (s_coder_dev s, w_eq w)
  end.

Definition exec (o : op) (s : tstate) : option tstate :=
  match o with
  | OpZero => Some (set_grad [] s)
  | OpBack b => match w_gdyn w b (s_par s) with Some g => Some (set_grad (s_grad s ++ [g]) s) | None => None end
  | OpLyapBack b => match w_glyap w b (s_par s) with Some g => Some (set_grad (s_grad s ++ [g]) s) | None => None end
  | OpStep => Some (set_par (w_step w (s_grad s) (s_par s)) s)
  | OpLog e => Some (mkT (s_par s) (s_grad s) (s_lyap_dev s) (s_coder_dev s) (s_iter s) (s_opt s) (s_file s)
                       (s_log s ++ [e (s_iter s)]))
  | OpLyapTo d => Some (lyap_to d s)
  | OpAllTo d => Some (all_to d s)
  | OpIter => Some (mkT (s_par s) (s_grad s) (s_lyap_dev s) (s_coder_dev s) (S (s_iter s)) (s_opt s) (s_file s) (s_log s))
  | OpValidate e => if w_validates w e (s_par s) then Some s else None
  | OpAssertPath => if r_path cfg then Some s else None
  | OpOpen => Some (set_file (Some []) s)
  | OpDump k => Some (set_file (match s_file s with
                                | Some l => Some (l ++ [dumped k s])
                                | None => Some [dumped k s]
                                end) s)
  end.

(** save — lines 538-547, 669-682: opening for writing empties the file; the objects
    follow one by one (simplified: an object is written at once). *)
Definition save_ops : list op :=
  OpOpen :: OpDump 0 :: (if r_latent cfg then [OpDump 1; OpDump 2; OpDump 3] else []).

(** One batch — lines 421-472; [n] is n_iter. *)
Definition lyap_due (n : nat) : bool := Z.ltb 0 (r_freq cfg) && Z.eqb (Z.of_nat n mod r_freq cfg) 0.
Definition batch_ops (n : nat) (b : w_B w) : list op :=
  [OpZero; OpBack b; OpStep; OpLog EDynamics] ++
  (if lyap_due n then
     [OpZero; OpLyapTo (w_cpu w); OpLyapBack b; OpLyapTo (r_device cfg); OpStep; OpLog ELyapunov]
   else []) ++ [OpIter].
Fixpoint batches_ops (n : nat) (bs : list (w_B w)) : list op :=
  match bs with [] => [] | b :: bs' => batch_ops n b ++ batches_ops (S n) bs' end.

(** One epoch — lines 418-506. *)
Definition epoch_ops (e n : nat) : list op :=
  batches_ops n (w_loader w e) ++
  (if r_validate cfg then [OpValidate e; OpLog EValidation] else []) ++
  (if Z.ltb 0 (r_save_rate cfg) && Z.eqb (Z.of_nat e mod r_save_rate cfg) 0 then OpAssertPath :: save_ops else []).
Fixpoint epochs_ops (left e n : nat) : list op :=
  match left with
  | 0%nat => []
  | S l => epoch_ops e n ++ epochs_ops l (S e) (n + length (w_loader w e))
  end.
(** After the loop — lines 507-511. *)
Definition final_ops : list op := OpAllTo (w_cpu w) :: (if r_path cfg then save_ops else []).

(** Running operations; an interrupt comes before operation number [k]. *)
Inductive ending := Completed | Stopped | Raised.
Fixpoint run (k : nat) (ops : list op) (s : tstate) {struct ops} : ending * tstate :=
  match ops with
  | [] => (Completed, s)
  | o :: ops' =>
      match k with
      | 0%nat => (Stopped, s)
      | S k' => match exec o s with Some s' => run k' ops' s' | None => (Raised, s) end
      end
  end.
Definition run_all (ops : list op) (s : tstate) : ending * tstate := run (length ops) ops s.

(** The state when the loop starts — lines 413-416, and reset_optimizer, lines 67-82. *)
Definition started (s : tstate) : tstate :=
  let s' := all_to (r_device cfg) s in
  if s_opt s' then s'
  else mkT (s_par s') (s_grad s') (s_lyap_dev s') (s_coder_dev s') 0 true (s_file s') (s_log s').
Definition loop_ops (s : tstate) : list op := epochs_ops (r_epochs cfg) 0 (s_iter (started s)).

(** train — lines 394-511, with a KeyboardInterrupt before operation [k] of the loop
    (none when the loop is shorter).  [None] is a raised exception. *)
Definition train (k : nat) (s : tstate) : option tstate * tstate :=
  match run k (loop_ops s) (started s) with
  | (Raised, s') => (None, s')
  | (_, s') =>
      match run_all final_ops s' with
      | (Completed, s'') => (Some s'', s'')
      | (_, s'') => (None, s'')
      end
  end.

(** The process is killed after [m] operations. *)
Definition killed (m : nat) (s : tstate) : tstate :=
  snd (run m (loop_ops s ++ final_ops) (started s)).

(** load — lines 549-560, 684-704: the objects in the order of the file. *)
Definition load (f : file) : option (list (w_dev w * w_obj w)) :=
  match f with
  | None => None
  | Some l =>
      if r_latent cfg
      then match l with a :: b :: c :: d :: _ => Some [a; b; c; d] | _ => None end
      else match l with a :: _ => Some [a] | _ => None end
  end.
End Train.
Arguments mkT {w}. Arguments s_par {w}. Arguments s_grad {w}. Arguments s_lyap_dev {w}. Arguments s_coder_dev {w}.
Arguments s_iter {w}. Arguments s_opt {w}. Arguments s_file {w}. Arguments s_log {w}.
Arguments mkTrain {w}. Arguments r_latent {w}. Arguments r_epochs {w}. Arguments r_validate {w}. Arguments r_device {w}.
Arguments r_save_rate {w}. Arguments r_path {w}. Arguments r_freq {w}.
Arguments lyap_to {w}. Arguments all_to {w}. Arguments set_par {w}. Arguments set_grad {w}. Arguments set_file {w}.
Arguments dumped {w}. Arguments exec {w}. Arguments save_ops {w}. Arguments lyap_due {w}. Arguments batch_ops {w}.
Arguments batches_ops {w}. Arguments epoch_ops {w}. Arguments epochs_ops {w}. Arguments final_ops {w}. Arguments run {w}.
Arguments run_all {w}. Arguments started {w}. Arguments loop_ops {w}. Arguments train {w}. Arguments killed {w}. Arguments load {w}.

(** ** The validation of an epoch — lines 473-503 *)
Open Scope R_scope.
Definition add4 (a b : R * R * R * R) : R * R * R * R :=
  let '(a1, a2, a3, a4) := a in let '(b1, b2, b3, b4) := b in (a1 + b1, a2 + b2, a3 + b3, a4 + b4).
Definition scale4 (c : R) (a : R * R * R * R) : R * R * R * R :=
  let '(a1, a2, a3, a4) := a in (c * a1, c * a2, c * a3, c * a4).
(** The losses of one batch. *)
Definition batch_losses (L : learner) (b : list vec * list vec) : option (R * R * R * R) :=
  match dynamics_loss L (fst b) (snd b), sample_losses L (fst b) with
  | Some d, Some (a1, a2, a3) => Some (d, a1, a2, a3)
  | _, _ => None
  end.
Fixpoint validation_sums (L : learner) (bs : list (list vec * list vec)) : option (R * R * R * R * nat) :=
  match bs with
  | [] => Some (0, 0, 0, 0, 0%nat)
  | b :: bs' =>
      match batch_losses L b, validation_sums L bs' with
      | Some q, Some (q', n) => Some (add4 (scale4 (INR (length (fst b))) q) q', (length (fst b) + n)%nat)
      | _, _ => None
      end
  end.
(** an empty dataloader divides zero by zero. *)
Definition validation_losses (L : learner) (bs : list (list vec * list vec)) : option (R * R * R * R) :=
  match validation_sums L bs with
  | Some (q, S n) => Some (scale4 (/ INR (S n)) q)
  | _ => None
  end.
