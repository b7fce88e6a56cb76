(** The properties of fitting a network to a data set (C90).

    The output function, the optimiser and the random orders are arbitrary; the outputs have
    the shape of the targets. *)

Require Import Reals List Bool Arith Permutation.
Require Import Verif.Vec Verif.ModelFit Verif.SpecFit Verif.ProofFit.
Import ListNotations.
Open Scope R_scope.

(** C90.  The data set is divided; in each epoch every training example is presented once,
    in batches of the given size; the result is the optimiser applied to these batches, and
    the printed lines are as described in [report]. *)
Theorem C90_fit_partial : forall (X P E A : Type) (output_fun : P -> E -> list X -> list vec)
    (adam : P * E * A -> list (X * vec) -> P * E * A) (additional verbose refuses : bool) (data : list (X * vec))
    batch_size num_epochs split order s,
  (2 <= length data)%nat -> (0 < batch_size)%nat ->
  reorders (length data) split -> (forall e, reorders (4 * length data / 5) (order e)) ->
  (forall p e (b : list (X * vec)), incl b data ->
     length (concat (output_fun p e (map fst b))) = length (concat (map snd b))) ->
  exists train_set test_set epochs,
    Permutation (train_set ++ test_set) data /\
    length train_set = (4 * length data / 5)%nat /\ test_set <> [] /\
    length epochs = num_epochs /\ Forall (one_pass batch_size train_set) epochs /\
    train_approximator output_fun adam additional verbose refuses data batch_size num_epochs split order s
    = FitDone (fold_left (sgd adam additional) (concat epochs) s)
        (if verbose then report (sgd adam additional)
           (fun s b => mean_square (output_fun (fst (fst s)) (snd (fst s)) (map fst b)) (map snd b)) test_set s epochs
         else []).
Proof. exact fit_ok. Qed.
Print Assumptions C90_fit_partial.
(** The examples held back for the test have no influence on the result. *)
Theorem C90_test_unseen : forall (X P E A : Type) (output_fun : P -> E -> list X -> list vec)
    (adam : P * E * A -> list (X * vec) -> P * E * A) additional verbose refuses (data data' : list (X * vec))
    k n split order s s1 l1,
  length data' = length data ->
  (forall i, In i (firstn (4 * length data / 5) split) -> nth_error data' i = nth_error data i) ->
  train_approximator output_fun adam additional verbose refuses data k n split order s = FitDone s1 l1 ->
  exists l2, train_approximator output_fun adam additional verbose refuses data' k n split order s = FitDone s1 l2.
Proof. exact fit_test_unseen. Qed.
Print Assumptions C90_test_unseen.
(** Variables that are not given are not changed. *)
Theorem C90_variables : forall (P E A B : Type) (adam : P * E * A -> B -> P * E * A) bs s,
  snd (fst (fold_left (sgd adam false) bs s)) = snd (fst s).
Proof. exact sgd_keeps. Qed.
Print Assumptions C90_variables.
(** A data set of one example cannot be fitted: the call raises, or, when nothing is printed
    and the loader accepts an empty set, does nothing. *)
Theorem C90_single_refuted : forall (X P E A : Type) (output_fun : P -> E -> list X -> list vec)
    (adam : P * E * A -> list (X * vec) -> P * E * A) additional refuses d k n order s,
  (0 < k)%nat -> (0 < n)%nat -> (forall e, reorders 0 (order e)) ->
  (exists err, train_approximator output_fun adam additional true refuses [d] k n [O] order s = FitRaised err) /\
  train_approximator output_fun adam additional false false [d] k n [O] order s = FitDone s [].
Proof. exact fit_single. Qed.
Print Assumptions C90_single_refuted.
(** The training loss that is printed is not the loss over the training examples, even when
    the optimiser changes nothing: a last batch that is smaller weighs as much as the others. *)
Theorem C90_training_loss_refuted : exists data split order s s1 r t,
  reorders (length data) split /\ (forall e, reorders (4 * length data / 5) (order e)) /\
  (forall p e b, incl b data -> length (concat (ex_out p e (map fst b))) = length (concat (map snd b))) /\
  train_approximator ex_out ex_adam false true false data 2 1 split order s = FitDone s1 [(r, t)] /\ s1 = s /\
  r <> mean_square (ex_out (fst (fst s)) (snd (fst s)) (map fst (firstn 3 data))) (map snd (firstn 3 data)) /\
  split = seq 0 (length data) /\ (4 * length data / 5)%nat = 3%nat.
Proof. exact training_loss_differs. Qed.
Print Assumptions C90_training_loss_refuted.
Example C90_case : (reorders (length ex_data) [0; 1; 2; 3]%nat /\ reorders (4 * length ex_data / 5) [0; 1; 2]%nat /\
  (forall p e b, incl b ex_data -> length (concat (ex_out p e (map fst b))) = length (concat (map snd b)))) /\
  train_approximator ex_out ex_adam false true false ex_data 2 1 [0; 1; 2; 3]%nat (fun _ => [0; 1; 2]%nat)
    (0, 0, tt) = FitDone (0, 0, tt) [(1 / 2, 4)].
Proof. exact (conj ex_fit ex_printed). Qed.
