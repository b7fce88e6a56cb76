(** Fitting a network to a data set: neural_network_lyapunov/utils.py, train_approximator
    (1269-1322).

    Inputs are of any type, targets are vectors.  What the optimiser changes has three
    parts: the parameters of the model, the additional variables, and the moments of Adam,
    all of any type; its step is an arbitrary function of these and of the batch.  The two
    random choices, the split and the order in each epoch, are given as lists of indices.
    extract_relu_parameters (1321) only reads the model and its results are dropped: it is
    left out. *)

Require Import Reals List Bool Arith.
Require Import Verif.Vec.
Import ListNotations.
Open Scope R_scope.

Inductive fit_error := BadValue | DivisionByZero.

Section Fit.
Variables (X P E A : Type).
Notation example := (X * vec)%type.
(** Parameters, additional variables, moments. *)
Notation learner := (P * E * A)%type.

(** The line printed after an epoch: training loss and test loss (1317-1320). *)
Notation line := (R * R)%type.
Inductive fit_result := FitRaised (e : fit_error) | FitDone (s : learner) (printed : list line).

(** output_fun(model, input_samples, ...): a row for each input. *)
Variable output_fun : P -> E -> list X -> list vec.
(** optimizer.zero_grad, backward, optimizer.step for a batch. *)
Variable adam : learner -> list example -> learner.
(** additional_variable is not None (1293-1295). *)
Variable additional : bool.
Variable verbose : bool.
(** Whether RandomSampler refuses an empty data set (it depends on the version of torch). *)
Variable refuses_empty : bool.

(** torch.nn.MSELoss (1296): the mean over all entries. *)
Definition mse (output target : list vec) : R :=
  let e := vsub (concat output) (concat target) in dot e e / INR (length e).
(** Lines 1305-1307 and 1313-1315. *)
Definition loss_on (s : learner) (b : list example) : R :=
  mse (output_fun (fst (fst s)) (snd (fst s)) (map fst b)) (map snd b).

(** Lines 1303-1309.  The variables are optimised when they are given. *)
Definition fit_step (s : learner) (b : list example) : learner :=
  let s' := adam s b in
  (fst (fst s'), if additional then snd (fst s') else snd (fst s), snd s').

(** The examples of a list of indices; an index out of range cannot occur. *)
Definition fetch (data : list example) (index : list nat) : list example :=
  flat_map (fun i => match nth_error data i with Some d => [d] | None => [] end) index.

(** The batches of a DataLoader: [k] at a time, the last one may be smaller. *)
Fixpoint chunks (fuel k : nat) (l : list example) : list (list example) :=
  match fuel with
  | O => []
  | S f => match l with [] => [] | _ => firstn k l :: chunks f k (skipn k l) end
  end.
Definition loader (batch_size : nat) (l : list example) : list (list example) := chunks (length l) batch_size l.

(** Lines 1300-1311. *)
Fixpoint one_epoch (s : learner) (running : R) (batches : list (list example)) : learner * R :=
  match batches with
  | [] => (s, running)
  | b :: rest => one_epoch (fit_step s b) (running + loss_on s b) rest
  end.

Section Call.
Variables (train_set test_set : list example) (batch_size : nat) (order : nat -> list nat).
(** Lines 1299-1321: [k] epochs remain. *)
Fixpoint fit_epochs (k epoch : nat) (s : learner) (printed : list line) : fit_result :=
  match k with
  | O => FitDone s printed
  | S k' =>
    let batches := loader batch_size (fetch train_set (order epoch)) in
    let (s', running) := one_epoch s 0 batches in
    let test_loss := loss_on s' test_set in
    if verbose then
      if Nat.eqb (length batches) 0 then FitRaised DivisionByZero
      else fit_epochs k' (S epoch) s' (printed ++ [(running / INR (length batches), test_loss)])
    else fit_epochs k' (S epoch) s' printed
  end.
End Call.

(** train_approximator, lines 1285-1322.  [int(len(dataset) * 0.8)] is 4n/5 rounded down. *)
Definition train_approximator (data : list example) (batch_size num_epochs : nat)
    (split : list nat) (order : nat -> list nat) (s : learner) : fit_result :=
  let train_set_size := (4 * length data / 5)%nat in
  let train_set := fetch data (firstn train_set_size split) in
  let test_set := fetch data (skipn train_set_size split) in
  if Nat.eqb batch_size 0 then FitRaised BadValue
  else if refuses_empty && Nat.eqb train_set_size 0 then FitRaised BadValue
  else fit_epochs train_set test_set batch_size order num_epochs O s [].
End Fit.

Arguments FitRaised {P E A}. Arguments FitDone {P E A}. Arguments mse output target : assert.
Arguments loss_on {X P E A}. Arguments fit_step {X P E A}. Arguments fetch {X}. Arguments chunks {X}.
Arguments loader {X}. Arguments one_epoch {X P E A}. Arguments fit_epochs {X P E A}.
Arguments train_approximator {X P E A}.
