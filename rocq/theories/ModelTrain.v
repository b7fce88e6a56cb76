(** The training loops (neural_network_lyapunov/train_lyapunov_barrier.py and the
    sample buffers of train_value.py).

    The parameters of the Lyapunov network and of the controller are values of
    arbitrary types; an optimiser overwrites them in place.  The variables of R live
    in memory cells, because the code replaces the tensor that R_options holds: the
    optimiser keeps the cell it was given.  What the optimiser, the random split and
    the solver do is given by arbitrary functions of a time stamp. *)

Require Import Reals List Bool Arith.
Require Import Verif.Vec.
Import ListNotations.
Open Scope R_scope.

(** ** Sample lists *)

(** [l[-k:]]. *)
Definition slice_last {A : Type} (k : nat) (l : list A) : list A :=
  if Nat.eqb k 0 then l else skipn (length l - k) l.
(** train_adversarial, lines 1318-1329; total_loss, lines 797-815. *)
Definition trim {A : Type} (k : nat) (l : list A) : list A :=
  if Nat.ltb k (length l) then slice_last k l else l.

(** train_value.py: a buffer drops as many old samples as new ones arrive once it would overflow
    (AdversarialWithBaseline.train). *)
Definition buffer_push {A : Type} (max : nat) (new old : list A) : list A :=
  (if Nat.ltb max (length new + length old) then skipn (length new) old else old) ++ new.

(** _cluster_adversarial_states, lines 1453-1490. *)
Definition dist2 (a b : vec) : R := dot (vsub a b) (vsub a b).
(** For i = 0, 1, ...: is state i+1 further than the radius from state i? *)
Fixpoint jumps (radius : R) (prev : vec) (l : list vec) : list bool :=
  match l with [] => [] | x :: r => Rltb (radius * radius) (dist2 x prev) :: jumps radius x r end.
(** Selection by a mask, and the selected indices (counted from [i]). *)
Fixpoint select {A : Type} (mask : list bool) (l : list A) : list A :=
  match mask, l with
  | b :: m, x :: r => if b then x :: select m r else select m r
  | _, _ => []
  end.
Definition cluster (radius : R) (states : list vec) : list vec * list nat :=
  match states with
  | [] => ([], [])
  | s0 :: rest =>
    let mask := jumps radius s0 rest in
    let n := length states in
    let index := map S (select mask (seq 0 (n - 1))) in
    let repetition := map2 Nat.sub (tl index) (removelast index) in
    (s0 :: select mask rest,
     match repetition with
     | [] => [n]
     | _ => [hd O index] ++ repetition ++ [n - last index O]%nat
     end)
  end.

(** ** The model that is trained *)

Section Trainer.
Variables (NetT CtlT RV : Type).

Record model := mkModel {
  net : NetT;
  ctl : CtlT;
  rcell : nat;            (* R_options._variables *)
  memory : nat -> RV;
  next_cell : nat         (* the first cell that is free *)
}.
Definition r_value (m : model) : RV := memory m (rcell m).
Definition write (c : nat) (v : RV) (mem : nat -> RV) (c' : nat) : RV :=
  if Nat.eqb c' c then v else mem c'.

Record setting := mkSetting {
  is_feedback : bool;          (* the system is a FeedbackSystem *)
  search_controller : bool;
  fixed_R : bool
}.
Variable cfg : setting.

(** What one call of optimizer.step writes, see _training_params, lines 870-887: the
    network, the controller of a feedback system when it is searched for, and the
    variables of R, in the cell [oc] that the optimiser was created with. *)
Definition opt_step (oc : nat) (new : NetT * CtlT * RV) (m : model) : model :=
  let '(n, c, r) := new in
  mkModel n (if is_feedback cfg && search_controller cfg then c else ctl m) (rcell m)
    (if fixed_R cfg then memory m else write oc r (memory m)) (next_cell m).

(** _get_current_training_params, lines 1107-1122. *)
Record saved := mkSaved { s_net : NetT; s_ctl : CtlT; s_R : RV }.
Definition get_params (m : model) : saved := mkSaved (net m) (ctl m) (r_value m).
(** _set_training_params, lines 1124-1134.  load_state_dict writes in place; R gets a
    new tensor. *)
Definition set_params (s : saved) (m : model) : model :=
  let m := mkModel (s_net s) (ctl m) (rcell m) (memory m) (next_cell m) in
  let m := if fixed_R cfg then m
           else mkModel (net m) (ctl m) (next_cell m) (write (next_cell m) (s_R s) (memory m)) (S (next_cell m)) in
  if is_feedback cfg then mkModel (net m) (s_ctl s) (rcell m) (memory m) (next_cell m) else m.

(** The positivity and the derivative loss on the given samples. *)
Variable sample_loss : NetT -> CtlT -> RV -> R * R.
Definition losses (m : model) : R * R := sample_loss (net m) (ctl m) (r_value m).
Definition total (m : model) : R := fst (losses m) + snd (losses m).
(** The optimiser: what it writes during the t-th epoch (all batches together). *)
Variable opt : nat -> model -> NetT * CtlT * RV.

(** _batch_descent_on_samples, lines 1136-1230: [n] epochs remain. *)
Fixpoint epochs (oc n t : nat) (best : R) (best_params : saved) (m : model) : model :=
  match n with
  | O => set_params best_params m
  | S n =>
    let m := opt_step oc (opt t m) m in
    let (lp, ld) := losses m in
    if (if Req_EM_T lp 0 then true else false) && (if Req_EM_T ld 0 then true else false) then m
    else if Rltb (lp + ld) best then epochs oc n (S t) (lp + ld) (get_params m) m
    else epochs oc n (S t) best best_params m
  end.
Definition batch_descent (oc n t : nat) (m : model) : model :=
  epochs oc n t (total m) (get_params m) m.

(** train_lyapunov_on_samples, lines 992-1080: only the networks are kept and
    restored.  [None]: no epoch, UnboundLocalError. *)
Variable test_loss : NetT -> CtlT -> RV -> R.
Definition test_of (m : model) : R := test_loss (net m) (ctl m) (r_value m).
Fixpoint sample_epochs (oc n t : nat) (best : option (R * NetT * CtlT)) (m : model) : option model :=
  match n with
  | O =>
    match best with
    | None => None
    | Some (_, bn, bc) =>
      Some (mkModel bn (if is_feedback cfg then bc else ctl m) (rcell m) (memory m) (next_cell m))
    end
  | S n =>
    let m := opt_step oc (opt t m) m in
    let l := test_of m in
    let better := match best with None => true | Some (b, _, _) => Rltb l b end in
    sample_epochs oc n (S t) (if better then Some (l, net m, ctl m) else best) m
  end.
Definition train_on_samples (n : nat) (m : model) : option model :=
  sample_epochs (rcell m) n O None m.
End Trainer.

Arguments mkModel {NetT CtlT RV}. Arguments net {NetT CtlT RV}. Arguments ctl {NetT CtlT RV}.
Arguments rcell {NetT CtlT RV}. Arguments memory {NetT CtlT RV}. Arguments next_cell {NetT CtlT RV}.
Arguments r_value {NetT CtlT RV}. Arguments write {RV}. Arguments opt_step {NetT CtlT RV}.
Arguments mkSaved {NetT CtlT RV}. Arguments s_net {NetT CtlT RV}. Arguments s_ctl {NetT CtlT RV}.
Arguments s_R {NetT CtlT RV}. Arguments get_params {NetT CtlT RV}. Arguments set_params {NetT CtlT RV}.
Arguments losses {NetT CtlT RV}. Arguments total {NetT CtlT RV}. Arguments epochs {NetT CtlT RV}.
Arguments batch_descent {NetT CtlT RV}. Arguments test_of {NetT CtlT RV}.
Arguments sample_epochs {NetT CtlT RV}. Arguments train_on_samples {NetT CtlT RV}.

(** ** Training with the solver in the loop *)

(** What the two solve_*_mip methods return, lines 324-468: the objective value and
    the adversarial states. *)
Record report := mkReport { pos_obj : R; pos_adv : list vec; der_obj : R; der_adv : list vec }.

(** utils.py 1163-1185: with the callback, optimize stops at the first incumbent
    above the threshold; [incumbents] are those seen at the nodes, [optimum] is the
    value when the search runs to the end. *)
Definition optimize (threshold : option R) (incumbents : list R) (optimum : R) : R :=
  match threshold with
  | None => optimum
  | Some t => match find (fun v => Rltb t v) incumbents with Some v => v | None => optimum end
  end.

Section Adversarial.
Variables (NetT CtlT RV : Type).
Variable cfg : setting.
Variable sample_loss : list vec -> list vec -> NetT -> CtlT -> RV -> R * R.
Variable opt : nat -> nat -> model NetT CtlT RV -> NetT * CtlT * RV.
Variable solver : nat -> NetT -> CtlT -> RV -> report.
Variable radius : option R.                     (* None: infinite, no clustering *)
Variable perturb : nat -> list vec -> list vec. (* the additional perturbed states *)
Variables (pos_size der_size num_epochs : nat) (pos_tol der_tol : R).

Record adv_state := mkAdv { a_model : model NetT CtlT RV; a_pos : list vec; a_der : list vec }.

Definition clustered (l : list vec) : list vec :=
  match radius with None => l | Some r => fst (cluster r l) end.

(** One pass through the loop of train_adversarial, lines 1262-1357: solve, extend the
    sample sets, and (unless verified) descend.  [oc]: the cell of R's variables in
    [training_params], computed once on line 1261. *)
Definition solve_and_collect (k : nat) (s : adv_state) : report * adv_state :=
  let m := a_model s in
  let r := solver k (net m) (ctl m) (r_value m) in
  let pos := clustered (pos_adv r) in
  let der := clustered (der_adv r) in
  let der := der ++ perturb k der in
  (r, mkAdv m (trim pos_size (a_pos s ++ pos)) (trim der_size (a_der s ++ der))).
Definition descend (oc k : nat) (s : adv_state) : adv_state :=
  mkAdv (batch_descent cfg (sample_loss (a_pos s) (a_der s)) (opt k) oc num_epochs O (a_model s))
    (a_pos s) (a_der s).
Fixpoint adversarial (oc n k : nat) (s : adv_state) : bool * adv_state :=
  match n with
  | O => (false, s)
  | S n =>
    let (r, s) := solve_and_collect k s in
    if Rltb (pos_obj r) pos_tol && Rltb (der_obj r) der_tol then (true, s)
    else adversarial oc n (S k) (descend oc k s)
  end.
Definition train_adversarial (max_iterations : nat) (m : model NetT CtlT RV) (pos der : list vec)
  : bool * adv_state :=
  adversarial (rcell m) max_iterations O (mkAdv m pos der).

(** train, lines 889-990, without the sample lists, which only enter the loss that
    the optimiser sees.  The result: the verdict, the two reported objectives and the
    model; [None]: max_iterations is 0, UnboundLocalError. *)
Variable step : nat -> model NetT CtlT RV -> NetT * CtlT * RV.
Fixpoint train_loop (oc n k : nat) (last : option report) (m : model NetT CtlT RV)
  : option (bool * R * R * model NetT CtlT RV) :=
  match n with
  | O => match last with
         | None => None
         | Some r => Some (false, pos_obj r, der_obj r, m)
         end
  | S n =>
    let r := solver k (net m) (ctl m) (r_value m) in
    if Rleb (pos_obj r) pos_tol && Rleb (der_obj r) der_tol
    then Some (true, pos_obj r, der_obj r, m)
    else train_loop oc n (S k) (Some r) (opt_step cfg oc (step k m) m)
  end.
Definition train (max_iterations : nat) (m : model NetT CtlT RV) :=
  train_loop (rcell m) max_iterations O None m.
End Adversarial.

Arguments mkAdv {NetT CtlT RV}. Arguments a_model {NetT CtlT RV}. Arguments a_pos {NetT CtlT RV}.
Arguments a_der {NetT CtlT RV}. Arguments solve_and_collect {NetT CtlT RV}. Arguments descend {NetT CtlT RV}.
Arguments adversarial {NetT CtlT RV}. Arguments train_adversarial {NetT CtlT RV}.
Arguments train_loop {NetT CtlT RV}. Arguments train {NetT CtlT RV}.

(** The samples of total_loss, lines 787-815: the lists after the adversarial states
    were appended, and the part of them that enters the loss. *)
Record pools := mkPools { p_pos : list vec; p_der : list vec; p_next : list vec }.
Definition extend_pools (add_pos add_der : bool) (pos_new der_new next_new : option (list vec))
  (p : pools) : pools :=
  let pos := match pos_new with Some l => if add_pos then p_pos p ++ l else p_pos p | None => p_pos p end in
  match der_new, next_new with
  | Some d, Some e => if add_der then mkPools pos (p_der p ++ d) (p_next p ++ e)
                      else mkPools pos (p_der p) (p_next p)
  | _, _ => mkPools pos (p_der p) (p_next p)
  end.
Definition used_pools (size : nat) (p : pools) : pools :=
  mkPools (trim size (p_pos p)) (trim size (p_der p))
    (if Nat.ltb size (length (p_der p)) then slice_last size (p_next p) else p_next p).
