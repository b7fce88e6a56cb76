(** Model of the search direction of LineSearchAdam — /repo/neural_network_lyapunov/line_search_adam.py
    lines 114-190.  The line search itself is in ModelOptim.

    A parameter, its gradient and its averages are flat vectors.  Dividing by zero gives NaN: a direction with
    such an entry is [None].  The options of a group do not change between steps (so max_exp_avg_sq is there
    whenever it is looked up); sparse gradients are left out. *)

Require Import Reals List Bool Arith.
Require Import Verif.Vec Verif.ModelOptim.
Import ListNotations.
Open Scope R_scope.

(** The options of a parameter group (58-66). *)
Record adam_group := mkGroup {
  ag_lr : R; ag_beta1 : R; ag_beta2 : R; ag_eps : R; ag_decay : R; ag_ams : bool;
  ag_c : option R; ag_least : R; ag_reduction : R; ag_improvement : R }.
(** self.state[p]: step, exp_avg, exp_avg_sq, max_exp_avg_sq (134-147). *)
Record adam_state := mkAdam { as_step : nat; as_avg : vec; as_sq : vec; as_max : vec }.
(** A parameter with its gradient, [None] if it has none, and its state, [None] while it is empty. *)
Record parameter := mkParam { pa_value : vec; pa_grad : option vec; pa_state : option adam_state }.

(** State initialization (133-147). *)
Definition state_of (p : parameter) : adam_state :=
  match pa_state p with
  | Some s => s
  | None => let z := zeros (length (pa_value p)) in mkAdam 0 z z z
  end.

Definition divide (a b : R) : option R := if Req_EM_T b 0 then None else Some (a / b).
(** -torch.div(exp_avg, denom) (178). *)
Definition direction (avg denom : vec) : option vec :=
  match all_some (map2 divide avg denom) with Some d => Some (vscale (-1) d) | None => None end.

(** The body of the loop (126-178) for a parameter with gradient [g]: the parameter afterwards, the step size and
    the direction.  grad is p.grad.data, so the weight decay is added to the parameter's own gradient (156-157). *)
Definition adam_param (o : adam_group) (p : parameter) (g0 : vec) : parameter * R * option vec :=
  let s := state_of p in
  let step := S (as_step s) in
  let bias1 := 1 - ag_beta1 o ^ step in
  let bias2 := 1 - ag_beta2 o ^ step in
  let g := if Req_EM_T (ag_decay o) 0 then g0 else vadd g0 (vscale (ag_decay o) (pa_value p)) in
  let avg := vadd (vscale (ag_beta1 o) (as_avg s)) (vscale (1 - ag_beta1 o) g) in
  let sq := vadd (vscale (ag_beta2 o) (as_sq s)) (vscale (1 - ag_beta2 o) (map2 Rmult g g)) in
  let mx := if ag_ams o then map2 Rmax (as_max s) sq else as_max s in
  let used := if ag_ams o then mx else sq in
  let denom := map (fun v => sqrt v / sqrt bias2 + ag_eps o) used in
  (mkParam (pa_value p) (Some g) (Some (mkAdam step avg sq mx)), ag_lr o / bias1, direction avg denom).

(** The two loops of step_direction (121-179): the groups afterwards, and for every parameter with a gradient the
    parameter, its step size and its direction. *)
Definition adam_group_step (o : adam_group) (ps : list parameter) : list (parameter * option (R * option vec)) :=
  map (fun p => match pa_grad p with
                | None => (p, None)
                | Some g => let '(p', t, d) := adam_param o p g in (p', Some (t, d))
                end) ps.
Fixpoint found (l : list (parameter * option (R * option vec))) : list (parameter * R * option vec) :=
  match l with
  | [] => []
  | (_, None) :: l' => found l'
  | (p, Some (t, d)) :: l' => (p, t, d) :: found l'
  end.
Definition step_direction (groups : list (adam_group * list parameter)) :
    list (adam_group * list parameter) * list (parameter * R * option vec) :=
  let done := map (fun gr => (fst gr, adam_group_step (fst gr) (snd gr))) groups in
  (map (fun gr => (fst gr, map fst (snd gr))) done, concat (map (fun gr => found (snd gr)) done)).

(** step (182-187) with the options line_search takes from the last group (80-84).  [None]: NaN in a direction, or no
    group at all, in which case the names of 81-84 are unbound.  The gradient of a listed parameter is p.grad, read
    after step_direction. *)
Definition last_group (groups : list (adam_group * list parameter)) : option adam_group :=
  match rev groups with [] => None | (o, _) :: _ => Some o end.
Definition grads_of (l : list (parameter * R * option vec)) : list vec :=
  map (fun x => match pa_grad (fst (fst x)) with Some g => g | None => [] end) l.
Definition adam_step (fuel : nat) (closure : nat -> list vec -> R) (groups : list (adam_group * list parameter)) (loss0 : R) :
    option searched :=
  let found := snd (step_direction groups) in
  match last_group groups, all_some (map snd found) with
  | Some o, Some d =>
      Some (adam_search fuel closure (ag_c o) (ag_reduction o) (ag_least o) (ag_improvement o) loss0
              (map (fun x => snd (fst x)) found) (grads_of found) d (map (fun x => pa_value (fst (fst x))) found))
  | _, _ => None
  end.

(** One parameter over several steps: before each the gradient is computed anew ([gs], the earliest first) and after
    each the value is what the line search left ([vs]).  The direction and step size of the last step. *)
Fixpoint adam_run (o : adam_group) (p : parameter) (steps : list (vec * vec)) : parameter * option (R * option vec) :=
  match steps with
  | [] => (p, None)
  | (v, g) :: rest =>
      let '(p', t, d) := adam_param o (mkParam v (pa_grad p) (pa_state p)) g in
      match rest with
      | [] => (p', Some (t, d))
      | _ => adam_run o p' rest
      end
  end.
