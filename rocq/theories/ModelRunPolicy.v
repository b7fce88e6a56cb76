(** Model of run_policy — /repo/neural_network_lyapunov/examples/rl/test_policy.py lines 31-59.

    Rendering and the figure are left out.  A while loop need not end: it is run for a number of iterations, and
    None means that it has not come to its end. *)

Require Import Reals List Arith Bool.
Require Import Verif.Vec.
Import ListNotations.
Open Scope R_scope.

Section Run.
Variable E : Type.
Variable reset : E -> E * vec.
Variable step : E -> vec -> E * vec * R * bool.
Variable get_action : vec -> vec.
Variable max_ep_len : option nat.
Variable num_episodes : nat.

(** The local variables (33-35); the lists end with the episode being run.  [rp_printed] are the lines printed (46). *)
Record rp_state := mkRp { rp_env : E; rp_o : vec; rp_ret : R; rp_len : nat; rp_n : nat;
  rp_episodes : list (list vec); rp_actions : list (list vec); rp_printed : list (nat * R * nat) }.
(** episodes[-1].append(o) (43-44). *)
Definition append_last (l : list (list vec)) (v : vec) : list (list vec) := removelast l ++ [last l [] ++ [v]].
(** d or (ep_len == max_ep_len) (45). *)
Definition is_over (d : bool) (len : nat) : bool := orb d (match max_ep_len with Some m => Nat.eqb len m | None => false end).
(** The body of the loop (37-50). *)
Definition rp_body (s : rp_state) : rp_state :=
  let a := get_action (rp_o s) in
  let '(e, o, r, d) := step (rp_env s) a in
  let ret := rp_ret s + r in
  let len := S (rp_len s) in
  let eps := append_last (rp_episodes s) o in
  let acts := append_last (rp_actions s) a in
  if is_over d len
  then let (e2, o2) := reset e in mkRp e2 o2 0 0 (S (rp_n s)) (eps ++ [[]]) (acts ++ [[]]) (rp_printed s ++ [(rp_n s, ret, len)])
  else mkRp e o ret len (rp_n s) eps acts (rp_printed s).
(** while n < num_episodes (36). *)
Fixpoint rp_loop (fuel : nat) (s : rp_state) : option rp_state :=
  match fuel with
  | O => None
  | S f => if Nat.ltb (rp_n s) num_episodes then rp_loop f (rp_body s) else Some s
  end.
Definition run_policy (fuel : nat) (e : E) : option rp_state :=
  let (e0, o) := reset e in rp_loop fuel (mkRp e0 o 0 0 0 [[]] [[]] []).
End Run.
