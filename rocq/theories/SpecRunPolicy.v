(** Episodes of a policy in an environment. *)

Require Import Reals List.
Require Import Verif.Vec.
Import ListNotations.
Open Scope R_scope.

Section Episodes.
Variable E : Type.
Variable reset : E -> E * vec.
Variable step : E -> vec -> E * vec * R * bool.
Variable policy : vec -> vec.
(** One step: action, observation, reward, whether the environment says it is over. *)
Definition entry := (vec * vec * R * bool)%type.
Definition act_of (t : entry) : vec := fst (fst (fst t)).
Definition obs_of (t : entry) : vec := snd (fst (fst t)).
Definition rew_of (t : entry) : R := snd (fst t).
Definition over_of (t : entry) : bool := snd t.
(** [k] steps of the policy, and where they lead. *)
Fixpoint follow (k : nat) (e : E) (o : vec) : list entry :=
  match k with O => [] | S k' => let '(e1, o1, r, d) := step e (policy o) in (policy o, o1, r, d) :: follow k' e1 o1 end.
Fixpoint after (k : nat) (e : E) (o : vec) : E * vec :=
  match k with O => (e, o) | S k' => let '(e1, o1, _, _) := step e (policy o) in after k' e1 o1 end.
(** An episode that ends by the environment or by its length, and not before. *)
Definition complete (limit : option nat) (f : list entry) : Prop :=
  (exists pre t, f = pre ++ [t] /\ Forall (fun u => over_of u = false) pre /\ (over_of t = true \/ limit = Some (length f))) /\
  forall m, limit = Some m -> (0 < m)%nat -> (length f <= m)%nat.
(** Complete episodes one after the other, each begun by a reset. *)
Inductive history (limit : option nat) (e : E) : list (list entry) -> E -> Prop :=
| hist_start : history limit e [] e
| hist_next : forall eps e1 e2 o2 k, history limit e eps e1 -> reset e1 = (e2, o2) -> complete limit (follow k e2 o2) ->
    history limit e (eps ++ [follow k e2 o2]) (fst (after k e2 o2)).
End Episodes.
