(** Layer structures and sizes. *)

Require Import Reals List Bool Arith.
Require Import Verif.Vec Verif.ModelNet Verif.SpecNet Verif.ModelParams.
Import ListNotations.
Open Scope R_scope.

(** The number of parameters of a fully connected network. *)
Fixpoint param_count (has_bias : bool) (widths : list nat) : nat :=
  match widths with
  | i :: r =>
    match r with
    | o :: _ => (i * o + (if has_bias then o else 0) + param_count has_bias r)%nat
    | [] => O
    end
  | [] => O
  end.

(** The layers of a network; [net_shape]: every layer fits the one before (also for
    networks without hidden layers). *)
Definition sequential (N : network) : list layer :=
  flat_map (fun la => [LLin (fst la); LAct (snd la)]) (hidden N) ++ [LLin (last_layer N)].
Definition net_shape (n : nat) (N : network) : Prop :=
  hidden_wf n (hidden N) (in_features (last_layer N)) /\ lin_wf (in_features (last_layer N)) (last_layer N).

Definition linears (N : network) : list linear := map fst (hidden N) ++ [last_layer N].
Definition acts (N : network) : list act := map snd (hidden N).
Definition biased (l : linear) : bool := match bias l with Some _ => true | None => false end.
(** Parameters that a network has. *)
Definition net_count (N : network) : nat :=
  list_sum (map (fun l => (in_features l * out_features l + if biased l then out_features l else 0)%nat) (linears N)).
