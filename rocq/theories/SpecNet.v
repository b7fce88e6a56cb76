(** What a network computes, and shapes. *)

Require Import Reals List.
Require Import Verif.Vec Verif.ModelMip Verif.SpecMip Verif.SpecCore Verif.ModelNet.
Import ListNotations.
Open Scope R_scope.

Definition act_fun (a : act) (x : R) : R :=
  match a with Relu => relu x | Leaky c => leaky c x end.

(** W x + b (b = 0 when absent). *)
Definition lin_eval (l : linear) (x : vec) : vec :=
  match bias l with
  | Some b => vadd (mv (weight l) x) b
  | None => mv (weight l) x
  end.

(** Values entering the activations, one vector per hidden layer. *)
Fixpoint pre_acts (hs : list (linear * act)) (x : vec) : list vec :=
  match hs with
  | [] => []
  | (l, a) :: hs' =>
      lin_eval l x :: pre_acts hs' (map (act_fun a) (lin_eval l x))
  end.
(** Values leaving the activations. *)
Fixpoint post_acts (hs : list (linear * act)) (x : vec) : list vec :=
  match hs with
  | [] => []
  | (l, a) :: hs' =>
      map (act_fun a) (lin_eval l x) :: post_acts hs' (map (act_fun a) (lin_eval l x))
  end.
Fixpoint hidden_eval (hs : list (linear * act)) (x : vec) : vec :=
  match hs with
  | [] => x
  | (l, a) :: hs' => hidden_eval hs' (map (act_fun a) (lin_eval l x))
  end.
(** The network as a function. *)
Definition net_eval (N : network) (x : vec) : vec :=
  lin_eval (last_layer N) (hidden_eval (hidden N) x).

(** Shapes: a layer with [n] inputs. *)
Definition lin_wf (n : nat) (l : linear) : Prop :=
  in_features l = n /\ wfm (out_features l) n (weight l) /\
  match bias l with Some b => length b = out_features l | None => True end.
Fixpoint hidden_wf (n : nat) (hs : list (linear * act)) (out : nat) : Prop :=
  match hs with
  | [] => n = out
  | (l, _) :: hs' => lin_wf n l /\ hidden_wf (out_features l) hs' out
  end.
(** A network with [n] inputs and at least one hidden layer. *)
Definition net_wf (n : nat) (N : network) : Prop :=
  hidden N <> [] /\
  hidden_wf n (hidden N) (in_features (last_layer N)) /\
  lin_wf (in_features (last_layer N)) (last_layer N).

(** Gurobi's answers: a reported optimum is the optimum; an infeasible answer
    means that there is no feasible point. *)
Definition solver_ok (solve : mip -> gresult) : Prop :=
  forall m,
    match solve m with
    | GOptimal v =>
        (exists sg, gfeas m sg /\ objective m sg = v) /\
        (forall sg, gfeas m sg ->
           if obj_max m then objective m sg <= v else v <= objective m sg)
    | GInfeasible => forall sg, ~ gfeas m sg
    | GUnbounded | GOther => True
    end.

(** It solves every feasible program with a bounded objective. *)
Definition solver_total (solve : mip -> gresult) : Prop :=
  forall m, (exists sg, gfeas m sg) ->
    (exists K, forall sg, gfeas m sg -> Rabs (objective m sg) <= K) ->
    exists v, solve m = GOptimal v.

(** No unit is the identity. *)
Definition no_slope_one (hs : list (linear * act)) : Prop :=
  Forall (fun la => snd la <> Leaky 1) hs.
