(** What the learner of dynamics (ModelDynLearn) is about. *)

Require Import Reals List ClassicalEpsilon.
Require Import Verif.Vec Verif.ModelMip Verif.SpecMip Verif.SpecCore Verif.ModelGrad Verif.ModelNet
  Verif.SpecNet Verif.ModelLyapunov Verif.SpecLyapunov Verif.ModelExamples Verif.ModelSystems
  Verif.SpecSystems Verif.ModelDynLearn.
Import ListNotations.
Open Scope R_scope.

(** The parts fit together: a discrete-time system with an equilibrium in its box
    and a Lyapunov network on the same space. *)
Definition learner_ok (L : learner) (xeq : vec) : Prop :=
  auto_built (l_dim L) (l_sys L) /\
  (au_kind (l_sys L) = AGiven xeq true \/ au_kind (l_sys L) = AResidual xeq true) /\
  lyap_args (l_dim L) (l_net L) (au_lo (l_sys L)) (au_up (l_sys L)) (o_R (l_opt L)) xeq.

(** The Lyapunov function, the error and the transition of the learner. *)
Definition l_V (L : learner) (xeq x : vec) : R :=
  V (l_net L) (R_of (l_dim L) (o_R (l_opt L))) (o_lam (l_opt L)) xeq x.
Definition l_err (L : learner) (xeq x : vec) : R :=
  error1 (R_of (l_dim L) (o_R (l_opt L))) xeq x.
Definition l_box (L : learner) (x : vec) : Prop := in_box (au_lo (l_sys L)) (au_up (l_sys L)) x.
Definition l_step (L : learner) (x : vec) : vec := auto_step (l_sys L) x.

(** How much each of the three conditions is violated at x:
    positivity  eps |R (x - x_eq)|_1 <= V(x),
    lower decay V(x') <= (1 - eps) V(x),
    upper decay V(x') >= (1 - eps) V(x), where x' is the next state. *)
Definition pos_viol (L : learner) (xeq x : vec) : R :=
  o_eps_pos (l_opt L) * l_err L xeq x - l_V L xeq x.
Definition lo_viol (L : learner) (xeq x : vec) : R :=
  l_V L xeq (l_step L x) - (1 - o_eps_lo (l_opt L)) * l_V L xeq x.
Definition up_viol (L : learner) (xeq x : vec) : R :=
  (1 - o_eps_up (l_opt L)) * l_V L xeq x - l_V L xeq (l_step L x).

(** States from which the system stays in the box. *)
Definition l_stays (L : learner) (x : vec) : Prop := l_box L x /\ l_box L (l_step L x).

(** [v] is the largest value of [f] on [D]. *)
Definition largest (D : vec -> Prop) (f : vec -> R) (v : R) : Prop :=
  (exists x, D x /\ f x = v) /\ forall x, D x -> f x <= v.

(** Gurobi's solutions are feasible; the search ends with an optimal solution, or, with
    the callback, at a solution above the threshold. *)
Definition pool_feasible (pool : option R -> mip -> list assignment) : Prop :=
  forall t m, Forall (gfeas m) (pool t m).
Definition pool_ends (pool : option R -> mip -> list assignment) : Prop :=
  forall t m v, optimum m v -> exists sg rest, pool t m = sg :: rest /\
    (objective m sg = v \/ exists thr, t = Some thr /\ thr < objective m sg).

(** A loss computed by a search that may stop at the threshold [t], where [v] is the
    largest violation: zero, or not above the largest violation and close to it or
    above the threshold. *)
Definition early_value (t v l : R) : Prop :=
  l = 0 \/ (l <= v + / 10 ^ 3 /\ (v - / 10 ^ 3 <= l \/ t - / 10 ^ 3 < l)).

(** The state after [k] steps. *)
Fixpoint l_state (L : learner) (k : nat) (x : vec) : vec :=
  match k with O => x | S k' => l_state L k' (l_step L x) end.
(** The mean of the squared differences of two vectors of the same length. *)
Definition mean_square (a b : vec) : R :=
  vsum (map2 (fun x y => (x - y) ^ 2) a b) / INR (length a).
(** [ys] are the members of [xs] with the property [P], in order. *)
Inductive kept (P : vec -> Prop) : list vec -> list vec -> Prop :=
  | kept_nil : kept P [] []
  | kept_take : forall x xs ys, P x -> kept P xs ys -> kept P (x :: xs) (x :: ys)
  | kept_drop : forall x xs ys, ~ P x -> kept P xs ys -> kept P (x :: xs) ys.
Definition average (v : vec) : R := vsum v / INR (length v).
(** The average violation over some states, none counted below zero. *)
Definition average_viol (f : vec -> R) (xs : list vec) : R := average (map (fun x => Rmax 0 (f x)) xs).

(** ** Examples *)

(** x' = x / 2 and x' = x for x >= 0, x' = x / 2 for x <= 0; V(x) = 2 |x|. *)
Definition net_half : network :=
  mkNet [(mkLin 1 [[1]; [-1]] (Some [0; 0]), Relu)] (mkLin 2 [[1/2; -1/2]] (Some [0])).
Definition options_ex (eps_lo eps_up : R) (opt : bool) : dl_opt :=
  mkDlOpt 1 (1/2) eps_lo eps_up None 1 2 3 1 2 3 [-1/2] [1/2] opt.
Definition learner_half (opt : bool) : learner :=
  mkLearner net_abs IA (mkAuto net_half [-1] [1] IA (AGiven [0] true)) (options_ex (1/4) (1/4) opt).
Definition learner_kink (opt : bool) : learner :=
  mkLearner net_abs IA (auto_ex (AGiven [0] true)) (options_ex (1/4) (1/4) opt).
(** A pool with one optimal solution. *)
Definition ideal_pool (t : option R) (m : mip) : list assignment :=
  match excluded_middle_informative (exists sg, gfeas m sg /\ optimum m (objective m sg)) with
  | left H => [proj1_sig (constructive_indefinite_description _ H)]
  | right _ => []
  end.
