(** Trajectories and accumulated cost in continuous time. *)

Require Import Reals List.
Require Import Verif.Vec.
Import ListNotations.
Open Scope R_scope.

(** [y] solves y' = f(y) on [a, b], in integral form; [None]: f is not defined there. *)
Definition rate (f : vec -> option vec) (y : R -> vec) (j : nat) (t : R) : R :=
  match f (y t) with Some d => nth j d 0 | None => 0 end.
Definition solves (f : vec -> option vec) (y : R -> vec) (a b : R) : Prop :=
  (forall t, a <= t <= b -> length (y t) = length (y a) /\ exists d, f (y t) = Some d /\ length d = length (y a)) /\
  (forall j s t, a <= s -> s <= t -> t <= b -> exists pr : Riemann_integrable (rate f y j) s t, nth j (y t) 0 - nth j (y s) 0 = RiemannInt pr).
(** The cost accumulated along [x] from [s] to [t]. *)
Definition accumulated (cost : vec -> R) (x : R -> vec) (s t c : R) : Prop :=
  exists pr : Riemann_integrable (fun r => cost (x r)) s t, c = RiemannInt pr.
(** Increasing times from [a] to [b]. *)
Fixpoint times_to (a b : R) (ts : list R) : Prop :=
  match ts with
  | [] => False
  | [t] => t = a /\ a = b
  | t :: ((t' :: _) as ts') => t = a /\ a <= t' /\ times_to t' b ts'
  end.
(** Where a terminal event ends the integration: not at all if it keeps its sign; at its first zero if it begins
    above zero and gets there. *)
Definition ends (event : option (vec -> R)) (y : R -> vec) (T e : R) : Prop :=
  0 <= e <= T /\
  match event with
  | None => e = T
  | Some g => ((forall t, 0 <= t <= T -> g (y t) < 0) -> e = T) /\
              (0 < g (y 0) -> (e = T \/ g (y e) = 0) /\ forall t, 0 <= t < e -> 0 < g (y t))
  end.
(** An exact solver: samples of a solution, and no solution to be had when it gives up. *)
Definition exact_at (solve : (vec -> option vec) -> R -> vec -> option (vec -> R) -> option (list R * list vec))
    (f : vec -> option vec) (T : R) (y0 : vec) (event : option (vec -> R)) : Prop :=
  match solve f T y0 event with
  | Some (ts, ys) => exists y e, y 0 = y0 /\ solves f y 0 e /\ ends event y T e /\ times_to 0 e ts /\ ys = map y ts
  | None => ~ exists y, y 0 = y0 /\ solves f y 0 T
  end.
