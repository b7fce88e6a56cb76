(** The properties of the barrier certificates (C38) and of the barrier losses (C30). *)

Require Import Reals List Lra Lia.
Require Import Verif.Vec Verif.ModelMip Verif.SpecMip Verif.SpecCore Verif.ModelNet Verif.SpecNet
  Verif.ModelGrad Verif.SpecStep Verif.ModelLyapunov Verif.SpecLyapunov Verif.ModelHybrid
  Verif.SpecHybrid Verif.ModelBarrier Verif.SpecBarrier Verif.ModelExamples
  Verif.ProofExamples Verif.ProofBarrier Verif.ProofBarrierEx.
Import ListNotations.
Open Scope R_scope.

(** C38. *)
Theorem C38_at_star : forall N n x_lo x_up x_star, barrier_args n N x_lo x_up x_star ->
  forall c, 0 < c -> barrier_value N x_star x_star c = Some c.
Proof. exact barrier_at_star. Qed.
Print Assumptions C38_at_star.
Theorem C38_value : forall N n x_lo x_up x_star, barrier_args n N x_lo x_up x_star ->
  forall c, 0 < c -> forall x, length x = n ->
  barrier_value N x x_star c = Some (h_of N x_star c x).
Proof. exact barrier_value_h. Qed.
Print Assumptions C38_value.
Theorem C38_derivative : forall N n x_lo x_up x_star, barrier_args n N x_lo x_up x_star ->
  forall c, 0 < c -> forall x x' eps, length x = n -> length x' = n ->
  barrier_derivative N x x' x_star c eps = Some (barrier_violation N x_star c eps x x').
Proof. exact barrier_derivative_h. Qed.
Print Assumptions C38_derivative.

(** The value program ranges over exactly the points of the box inside the region
    and its objective is h (unsafe region) or - h (safe region). *)
Theorem C38_value_program : forall solve, solver_ok solve ->
  forall meth N n x_lo x_up x_star, barrier_args n N x_lo x_up x_star ->
  forall c region safe m xv, mic_ok region -> nin region = n ->
  barrier_value_milp N solve meth n x_lo x_up x_star c region safe = Some (m, xv) ->
  obj_max m = true /\ length xv = n /\
  (forall sg, gfeas m sg -> in_box x_lo x_up (map sg xv) /\ in_region region (map sg xv) /\
     objective m sg = if safe then - h_of N x_star c (map sg xv) else h_of N x_star c (map sg xv)) /\
  (forall x, in_box x_lo x_up x -> in_region region x -> exists sg, gfeas m sg /\ map sg xv = x).
Proof. exact value_program. Qed.
Print Assumptions C38_value_program.
Theorem C38_derivative_program : forall solve, solver_ok solve ->
  forall meth N n x_lo x_up x_star, barrier_args n N x_lo x_up x_star ->
  forall c st add_system T, system_contract n st add_system T ->
  forall eps vt m xv xn, vt <> VCont ->
  barrier_derivative_milp N solve meth n x_lo x_up add_system x_star c eps vt = Some (m, xv, xn) ->
  obj_max m = true /\ length xv = n /\ length xn = n /\
  (forall sg, feas vt m sg ->
     in_box x_lo x_up (map sg xv) /\ in_box x_lo x_up (map sg xn) /\ T (map sg xv) (map sg xn) /\
     objective m sg = barrier_violation N x_star c eps (map sg xv) (map sg xn)) /\
  (forall x x', in_box x_lo x_up x -> in_box x_lo x_up x' -> T x x' ->
     exists sg, feas vt m sg /\ map sg xv = x /\ map sg xn = x').
Proof. exact barrier_derivative_program. Qed.
Print Assumptions C38_derivative_program.

(** What the verdicts mean. *)
Theorem C38_value_verdict : forall solve, solver_ok solve ->
  forall meth N n x_lo x_up x_star, barrier_args n N x_lo x_up x_star ->
  forall c region safe m xv v, mic_ok region -> nin region = n ->
  barrier_value_milp N solve meth n x_lo x_up x_star c region safe = Some (m, xv) ->
  solve m = GOptimal v ->
  (v <= 0 <-> forall x, in_box x_lo x_up x -> in_region region x ->
     if safe then 0 <= h_of N x_star c x else h_of N x_star c x <= 0).
Proof. exact value_verdict. Qed.
Print Assumptions C38_value_verdict.
Theorem C38_derivative_verdict : forall solve, solver_ok solve ->
  forall meth N n x_lo x_up x_star, barrier_args n N x_lo x_up x_star ->
  forall c st add_system T, system_contract n st add_system T ->
  forall eps m xv xn v,
  barrier_derivative_milp N solve meth n x_lo x_up add_system x_star c eps VBin = Some (m, xv, xn) ->
  solve m = GOptimal v ->
  (v <= 0 <-> forall x x', in_box x_lo x_up x -> in_box x_lo x_up x' -> T x x' ->
     (1 - eps) * h_of N x_star c x <= h_of N x_star c x').
Proof. exact derivative_verdict. Qed.
Print Assumptions C38_derivative_verdict.
Theorem C38_keeps : forall solve, solver_ok solve ->
  forall meth N n x_lo x_up x_star, barrier_args n N x_lo x_up x_star ->
  forall c st add_system T, system_contract n st add_system T ->
  forall eps m xv xn,
  barrier_derivative_milp N solve meth n x_lo x_up add_system x_star c eps VBin = Some (m, xv, xn) ->
  (forall sg, gfeas m sg -> objective m sg <= 0) -> eps <= 1 ->
  forall x x', in_box x_lo x_up x -> in_box x_lo x_up x' -> T x x' ->
  0 <= h_of N x_star c x -> 0 <= h_of N x_star c x'.
Proof. exact derivative_keeps. Qed.
Print Assumptions C38_keeps.
(** A trajectory that stays in the box never enters the unsafe region. *)
Theorem C38_safe : forall solve, solver_ok solve ->
  forall meth N n x_lo x_up x_star, barrier_args n N x_lo x_up x_star ->
  forall c st add_system T, system_contract n st add_system T ->
  forall eps region m xv md xd xdn, mic_ok region -> nin region = n ->
  barrier_value_milp N solve meth n x_lo x_up x_star c region false = Some (m, xv) ->
  barrier_derivative_milp N solve meth n x_lo x_up add_system x_star c eps VBin = Some (md, xd, xdn) ->
  (forall sg, gfeas m sg -> objective m sg <= 0) ->
  (forall sg, gfeas md sg -> objective md sg <= 0) -> eps < 1 ->
  forall x, trajectory_in x_lo x_up T x -> 0 < h_of N x_star c (x O) ->
  forall k, (1 - eps) ^ k * h_of N x_star c (x O) <= h_of N x_star c (x k) /\
    ~ in_region region (x k).
Proof. exact barrier_safe. Qed.
Print Assumptions C38_safe.

(** h(x) = 1/2 - |x|, unsafe x >= 3/4, x' = x/2 or -x/4: both optima are -1/4. *)
Example C38_case : barrier_args 1 net_nabs [-1] [1] [0] /\ solver_ok ideal_solve /\
  (forall st, system_contract 1 st add1 T1) /\
  (mic_ok region_ge /\ forall a, in_region region_ge [a] <-> 3/4 <= a) /\
  (forall a, h_of net_nabs [0] (1/2) [a] = 1/2 - Rabs a) /\
  (trajectory_in [-1] [1] T1 (fun k => [- (1/4) * (1/2) ^ k]) /\
   0 < h_of net_nabs [0] (1/2) [- (1/4) * (1/2) ^ 0]) /\
  exists m xv md xd xdn,
  barrier_value_milp net_nabs ideal_solve IA 1 [-1] [1] [0] (1/2) region_ge false = Some (m, xv) /\
  barrier_derivative_milp net_nabs ideal_solve IA 1 [-1] [1] add1 [0] (1/2) (1/2) VBin
    = Some (md, xd, xdn) /\
  ideal_solve m = GOptimal (-1/4) /\ ideal_solve md = GOptimal (-1/4).
Proof.
  exact (conj nabs_args (conj ideal_ok (conj sys1_contract (conj (conj region_ge_ok region_ge_in)
    (conj nabs_h (conj traj_barrier barrier_case)))))).
Qed.

(** The restriction to steps that stay in the box cannot be dropped: the class's
    documentation (barrier.py:11-20) promises that the system stays in {h >= 0}, but
    all programs, including the one for the boundary of the box, may have negative
    optima although a step from h > 0 leads outside of the box, to h < 0. *)
Theorem C38_leaving_refuted : exists solve N n x_lo x_up x_star c eps add T m xv md xd xdn,
  solver_ok solve /\ barrier_args n N x_lo x_up x_star /\ 0 < c /\ 0 < eps < 1 /\
  (forall st, system_contract n st add T) /\ mic_ok region_edge /\
  (forall a, -1 <= a <= 1 -> (in_region region_edge [a] <-> a = -1 \/ a = 1)) /\
  (x_lo = [-1] /\ x_up = [1]) /\
  barrier_value_milp N solve IA n x_lo x_up x_star c region_edge false = Some (m, xv) /\
  barrier_derivative_milp N solve IA n x_lo x_up add x_star c eps VBin = Some (md, xd, xdn) /\
  (exists v, solve m = GOptimal v /\ v < 0) /\ (exists v, solve md = GOptimal v /\ v < 0) /\
  exists x x', in_box x_lo x_up x /\ 0 < h_of N x_star c x /\ T x x' /\ h_of N x_star c x' < 0.
Proof. exact barrier_leaving. Qed.
Print Assumptions C38_leaving_refuted.
(** Nor does a nonpositive optimum give the documented h < 0 on the unsafe region. *)
Theorem C38_strict_refuted : exists solve N n x_lo x_up x_star c region m xv,
  solver_ok solve /\ barrier_args n N x_lo x_up x_star /\ 0 < c /\ mic_ok region /\ nin region = n /\
  barrier_value_milp N solve IA n x_lo x_up x_star c region false = Some (m, xv) /\
  solve m = GOptimal 0 /\
  exists x, in_box x_lo x_up x /\ in_region region x /\ 0 <= h_of N x_star c x.
Proof. exact barrier_touching. Qed.
Print Assumptions C38_strict_refuted.

(** C30, barrier losses: nonnegative, and zero exactly when every sample meets its
    condition. *)
Theorem C30_barrier_derivative_loss : forall N n x_lo x_up x_star, barrier_args n N x_lo x_up x_star ->
  forall c, 0 < c -> forall eps margin samples next red,
  samples <> [] -> length samples = length next ->
  Forall (fun x => length x = n) samples -> Forall (fun x => length x = n) next ->
  exists v, barrier_derivative_loss N x_star c eps samples next margin red = Some v /\ 0 <= v /\
    (v = 0 <-> Forall (fun p => barrier_violation N x_star c eps (fst p) (snd p) <= - margin)
                      (combine samples next)).
Proof. exact barrier_derivative_loss_spec. Qed.
Print Assumptions C30_barrier_derivative_loss.
Theorem C30_barrier_safe_loss : forall N n x_lo x_up x_star, barrier_args n N x_lo x_up x_star ->
  forall c, 0 < c -> forall w samples red, 0 < w -> Forall (fun x => length x = n) samples ->
  exists v, safe_sample_loss N x_star c w samples red = Some v /\ 0 <= v /\
    (v = 0 <-> Forall (fun x => 0 <= h_of N x_star c x) samples).
Proof. exact safe_loss_spec. Qed.
Print Assumptions C30_barrier_safe_loss.
Theorem C30_barrier_unsafe_loss : forall N n x_lo x_up x_star, barrier_args n N x_lo x_up x_star ->
  forall c, 0 < c -> forall w samples red, 0 < w -> Forall (fun x => length x = n) samples ->
  exists v, unsafe_sample_loss N x_star c w samples red = Some v /\ 0 <= v /\
    (v = 0 <-> Forall (fun x => h_of N x_star c x <= 0) samples).
Proof. exact unsafe_loss_spec. Qed.
Print Assumptions C30_barrier_unsafe_loss.
Theorem C30_barrier_sample_loss : forall N n x_lo x_up x_star, barrier_args n N x_lo x_up x_star ->
  forall c, 0 < c -> forall eps w samples next red, 0 < w -> length samples = length next ->
  Forall (fun x => length x = n) samples -> Forall (fun x => length x = n) next ->
  exists v, derivative_sample_loss N x_star c eps w samples next red = Some v /\ 0 <= v /\
    (v = 0 <-> Forall (fun p => barrier_violation N x_star c eps (fst p) (snd p) <= 0)
                      (combine samples next)).
Proof. exact derivative_sample_loss_spec. Qed.
Print Assumptions C30_barrier_sample_loss.
Example C30_barrier_case : barrier_args 1 net_nabs [-1] [1] [0] /\
  h_of net_nabs [0] (1/2) [1/4] = 1/4 /\ h_of net_nabs [0] (1/2) [1] = -1/2.
Proof.
  split; [exact nabs_args|]. rewrite !nabs_h. split; rewrite Rabs_right; lra.
Qed.
