(** The properties of the discrete-time Lyapunov programs (C24 - C30).

    [T x x'] is the transition relation of the system; its constraints are exact
    ([system_contract]), which C31 and C36 prove of the systems of the
    repository. *)

Require Import Reals List Lra Lia.
Require Import Verif.Vec Verif.ModelMip Verif.SpecMip Verif.SpecCore Verif.ModelNet Verif.SpecNet
  Verif.ModelGrad Verif.SpecStep Verif.ModelLyapunov Verif.SpecLyapunov Verif.SpecRoa
  Verif.ModelHybrid Verif.SpecHybrid Verif.ModelExamples
  Verif.ProofLyapunov Verif.ProofLyapCert Verif.ProofLyapMore Verif.ProofLyapStrengthen
  Verif.ProofLoss Verif.ProofRoa Verif.ProofExamples Verif.ProofLyapFinal
  Verif.ProofRoaBoundary.
Import ListNotations.
Open Scope R_scope.

(** C24. *)
Theorem C24_equilibrium : forall n N x_lo x_up R0 xeq lam, lyap_args n N x_lo x_up R0 xeq ->
  lyapunov_value N n R0 xeq lam xeq = Some 0.
Proof. exact equilibrium_value. Qed.
Print Assumptions C24_equilibrium.
Theorem C24_value : forall n N x_lo x_up R0 xeq lam x, lyap_args n N x_lo x_up R0 xeq ->
  length x = n ->
  lyapunov_value N n R0 xeq lam x = Some (V N (R_of n R0) lam xeq x).
Proof. exact value_V. Qed.
Print Assumptions C24_value.
Theorem C24_positivity : forall solve, solver_ok solve -> forall meth N n x_lo x_up R0 xeq,
  lyap_args n N x_lo x_up R0 xeq -> forall lam eps m xv,
  positivity_milp solve meth N n x_lo x_up xeq lam eps R0 = Some (m, xv) ->
  ((forall sg, gfeas m sg -> objective m sg <= 0) <->
   (forall x, in_box x_lo x_up x -> eps * error1 (R_of n R0) xeq x <= V N (R_of n R0) lam xeq x)) /\
  (forall sg, gfeas m sg -> 0 < objective m sg ->
     in_box x_lo x_up (map sg xv) /\
     V N (R_of n R0) lam xeq (map sg xv) < eps * error1 (R_of n R0) xeq (map sg xv)).
Proof. exact positivity_certificate. Qed.
Print Assumptions C24_positivity.
Theorem C24_positive : forall solve, solver_ok solve -> forall meth N n x_lo x_up R0 xeq,
  lyap_args n N x_lo x_up R0 xeq -> forall lam eps m xv,
  positivity_milp solve meth N n x_lo x_up xeq lam eps R0 = Some (m, xv) ->
  (forall sg, gfeas m sg -> objective m sg <= 0) -> full_column_rank n (R_of n R0) -> 0 < eps ->
  forall x, in_box x_lo x_up x -> x <> xeq -> 0 < V N (R_of n R0) lam xeq x.
Proof. exact positivity_strict. Qed.
Print Assumptions C24_positive.
(** In terms of the solver's verdict. *)
Theorem C24_verdict : forall solve, solver_ok solve -> forall meth N n x_lo x_up R0 xeq,
  lyap_args n N x_lo x_up R0 xeq -> forall lam eps m xv v,
  positivity_milp solve meth N n x_lo x_up xeq lam eps R0 = Some (m, xv) ->
  solve m = GOptimal v ->
  (v <= 0 <-> forall x, in_box x_lo x_up x ->
     eps * error1 (R_of n R0) xeq x <= V N (R_of n R0) lam xeq x).
Proof. exact positivity_verdict. Qed.
Print Assumptions C24_verdict.
Example C24_case : solver_ok ideal_solve /\ lyap_args 1 net_abs [-1] [1] None [0] /\
  full_column_rank 1 (R_of 1 None) /\
  exists m xv, positivity_milp ideal_solve IA net_abs 1 [-1] [1] [0] (1/2) (1/2) None = Some (m, xv) /\
    ideal_solve m = GOptimal 0.
Proof. exact (conj ideal_ok (conj abs_args (conj (eye_full_rank 1) positivity_case))). Qed.

(** C25. *)
Theorem C25_decrease : forall solve, solver_ok solve -> forall meth N n x_lo x_up R0 xeq,
  lyap_args n N x_lo x_up R0 xeq -> forall lam st add_system T,
  system_contract n st add_system T -> forall eps et lower upper d,
  derivative_milp solve meth N n x_lo x_up add_system xeq lam eps et R0 lower upper VBin = Some d ->
  ((forall sg, gfeas (d_mip d) sg -> objective (d_mip d) sg <= 0) <->
   (forall x x', in_box x_lo x_up x -> in_box x_lo x_up x' -> T x x' ->
      within lower upper (V N (R_of n R0) lam xeq x) ->
      violation et N (R_of n R0) lam eps xeq x x' <= 0)) /\
  (forall sg, gfeas (d_mip d) sg ->
     in_box x_lo x_up (map sg (d_x d)) /\ in_box x_lo x_up (map sg (d_next d)) /\
     T (map sg (d_x d)) (map sg (d_next d)) /\
     objective (d_mip d) sg
     = violation et N (R_of n R0) lam eps xeq (map sg (d_x d)) (map sg (d_next d))).
Proof. exact decrease_certificate. Qed.
Print Assumptions C25_decrease.
Theorem C25_verdict : forall solve, solver_ok solve -> forall meth N n x_lo x_up R0 xeq,
  lyap_args n N x_lo x_up R0 xeq -> forall lam st add_system T,
  system_contract n st add_system T -> forall eps et lower upper d,
  derivative_milp solve meth N n x_lo x_up add_system xeq lam eps et R0 lower upper VBin = Some d ->
  (forall v, solve (d_mip d) = GOptimal v ->
    (v <= 0 <-> forall x x', in_box x_lo x_up x -> in_box x_lo x_up x' -> T x x' ->
       within lower upper (V N (R_of n R0) lam xeq x) ->
       violation et N (R_of n R0) lam eps xeq x x' <= 0)) /\
  (solve (d_mip d) = GInfeasible ->
    forall x x', in_box x_lo x_up x -> in_box x_lo x_up x' -> T x x' ->
      ~ within lower upper (V N (R_of n R0) lam xeq x)).
Proof. exact derivative_verdict. Qed.
Print Assumptions C25_verdict.
(** lyapunov_derivative lists this quantity for the given successors. *)
Theorem C25_values : forall N n x_lo x_up R0 xeq, lyap_args n N x_lo x_up R0 xeq ->
  forall lam eps dx x, Forall (fun y => length y = n) dx -> length x = n ->
  lyapunov_derivative N n dx x xeq lam eps R0
  = Some (map (fun x' => violation ExpLower N (R_of n R0) lam eps xeq x x') dx).
Proof. exact derivative_values. Qed.
Print Assumptions C25_values.
Example C25_case : system_contract 1 true add1 T1 /\ forall et, et <> ExpUpper -> exists d,
  derivative_milp ideal_solve IA net_abs 1 [-1] [1] add1 [0] (1/2) (1/2) et None None None VBin
    = Some d /\ ideal_solve (d_mip d) = GOptimal 0.
Proof. exact (conj (sys1_contract true) decrease_case). Qed.

(** C26. *)
Theorem C26_exponential : forall solve, solver_ok solve -> forall meth N n x_lo x_up R0 xeq,
  lyap_args n N x_lo x_up R0 xeq -> forall lam st add_system T,
  system_contract n st add_system T -> forall mp xp eps1 vp,
  positivity_milp solve meth N n x_lo x_up xeq lam eps1 R0 = Some (mp, xp) ->
  solve mp = GOptimal vp -> vp <= 0 -> 0 <= eps1 -> forall d eps v x, 0 <= eps <= 1 ->
  derivative_milp solve meth N n x_lo x_up add_system xeq lam eps ExpLower R0 None None VBin = Some d ->
  solve (d_mip d) = GOptimal v -> v <= 0 ->
  trajectory_in x_lo x_up T x ->
  (forall k, 0 <= V N (R_of n R0) lam xeq (x k)
             <= (1 - eps) ^ k * V N (R_of n R0) lam xeq (x 0%nat)) /\
  (forall k, eps1 * error1 (R_of n R0) xeq (x k)
             <= (1 - eps) ^ k * V N (R_of n R0) lam xeq (x 0%nat)) /\
  (0 < eps1 -> 0 < eps -> Un_cv (fun k => error1 (R_of n R0) xeq (x k)) 0).
Proof. exact certified_exp. Qed.
Print Assumptions C26_exponential.
Theorem C26_asymptotic : forall solve, solver_ok solve -> forall meth N n x_lo x_up R0 xeq,
  lyap_args n N x_lo x_up R0 xeq -> forall lam st add_system T,
  system_contract n st add_system T -> forall mp xp eps1 vp,
  positivity_milp solve meth N n x_lo x_up xeq lam eps1 R0 = Some (mp, xp) ->
  solve mp = GOptimal vp -> vp <= 0 -> 0 <= eps1 -> forall d eps v x, 0 < eps ->
  derivative_milp solve meth N n x_lo x_up add_system xeq lam eps Asymp R0 None None VBin = Some d ->
  solve (d_mip d) = GOptimal v -> v <= 0 ->
  trajectory_in x_lo x_up T x ->
  (forall k, partial_sum (fun i => error1 (R_of n R0) xeq (x i)) k
             <= V N (R_of n R0) lam xeq (x 0%nat) / eps) /\
  Un_cv (fun k => error1 (R_of n R0) xeq (x k)) 0.
Proof. exact certified_asymp. Qed.
Print Assumptions C26_asymptotic.
(** The verdicts of C24_case and C25_case, and a trajectory. *)
Example C26_case : trajectory_in [-1] [1] T1 traj1.
Proof. exact traj1_ok. Qed.

(** C27 is false of the code: the derivative program only ranges over
    successors inside the box. *)
Theorem C27_leaving_refuted : exists d,
  derivative_milp ideal_solve IA net_abs2 2 [-1; -1] [1; 1] addc [0; 0] 1 (1/2) ExpLower None
    None None VBin = Some d /\
  ideal_solve (d_mip d) = GOptimal 0 /\
  in_box [-1; -1] [1; 1] [1; 0] /\ Tc [1; 0] [2; 2] /\
  violation ExpLower net_abs2 (R_of 2 None) 1 (1/2) [0; 0] [1; 0] [2; 2] > 0.
Proof. exact leaving_case. Qed.
Print Assumptions C27_leaving_refuted.

(** C28.  Missing from the property: successors that leave the box in two
    coordinates at once (false of the code, see the refutation), and solver
    runs that end without a verdict (the code then takes the level infinite). *)
Theorem C28_invariant_partial : forall solve, solver_ok solve -> forall meth N n x_lo x_up R0 xeq,
  lyap_args n N x_lo x_up R0 xeq -> forall lam lol upl st add_system T,
  system_contract n st add_system T -> forall upper rho,
  region_of_attraction solve meth N n x_lo x_up add_system xeq lam R0 upper lol upl = Some rho ->
  (forall m xv xn, roa_milp solve meth N n x_lo x_up add_system xeq lam R0 lol upl true
                   = Some (m, xv, xn) -> solve m = GInfeasible \/ exists v, solve m = GOptimal v) ->
  forall x x', in_box x_lo x_up x -> below_level (V N (R_of n R0) lam xeq x) rho -> T x x' ->
  in_box x_lo x_up x' \/ leaves_by_side n x_lo x_up lol upl x' -> in_box x_lo x_up x'.
Proof. exact roa_invariant. Qed.
Print Assumptions C28_invariant_partial.
Theorem C28_corner_refuted : exists rho,
  region_of_attraction ideal_solve IA net_abs2 2 [-1; -1] [1; 1] addc [0; 0] 1 None None
    [-3; -3] [3; 3] = Some rho /\
  (forall m xv xn, roa_milp ideal_solve IA net_abs2 2 [-1; -1] [1; 1] addc [0; 0] 1 None
     [-3; -3] [3; 3] true = Some (m, xv, xn) -> ideal_solve m = GInfeasible) /\
  exists x x', in_box [-1; -1] [1; 1] x /\
    below_level (V net_abs2 (R_of 2 None) 1 [0; 0] x) rho /\ Tc x x' /\
    in_box [-3; -3] [3; 3] x' /\ ~ in_box [-1; -1] [1; 1] x'.
Proof. exact roa_corner_case. Qed.
Print Assumptions C28_corner_refuted.
(** The refutation also meets the hypotheses of the partial theorem. *)
Example C28_case : solver_ok ideal_solve /\ lyap_args 2 net_abs2 [-1; -1] [1; 1] None [0; 0] /\
  system_contract 2 true addc Tc.
Proof. exact (conj ideal_ok (conj abs2_args (sysc_contract true))). Qed.

(** C29. *)
Theorem C29_strengthen_binary : forall solve meth N n x_lo x_up R0 xeq lam eps st add_system T
    et lower upper infeasible d,
  solver_ok solve -> lyap_args n N x_lo x_up R0 xeq -> system_contract n st add_system T ->
  infeasible_ok infeasible ->
  derivative_milp solve meth N n x_lo x_up add_system xeq lam eps et R0 lower upper VBin = Some d ->
  exists m', strengthen_binary infeasible d = Some m' /\
    obj_max m' = obj_max (d_mip d) /\
    (forall sg, objective m' sg = objective (d_mip d) sg) /\
    (forall sg, gfeas m' sg -> gfeas (d_mip d) sg) /\
    (forall sg, gfeas (d_mip d) sg -> 0 <= objective (d_mip d) sg -> gfeas m' sg) /\
    (forall v, 0 <= v -> (optimum m' v <-> optimum (d_mip d) v)).
Proof. exact strengthen_binary_prop. Qed.
Print Assumptions C29_strengthen_binary.
(** Any number of rounds of cuts, with any relaxed solutions, leave the
    program exact. *)
Theorem C29_strengthen_rounds : forall solve, solver_ok solve -> forall meth N n x_lo x_up R0 xeq,
  lyap_args n N x_lo x_up R0 xeq -> forall lam eps st add_system T,
  system_contract n st add_system T -> forall et lower upper lp sys_cuts num d,
  no_slope_one (hidden N) ->
  (forall d0, derivative_milp solve meth N n x_lo x_up add_system xeq lam eps et R0 lower upper
     VBinRelax = Some d0 -> cuts_ok sys_cuts (feas VBinRelax (d_mip d0))) ->
  strengthen_derivative solve meth N n x_lo x_up add_system lp sys_cuts
    xeq lam eps et R0 lower upper num = Some d ->
  obj_max (d_mip d) = true /\
  (forall sg, gfeas (d_mip d) sg ->
     in_box x_lo x_up (map sg (d_x d)) /\ in_box x_lo x_up (map sg (d_next d)) /\
     T (map sg (d_x d)) (map sg (d_next d)) /\
     within lower upper (V N (R_of n R0) lam xeq (map sg (d_x d))) /\
     objective (d_mip d) sg
     = violation et N (R_of n R0) lam eps xeq (map sg (d_x d)) (map sg (d_next d))) /\
  (forall x x', in_box x_lo x_up x -> in_box x_lo x_up x' -> T x x' ->
     within lower upper (V N (R_of n R0) lam xeq x) ->
     exists sg, gfeas (d_mip d) sg /\ map sg (d_x d) = x /\ map sg (d_next d) = x').
Proof. exact strengthened_exact. Qed.
Print Assumptions C29_strengthen_rounds.
Example C29_case : infeasible_ok ideal_query /\ exists d m',
  derivative_milp ideal_solve IA net_abs 1 [-1] [1] add1 [0] (1/2) (1/2) ExpLower None None None VBin
    = Some d /\ strengthen_binary ideal_query d = Some m'.
Proof. exact (conj ideal_query_ok strengthen_case). Qed.

(** C30. *)
Theorem C30_positivity_loss : forall N n x_lo x_up R0 xeq, lyap_args n N x_lo x_up R0 xeq ->
  forall lam eps margin samples red w,
  samples <> [] -> Forall (fun x : vec => length x = n) samples ->
  weights_ok red w (length samples) ->
  exists v, positivity_loss N n xeq samples lam eps R0 margin red w = Some v /\ 0 <= v /\
    (v = 0 <-> Forall (fun x => eps * error1 (R_of n R0) xeq x + margin
                                <= V N (R_of n R0) lam xeq x) samples).
Proof. exact positivity_loss_spec. Qed.
Print Assumptions C30_positivity_loss.
Theorem C30_derivative_loss : forall N n x_lo x_up R0 xeq, lyap_args n N x_lo x_up R0 xeq ->
  forall lam eps margin et samples next red w,
  samples <> [] -> length samples = length next ->
  Forall (fun x : vec => length x = n) samples -> Forall (fun x : vec => length x = n) next ->
  weights_ok red w (length samples) ->
  exists v, derivative_loss N n xeq samples next lam eps et R0 margin red w = Some v /\ 0 <= v /\
    (v = 0 <-> Forall (fun p => violation et N (R_of n R0) lam eps xeq (fst p) (snd p) <= - margin)
                      (combine samples next)).
Proof. exact derivative_loss_spec. Qed.
Print Assumptions C30_derivative_loss.
Theorem C30_positivity_ordered : forall N n x_lo x_up R0 xeq, lyap_args n N x_lo x_up R0 xeq ->
  forall lam eps margin samples a b c,
  Forall (fun x : vec => length x = n) samples ->
  positivity_loss N n xeq samples lam eps R0 margin RMean None = Some a ->
  positivity_loss N n xeq samples lam eps R0 margin RMax None = Some b ->
  positivity_loss N n xeq samples lam eps R0 margin RFourNorm None = Some c -> a <= b <= c.
Proof. exact positivity_loss_ordered. Qed.
Print Assumptions C30_positivity_ordered.
Theorem C30_derivative_ordered : forall N n x_lo x_up R0 xeq, lyap_args n N x_lo x_up R0 xeq ->
  forall lam eps margin et samples next a b c, length samples = length next ->
  Forall (fun x : vec => length x = n) samples -> Forall (fun x : vec => length x = n) next ->
  derivative_loss N n xeq samples next lam eps et R0 margin RMean None = Some a ->
  derivative_loss N n xeq samples next lam eps et R0 margin RMax None = Some b ->
  derivative_loss N n xeq samples next lam eps et R0 margin RFourNorm None = Some c -> a <= b <= c.
Proof. exact derivative_loss_ordered. Qed.
Print Assumptions C30_derivative_ordered.
Example C30_case : lyap_args 1 net_abs [-1] [1] None [0] /\
  Forall (fun x : vec => length x = 1%nat) [[1]; [-1/2]] /\
  weights_ok RMean (Some [1; 2]) (length [[1]; [-1/2]]).
Proof.
  split; [exact abs_args|]. split; [repeat constructor|]. split; [reflexivity|].
  constructor; [lra|constructor; [lra|constructor]].
Qed.
