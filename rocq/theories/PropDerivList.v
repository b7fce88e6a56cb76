(** C69 and C70: the derivative values listed at a state and the sample losses
    of continuous-time systems. *)

Require Import Reals List Lra.
Require Import Verif.Vec Verif.ModelMip Verif.SpecMip Verif.SpecCore Verif.ModelUtils Verif.ModelNet Verif.SpecNet
  Verif.SpecStep Verif.ModelGrad Verif.ModelPattern Verif.SpecPattern Verif.ModelLyapunov Verif.SpecLyapunov
  Verif.ModelHybrid Verif.SpecHybrid Verif.ModelContinuous Verif.SpecContinuous
  Verif.ModelContHybrid Verif.SpecContHybrid Verif.ModelDerivList Verif.SpecDerivList
  Verif.ModelExamples Verif.ModelContExamples
  Verif.ProofExamples Verif.ProofContExamples Verif.ProofContHybrid8
  Verif.ProofDerivList Verif.ProofDerivList2 Verif.ProofDerivList3 Verif.ProofDerivList4 Verif.ProofDerivList5
  Verif.ProofDerivListEx.
Import ListNotations.
Open Scope R_scope.

(** ** C69 *)

(** The gradients listed for a network are its Jacobians for the choices of active units that agree with the inputs
    of the units up to the tolerance; there is at least one. *)
Theorem C69_network_gradients : forall n N tol x, net_wf n N -> length x = n -> 0 <= tol ->
  exists G, relu_network_gradient N tol x = Some G /\ G <> [] /\
    (forall g, In g G -> exists pats, consistent_tol tol pats (pre_acts (hidden N) x) /\ is_jacobian N n pats g) /\
    (forall pats, consistent_tol tol pats (pre_acts (hidden N) x) -> exists g, In g G /\ is_jacobian N n pats g).
Proof. exact network_gradient. Qed.
Print Assumptions C69_network_gradients.

(** The listed values are the values of dV/dt + eps V over the selections that agree with the state; there are
    2^k of them, k being the number of units with input zero plus the number of zero entries of R (x - x_eq). *)
Theorem C69_listed : forall N n x_lo x_up R0 xeq, lyap_args n N x_lo x_up R0 xeq ->
  forall lam eps step x d, R0 <> None -> length x = n -> step x = Some d -> length d = n ->
  exists l, ct_derivative N n step xeq lam eps R0 0 x = Some l /\
    length l = (2 ^ zero_count (concat (pre_acts (hidden N) x)) *
                2 ^ zero_count (mv (R_of n R0) (vsub x xeq)))%nat /\
    forall v, In v l <-> exists pats sgs, selects N (R_of n R0) xeq x pats sgs /\
      v = Vdot N (R_of n R0) lam pats sgs d + eps * V N (R_of n R0) lam xeq x.
Proof. exact ct_listed. Qed.
Print Assumptions C69_listed.

(** V has a right derivative along every curve that leaves the state with the velocity of the system, and
    that derivative plus eps V is in the list. *)
Theorem C69_right_derivative : forall N n x_lo x_up R0 xeq, lyap_args n N x_lo x_up R0 xeq ->
  forall lam eps step y t d l, R0 <> None -> leaves n y t d ->
  step (y t) = Some d -> length d = n -> ct_derivative N n step xeq lam eps R0 0 (y t) = Some l ->
  (exists r, rderiv (fun s => V N (R_of n R0) lam xeq (y s)) t r) /\
  forall r, rderiv (fun s => V N (R_of n R0) lam xeq (y s)) t r ->
    In (r + eps * V N (R_of n R0) lam xeq (y t)) l.
Proof. exact ct_right_derivative. Qed.
Print Assumptions C69_right_derivative.

(** Away from the kinks there is one value. *)
Theorem C69_smooth_one_value : forall N n x_lo x_up R0 xeq, lyap_args n N x_lo x_up R0 xeq ->
  forall lam eps step x d, R0 <> None -> length x = n -> smooth_at N (R_of n R0) xeq x ->
  step x = Some d -> length d = n -> exists v, ct_derivative N n step xeq lam eps R0 0 x = Some [v].
Proof. exact ct_smooth. Qed.
Print Assumptions C69_smooth_one_value.

(** The optimum of the derivative program is one of the values listed at some state of the box. *)
Theorem C69_optimum_listed : forall N n x_lo x_up R0 xeq, lyap_args n N x_lo x_up R0 xeq ->
  forall lam eps solve, solver_ok solve ->
  forall meth st add_system (T : vec -> vec -> Prop) (step : vec -> option vec), R0 <> None ->
  flow_contract n st add_system x_lo x_up T ->
  (forall x d, in_box x_lo x_up x -> T x d -> step x = Some d /\ length d = n) ->
  forall opt_bounds, no_slope_one (hidden N) ->
  (meth = LP \/ meth = MIP -> forall B r, opt_bounds (R_of n R0) = Some (B, r) ->
     product_bounds_ok x_lo x_up N (R_of n R0) T (encodable solve meth N x_lo x_up) B r) ->
  forall et lower upper d v,
  continuous_milp solve meth N n x_lo x_up add_system opt_bounds xeq lam eps et R0 lower upper = Some d ->
  solve (cd_mip d) = GOptimal v ->
  exists x l, in_box x_lo x_up x /\ within lower upper (V N (R_of n R0) lam xeq x) /\
    ct_derivative N n step xeq lam eps R0 0 x = Some l /\ In v l.
Proof. exact ct_optimum. Qed.
Print Assumptions C69_optimum_listed.

(** Hybrid systems of two dimensions or more: the values over all modes that contain the state and all selections. *)
Theorem C69_hybrid_listed : forall N h x_lo x_up xeq axb, hybrid_args N h x_lo x_up xeq axb ->
  forall lam eps R0 x, R_identity (h_nx h) R0 = true -> h_nx h <> 1%nat -> length x = h_nx h ->
  exists l, hybrid_ct_derivative N h xeq lam eps R0 x = Some l /\
    forall v, In v l <-> exists k w pats sgs, moves h k x w /\ selects N (eye (h_nx h)) xeq x pats sgs /\
      v = Vdot N (eye (h_nx h)) lam pats sgs w + eps * V N (eye (h_nx h)) lam xeq x.
Proof. exact hybrid_listed. Qed.
Print Assumptions C69_hybrid_listed.

Theorem C69_hybrid_right_derivative : forall N h x_lo x_up xeq axb, hybrid_args N h x_lo x_up xeq axb ->
  forall lam eps R0 y t k w l, R_identity (h_nx h) R0 = true -> h_nx h <> 1%nat -> leaves (h_nx h) y t w ->
  moves h k (y t) w -> hybrid_ct_derivative N h xeq lam eps R0 (y t) = Some l ->
  (exists r, rderiv (fun s => V N (eye (h_nx h)) lam xeq (y s)) t r) /\
  forall r, rderiv (fun s => V N (eye (h_nx h)) lam xeq (y s)) t r ->
    In (r + eps * V N (eye (h_nx h)) lam xeq (y t)) l.
Proof. exact hybrid_right_derivative. Qed.
Print Assumptions C69_hybrid_right_derivative.

Theorem C69_hybrid_optimum_listed : forall N h x_lo x_up xeq axb, hybrid_args N h x_lo x_up xeq axb ->
  forall lam eps solve, solver_ok solve -> forall meth et R0 lower upper d v, h_nx h <> 1%nat ->
  hybrid_derivative solve axb meth N h x_lo x_up xeq lam eps et R0 lower upper d ->
  solve (hd_mip d) = GOptimal v ->
  exists x l, in_box x_lo x_up x /\ within lower upper (V N (eye (h_nx h)) lam xeq x) /\
    hybrid_ct_derivative N h xeq lam eps None x = Some l /\ In v l.
Proof. exact hybrid_optimum. Qed.
Print Assumptions C69_hybrid_optimum_listed.

(** With one dimension the call raises at every state that lies in a mode. *)
Theorem C69_hybrid_one_dimension_refuted : forall N h x_lo x_up xeq axb, hybrid_args N h x_lo x_up xeq axb ->
  forall lam eps R0 x k w, h_nx h = 1%nat -> length x = h_nx h -> moves h k x w ->
  hybrid_ct_derivative N h xeq lam eps R0 x = None.
Proof. exact hybrid_one_dimension. Qed.
Print Assumptions C69_hybrid_one_dimension_refuted.

(** |x| at its kink, x_eq = 1/2, xdot = 1: four values, among them 1/2 and -3/2; one value at x = 1. *)
Example C69_case : lyap_args 1 net_abs [-1] [1] (Some [[1]]) [1/2] /\
  (exists l, ct_derivative net_abs 1 (fun _ => Some [1]) [1/2] 2 3 (Some [[1]]) 0 [0] = Some l /\
     length l = 4%nat /\ In (1/2) l /\ In (-3/2) l) /\
  leaves 1 (fun s => [s]) 0 [1] /\ rderiv (fun s => V net_abs [[1]] 2 [1/2] [s]) 0 (-1) /\
  smooth_at net_abs [[1]] [1/2] [1].
Proof. exact (conj half_args (conj half_list (conj (line_leaves 0) (conj half_right half_smooth)))). Qed.
(** xdot = -1 on [0, 1]: the program has an optimum. *)
Example C69_optimum_case : lyap_args 1 net_flat [0] [1] (Some (eye 1)) [0] /\
  flow_contract 1 true addd [0] [1] Td /\ no_slope_one (hidden net_flat) /\
  exists d v, continuous_milp ideal_solve IA net_flat 1 [0] [1] addd no_opt [0] 1 1 ExpLower (Some (eye 1)) None None
    = Some d /\ ideal_solve (cd_mip d) = GOptimal v.
Proof. exact (conj flat_args1 (conj sysd_contract (conj flat_ns sysd_optimum))). Qed.
(** Two modes in the plane. *)
Example C69_hybrid_case : hybrid_args net_abs2 sysc [-1; -1] [1; 1] [0; 0] plane_bounds /\ h_nx sysc <> 1%nat /\
  (exists w, moves sysc 0 [1/4; 1/4] w) /\
  (forall w, moves sysc 0 [1/4; 1/4] w -> leaves 2 (fun s => [1/4 + s * nth 0 w 0; 1/4 + s * nth 1 w 0]) 0 w) /\
  exists d v,
    hybrid_derivative ideal_solve plane_bounds IA net_abs2 sysc [-1; -1] [1; 1] [0; 0] 1 1 ExpLower None None None d /\
    ideal_solve (hd_mip d) = GOptimal v.
Proof.
  exact (conj sysc_args (conj (fun e : 2%nat = 1%nat => eq_ind 2%nat (fun k => match k with 1%nat => False | _ => True end) I 1%nat e)
    (conj sysc_move (conj sysc_line sysc_optimum)))).
Qed.
Example C69_hybrid_one_dimension_case : hybrid_args net_abs sysf [-1] [1] [0] line_bounds /\ h_nx sysf = 1%nat /\
  moves sysf 0 [0] [- 0].
Proof. exact (conj sysf_args (conj eq_refl sysf_move)). Qed.

(** ** C70 *)

(** The loss is zero exactly when at every sample the derivative that automatic differentiation reports plus eps V
    is at most minus the margin, whatever the tolerance argument is. *)
Theorem C70_loss_zero : forall N n x_lo x_up R0 xeq, lyap_args n N x_lo x_up R0 xeq ->
  forall lam eps margin samples xdots red w tol, samples <> [] -> length samples = length xdots -> 0 <= tol ->
  Forall (fun x : vec => length x = n) samples -> Forall (fun x : vec => length x = n) xdots ->
  weights_ok red w (length samples) ->
  exists v, ct_loss N n xeq samples xdots lam eps ExpLower R0 margin red w tol = Some v /\ 0 <= v /\
    (v = 0 <-> Forall2 (fun x d => sample_rate N (R_of n R0) lam xeq x d + eps * V N (R_of n R0) lam xeq x
                                   <= - margin) samples xdots).
Proof. exact ct_loss_spec. Qed.
Print Assumptions C70_loss_zero.

(** Away from the kinks the reported derivative is the derivative of V along every curve that leaves the sample with
    the given velocity. *)
Theorem C70_reported_derivative : forall N n x_lo x_up R0 xeq, lyap_args n N x_lo x_up R0 xeq ->
  forall lam y t d, leaves n y t d -> smooth_at N (R_of n R0) xeq (y t) ->
  rderiv (fun s => V N (R_of n R0) lam xeq (y s)) t (sample_rate N (R_of n R0) lam xeq (y t) d).
Proof. exact rate_smooth. Qed.
Print Assumptions C70_reported_derivative.

(** At a kink it lies between two of the listed derivatives. *)
Theorem C70_reported_between : forall n N M lam xeq x d, wfm (length M) n M ->
  (exists pats sgs, selects N M xeq x pats sgs /\ sample_rate N M lam xeq x d <= Vdot N M lam pats sgs d) /\
  (exists pats sgs, selects N M xeq x pats sgs /\ Vdot N M lam pats sgs d <= sample_rate N M lam xeq x d).
Proof. exact rate_between. Qed.
Print Assumptions C70_reported_between.

(** No false alarm: where every listed derivative decays by the margin the loss is zero. *)
Theorem C70_no_false_alarm : forall N n x_lo x_up R0 xeq, lyap_args n N x_lo x_up R0 xeq ->
  forall lam eps margin samples xdots red w tol, samples <> [] -> length samples = length xdots -> 0 <= tol ->
  Forall (fun x : vec => length x = n) samples -> Forall (fun x : vec => length x = n) xdots ->
  weights_ok red w (length samples) ->
  Forall2 (fun x d => forall pats sgs, selects N (R_of n R0) xeq x pats sgs ->
    Vdot N (R_of n R0) lam pats sgs d + eps * V N (R_of n R0) lam xeq x <= - margin) samples xdots ->
  ct_loss N n xeq samples xdots lam eps ExpLower R0 margin red w tol = Some 0.
Proof. exact ct_loss_sound. Qed.
Print Assumptions C70_no_false_alarm.

(** A missed violation: the loss is zero at a kink, for every reduction and tolerance, although dV/dt + eps V is
    positive along the flow. *)
Theorem C70_kink_violation_refuted : exists N n x_lo x_up R0 xeq lam eps x d y,
  lyap_args n N x_lo x_up R0 xeq /\ 0 < eps /\ in_box x_lo x_up x /\
  (forall red w tol, weights_ok red w 1 -> 0 <= tol ->
     ct_loss N n xeq [x] [d] lam eps ExpLower R0 0 red w tol = Some 0) /\
  leaves n y 0 d /\ y 0 = x /\
  exists r, rderiv (fun s => V N (R_of n R0) lam xeq (y s)) 0 r /\
    0 < r + eps * V N (R_of n R0) lam xeq x.
Proof. exact kink_missed. Qed.
Print Assumptions C70_kink_violation_refuted.

(** The loss of hybrid systems: the three types of epsilon; the weights have no influence. *)
Theorem C70_hybrid_loss_zero : forall N n x_lo x_up xeq, lyap_args n N x_lo x_up None xeq ->
  forall lam eps margin et R0 samples xdots w, R_identity n R0 = true -> samples <> [] ->
  length samples = length xdots ->
  Forall (fun x : vec => length x = n) samples -> Forall (fun x : vec => length x = n) xdots ->
  exists v, hybrid_ct_loss N n xeq samples xdots lam eps et R0 margin RMean w = Some v /\ 0 <= v /\
    (v = 0 <-> Forall2 (fun x d => rate_violation et N (eye n) lam eps xeq x d <= - margin) samples xdots).
Proof. exact hybrid_loss_spec. Qed.
Print Assumptions C70_hybrid_loss_zero.

(** At the states alone: the velocities are those of the first mode that contains the state; the call raises exactly
    when some sample is in no mode. *)
Theorem C70_hybrid_samples : forall N h x_lo x_up xeq axb, hybrid_args N h x_lo x_up xeq axb ->
  forall lam eps margin et R0 samples w, R_identity (h_nx h) R0 = true -> samples <> [] ->
  Forall (fun x : vec => length x = h_nx h) samples ->
  (Exists (fun x => forall m, In m (h_modes h) -> ~ inside m x) samples /\
   hybrid_ct_loss_at_samples N h xeq samples lam eps et R0 margin RMean w = None) \/
  exists ds v, Forall2 (first_velocity h) samples ds /\
    hybrid_ct_loss_at_samples N h xeq samples lam eps et R0 margin RMean w = Some v /\ 0 <= v /\
    (v = 0 <-> Forall2 (fun x d => rate_violation et N (eye (h_nx h)) lam eps xeq x d <= - margin) samples ds).
Proof. exact hybrid_samples_spec. Qed.
Print Assumptions C70_hybrid_samples.

Example C70_case : lyap_args 1 net_abs [-1] [1] (Some [[1]]) [1/2] /\
  exists v, ct_loss net_abs 1 [1/2] [[1]; [1/4]] [[-1]; [1]] 2 (1/4) ExpLower (Some [[1]]) (1/8) RMean (Some [1; 2]) 0
    = Some v /\ v = 0.
Proof. exact (conj half_args half_loss_zero). Qed.
Example C70_smooth_case : leaves 1 (fun s => [s]) 1 [1] /\ smooth_at net_abs [[1]] [1/2] [1].
Proof. exact (conj (line_leaves 1) half_smooth). Qed.
Example C70_hybrid_case : lyap_args 1 net_abs [-1] [1] None [0] /\
  hybrid_args net_abs2 sysc [-1; -1] [1; 1] [0; 0] plane_bounds.
Proof. exact (conj abs_args sysc_args). Qed.
