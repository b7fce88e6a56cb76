(** C56: control affine systems. *)

Require Import Reals List.
Require Import Verif.Vec Verif.ModelMip Verif.SpecMip Verif.SpecCore Verif.ModelNet Verif.SpecNet Verif.ModelROptions
  Verif.ModelAffine Verif.SpecAffine Verif.ProofAffine Verif.ModelExamples Verif.ProofExamples.
Import ListNotations.
Open Scope R_scope.

(** For every f and G: the dynamics is f(x) + G(x) w with w the input clamped to its limits. *)
Theorem C56_dynamics : forall x_lo x_up u_lo u_up X f G x u, new_box x_lo x_up u_lo u_up = Some X -> length u = u_dim X ->
  exists w, in_box u_lo u_up w /\
    (forall i, (i < length u_lo)%nat -> nth i w 0 = clamp (nth i u_lo 0) (nth i u_up 0) (nth i u 0)) /\
    (in_box u_lo u_up u -> w = u) /\
    ca_dynamics X f G x u = vadd (f x) (mv (G x) w).
Proof. exact dynamics_prop. Qed.
Print Assumptions C56_dynamics.

(** The linear system: constraints exact for every state, bounds valid and attained. *)
Theorem C56_linear : forall x_lo x_up u_lo u_up X A B,
  new_box x_lo x_up u_lo u_up = Some X -> new_linear X A B = true ->
  exists r, lin_constraints X A B = Some r /\
    describes r (fun x => length x = x_dim X) (in_box x_lo x_up) (lin_f A) (lin_G B) /\
    (forall i, (i < x_dim X)%nat ->
       (exists x, in_box x_lo x_up x /\ nth i (lin_f A x) 0 = nth i (ca_f_lo r) 0) /\
       (exists x, in_box x_lo x_up x /\ nth i (lin_f A x) 0 = nth i (ca_f_up r) 0)).
Proof. exact linear_system_prop. Qed.
Print Assumptions C56_linear.
Example C56_linear_case :
  new_box [-1; -1] [1; 1] [-2] [2] = Some pend_box /\ new_linear pend_box [[0; 1]; [-1; 0]] [[0]; [1]] = true.
Proof. exact linear_case. Qed.

(** The second order construction.  The full statement drops the hypothesis on Aout_input; it is refuted
    below. *)
Theorem C56_second_order_partial : forall X, even_dim X = true ->
  forall ca cb a_lo a_up b_lo b_up D a b, mic_wf ca -> nin ca = x_dim X -> num_out ca = nq X ->
  length (cx_up X) = x_dim X ->
  Aout_input cb = None -> num_out cb = (nq X * u_dim X)%nat ->
  encodes ca D a -> encodes cb D (fun x => concat (b x)) ->
  (forall x, in_box (cx_lo X) (cx_up X) x -> in_box a_lo a_up (a x) /\ in_box b_lo b_up (concat (b x))) ->
  exists r, so_constraints X ca cb a_lo a_up b_lo b_up = Some r /\
    describes r D (in_box (cx_lo X) (cx_up X)) (so_f X a) (so_G X b).
Proof. exact second_prop. Qed.
Print Assumptions C56_second_order_partial.
Theorem C56_second_order_refuted : exists X ca cb a_lo a_up b_lo b_up D a b,
  new_box (cx_lo X) (cx_up X) (cu_lo X) (cu_up X) = Some X /\ even_dim X = true /\
  mic_wf ca /\ nin ca = x_dim X /\ num_out ca = nq X /\
  mic_wf cb /\ nin cb = x_dim X /\ num_out cb = (nq X * u_dim X)%nat /\
  encodes ca D a /\ encodes cb D (fun x => concat (b x)) /\
  (forall x, in_box (cx_lo X) (cx_up X) x -> in_box a_lo a_up (a x) /\ in_box b_lo b_up (concat (b x))) /\
  so_constraints X ca cb a_lo a_up b_lo b_up = None.
Proof. exact second_refused. Qed.
Print Assumptions C56_second_order_refuted.
(** Whenever b(x) uses the state directly and there is a position. *)
Theorem C56_second_order_raises : forall X, even_dim X = true -> forall cb A,
  Aout_input cb = Some A -> nin cb = x_dim X -> (0 < nq X)%nat -> so_mic_G X cb = None.
Proof. exact so_G_raises. Qed.
Print Assumptions C56_second_order_raises.
(** Velocity on top, acceleration a(x) + b(x) u below. *)
Theorem C56_second_order_dynamics : forall X, even_dim X = true -> forall a b x u,
  length (a x) = nq X -> length (b x) = nq X -> length x = x_dim X ->
  ca_dynamics X (so_f X a) (so_G X b) x u = skipn (nq X) x ++ vadd (a x) (mv (b x) (u_clamped X u)).
Proof. exact second_dynamics. Qed.
Print Assumptions C56_second_order_dynamics.

(** Networks for a and b: nothing is missing. *)
Theorem C56_networks : forall solve Y, solver_ok solve -> relu_so_built Y ->
  (solver_total solve -> rs_constraints solve Y <> None) /\
  forall r, rs_constraints solve Y = Some r ->
    describes r (in_box (cx_lo (rs_box Y)) (cx_up (rs_box Y))) (in_box (cx_lo (rs_box Y)) (cx_up (rs_box Y))) (rs_f Y) (rs_G Y).
Proof. exact relu_prop. Qed.
Print Assumptions C56_networks.
Theorem C56_networks_dynamics : forall solve Y r, solver_ok solve -> relu_so_built Y -> rs_constraints solve Y = Some r ->
  forall x u, in_box (cx_lo (rs_box Y)) (cx_up (rs_box Y)) x ->
  (exists s b s' b', bins b /\ mic_sat (ca_f r) x s b /\ bins b' /\ mic_sat (ca_G r) x s' b') /\
  forall s b s' b', bins b -> mic_sat (ca_f r) x s b -> bins b' -> mic_sat (ca_G r) x s' b' ->
    vadd (output (ca_f r) x s b)
         (mv (chunks (x_dim (rs_box Y)) (u_dim (rs_box Y)) (output (ca_G r) x s' b')) (u_clamped (rs_box Y) u))
    = ca_dynamics (rs_box Y) (rs_f Y) (rs_G Y) x u /\
    ca_dynamics (rs_box Y) (rs_f Y) (rs_G Y) x u =
      skipn (nq (rs_box Y)) x ++ vadd (rs_fa Y x) (mv (rs_fb Y x) (u_clamped (rs_box Y) u)).
Proof. exact relu_dynamics. Qed.
Print Assumptions C56_networks_dynamics.
Example C56_networks_case : solver_ok ideal_solve /\ solver_total ideal_solve /\ relu_so_built pend.
Proof. exact (conj ideal_ok (conj ideal_total pend_built)). Qed.

(** The training target vanishes at the equilibrium for every pair of networks. *)
Theorem C56_equilibrium : forall nx nu fm gm xe ue, length xe = nx -> length (fm xe) = nx ->
  compute_x_dot nx nu fm gm xe ue [xe ++ ue] = [zeros nx].
Proof. exact x_dot_equilibrium. Qed.
Print Assumptions C56_equilibrium.
(** On every batch the target is the rate f(x) + G(x) u less its value at the equilibrium. *)
Theorem C56_training_rates : forall nx nu fm gm xe ue (pairs : list (vec * vec)),
  Forall (fun p => length (fst p) = nx) pairs ->
  let rate x u := vadd (fm x) (mv (chunks nx nu (gm x)) u) in
  compute_x_dot nx nu fm gm xe ue (map (fun p => fst p ++ snd p) pairs) =
  map (fun p => vsub (rate (fst p) (snd p)) (rate xe ue)) pairs.
Proof. exact x_dot_batch. Qed.
Print Assumptions C56_training_rates.
Example C56_training_case : Forall (fun p : vec * vec => length (fst p) = 2%nat) [([1; 2], [3]); ([4; 5], [6])].
Proof. repeat constructor. Qed.
Example C56_equilibrium_case : length [1; 2] = 2%nat /\ length ((fun x : vec => x) [1; 2]) = 2%nat.
Proof. split; reflexivity. Qed.
