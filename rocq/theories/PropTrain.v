(** The properties of the training loops (C42 - C47).

    NetT, CtlT and RV are the types of the parameters of the Lyapunov network, of the
    controller and of R; the optimiser, the solver and the random choices are arbitrary
    functions. *)

Require Import Reals List Bool Arith Lra Lia.
Require Import Verif.Vec Verif.ModelMip Verif.SpecMip Verif.SpecCore Verif.ModelNet Verif.SpecNet
  Verif.SpecStep Verif.ModelLyapunov Verif.SpecLyapunov Verif.ModelExamples Verif.ProofExamples
  Verif.ModelTrain Verif.SpecTrain Verif.SpecTrainCert
  Verif.ProofTrain Verif.ProofTrainLoop Verif.ProofTrainEx.
Import ListNotations.
Open Scope R_scope.

(** C42.  The result has the parameters of the initial model or of one of the epochs,
    and none of these has a smaller loss. *)
Theorem C42_descent : forall (NetT CtlT RV : Type) cfg (opt : nat -> model NetT CtlT RV -> NetT * CtlT * RV)
    sample_loss, (forall n c r, 0 <= fst (sample_loss n c r) /\ 0 <= snd (sample_loss n c r)) ->
  forall oc n t m,
  let m' := batch_descent cfg sample_loss opt oc n t m in
  total sample_loss m' <= total sample_loss m /\
  (forall x, In x (trajectory cfg opt oc n t m) -> total sample_loss m' <= total sample_loss x) /\
  exists x, In x (m :: trajectory cfg opt oc n t m) /\ same_params m' x.
Proof. exact (@batch_descent_ok). Qed.
Print Assumptions C42_descent.
Example C42_case : (forall n c r, 0 <= fst (loss_up n c r) /\ 0 <= snd (loss_up n c r)) /\
  map net (trajectory (mkSetting false false false) (fun _ m => (net m + 1, tt, 0)) 0 2 0 (num 2 0)) = [2 + 1; 2 + 1 + 1] /\
  net (batch_descent (mkSetting false false false) loss_up (fun _ m => (net m + 1, tt, 0)) 0 2 0 (num 2 0)) = 2.
Proof. exact descent_case. Qed.

(** C43.  Full statement: without the hypothesis on R. *)
Theorem C43_best_partial : forall (NetT CtlT RV : Type) cfg
    (opt : nat -> model NetT CtlT RV -> NetT * CtlT * RV) (test_loss : NetT -> CtlT -> RV -> R),
  fixed_R cfg = true -> forall n m m',
  train_on_samples cfg opt test_loss n m = Some m' ->
  (forall x, In x (trajectory cfg opt (rcell m) n O m) -> test_of test_loss m' <= test_of test_loss x) /\
  exists x, In x (trajectory cfg opt (rcell m) n O m) /\ same_params m' x.
Proof. exact (@on_samples_ok). Qed.
Print Assumptions C43_best_partial.
Theorem C43_returns : forall (NetT CtlT RV : Type) cfg
    (opt : nat -> model NetT CtlT RV -> NetT * CtlT * RV) (test_loss : NetT -> CtlT -> RV -> R) n m,
  n <> O -> exists m', train_on_samples cfg opt test_loss n m = Some m'.
Proof. exact (@on_samples_total). Qed.
Print Assumptions C43_returns.
Theorem C43_R_refuted : exists cfg (opt : nat -> model R unit R -> R * unit * R) test_loss n m m' x,
  fixed_R cfg = false /\ train_on_samples cfg opt test_loss n m = Some m' /\
  In x (trajectory cfg opt (rcell m) n 0 m) /\ test_of test_loss x < test_of test_loss m'.
Proof. exact on_samples_R. Qed.
Print Assumptions C43_R_refuted.
Example C43_case :
  exists m', train_on_samples (mkSetting false false true) (fun _ m => (net m + 1, tt, 0)) (fun n _ _ => Rabs (n - 1))
    2 (num 0 0) = Some m' /\ net m' = 0 + 1.
Proof. exact on_samples_case. Qed.

(** C44. *)
Theorem C44_adversarial : forall (NetT CtlT RV : Type) cfg sample_loss opt solver radius perturb
    pos_size der_size num_epochs pos_tol der_tol max_iterations (m : model NetT CtlT RV) pos der s',
  train_adversarial cfg sample_loss opt solver radius perturb pos_size der_size num_epochs pos_tol der_tol
    max_iterations m pos der = (true, s') ->
  exists k, (k < max_iterations)%nat /\
    pos_obj (report_of solver k (a_model s')) < pos_tol /\ der_obj (report_of solver k (a_model s')) < der_tol.
Proof. exact (@adversarial_verdict). Qed.
Print Assumptions C44_adversarial.
Theorem C44_train : forall (NetT CtlT RV : Type) cfg solver pos_tol der_tol step n
    (m : model NetT CtlT RV) po do m',
  train cfg solver pos_tol der_tol step n m = Some (true, po, do, m') ->
  exists k, po = pos_obj (report_of solver k m') /\ do = der_obj (report_of solver k m') /\
    po <= pos_tol /\ do <= der_tol.
Proof. exact train_verdict. Qed.
Print Assumptions C44_train.
(** What the verdict means, when the reports are the optima of the two programs. *)
Theorem C44_adversarial_certificate : forall solve, solver_ok solve ->
  forall meth n x_lo x_up xeq lam eps_pos eps_der et st
    (CtlT RV : Type) (R0 : RV -> option mat)
    (add_system : CtlT -> list nat -> list nat -> vtype -> mip -> option mip) (T : CtlT -> vec -> vec -> Prop)
    cfg sample_loss opt solver radius perturb pos_size der_size num_epochs pos_tol der_tol
    max_iterations (m : model network CtlT RV) pos der s',
  train_adversarial cfg sample_loss opt solver radius perturb pos_size der_size num_epochs pos_tol der_tol
    max_iterations m pos der = (true, s') ->
  let N := net (a_model s') in let c := ctl (a_model s') in let r := r_value (a_model s') in
  lyap_args n N x_lo x_up (R0 r) xeq -> system_contract n st (add_system c) (T c) ->
  (forall k, reports_optima solve meth n x_lo x_up xeq lam eps_pos eps_der et (add_system c) N (R0 r)
     (solver k N c r)) ->
  (forall x, in_box x_lo x_up x ->
     eps_pos * error1 (R_of n (R0 r)) xeq x - V N (R_of n (R0 r)) lam xeq x < pos_tol) /\
  (forall x x', in_box x_lo x_up x -> in_box x_lo x_up x' -> T c x x' ->
     violation et N (R_of n (R0 r)) lam eps_der xeq x x' < der_tol).
Proof. exact adversarial_certificate. Qed.
Print Assumptions C44_adversarial_certificate.
Theorem C44_train_certificate : forall solve, solver_ok solve ->
  forall meth n x_lo x_up xeq lam eps_pos eps_der et st
    (CtlT RV : Type) (R0 : RV -> option mat)
    (add_system : CtlT -> list nat -> list nat -> vtype -> mip -> option mip) (T : CtlT -> vec -> vec -> Prop)
    cfg solver pos_tol der_tol step max_iterations (m : model network CtlT RV) po do m',
  train cfg solver pos_tol der_tol step max_iterations m = Some (true, po, do, m') ->
  let N := net m' in let c := ctl m' in let r := r_value m' in
  lyap_args n N x_lo x_up (R0 r) xeq -> system_contract n st (add_system c) (T c) ->
  (forall k, reports_optima solve meth n x_lo x_up xeq lam eps_pos eps_der et (add_system c) N (R0 r)
     (solver k N c r)) ->
  (forall x, in_box x_lo x_up x ->
     eps_pos * error1 (R_of n (R0 r)) xeq x - V N (R_of n (R0 r)) lam xeq x <= pos_tol) /\
  (forall x x', in_box x_lo x_up x -> in_box x_lo x_up x' -> T c x x' ->
     violation et N (R_of n (R0 r)) lam eps_der xeq x x' <= der_tol).
Proof. exact train_certificate. Qed.
Print Assumptions C44_train_certificate.
(** Early termination: sound when the threshold is not below the tolerance. *)
Theorem C44_threshold : forall threshold incumbents optimum tol,
  (forall t, threshold = Some t -> tol <= t) ->
  optimize threshold incumbents optimum <= tol -> optimize threshold incumbents optimum = optimum.
Proof. exact optimize_harmless. Qed.
Print Assumptions C44_threshold.
Theorem C44_threshold_refuted : exists threshold incumbents optimum tol, 0 <= threshold /\
  Forall (fun v => v <= optimum) incumbents /\
  optimize (Some threshold) incumbents optimum <= tol /\ tol < optimum.
Proof. exact early_stop. Qed.
Print Assumptions C44_threshold_refuted.
Example C44_case :
  train_adversarial (mkSetting false false true) (fun _ _ _ _ _ => (0, 0)) (fun _ _ m => (net m, tt, tt))
    cert_solver None (fun _ l => l) 5 5 3 (1/1000) (1/1000) 2 cert_model [] []
  = (true, mkAdv cert_model [] []) /\
  train (mkSetting false false true) cert_solver (1/1000) (1/1000) (fun _ m => (net m, tt, tt)) 2 cert_model
  = Some (true, 0, 0, cert_model) /\
  forall k, reports_optima ideal_solve IA 1 [-1] [1] [0] (1/2) (1/2) (1/2) ExpLower add1 net_abs None
    (cert_solver k net_abs tt tt).
Proof. exact certificate_case. Qed.

(** C45. *)
Theorem C45_pool : forall (NetT CtlT RV : Type) cfg sample_loss opt solver radius perturb
    pos_size der_size num_epochs pos_tol der_tol, pos_size <> O -> der_size <> O ->
  forall n (m : model NetT CtlT RV) pos der b s', n <> O ->
  train_adversarial cfg sample_loss opt solver radius perturb pos_size der_size num_epochs pos_tol der_tol
    n m pos der = (b, s') ->
  exists k, (1 <= k <= n)%nat /\ (b = false -> k = n) /\
  a_pos s' = last_n pos_size (pos ++ concat (map (contributed_pos cfg sample_loss opt solver radius perturb
    pos_size der_size num_epochs (rcell m) (mkAdv m pos der)) (seq 0 k))) /\
  a_der s' = last_n der_size (der ++ concat (map (contributed_der cfg sample_loss opt solver radius perturb
    pos_size der_size num_epochs (rcell m) (mkAdv m pos der)) (seq 0 k))).
Proof. exact (@pool_final). Qed.
Print Assumptions C45_pool.
Theorem C45_bound : forall (A : Type) k (l : list A), length (last_n k l) = Nat.min k (length l).
Proof. exact (@last_n_length). Qed.
Print Assumptions C45_bound.
Theorem C45_aligned : forall (f : vec -> vec) add_pos add_der pos_new der_new p,
  p_next p = map f (p_der p) ->
  let q := extend_pools add_pos add_der pos_new der_new (option_map (map f) der_new) p in
  p_next q = map f (p_der q) /\
  forall size, p_next (used_pools size q) = map f (p_der (used_pools size q)) /\
    (size <> O -> p_pos (used_pools size q) = last_n size (p_pos q) /\
       p_der (used_pools size q) = last_n size (p_der q)).
Proof. exact pools_aligned. Qed.
Print Assumptions C45_aligned.
Theorem C45_buffer : forall (A : Type) max (news : list (list A)) old, (length old <= max)%nat ->
  Forall (fun new => (length new <= max)%nat) news ->
  let b := fold_left (fun o new => buffer_push max new o) news old in
  (length b <= max)%nat /\ exists dropped, dropped ++ b = old ++ concat news.
Proof. exact buffer_history. Qed.
Print Assumptions C45_buffer.
Theorem C45_buffer_aligned : forall (A B : Type) max (d D : list A) (l L : list B),
  length d = length l -> length D = length L ->
  length (buffer_push max d D) = length (buffer_push max l L) /\
  combine (buffer_push max d D) (buffer_push max l L) = buffer_push max (combine d l) (combine D L).
Proof. exact buffer_pair. Qed.
Print Assumptions C45_buffer_aligned.
(** Size 0 means no limit, and one large addition overflows the value buffers. *)
Theorem C45_zero_refuted : exists s',
  train_adversarial (mkSetting false false true) (fun _ _ _ _ _ => (1, 1)) (fun _ _ m => (net m, tt, 0))
    one_adv None (fun _ _ => []) 0 0 1 0 0 2 (num 0 0) [] [] = (false, s') /\
  a_pos s' = [[7]; [7]] /\ a_der s' = [[8]; [8]].
Proof. exact pool_zero. Qed.
Print Assumptions C45_zero_refuted.
Theorem C45_buffer_refuted : exists max (new old : list nat), (length old <= max)%nat /\
  (max < length (buffer_push max new old))%nat.
Proof. exact buffer_overflow. Qed.
Print Assumptions C45_buffer_refuted.
Example C45_case : exists s',
  train_adversarial (mkSetting false false true) (fun _ _ _ _ _ => (1, 1)) (fun _ _ m => (net m, tt, 0))
    one_adv None (fun _ _ => []) 2 1 1 0 0 2 (num 0 0) [[1]; [2]] [[3]] = (false, s') /\
  a_pos s' = [[7]; [7]] /\ a_der s' = [[8]].
Proof. exact pool_case. Qed.

(** C46.  The representatives are the heads of maximal runs of consecutive close
    states. *)
Theorem C46_cluster : forall radius states, states <> [] ->
  let (reps, cnt) := cluster radius states in
  hd [] reps = hd [] states /\ subseq reps states /\
  exists rs, cut_into rs states /\ reps = map (hd []) rs /\
    Forall (chained (near radius)) rs /\
    chained (fun a b => ~ near radius (last a []) (hd [] b)) rs /\
    (length reps <> 2%nat -> cnt = map (@length vec) rs).
Proof. exact cluster_ok. Qed.
Print Assumptions C46_cluster.
(** Full statement: also for two clusters. *)
Theorem C46_counts_partial : forall radius states, states <> [] ->
  let (reps, cnt) := cluster radius states in
  length reps <> 2%nat ->
  length cnt = length reps /\ list_sum cnt = length states /\ Forall (fun c => (0 < c)%nat) cnt.
Proof. exact cluster_counts. Qed.
Print Assumptions C46_counts_partial.
Theorem C46_two_refuted : exists radius states, let (reps, cnt) := cluster radius states in
  states = [[0]; [5]; [5]] /\ radius = 1 /\ reps = [[0]; [5]] /\ cnt = [3%nat].
Proof. exact cluster_two. Qed.
Print Assumptions C46_two_refuted.

(** C47.  Full statement: every step of the optimiser sets R's variables. *)
Theorem C47_first_partial : forall (NetT CtlT RV : Type) cfg
    (opt : nat -> model NetT CtlT RV -> NetT * CtlT * RV) n t m,
  fixed_R cfg = false ->
  Forall2 (fun x x' => exists k, x' = opt_step cfg (rcell m) (opt k x) x /\ r_value x' = snd (opt k x))
    (removelast (m :: trajectory cfg opt (rcell m) n t m)) (trajectory cfg opt (rcell m) n t m).
Proof. exact first_descent. Qed.
Print Assumptions C47_first_partial.
Theorem C47_refuted : exists sample_loss (opt : nat -> nat -> model R unit R -> R * unit * R) solver m k,
  let cfg := mkSetting false false false in
  let start := adv_at cfg sample_loss opt solver None (fun _ _ => []) 5 5 1 (rcell m) (mkAdv m [] []) in
  let s := snd (solve_and_collect solver None (fun _ _ => []) 5 5 k (start k)) in
  r_value (opt_step cfg (rcell m) (opt k O (a_model s)) (a_model s)) <> snd (opt k O (a_model s)).
Proof. exact R_not_trained. Qed.
Print Assumptions C47_refuted.
(** After the first descent that runs through all its epochs, R never changes again. *)
Theorem C47_frozen : forall (NetT CtlT RV : Type) cfg sample_loss
    (opt : nat -> nat -> model NetT CtlT RV -> NetT * CtlT * RV) solver radius perturb pos_size der_size num_epochs
    m pos der j,
  fixed_R cfg = false -> (rcell m < next_cell m)%nat ->
  let start := adv_at cfg sample_loss opt solver radius perturb pos_size der_size num_epochs
                 (rcell m) (mkAdv m pos der) in
  let s := snd (solve_and_collect solver radius perturb pos_size der_size j (start j)) in
  (forall x, In x (trajectory cfg (opt j) (rcell m) num_epochs O (a_model s)) ->
     losses (sample_loss (a_pos s) (a_der s)) x <> (0, 0)) ->
  forall k, (j < k)%nat ->
  rcell (a_model (start k)) <> rcell m /\ r_value (a_model (start k)) = r_value (a_model (start (S j))).
Proof. exact R_frozen_all. Qed.
Print Assumptions C47_frozen.
Example C47_case :
  let start := adv_at (mkSetting false false false) down up one_adv None (fun _ _ => []) 5 5 1 0
                 (mkAdv (num 0 0) [] []) in
  r_value (a_model (start 0%nat)) = 0 /\ r_value (a_model (start 1%nat)) = 0 + 1 /\
  r_value (a_model (start 2%nat)) = 0 + 1 /\
  snd (up 1 0 (a_model (start 1%nat))) = 0 + 1 + 1.
Proof. exact frozen_case. Qed.
