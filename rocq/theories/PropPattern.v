(** Properties of strengthening cuts and activation patterns (C15-C19). *)

Require Import Reals List Lra Lia.
Require Import Verif.Vec Verif.VecFacts Verif.ModelMip Verif.SpecMip Verif.SpecCore
  Verif.ModelUtils Verif.SpecUtils Verif.ModelNet Verif.SpecNet
  Verif.ModelPattern Verif.SpecPattern Verif.ModelStrengthen Verif.SpecStrengthen
  Verif.ProofNet Verif.ProofNetTotal Verif.ProofWarm Verif.ProofPattern Verif.ProofGradVec
  Verif.ProofStrengthen.
Import ListNotations.
Open Scope R_scope.

(** C15.  A cut is produced exactly for slopes in [0, 1); whatever the index
    set, it holds at every reachable point. *)
Theorem C15_cut_total : forall c w b lo up ind, length lo = length w -> length up = length w ->
  ((exists k, strengthen_w_indices c w b lo up ind = Some k) <-> 0 <= c < 1).
Proof. exact w_indices_total. Qed.
Print Assumptions C15_cut_total.
Theorem C15_cut_sound : forall c w b lo up ind k, strengthen_w_indices c w b lo up ind = Some k ->
  forall x y be, unit_reached c w b lo up x y be -> cut_holds k x y be.
Proof. exact cut_sound. Qed.
Print Assumptions C15_cut_sound.
Example C15_cut_case : exists k, strengthen_w_indices 0 [1; -1] 0 [0; 0] [1; 1]
    (find_index_set [1; -1] [0; 0] [1; 1] [1/2; 1/2] (1/2)) = Some k /\
  unit_reached 0 [1; -1] 0 [0; 0] [1; 1] [1; 1/2] (1/2) 1 /\
  ~ cut_holds k [1/2; 1/2] 1 (1/2).
Proof. exact cut_case. Qed.

(** The index set chosen at a point gives the strongest cut there: if it does
    not separate the point, no index set does. *)
Theorem C15_chosen_cut_strongest : forall c w b lo up xhat be k k' ind, length xhat = length w ->
  strengthen_w_indices c w b lo up (find_index_set w lo up xhat be) = Some k ->
  strengthen_w_indices c w b lo up ind = Some k' ->
  forall y, cut_holds k xhat y be -> cut_holds k' xhat y be.
Proof. exact best_cut. Qed.
Print Assumptions C15_chosen_cut_strongest.

(** The cuts for a list of points: each separates one of the points and is a cut
    of some index set, hence sound. *)
Theorem C15_given_points : forall c w b lo up pts ks,
  strengthen_given_pts c w b lo up pts = Some ks ->
  forall k, In k ks -> exists xhat yhat be ind, In (xhat, yhat, be) pts /\
    strengthen_w_indices c w b lo up ind = Some k /\ ~ cut_holds k xhat yhat be.
Proof. exact given_pts_cuts. Qed.
Print Assumptions C15_given_points.
(** No separating cut is missed: if the returned cuts hold at one of the points,
    the cut of every index set does. *)
Theorem C15_given_points_complete : forall c w b lo up pts ks,
  strengthen_given_pts c w b lo up pts = Some ks ->
  forall xhat yhat be, In (xhat, yhat, be) pts -> length xhat = length w ->
  Forall (fun k => cut_holds k xhat yhat be) ks ->
  forall ind k, strengthen_w_indices c w b lo up ind = Some k -> cut_holds k xhat yhat be.
Proof. exact given_pts_complete. Qed.
Print Assumptions C15_given_points_complete.
(** The cuts of one unit, all of them or the selected ones. *)
Theorem C15_unit_cuts : forall c w b lo up ilo iup sel ks,
  strengthen_relu_mip c w b lo up ilo iup sel = Some ks ->
  Forall (fun k => exists ind, strengthen_w_indices c w b lo up ind = Some k) ks.
Proof. exact relu_mip_cuts. Qed.
Print Assumptions C15_unit_cuts.

(** The cuts of a whole network at any point hold at every solution of the
    encoding. *)
Theorem C15_network_cuts : forall solve, solver_ok solve ->
  forall n meth N x_lo x_up c B out lins acts k,
  net_wf n N -> no_slope_one (hidden N) -> length x_lo = n -> length x_up = n ->
  output_constraint solve meth N x_lo x_up = Some (c, B, out) ->
  strengthen_mip_at_point N lins acts (x_lo ++ b_post_lo B) (x_up ++ b_post_up B)
    = Some (Some k) ->
  (wfm (length (k_rhs k)) n (k_x k) /\
   wfm (length (k_rhs k)) (num_units (hidden N)) (k_s k) /\
   wfm (length (k_rhs k)) (num_units (hidden N)) (k_b k)) /\
  forall x s b, bins b -> mic_sat c x s b -> blk_holds k x s b.
Proof. exact cuts_hold. Qed.
Print Assumptions C15_network_cuts.
Theorem C15_network_total : forall n N lins acts los ups, net_wf n N -> cut_slopes (hidden N) ->
  length lins = (n + num_units (hidden N))%nat -> length acts = num_units (hidden N) ->
  length los = (n + num_units (hidden N))%nat -> length ups = (n + num_units (hidden N))%nat ->
  strengthen_mip_at_point N lins acts los ups <> None.
Proof. exact strengthen_total. Qed.
Print Assumptions C15_network_total.
(** And no separating cut is missed at the given point, up to the tolerance of
    the code. *)
Theorem C15_network_complete : forall n N x S acts los ups r, net_wf n N ->
  length x = n -> length S = num_units (hidden N) -> length acts = num_units (hidden N) ->
  strengthen_mip_at_point N (x ++ S) acts los ups = Some r ->
  (forall k, r = Some k -> blk_holds k x S acts) ->
  all_cuts (/ 10 ^ 12) (hidden N) (x ++ S) acts los ups.
Proof. exact strengthen_complete. Qed.
Print Assumptions C15_network_complete.

(** Strengthening a program at any solution only removes points, and removes
    no point that solves the encoding with 0/1 binaries. *)
Theorem C15_program_kept : forall solve, solver_ok solve ->
  forall n meth N x_lo x_up c B out xv sv bv sol m m',
  net_wf n N -> no_slope_one (hidden N) -> length x_lo = n -> length x_up = n ->
  output_constraint solve meth N x_lo x_up = Some (c, B, out) ->
  length xv = n -> length sv = num_units (hidden N) -> length bv = num_units (hidden N) ->
  strengthen_relu_mip_at_solution N xv sv bv x_lo x_up (b_post_lo B) (b_post_up B) sol m = Some m' ->
  (forall sg, gfeas m' sg -> gfeas m sg) /\
  (forall sg, bins (map sg bv) -> mic_sat c (map sg xv) (map sg sv) (map sg bv) ->
     (gfeas m' sg <-> gfeas m sg)).
Proof. exact program_kept. Qed.
Print Assumptions C15_program_kept.
Example C15_network_case : solver_ok (fun _ => GOther) /\ net_wf 2 net2 /\
  no_slope_one (hidden net2) /\
  exists c B out, output_constraint (fun _ => GOther) IA net2 [-1; 0] [1; 2] = Some (c, B, out).
Proof. exact net2_case. Qed.

(** C16.  P x <= q exactly where the pattern is consistent; there the network is
    x g + h, and g is the chain-rule derivative at the pattern. *)
Theorem C16_linearisation : forall n N pats, net_wf n N -> pattern_shape (hidden N) pats ->
  exists g h P q, relu_given_activation_pattern N n pats = Some (g, h, P, q) /\
    (forall x, length x = n ->
       (vle (mv P x) q <-> consistent pats (pre_acts (hidden N) x)) /\
       (vle (mv P x) q ->
        net_eval N x = vadd (vm (out_features (last_layer N)) x g) h) /\
       vm (out_features (last_layer N)) x g = jvp N pats x).
Proof. exact linearisation_prop. Qed.
Print Assumptions C16_linearisation.
(** The pattern computed for x is consistent with x (so x is in its polytope). *)
Theorem C16_own_pattern : forall n N x, net_wf n N -> length x = n ->
  consistent (activation_pattern (hidden N) x) (pre_acts (hidden N) x) /\
  pattern_shape (hidden N) (activation_pattern (hidden N) x).
Proof. exact own_pattern_prop. Qed.
Print Assumptions C16_own_pattern.
Theorem C16_rejects : forall n N pats, net_wf n N ->
  (relu_given_activation_pattern N n pats = None <->
   ~ pattern_shape (hidden N) (firstn (length (hidden N)) pats)).
Proof. exact linearisation_none. Qed.
Print Assumptions C16_rejects.
Example C16_case : net_wf 2 net2 /\ pattern_shape (hidden net2) [[true; false]; [false; true]].
Proof. split; [exact net2_wf|]. repeat constructor. Qed.

(** C17. *)
Theorem C17_enumeration : forall n N x, net_wf n N -> length x = n ->
  NoDup (compute_all_relu_activation_patterns N x) /\
  (forall pats, In pats (compute_all_relu_activation_patterns N x) <->
     consistent pats (pre_acts (hidden N) x)).
Proof. exact all_patterns_prop. Qed.
Print Assumptions C17_enumeration.
Theorem C17_binary_to_pattern : forall N b,
  (~ (bins b /\ length b = num_units (hidden N)) ->
   relu_activation_binary_to_pattern N b = None) /\
  (bins b -> length b = num_units (hidden N) ->
   exists pats, relu_activation_binary_to_pattern N b = Some pats /\
     pattern_shape (hidden N) pats /\ flat pats = b).
Proof. exact binary_to_pattern_prop. Qed.
Print Assumptions C17_binary_to_pattern.
Example C17_case : net_wf 2 net2 /\ length [0; 1] = 2%nat /\
  bins [1; 0; 0; 1] /\ length [1; 0; 0; 1] = num_units (hidden net2).
Proof.
  split; [exact net2_wf|]. split; [reflexivity|]. split; [|reflexivity].
  unfold bins, is_bin. repeat (constructor; [auto|]). constructor.
Qed.

(** C18.  Out-of-range choices are rejected; the others are numbered
    bijectively. *)
Theorem C18_alpha_index : forall ws,
  (forall idx, ~ Forall2 lt idx ws -> compute_alpha_index ws idx = None) /\
  (forall idx, Forall2 lt idx ws -> exists j, compute_alpha_index ws idx = Some j /\
     (j < prod_list ws)%nat) /\
  (forall i1 i2 j, compute_alpha_index ws i1 = Some j -> compute_alpha_index ws i2 = Some j ->
     i1 = i2) /\
  (forall j, (j < prod_list ws)%nat -> exists idx, Forall2 lt idx ws /\
     compute_alpha_index ws idx = Some j).
Proof. exact alpha_prop. Qed.
Print Assumptions C18_alpha_index.
Example C18_case : Forall2 lt [1; 0; 3]%nat [2; 3; 4]%nat /\
  compute_alpha_index [2; 3; 4]%nat [1; 0; 3]%nat = Some 15%nat.
Proof. split; [repeat constructor|reflexivity]. Qed.

(** C19. *)
Theorem C19_gradient_times_vector : forall n N lo up, net_wf n N -> slopes_nonneg (hidden N) ->
  length lo = n -> vle lo up ->
  exists c B, output_gradient_times_vector N lo up = Some (c, B) /\
    nin c = n /\ nsl c = num_units (hidden N) /\ nbin c = num_units (hidden N) /\
    forall y pats, in_box lo up y -> pattern_shape (hidden N) pats ->
      (forall s, mic_sat c y s (flat pats) <-> s = concat (tangents (hidden N) pats y)) /\
      output c y (concat (tangents (hidden N) pats y)) (flat pats) = jvp N pats y /\
      boxes (w_zlo B) (w_zup B) (y :: tangents (hidden N) pats y) /\
      boxes (w_lo B) (w_up B) (pre_tangents (hidden N) pats y ++ [jvp N pats y]).
Proof. exact grad_vec_prop. Qed.
Print Assumptions C19_gradient_times_vector.
Theorem C19_negative_slope_rejected : forall N lo up, ~ slopes_nonneg (hidden N) ->
  output_gradient_times_vector N lo up = None.
Proof. exact grad_vec_rejects. Qed.
Print Assumptions C19_negative_slope_rejected.
Example C19_case : net_wf 2 net2 /\ slopes_nonneg (hidden net2).
Proof. exact (conj net2_wf (proj2 (proj2 net2_slopes))). Qed.
