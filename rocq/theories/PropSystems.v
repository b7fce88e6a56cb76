(** The properties of hybrid linear systems (C31 - C34). *)

Require Import Reals List Lra Lia.
Require Import Verif.Vec Verif.ModelMip Verif.SpecMip Verif.SpecCore Verif.SpecStep
  Verif.SpecLyapunov Verif.ModelHybrid Verif.SpecHybrid Verif.ModelExamples
  Verif.ProofHybrid2 Verif.ProofHybridMisc Verif.ProofExamples Verif.ProofLyapFinal.
Import ListNotations.
Open Scope R_scope.

(** C31.  [c] is the object returned by mixed_integer_constraints. *)
Theorem C31_hybrid_exact : forall bounds bounded nx nu h x_lo x_up u_lo u_up c x u x',
  bounds_valid bounds -> built bounds bounded nx nu h ->
  hybrid_mic h x_lo x_up u_lo u_up = Some c -> length x = nx -> length u = nu ->
  ((exists s b, bins b /\ mic_sat c (x ++ u) s b /\ output c (x ++ u) s b = x') <->
   opt_box x_lo x_up x /\ opt_box u_lo u_up u /\ hybrid_next h x u x').
Proof. exact hybrid_exact_prop. Qed.
Print Assumptions C31_hybrid_exact.
(** The object exists for bounded modes that are not all empty. *)
Theorem C31_hybrid_total : forall bounds bounded nx nu h x u x',
  bounds_valid bounds -> built bounds bounded nx nu h -> finite_modes h ->
  length x = nx -> length u = nu -> hybrid_next h x u x' ->
  hybrid_mic h None None None None <> None.
Proof. exact hybrid_total. Qed.
Print Assumptions C31_hybrid_total.
(** The same inside a Gurobi model: every other constraint stays as it is and
    the new ones say that the next state is the successor of the state. *)
Theorem C31_hybrid_in_model : forall bounds bounded nx h st,
  bounds_valid bounds -> built bounds bounded nx 0 h ->
  system_contract nx st (fun xv xn vt m => hybrid_add_dynamics h xv xn [] vt m)
    (fun x x' => hybrid_next h x [] x').
Proof. exact hybrid_contract. Qed.
Print Assumptions C31_hybrid_in_model.
Example C31_case : bounds_valid row_bounds /\ built row_bounds (fun _ => true) 1 0 sys1 /\
  finite_modes sys1 /\ hybrid_next sys1 [1] [] [-1/4] /\
  exists c, hybrid_mic sys1 None None None None = Some c.
Proof.
  split; [exact row_bounds_valid|]. split; [exact sys1_built|]. split; [exact sys1_finite|].
  split; [|exact sys1_mic_case]. apply sys1_next. right. split; [lra|]. f_equal.
Qed.

(** C32. *)
Theorem C32_mode : forall bounds bounded nx nu h x u, bounds_valid bounds ->
  built bounds bounded nx nu h ->
  match find_mode h x u with
  | Some i => exists m, nth_error (h_modes h) i = Some m /\ inside m (x ++ u) /\
      forall j m', (j < i)%nat -> nth_error (h_modes h) j = Some m' -> ~ inside m' (x ++ u)
  | None => forall m, In m (h_modes h) -> ~ inside m (x ++ u)
  end.
Proof. exact find_mode_spec. Qed.
Print Assumptions C32_mode.
Theorem C32_step_forward : forall bounds bounded nx nu h x u, bounds_valid bounds ->
  built bounds bounded nx nu h ->
  (forall x', step_forward h x u None = Some x' ->
     exists i m, find_mode h x u = Some i /\ nth_error (h_modes h) i = Some m /\ x' = image m x u) /\
  (step_forward h x u None = None <-> forall m, In m (h_modes h) -> ~ inside m (x ++ u)) /\
  (forall i m, nth_error (h_modes h) i = Some m -> step_forward h x u (Some i) = Some (image m x u)) /\
  (forall i, nth_error (h_modes h) i = None -> step_forward h x u (Some i) = None).
Proof. exact step_forward_spec. Qed.
Print Assumptions C32_step_forward.
Theorem C32_possible_dx : forall bounds bounded nx nu h x u, bounds_valid bounds ->
  built bounds bounded nx nu h ->
  forall x', In x' (possible_dx h x u) <-> hybrid_next h x u x'.
Proof. exact possible_dx_spec. Qed.
Print Assumptions C32_possible_dx.
Example C32_case : built row_bounds (fun _ => true) 2 0 sysc /\
  find_mode sysc [0; 0] [] = Some 0%nat /\ find_mode sysc [1; 0] [] = Some 1%nat /\
  find_mode sysc [2; 2] [] = None.
Proof.
  exact (conj sysc_built (conj sysc_mode_origin (conj sysc_mode_edge sysc_mode_out))).
Qed.

(** C33.  What is missing from the property: "states outside every mode are
    never used" is false of the code, see the refutation. *)
Theorem C33_cost_to_go_partial : forall h cost g T x0 total xs costs,
  cost_to_go h cost g T x0 = Some (total, xs, costs) ->
  nth 0 xs [] = x0 /\ run h xs /\ (1 <= length xs <= S T)%nat /\
  length costs = length xs /\
  (forall i, (i < length xs)%nat -> nth i costs 0 = vsum (map cost (skipn i xs))) /\
  total = vsum (map cost xs) /\
  (forall i, (S i < length xs)%nat -> g (nth i xs []) = false) /\
  ((length xs <= T)%nat -> g (nth (length xs - 1) xs []) = true).
Proof. exact cost_to_go_spec. Qed.
Print Assumptions C33_cost_to_go_partial.
(** It only fails when a run reaches a state outside every mode. *)
Theorem C33_failure : forall h cost g T x0, cost_to_go h cost g T x0 = None ->
  exists xs, nth 0 xs [] = x0 /\ run h xs /\ (1 <= length xs <= T)%nat /\
    step_forward h (nth (length xs - 1) xs []) [] None = None.
Proof. exact cost_to_go_none. Qed.
Print Assumptions C33_failure.
Theorem C33_samples : forall h cost g T pr x0s pairs,
  cost_to_go_samples h cost g T pr x0s = Some pairs ->
  (forall y c, In (y, c) pairs <->
     exists x0 total xs costs i, In x0 x0s /\
       cost_to_go h cost g T x0 = Some (total, xs, costs) /\
       (i < length xs)%nat /\ y = nth i xs [] /\ c = nth i costs 0 /\ pr y = false).
Proof. exact samples_spec. Qed.
Print Assumptions C33_samples.
(** The last state of a run may lie outside every mode; it is returned and its
    cost counts. *)
Theorem C33_last_state_refuted : exists total xs costs,
  cost_to_go sysc first_coord (fun _ => false) 1 [1; 0] = Some (total, xs, costs) /\
  xs = [[1; 0]; [2; 2]] /\ find_mode sysc [2; 2] [] = None /\ nth 0 costs 0 = 3.
Proof. exact last_state_outside. Qed.
Print Assumptions C33_last_state_refuted.
(** One starting state that leaves the modes makes the whole call fail,
    instead of being skipped. *)
Theorem C33_skip_refuted :
  cost_to_go_samples sysc first_coord (fun _ => false) 2 (fun _ => false) [[0; 0]; [1; 0]] = None /\
  (exists total xs costs,
     cost_to_go sysc first_coord (fun _ => false) 2 [0; 0] = Some (total, xs, costs)).
Proof. exact whole_call_aborted. Qed.
Print Assumptions C33_skip_refuted.

(** C34. *)
Theorem C34_partition : forall axes, Forall axis_ok axes ->
  length (partition axes) = fold_right Nat.mul 1%nat (map snd axes) /\
  (forall s cl cu, In (s, cl, cu) (partition axes) ->
     vle (axes_lo axes) cl /\ vle cl s /\ vle s cu /\ vle cu (axes_up axes)) /\
  (forall p, (exists s cl cu, In (s, cl, cu) (partition axes) /\ in_box cl cu p) <->
     in_box (axes_lo axes) (axes_up axes) p).
Proof. exact partition_prop. Qed.
Print Assumptions C34_partition.
Theorem C34_cells_disjoint : forall lo up nb j k, lo <= up -> (j < k < nb)%nat ->
  cell_up lo up 0 nb j <= cell_lo lo up 0 nb k.
Proof. exact cells_disjoint. Qed.
Print Assumptions C34_cells_disjoint.
Example C34_case : Forall axis_ok [(-1, 1, 1/10, 3%nat); (0, 2, 0, 4%nat)] /\
  length (partition [(-1, 1, 1/10, 3%nat); (0, 2, 0, 4%nat)]) = 12%nat.
Proof.
  split; [|reflexivity]. constructor; [|constructor; [|constructor]]; cbn; split; try lra;
    split; try lra; lia.
Qed.
