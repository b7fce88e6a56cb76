(** The Lyapunov statements in the form of the properties. *)

Require Import Reals List Lia Lra Bool Arith ClassicalEpsilon.
Require Import Verif.Vec Verif.VecFacts Verif.ModelMip Verif.SpecMip Verif.SpecCore
  Verif.ModelUtils Verif.SpecUtils Verif.ModelNet Verif.SpecNet Verif.SpecStep
  Verif.ModelGrad Verif.ModelLyapunov Verif.SpecLyapunov Verif.SpecRoa Verif.ModelHybrid
  Verif.SpecHybrid Verif.ModelExamples
  Verif.ProofUtils Verif.ProofMip Verif.ProofStep Verif.ProofLyapunov Verif.ProofLyapCert
  Verif.ProofLyapMore Verif.ProofLyapStrengthen Verif.ProofLoss Verif.ProofRoa
  Verif.ProofHybrid Verif.ProofHybrid2 Verif.ProofHybridMisc Verif.ProofExamples.
Import ListNotations.
Open Scope R_scope.

Lemma equilibrium_value : forall n N x_lo x_up R0 xeq lam, lyap_args n N x_lo x_up R0 xeq ->
  lyapunov_value N n R0 xeq lam xeq = Some 0.
Proof.
  intros n N x_lo x_up R0 xeq lam A.
  assert (Le : length xeq = n).
  { eapply in_box_length; [apply (la_eq _ _ _ _ _ _ A)|apply (la_lo _ _ _ _ _ _ A)]. }
  rewrite (value_V n N x_lo x_up) by auto. f_equal. apply (V_eq n); auto.
  apply (la_R _ _ _ _ _ _ A).
Qed.

Section P.
Variable solve : mip -> gresult.
Hypothesis Hsolve : solver_ok solve.
Variable meth : method.
Variable N : network.
Variable n : nat.
Variables x_lo x_up : vec.
Variable R0 : option mat.
Variable xeq : vec.
Hypothesis Args : lyap_args n N x_lo x_up R0 xeq.
Variable lam : R.
Let M := R_of n R0.

(** No feasible point with positive objective iff V dominates. *)
Lemma positivity_certificate : forall eps m xv,
  positivity_milp solve meth N n x_lo x_up xeq lam eps R0 = Some (m, xv) ->
  ((forall sg, gfeas m sg -> objective m sg <= 0) <->
   (forall x, in_box x_lo x_up x -> eps * error1 M xeq x <= V N M lam xeq x)) /\
  (forall sg, gfeas m sg -> 0 < objective m sg ->
     in_box x_lo x_up (map sg xv) /\
     V N M lam xeq (map sg xv) < eps * error1 M xeq (map sg xv)).
Proof.
  intros eps m xv E.
  destruct (positivity_program solve Hsolve meth N n x_lo x_up R0 xeq Args lam eps m xv E)
    as (P1 & P2 & _ & P3 & P4). fold M in P3.
  split; [split|].
  - intros H x B. destruct (P4 x B) as (sg & G & Ex). specialize (H sg G).
    destruct (P3 sg G) as [_ Eo]. rewrite Eo, Ex in H. lra.
  - intros H sg G. destruct (P3 sg G) as [B Eo]. specialize (H _ B). lra.
  - intros sg G H. destruct (P3 sg G) as [B Eo]. split; auto. lra.
Qed.

Lemma positivity_strict : forall eps m xv,
  positivity_milp solve meth N n x_lo x_up xeq lam eps R0 = Some (m, xv) ->
  (forall sg, gfeas m sg -> objective m sg <= 0) -> full_column_rank n M -> 0 < eps ->
  forall x, in_box x_lo x_up x -> x <> xeq -> 0 < V N M lam xeq x.
Proof.
  intros eps m xv E H F P x B D.
  destruct (positivity_certificate eps m xv E) as [[K _] _]. specialize (K H x B).
  assert (Lx := in_box_length n _ _ _ B (la_lo _ _ _ _ _ _ Args)).
  assert (Le := in_box_length n _ _ _ (la_eq _ _ _ _ _ _ Args) (la_lo _ _ _ _ _ _ Args)).
  assert (Q := error1_pos n M xeq x (la_R _ _ _ _ _ _ Args) F).
  assert (0 < error1 M xeq x) by (apply Q; auto).
  assert (0 < eps * error1 M xeq x) by (apply Rmult_lt_0_compat; auto). lra.
Qed.

Variable st : bool.
Variable add_system : list nat -> list nat -> vtype -> mip -> option mip.
Variable T : vec -> vec -> Prop.
Hypothesis Hsys : system_contract n st add_system T.

Lemma decrease_certificate : forall eps et lower upper d,
  derivative_milp solve meth N n x_lo x_up add_system xeq lam eps et R0 lower upper VBin = Some d ->
  ((forall sg, gfeas (d_mip d) sg -> objective (d_mip d) sg <= 0) <->
   (forall x x', in_box x_lo x_up x -> in_box x_lo x_up x' -> T x x' ->
      within lower upper (V N M lam xeq x) -> violation et N M lam eps xeq x x' <= 0)) /\
  (forall sg, gfeas (d_mip d) sg ->
     in_box x_lo x_up (map sg (d_x d)) /\ in_box x_lo x_up (map sg (d_next d)) /\
     T (map sg (d_x d)) (map sg (d_next d)) /\
     objective (d_mip d) sg
     = violation et N M lam eps xeq (map sg (d_x d)) (map sg (d_next d))).
Proof.
  intros eps et lower upper d E.
  destruct (derivative_exact solve Hsolve meth N n x_lo x_up R0 xeq Args lam st add_system T Hsys
    eps et lower upper d E) as (P1 & P2 & P3). fold M in P2, P3.
  split; [split|].
  - intros H x x' B B' Tx W. destruct (P3 x x' B B' Tx W) as (sg & G & Ex & Ex').
    specialize (H sg G). destruct (P2 sg G) as (_ & _ & _ & _ & Eo). rewrite Eo, Ex, Ex' in H. auto.
  - intros H sg G. destruct (P2 sg G) as (B & B' & Tx & W & Eo). rewrite Eo. auto.
  - intros sg G. destruct (P2 sg G) as (B & B' & Tx & W & Eo). auto.
Qed.
End P.

Lemma strengthen_binary_prop : forall solve meth N n x_lo x_up R0 xeq lam eps st add_system T
    et lower upper infeasible d,
  solver_ok solve -> lyap_args n N x_lo x_up R0 xeq -> system_contract n st add_system T ->
  infeasible_ok infeasible ->
  derivative_milp solve meth N n x_lo x_up add_system xeq lam eps et R0 lower upper VBin = Some d ->
  exists m', strengthen_binary infeasible d = Some m' /\
    obj_max m' = obj_max (d_mip d) /\
    (forall sg, objective m' sg = objective (d_mip d) sg) /\
    (forall sg, gfeas m' sg -> gfeas (d_mip d) sg) /\
    (forall sg, gfeas (d_mip d) sg -> 0 <= objective (d_mip d) sg -> gfeas m' sg) /\
    (forall v, 0 <= v -> (optimum m' v <-> optimum (d_mip d) v)).
Proof.
  intros solve meth N n x_lo x_up R0 xeq lam eps st add_system T et lower upper infeasible d
    Hs A Sys Hi E.
  destruct (strengthen_binary_spec solve Hs meth N n x_lo x_up R0 xeq A lam eps st add_system T Sys
    et lower upper infeasible d Hi E) as (m' & E' & O & S & K).
  assert (Om : obj_max (d_mip d) = true).
  { destruct (derivative_exact solve Hs meth N n x_lo x_up R0 xeq A lam st add_system T Sys
      eps et lower upper d E) as (P1 & _). auto. }
  exists m'. split; [auto|]. split; [apply O|].
  split; [intros; apply same_obj_value; auto|]. split; [auto|]. split; [auto|].
  intros v Hv. unfold optimum.
  assert (Q := strengthen_binary_optimum solve Hs meth N n x_lo x_up R0 xeq A lam eps st add_system T
    Sys et lower upper infeasible d m' Hi E E' v Hv).
  destruct O as (_ & _ & O). rewrite O, Om. exact Q.
Qed.

Lemma ideal_query_ok : infeasible_ok ideal_query.
Proof.
  intros m rows. unfold ideal_query. destruct (excluded_middle_informative _) as [H|H]; [discriminate|].
  intros _ sg G F. apply H. eauto.
Qed.

Lemma eye_full_rank : forall n, full_column_rank n (R_of n None).
Proof.
  intros n x L H. unfold R_of in H. rewrite mv_eye in H by auto. rewrite H.
  destruct (wfm_eyek n 1) as [E _]. f_equal. exact E.
Qed.

Lemma strengthen_case : exists d m',
  derivative_milp ideal_solve IA net_abs 1 [-1] [1] add1 [0] (1/2) (1/2) ExpLower None None None VBin
    = Some d /\ strengthen_binary ideal_query d = Some m'.
Proof.
  destruct (decrease_case ExpLower ltac:(discriminate)) as (d & E & _).
  destruct (strengthen_binary_spec ideal_solve ideal_ok IA net_abs 1 [-1] [1] None [0] abs_args
    (1/2) (1/2) true add1 T1 (sys1_contract true) ExpLower None None ideal_query d
    ideal_query_ok E) as (m' & E' & _). eauto.
Qed.

(** ** Cost to go on the system that leaves its domain *)

Ltac rleb := unfold Rleb; repeat match goal with
  | |- context [Rle_dec ?a ?b] => destruct (Rle_dec a b); try lra end.

Lemma sysc_mode_edge : find_mode sysc [1; 0] [] = Some 1%nat.
Proof. unfold find_mode, sysc, in_mode. cbn. rleb. reflexivity. Qed.
Lemma sysc_mode_out : find_mode sysc [2; 2] [] = None.
Proof. unfold find_mode, sysc, in_mode. cbn. rleb. reflexivity. Qed.
Lemma sysc_mode_origin : find_mode sysc [0; 0] [] = Some 0%nat.
Proof. unfold find_mode, sysc, in_mode. cbn. rleb. reflexivity. Qed.

Lemma sysc_step_edge : mode_step (nth 1 (h_modes sysc) (mkMode [] [] [] [] [] [] [])) [1; 0] [] = [2; 2].
Proof. cbn. apply cons_eq_iff. split; [lra|]. apply cons_eq_iff. split; [lra|auto]. Qed.


Lemma last_state_outside : exists total xs costs,
  cost_to_go sysc first_coord (fun _ => false) 1 [1; 0] = Some (total, xs, costs) /\
  xs = [[1; 0]; [2; 2]] /\ find_mode sysc [2; 2] [] = None /\ nth 0 costs 0 = 3.
Proof.
  unfold cost_to_go. cbn [simulate_cost]. rewrite sysc_mode_edge.
  change (nth_error (h_modes sysc) 1) with (Some (nth 1 (h_modes sysc) (mkMode [] [] [] [] [] [] []))).
  cbn iota. cbv zeta. rewrite sysc_step_edge.
  eexists. eexists. eexists. split; [reflexivity|]. split; [reflexivity|]. split; [exact sysc_mode_out|].
  cbn. unfold first_coord. cbn. lra.
Qed.

Lemma whole_call_aborted :
  cost_to_go_samples sysc first_coord (fun _ => false) 2 (fun _ => false) [[0; 0]; [1; 0]] = None /\
  (exists total xs costs,
     cost_to_go sysc first_coord (fun _ => false) 2 [0; 0] = Some (total, xs, costs)).
Proof.
  assert (N1 : cost_to_go sysc first_coord (fun _ => false) 2 [1; 0] = None).
  { unfold cost_to_go. cbn [simulate_cost]. rewrite sysc_mode_edge.
    change (nth_error (h_modes sysc) 1) with (Some (nth 1 (h_modes sysc) (mkMode [] [] [] [] [] [] []))).
    cbn iota. cbv zeta. rewrite sysc_step_edge, sysc_mode_out. reflexivity. }
  assert (E0 : mode_step (nth 0 (h_modes sysc) (mkMode [] [] [] [] [] [] [])) [0; 0] [] = [0; 0]).
  { cbn. apply cons_eq_iff. split; [lra|]. apply cons_eq_iff. split; [lra|auto]. }
  assert (S0 : exists total xs costs,
     cost_to_go sysc first_coord (fun _ => false) 2 [0; 0] = Some (total, xs, costs)).
  { unfold cost_to_go. cbn [simulate_cost]. rewrite sysc_mode_origin.
    change (nth_error (h_modes sysc) 0) with (Some (nth 0 (h_modes sysc) (mkMode [] [] [] [] [] [] []))).
    cbn iota. cbv zeta. rewrite E0, sysc_mode_origin.
    change (nth_error (h_modes sysc) 0) with (Some (nth 0 (h_modes sysc) (mkMode [] [] [] [] [] [] []))).
    cbn iota. cbv zeta. eauto. }
  split; auto. destruct S0 as (t & xs & cs & E). cbn [cost_to_go_samples]. rewrite E, N1. reflexivity.
Qed.

Lemma sys1_mic_case : exists c, hybrid_mic sys1 None None None None = Some c.
Proof.
  destruct (hybrid_mic sys1 None None None None) as [c|] eqn:E; eauto. exfalso. revert E.
  apply (hybrid_total row_bounds (fun _ => true) 1 0 sys1 [0] [] [0/2]); auto.
  - apply row_bounds_valid.
  - apply sys1_built.
  - apply sys1_finite.
  - apply sys1_next. left. split; [lra|auto].
Qed.

(** ** Hybrid systems in the form of the properties *)

Lemma hybrid_exact_prop : forall bounds bounded nx nu h x_lo x_up u_lo u_up c x u x',
  bounds_valid bounds -> built bounds bounded nx nu h ->
  hybrid_mic h x_lo x_up u_lo u_up = Some c -> length x = nx -> length u = nu ->
  ((exists s b, bins b /\ mic_sat c (x ++ u) s b /\ output c (x ++ u) s b = x') <->
   opt_box x_lo x_up x /\ opt_box u_lo u_up u /\ hybrid_next h x u x').
Proof.
  intros bounds bounded nx nu h x_lo x_up u_lo u_up c x u x' Vb Bu.
  destruct (built_inv _ _ _ _ _ Vb Bu) as (Enx & Enu & W & Va).
  apply (hybrid_exact h nx nu Enx Enu W Va).
Qed.

Lemma partition_prop : forall axes, Forall axis_ok axes ->
  length (partition axes) = fold_right Nat.mul 1%nat (map snd axes) /\
  (forall s cl cu, In (s, cl, cu) (partition axes) ->
     vle (axes_lo axes) cl /\ vle cl s /\ vle s cu /\ vle cu (axes_up axes)) /\
  (forall p, (exists s cl cu, In (s, cl, cu) (partition axes) /\ in_box cl cu p) <->
     in_box (axes_lo axes) (axes_up axes) p).
Proof.
  intros axes Ok. split; [apply partition_count|]. split; [intros; apply partition_inside; auto|].
  intros p. split; [|apply partition_cover; auto].
  intros (s & cl & cu & H & [B1 B2]). destruct (partition_inside axes s cl cu Ok H) as (I1 & _ & _ & I4).
  split; eapply vle_trans; eauto.
Qed.
