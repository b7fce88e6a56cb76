(** A worked instance: x' = -x on [0,1] (mode 0) and on [1,2] (mode 1). *)

Require Import Reals List Arith Bool Lra Lia.
Require Import Verif.Vec Verif.VecFacts Verif.SpecCore Verif.ModelPwl Verif.SpecPwl Verif.ProofPwl.
Import ListNotations.
Open Scope R_scope.

Definition ex_calls : list pwl_call :=
  [ Derivative 0 [[0]; [1]] [[-1]] [0]; Derivative 1 [[1]; [2]] [[-1]] [0];
    Positivity 0 [[0]; [1]] [1]; Positivity 1 [[1]; [2]] [1]; Continuity 1 0 [[1]] ].
Definition ex_v : lpvars := mkLp [[1]; [2]] [0; -1] 0 0.
Definition ex_phi (t : R) : vec := [2 * exp (- t)].

Lemma ex_init : exists o0, pwl_init 1 2 (/ 2) (/ 2) [0] 0 = PwlOk o0.
Proof. eexists. reflexivity. Qed.
Lemma rleb_t : forall a b, a <= b -> Rleb a b = true.
Proof. intros. unfold Rleb. destruct (Rle_dec a b); [reflexivity|contradiction]. Qed.
Lemma reqb_t : forall a, Reqb a a = true.
Proof. intros. unfold Reqb. destruct (Req_EM_T a a); [reflexivity|contradiction]. Qed.
Lemma ex_run : exists o0 o, pwl_init 1 2 (/ 2) (/ 2) [0] 0 = PwlOk o0 /\ pwl_run o0 ex_calls = PwlOk o.
Proof.
  eexists. eexists. split; [reflexivity|]. unfold ex_calls. cbn [pwl_run pwl_step]. unfold add_derivative at 1. cbn.
  unfold add_derivative. cbn. unfold add_positivity at 1. cbn.
  rewrite !reqb_t, !rleb_t by lra. cbn.
  unfold add_positivity. cbn. rewrite !reqb_t, !rleb_t by lra. cbn. reflexivity.
Qed.
Lemma hull1 : forall a b x, a <= b -> in_hull 1 [[a]; [b]] x -> exists y, x = [y] /\ a <= y <= b.
Proof.
  intros a b x Hab [ws [L [F [Su E]]]]. destruct ws as [|w [|w' [|]]]; try discriminate.
  inversion F as [|? ? P F']; subst. inversion F' as [|? ? P' _]; subst. cbn in Su. cbn.
  eexists. split; [reflexivity|]. assert (E : w' = 1 - w) by lra. rewrite E in *. clear E.
  assert (0 <= w * (b - a)) by (apply Rmult_le_pos; lra). assert (0 <= (1 - w) * (b - a)) by (apply Rmult_le_pos; lra). lra.
Qed.
Lemma hull1_of : forall a b y, a < b -> a <= y <= b -> in_hull 1 [[a]; [b]] [y].
Proof.
  intros a b y Hab Hy. exists [(b - y) / (b - a); (y - a) / (b - a)].
  assert (0 < / (b - a)) by (apply Rinv_0_lt_compat; lra).
  split; [reflexivity|]. split; [|split].
  - apply Forall_cons; [unfold Rdiv; apply Rmult_le_pos; lra|]. apply Forall_cons; [unfold Rdiv; apply Rmult_le_pos; lra|]. apply Forall_nil.
  - cbn. field. lra.
  - cbn. f_equal. field. lra.
Qed.
Lemma ex_feasible : forall o0 o, pwl_init 1 2 (/ 2) (/ 2) [0] 0 = PwlOk o0 -> pwl_run o0 ex_calls = PwlOk o ->
  lp_feasible o ex_v /\ pwl_cost (/ 2) ex_v = 0.
Proof.
  intros o0 o I Rn. assert (Sh : lp_shaped o ex_v).
  { assert (D : pwl_x_dim o = 1%nat /\ pwl_modes o = 2%nat).
    { assert (G : forall calls o0 o, pwl_run o0 calls = PwlOk o -> pwl_x_dim o = pwl_x_dim o0 /\ pwl_modes o = pwl_modes o0).
      { clear. induction calls as [|c calls IH]; intros o0 o E; cbn [pwl_run] in E.
        - assert (o0 = o) by congruence. subst. auto.
        - destruct (pwl_step o0 c) as [o1| | | |] eqn:S; try discriminate. destruct (step_shape _ _ _ S) as [cs ->].
          destruct (IH _ _ E) as [A B]. auto. }
      destruct (G _ _ _ Rn) as [-> ->]. cbn in I. match type of I with PwlOk ?a = _ => assert (E0 : o0 = a) by congruence end.
      rewrite E0. auto. }
    destruct D as [D1 D2]. unfold lp_shaped. rewrite D1, D2. cbn. repeat constructor. }
  split; [|unfold pwl_cost; cbn; ring]. split; [exact Sh|].
  assert (Hn : (0 < 1)%nat) by lia.
  apply (proj2 (pwl_exact 1 2 (/ 2) (/ 2) [0] 0 o0 ex_calls o ex_v Hn I Rn Sh)).
  split; [cbn; lra|]. split; [cbn; lra|]. split; [unfold V_of; cbn; ring|].
  unfold ex_calls. repeat (apply Forall_cons); [..|apply Forall_nil]; cbn [call_holds].
  - intros x Hx. apply hull1 in Hx; [|lra]. destruct Hx as [y [-> Hy]]. unfold V_of. cbn. lra.
  - intros x Hx. apply hull1 in Hx; [|lra]. destruct Hx as [y [-> Hy]]. unfold V_of. cbn. lra.
  - intros x Hx. apply hull1 in Hx; [|lra]. destruct Hx as [y [-> Hy]]. unfold V_of, norm1. cbn. rewrite Rabs_right; lra.
  - intros x Hx. apply hull1 in Hx; [|lra]. destruct Hx as [y [-> Hy]]. unfold V_of, norm1. cbn. rewrite Rabs_right; lra.
  - intros x [ws [L [F [Su E]]]]. destruct ws as [|w [|]]; try discriminate. cbn in Su. subst x. unfold V_of. cbn. lra.
Qed.
Lemma ex_moves : forall lo hi a b, a <= b -> lo < hi -> (forall t, a <= t <= b -> lo <= 2 * exp (- t) <= hi) ->
  moves 1 [[lo]; [hi]] [[-1]] [0] a b ex_phi.
Proof.
  intros lo hi a b Hab Hlh H.
  assert (D : forall t, derivable_pt_lim (fun s => 2 * exp (- s)) t (-1 * (2 * exp (- t)) + 0 + 0)).
  { intros t. eapply d_eq'.
    - apply (derivable_pt_lim_mult (fun _ => 2) (fun s => exp (- s))); [apply derivable_pt_lim_const|].
      apply (derivable_pt_lim_comp (fun s => - s) exp); [|apply derivable_pt_lim_exp].
      apply (derivable_pt_lim_opp (fun s => s)). apply derivable_pt_lim_id.
    - cbv beta. ring. }
  split; [auto|]. split; [|split].
  - intros t Ht. split; [apply hull1_of; auto|]. intros i Hi. destruct i; [|lia].
    apply (derivable_continuous_pt (fun s => 2 * exp (- s))). eexists. apply D.
  - intros t. reflexivity.
  - intros t Ht i Hi. destruct i; [|lia]. exact (D t).
Qed.
Lemma ex_passes : passes 1 ex_calls ex_phi 0 (ln 4) 1 0.
Proof.
  assert (P2 : 0 < ln 2) by (rewrite <- ln_1; apply ln_increasing; lra).
  assert (P4 : ln 2 < ln 4) by (apply ln_increasing; lra).
  assert (E2 : exp (- ln 2) = / 2) by (rewrite exp_Ropp, exp_ln; lra).
  assert (E4 : exp (- ln 4) = / 4) by (rewrite exp_Ropp, exp_ln; lra).
  assert (Mono : forall s t, s <= t -> exp (- t) <= exp (- s)).
  { intros s t H. destruct (Req_dec s t) as [->|N]; [lra|]. left. apply exp_increasing. lra. }
  apply (passes_switch _ _ _ 0 (ln 2) (ln 4) 1 1 0 0 [[1]]).
  - apply (passes_one _ _ _ 0 (ln 2) 1 [[1]; [2]] [[-1]] [0]); [unfold ex_calls; cbn; auto|].
    apply ex_moves; [lra|lra|]. intros t Ht. pose proof (Mono 0 t ltac:(lra)) as M. pose proof (Mono t (ln 2) ltac:(lra)) as M'.
    rewrite Ropp_0, exp_0 in M. lra.
  - left. unfold ex_calls. cbn. auto 10.
  - exists [1]. cbn. split; [auto|]. split; [apply Forall_cons; [lra|apply Forall_nil]|]. split; [lra|]. unfold ex_phi. rewrite E2. f_equal. lra.
  - apply (passes_one _ _ _ (ln 2) (ln 4) 0 [[0]; [1]] [[-1]] [0]); [unfold ex_calls; cbn; auto|].
    apply ex_moves; [lra|lra|]. intros t Ht. pose proof (Mono (ln 2) t ltac:(lra)) as M.
    assert (0 < exp (- t)) by apply exp_pos. lra.
Qed.
(** Two cubes sharing a square. *)
Definition square : mat := [[0; 0; 0]; [0; 0; 1]; [0; 1; 0]; [0; 1; 1]].
Lemma square_refused : exists x_dim modes eps1 eps2 xstar eq_mode o0 i j vs,
  pwl_init x_dim modes eps1 eps2 xstar eq_mode = PwlOk o0 /\
  Forall (fun u => length u = x_dim) vs /\ (i < modes)%nat /\ (j < modes)%nat /\
  (forall o, add_continuity o0 i j vs <> PwlOk o) /\ add_continuity o0 i j vs = PwlShapeError.
Proof.
  exists 3%nat, 2%nat, (/ 2), (/ 2), [0; 0; 0], 0%nat. eexists. exists 0%nat, 1%nat, square.
  split; [reflexivity|]. split; [repeat constructor|]. split; [lia|]. split; [lia|].
  split; [intros o|]; cbn; [discriminate|reflexivity].
Qed.
