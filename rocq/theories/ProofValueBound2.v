(** When the program is returned, and the quadratic cost-to-go against an absolute value. *)

Require Import Reals List Lia Lra Psatz Arith Bool.
Require Import Verif.Vec Verif.VecFacts Verif.ModelMip Verif.SpecMip Verif.SpecCore Verif.ModelNet Verif.SpecNet Verif.SpecLyapunov
  Verif.ProofNet Verif.ProofNetBounds Verif.ProofNetTotal Verif.ProofStrengthen Verif.ModelExamples Verif.ProofExamples
  Verif.ModelValueBound Verif.SpecValueBound Verif.ProofValueBound.
Import ListNotations.
Open Scope R_scope.

Lemma returned_iff : forall T N model x_lo x_up, (0 < tj_x T)%nat -> net_wf (tj_x T) N ->
  length x_lo = tj_x T -> length x_up = tj_x T ->
  ((exists P, epsilon_opt (mkBounds T N) model x_lo x_up = Some P) <-> vle x_lo x_up /\ out_features (last_layer N) = 1%nat).
Proof.
  intros T N model x_lo x_up Pos WN Llo Lup. unfold epsilon_opt. cbn [mb_traj mb_net]. split.
  - intros [P EP]. destruct (output_constraint _ IA N x_lo x_up) as [[[c B] out]|] eqn:Eo; [|discriminate].
    destruct (oc_shape _ none_ok (tj_x T) IA N x_lo x_up c B out WN Llo Lup Eo) as (W & k & P1 & P2 & P3 & pin & E1 & E2 & E3 & peq & Ec & _ & LW & _).
    split.
    + unfold output_constraint in Eo. destruct (vleb x_lo x_up) eqn:Ev; [|discriminate]. apply vleb_spec. exact Ev.
    + subst c. cbn [nin nsl nbin Ain_input Ain_slack Ain_binary rhs_in Aeq_input Aeq_slack Aeq_binary rhs_eq Aout_slack Cout] in EP.
      destruct (negb (Nat.eqb (tj_x T) (tj_x T))); [discriminate|]. destruct W as [|w [|]]; try discriminate. rewrite <- LW. reflexivity.
  - intros [Ev O]. destruct (ia_total _ none_ok (tj_x T) N x_lo x_up WN Llo Lup Ev) as (c & B & out & Eo). rewrite Eo.
    destruct (oc_shape _ none_ok (tj_x T) IA N x_lo x_up c B out WN Llo Lup Eo) as (W & k & P1 & P2 & P3 & pin & E1 & E2 & E3 & peq & Ec & _ & LW & Lk & Lp & Le).
    subst c. cbn [nin nsl nbin Ain_input Ain_slack Ain_binary rhs_in Aeq_input Aeq_slack Aeq_binary rhs_eq Aout_slack Cout].
    rewrite Nat.eqb_refl. cbn [negb]. rewrite O in LW, Lk. destruct W as [|w [|]]; try discriminate. destruct k as [|k0 [|]]; try discriminate.
    assert (Sp : squeezed pin = Some pin) by (destruct pin as [|? [|]]; cbn in Lp; try lia; reflexivity).
    assert (Se : squeezed peq = Some peq) by (destruct peq as [|? [|]]; try reflexivity; destruct Le as [q Hq]; cbn in Hq; lia).
    rewrite Sp, Se. eexists. reflexivity.
Qed.
Lemma argument_ignored : forall mb model model' x_lo x_up, epsilon_opt mb model x_lo x_up = epsilon_opt mb model' x_lo x_up.
Proof. reflexivity. Qed.

(** The optimal cost-to-go x ^ 2, by way of a variable that equals x. *)
Definition square_traj : traj_opt := mkTraj 1 1 0 [] [] [] [] [[1]] [[-1]] [[]] [0] [[0]] [[2]] [] [0] [0] [] 0.
Definition net_zero : network := mkNet [(mkLin 1 [[1]; [-1]] (Some [0; 0]), Relu)] (mkLin 2 [[0; 0]] (Some [0])).
Lemma square_wf : traj_wf square_traj.
Proof. unfold traj_wf, square_traj, wfm. cbn. repeat split; repeat constructor. Qed.
Lemma square_value : forall r, cost_to_go square_traj [r] (r ^ 2).
Proof.
  intros r. split.
  - exists [r], []. split.
    + unfold plan, square_traj, bins, vle. cbn. repeat (split; [auto; constructor|]). f_equal. ring.
    + unfold plan_cost, quad, square_traj. cbn. field.
  - intros s a (_ & Ls & La & _ & _ & E). unfold square_traj in *. cbn in Ls, La, E. destruct s as [|s0 [|]]; try discriminate. destruct a; [|discriminate].
    cbn in E. inversion E as [E']. assert (s0 = r) by lra. subst s0. unfold plan_cost, quad. cbn. lra.
Qed.
Lemma abs_eta : forall r, eta net_abs [r] = Rabs r.
Proof. exact phi_abs. Qed.
Lemma zero_eta : forall r, eta net_zero [r] = 0.
Proof. intros. unfold eta, net_eval, net_zero, lin_eval. cbn. ring. Qed.
Lemma box1 : forall r, -1 <= r <= 1 -> in_box [-1] [1] [r].
Proof. intros r H. split; (constructor; [lra|constructor]). Qed.
Lemma square_case : exists P, epsilon_opt (mkBounds square_traj net_abs) net_abs [-1] [1] = Some P /\
  eps_at P [1 / 3] (- (2 / 9)) /\ eps_min P (- (1 / 4)).
Proof.
  destruct (returned_iff square_traj net_abs net_abs [-1] [1]) as [_ Ret]; [cbn; lia|exact net_abs_wf|reflexivity|reflexivity|].
  destruct Ret as [P EP]; [split; [constructor; [lra|constructor]|reflexivity]|]. exists P. split; [auto|].
  assert (V := eps_at_value square_traj net_abs [-1] [1] square_wf net_abs_wf eq_refl eq_refl net_abs P EP). split.
  - assert (Q := proj2 (V [1 / 3] ((1 / 3) ^ 2) (box1 (1 / 3) ltac:(lra))) (square_value (1 / 3))). rewrite abs_eta, Rabs_right in Q by lra.
    replace (- (2 / 9)) with ((1 / 3) ^ 2 - 1 / 3) by field. exact Q.
  - split.
    + assert (Q := proj2 (V [1 / 2] ((1 / 2) ^ 2) (box1 (1 / 2) ltac:(lra))) (square_value (1 / 2))). rewrite abs_eta, Rabs_right in Q by lra.
      destruct Q as [(y & g & F & E) _]. exists [1 / 2], y, g. split; [auto|]. rewrite E. field.
    + intros x y g F. destruct (prog_split square_traj net_abs [-1] [1] square_wf net_abs_wf eq_refl eq_refl net_abs P EP) as (M & S & _).
      destruct (S x y g F) as (s & z & a & b & _ & _ & _ & _ & Pl & _ & ->). destruct Pl as (Lx & Pl). assert (Lx' := Lx). cbn in Lx'.
      destruct x as [|r [|]]; try discriminate. destruct (square_value r) as [_ Min]. specialize (Min s a (conj Lx Pl)). rewrite abs_eta.
      assert (H1 := pow2_ge_0 (r + 1 / 2)). assert (H2 := pow2_ge_0 (r - 1 / 2)). set (pc := plan_cost square_traj [r] s a) in *. clearbody pc.
      unfold Rabs. destruct (Rcase_abs r); lra.
Qed.
Lemma wrong_network : exists T N model x P v m, traj_wf T /\ net_wf 1 N /\ net_wf 1 model /\ in_box [-1] [1] x /\
  epsilon_opt (mkBounds T N) model [-1] [1] = Some P /\ cost_to_go T x v /\ eps_at P x m /\ m <> v - eta model x.
Proof.
  destruct square_case as (P & EP & A & _). exists square_traj, net_abs, net_zero, [1 / 3], P, ((1 / 3) ^ 2), (- (2 / 9)).
  split; [exact square_wf|]. split; [exact net_abs_wf|]. split.
  { unfold net_wf, net_zero. cbn [hidden last_layer hidden_wf lin_wf in_features weight bias]. unfold lin_wf, wfm. cbn. repeat split; try discriminate; repeat constructor. }
  split; [apply box1; lra|]. split; [exact EP|]. split; [apply square_value|]. split; [exact A|]. rewrite zero_eta. lra.
Qed.
