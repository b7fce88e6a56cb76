(** Positivity and decrease certificates. *)

Require Import Reals List Lia Lra Bool Arith.
Require Import Verif.Vec Verif.VecFacts Verif.ModelMip Verif.SpecMip Verif.SpecCore
  Verif.ModelUtils Verif.SpecUtils Verif.ModelNet Verif.SpecNet Verif.SpecStep
  Verif.ModelGrad Verif.ModelLyapunov Verif.SpecLyapunov
  Verif.ProofUtils Verif.ProofMip Verif.ProofSat Verif.ProofConcat
  Verif.ProofBounds Verif.ProofNet Verif.ProofNetBounds Verif.ProofNetTotal Verif.ProofWarm
  Verif.ProofStep Verif.ProofNetStep Verif.ProofLyapunov.
Import ListNotations.
Open Scope R_scope.

Lemma in_box_length : forall n lo up x, in_box lo up x -> length lo = n -> length x = n.
Proof. intros n lo up x [H _] L. rewrite <- L. symmetry. eapply vle_length; eauto. Qed.
Lemma below_seq : forall a k b, (a + k <= b)%nat -> below b (seq a k).
Proof. intros. apply Forall_forall. intros v Hv. apply in_seq in Hv. lia. Qed.
Lemma below_weaken : forall a b l, below a l -> (a <= b)%nat -> below b l.
Proof. intros a b l H L. eapply Forall_impl; try exact H. simpl; intros; lia. Qed.
Lemma init_feas : forall vt sg, feas vt init_mip sg.
Proof.
  intros. split; [split|].
  - intros i v H. destruct i; discriminate.
  - constructor.
  - intros _. constructor.
Qed.

Lemma vle1 : forall a b : R, Forall2 Rle [a] [b] -> a <= b.
Proof. intros a b H. inversion H; auto. Qed.

Section Cert.
Variable solve : mip -> gresult.
Hypothesis Hsolve : solver_ok solve.
Variable meth : method.
Variable N : network.
Variable n : nat.
Variables x_lo x_up : vec.
Variable R0 : option mat.
Variable xeq : vec.
Hypothesis Args : lyap_args n N x_lo x_up R0 xeq.
Variables lam eps : R.

Let M := R_of n R0.
Let W := la_net _ _ _ _ _ _ Args.
Let Ho := la_out _ _ _ _ _ _ Args.
Let L1 := la_lo _ _ _ _ _ _ Args.
Let L2 := la_up _ _ _ _ _ _ Args.
Let WR := la_R _ _ _ _ _ _ Args.
Let Leq : length xeq = n := in_box_length n _ _ _ (la_eq _ _ _ _ _ _ Args) L1.

(** ** Positivity *)

Lemma positivity_program : forall m xv,
  positivity_milp solve meth N n x_lo x_up xeq lam eps R0 = Some (m, xv) ->
  obj_max m = true /\ length xv = n /\ history true m /\
  (forall sg, gfeas m sg -> in_box x_lo x_up (map sg xv) /\
     objective m sg = eps * error1 M xeq (map sg xv) - V N M lam xeq (map sg xv)) /\
  (forall x, in_box x_lo x_up x -> exists sg, gfeas m sg /\ map sg xv = x).
Proof.
  intros m xv E. unfold positivity_milp in E.
  destruct (addVars (repeat (NInf, PInf) n) VCont init_mip) as [m0 xv0] eqn:E0.
  destruct (step_free VBin true n _ _ _ E0 (h_init true)) as (F1 & F2 & F3 & F4 & F5).
  destruct (add_relu_output solve meth N x_lo x_up xv0 VBin m0) as [[m1 rr]|] eqn:E1; [|discriminate].
  assert (Lx : length xv0 = n) by (rewrite F1; apply seq_length).
  assert (Bx : below (nvars m0) xv0) by (rewrite F1; apply below_seq; lia).
  destruct (relu_output_step solve Hsolve meth N n x_lo x_up W Ho L1 L2 true _ VBin _ _ _ F3 Bx Lx
              ltac:(discriminate) E1) as (R1 & R2 & R3 & R4 & _ & R5).
  destruct (add_state_error n x_lo x_up false xeq R0 xv0 VBin m1) as [[[m2 s] al]|] eqn:E2; [|discriminate].
  assert (N1 : (nvars m0 <= nvars m1)%nat) by apply R5.
  assert (H1 : history true m1) by apply R5.
  destruct (state_error_step n x_lo x_up L1 L2 R0 xeq WR true _ _ _ _ _ _ _ E2 H1
    (below_weaken _ _ _ Bx N1) Lx ltac:(discriminate)) as (S1 & S2 & S3 & S4 & S5).
  rewrite (scalar_phi n) in E by auto.
  assert (N2 : (nvars m1 <= nvars m2)%nat) by apply S5.
  assert (H2 : history true m2) by apply S5.
  destruct (setObjective_step VBin true [vneg (ret_a rr); repeat (eps - lam) (length s)]
     [ret_z rr; s] (- ret_b rr + phi N xeq) true m2 H2) as (m3 & E3 & O1 & O2 & O3 & O4 & O5).
  { constructor; [unfold vneg; rewrite map_length; auto|]. constructor; [apply repeat_length|constructor]. }
  { simpl. rewrite app_nil_r. apply Forall_app. split.
    - apply fresh_below in R1. apply (below_weaken _ _ _ R1); auto.
    - apply fresh_below in S1. auto. }
  { simpl. rewrite app_nil_r. eapply fresh_disj; eauto. }
  rewrite E3 in E. injection E as <- <-.
  split; auto. split; auto. split; auto.
  assert (St : step VBin true m0 m2 (fun sg => in_box x_lo x_up (map sg xv0))
    (fun sg => in_box x_lo x_up (map sg xv0) /\
      dot (ret_a rr) (map sg (ret_z rr)) + ret_b rr = phi N (map sg xv0) /\
      map sg s = map Rabs (mv M (vsub (map sg xv0) xeq)))).
  { eapply step_trans; [exact R5|exact S5|apply (local_map m0 xv0 _ Bx)|auto|tauto|].
    intros sg _ [Q1 Q2] Q3. auto. }
  destruct St as (_ & _ & T1 & T2).
  split.
  - intros sg G. rewrite <- feas_bin, O4 in G. destruct (T1 sg G) as (_ & Q1 & Q2 & Q3).
    split; auto. rewrite O5. cbn [map2 vsum]. rewrite dot_vneg_l.
    rewrite dot_repeat_l by apply map_length. rewrite Q3. fold (norm1 (mv M (vsub (map sg xv0) xeq))).
    fold (error1 M xeq (map sg xv0)). unfold V. lra.
  - intros x B. destruct (F5 (fun _ => 0) x (init_feas _ _)) as (sg & G & _ & Ex).
    { eapply in_box_length; eauto. }
    destruct (T2 sg G) as (sg' & G' & A); [congruence|].
    exists sg'. split; [apply feas_bin, O4; auto|].
    rewrite <- Ex. symmetry. apply (map_agree (nvars m0)); auto.
Qed.

Lemma positivity_total :
  (exists c B out, output_constraint solve meth N x_lo x_up = Some (c, B, out)) ->
  exists m xv, positivity_milp solve meth N n x_lo x_up xeq lam eps R0 = Some (m, xv).
Proof.
  intros C. unfold positivity_milp.
  destruct (addVars (repeat (NInf, PInf) n) VCont init_mip) as [m0 xv0] eqn:E0.
  destruct (step_free VBin true n _ _ _ E0 (h_init true)) as (F1 & F2 & F3 & F4 & F5).
  assert (Lx : length xv0 = n) by (rewrite F1; apply seq_length).
  assert (Bx : below (nvars m0) xv0) by (rewrite F1; apply below_seq; lia).
  destruct (relu_output_total solve Hsolve meth N n x_lo x_up W Ho L1 L2 xv0 VBin m0
    (la_units _ _ _ _ _ _ Args) C) as (m1 & rr & E1). rewrite E1.
  destruct (relu_output_step solve Hsolve meth N n x_lo x_up W Ho L1 L2 true _ VBin _ _ _ F3 Bx Lx
              ltac:(discriminate) E1) as (R1 & R2 & R3 & R4 & _ & R5).
  assert (N1 : (nvars m0 <= nvars m1)%nat) by apply R5.
  assert (H1 : history true m1) by apply R5.
  destruct (state_error_total n x_lo x_up L1 L2 R0 xeq WR true false xv0 VBin m1
    (la_eq _ _ _ _ _ _ Args) (la_rows _ _ _ _ _ _ Args) H1 (below_weaken _ _ _ Bx N1) Lx
    ltac:(discriminate)) as (m2 & s & al & E2). rewrite E2.
  destruct (state_error_step n x_lo x_up L1 L2 R0 xeq WR true _ _ _ _ _ _ _ E2 H1
    (below_weaken _ _ _ Bx N1) Lx ltac:(discriminate)) as (S1 & S2 & S3 & S4 & S5).
  rewrite (scalar_phi n) by auto.
  assert (N2 : (nvars m1 <= nvars m2)%nat) by apply S5.
  assert (H2 : history true m2) by apply S5.
  destruct (setObjective_step VBin true [vneg (ret_a rr); repeat (eps - lam) (length s)]
     [ret_z rr; s] (- ret_b rr + phi N xeq) true m2 H2) as (m3 & E3 & _).
  { constructor; [unfold vneg; rewrite map_length; auto|]. constructor; [apply repeat_length|constructor]. }
  { simpl. rewrite app_nil_r. apply Forall_app. split.
    - apply fresh_below in R1. apply (below_weaken _ _ _ R1); auto.
    - apply fresh_below in S1. auto. }
  { simpl. rewrite app_nil_r. eapply fresh_disj; eauto. }
  rewrite E3. eauto.
Qed.

(** The verdict: the optimal value is at most zero iff V dominates
    eps |R (x - x_eq)|_1 on the box. *)
Lemma positivity_verdict : forall m xv v,
  positivity_milp solve meth N n x_lo x_up xeq lam eps R0 = Some (m, xv) ->
  solve m = GOptimal v ->
  (v <= 0 <-> forall x, in_box x_lo x_up x -> eps * error1 M xeq x <= V N M lam xeq x).
Proof.
  intros m xv v E S. destruct (positivity_program m xv E) as (P1 & P2 & _ & P3 & P4).
  specialize (Hsolve m). rewrite S, P1 in Hsolve. destruct Hsolve as [(sg & G & Ev) Mx].
  split.
  - intros Hv x B. destruct (P4 x B) as (sg' & G' & Ex).
    specialize (Mx sg' G'). destruct (P3 sg' G') as [_ Eo]. rewrite Eo, Ex in Mx. lra.
  - intros K. destruct (P3 sg G) as [B Eo]. specialize (K _ B). rewrite Ev in Eo. lra.
Qed.

(** ** Bounds on V *)

Lemma value_bounds_step : forall vt st lower upper a b z pe s m, history st m ->
  length a = length z -> below (nvars m) (z ++ s) -> NoDup (z ++ s) ->
  exists m', add_value_bounds lower upper a b lam z pe s m = Some m' /\
    nvars m' = nvars m /\ history st m' /\
    (forall sg, feas vt m' sg <-> feas vt m sg /\
       within lower upper (dot a (map sg z) + b - pe + lam * vsum (map sg s))).
Proof.
  intros vt st lower upper a b z pe s m H L B ND.
  assert (F2 : Forall2 (fun (c : vec) (v : list nat) => length c = length v)
                 [a; repeat lam (length s)] [z; s]).
  { constructor; auto. constructor; [apply repeat_length|constructor]. }
  assert (Ed : forall sg : assignment,
     dot (concat [a; repeat lam (length s)]) (map sg (concat [z; s]))
     = dot a (map sg z) + lam * vsum (map sg s)).
  { intros sg. rewrite eval_combine_concat by exact F2. cbn [map2 vsum].
    rewrite dot_repeat_l by apply map_length. ring. }
  assert (Ec : concat [z; s] = z ++ s) by (simpl; rewrite app_nil_r; auto).
  unfold add_value_bounds.
  assert (K1 : exists m1, (match lower with
         | None => Some m
         | Some l => addLConstr [a; repeat lam (length s)] [z; s] SGe (l - b + pe) m
         end) = Some m1 /\ nvars m1 = nvars m /\ history st m1 /\
     (forall sg, feas vt m1 sg <-> feas vt m sg /\ forall l, lower = Some l ->
         l <= dot a (map sg z) + b - pe + lam * vsum (map sg s))).
  { destruct lower as [l|].
    - destruct (step_addLConstr vt st [a; repeat lam (length s)] [z; s] SGe (l - b + pe) m)
        as (m1 & E1 & V1 & G1 & H1 & _); auto; try (rewrite Ec; auto).
      exists m1. split; auto. split; auto. split; auto. intros sg. rewrite G1, Ed.
      unfold sense_ok, vle. split; intros [X Y]; (split; [exact X|]).
      + intros l' El. injection El as <-. apply vle1 in Y. lra.
      + constructor; auto. specialize (Y l eq_refl). lra.
    - exists m. split; auto. split; auto. split; auto. intros sg. split; [|tauto].
      intros G. split; auto. discriminate. }
  destruct K1 as (m1 & Ek & V1 & H1 & G1).
  match goal with |- context [match ?X with Some _ => _ | None => None end] =>
    replace X with (Some m1) by (symmetry; exact Ek) end. destruct upper as [u|].
  - destruct (step_addLConstr vt st [a; repeat lam (length s)] [z; s] SLe (u - b + pe) m1)
      as (m2 & E2 & V2 & G2 & H2 & _); auto; try (rewrite Ec, ?V1; auto).
    exists m2. split; auto. split; [congruence|]. split; auto. intros sg. rewrite G2, G1, Ed.
    unfold within, sense_ok, vle. split.
    + intros [[X Y] Z]. split; auto. split; auto. intros l' El. injection El as <-.
      apply vle1 in Z. lra.
    + intros (X & Y & Z). split; auto. constructor; auto. specialize (Z u eq_refl). lra.
  - exists m1. split; auto. split; auto. split; auto. intros sg. rewrite G1. unfold within.
    split; [|tauto]. intros [X Y]. split; auto. split; auto. discriminate.
Qed.

(** ** Decrease *)

Lemma relu_ret_det : forall xv xv' vt vt' m m1 m' m1' rr rr',
  add_relu_output solve meth N x_lo x_up xv vt m = Some (m1, rr) ->
  add_relu_output solve meth N x_lo x_up xv' vt' m' = Some (m1', rr') ->
  ret_a rr = ret_a rr' /\ ret_b rr = ret_b rr' /\ ret_bounds rr = ret_bounds rr'.
Proof.
  intros xv xv' vt vt' m m1 m' m1' rr rr' E E'. unfold add_relu_output in *.
  destruct (output_constraint solve meth N x_lo x_up) as [[[c B] o]|]; [|discriminate].
  destruct (add_mic c xv None NewBinary vt m) as [[m2 z] be].
  destruct (add_mic c xv' None NewBinary vt' m') as [[m2' z'] be'].
  destruct (squeeze_row (Aout_slack c)); [|discriminate].
  destruct (squeeze_const (Cout c)); [|discriminate].
  injection E as <- <-. injection E' as <- <-. auto.
Qed.

Variable st : bool.
Variable add_system : list nat -> list nat -> vtype -> mip -> option mip.
Variable T : vec -> vec -> Prop.
Hypothesis Hsys : system_contract n st add_system T.
Variable et : eps_type.
Variables lower upper : option R.
Variable vt : vtype.
Hypothesis Hvt : vt <> VCont.

Lemma derivative_program : forall d,
  derivative_milp solve meth N n x_lo x_up add_system xeq lam eps et R0 lower upper vt = Some d ->
  obj_max (d_mip d) = true /\ length (d_x d) = n /\ length (d_next d) = n /\
  history st (d_mip d) /\
  below (nvars (d_mip d)) (ret_beta (d_relu d)) /\
  below (nvars (d_mip d)) (ret_beta (d_relu_next d)) /\
  NoDup (ret_beta (d_relu d) ++ ret_beta (d_relu_next d)) /\
  length (ret_beta (d_relu d)) = num_units (hidden N) /\
  length (ret_beta (d_relu_next d)) = num_units (hidden N) /\
  length (ret_z (d_relu d)) = num_units (hidden N) /\
  length (ret_z (d_relu_next d)) = num_units (hidden N) /\
  (exists c B out, output_constraint solve meth N x_lo x_up = Some (c, B, out) /\
     ret_bounds (d_relu d) = B /\ ret_bounds (d_relu_next d) = B /\
     (forall sg, feas vt (d_mip d) sg ->
       mic_sat c (map sg (d_x d)) (map sg (ret_z (d_relu d))) (map sg (ret_beta (d_relu d))) /\
       mic_sat c (map sg (d_next d)) (map sg (ret_z (d_relu_next d)))
         (map sg (ret_beta (d_relu_next d))) /\
       bins (map sg (ret_beta (d_relu d))) /\ bins (map sg (ret_beta (d_relu_next d))))) /\
  (forall sg, feas vt (d_mip d) sg ->
     in_box x_lo x_up (map sg (d_x d)) /\ in_box x_lo x_up (map sg (d_next d)) /\
     T (map sg (d_x d)) (map sg (d_next d)) /\
     within lower upper (V N M lam xeq (map sg (d_x d))) /\
     objective (d_mip d) sg
     = violation et N M lam eps xeq (map sg (d_x d)) (map sg (d_next d))) /\
  (forall x x', in_box x_lo x_up x -> in_box x_lo x_up x' -> T x x' ->
     within lower upper (V N M lam xeq x) ->
     exists sg, feas vt (d_mip d) sg /\ map sg (d_x d) = x /\ map sg (d_next d) = x').
Proof.
  intros d E. unfold derivative_milp in E. rewrite get_R_ok in E by exact WR. fold M in E.
  destruct (addVars (repeat (NInf, PInf) n) VCont init_mip) as [m0 xn] eqn:E0.
  destruct (addVars (repeat (NInf, PInf) n) VCont m0) as [m1 xv] eqn:E1.
  destruct (step_free vt st n _ _ _ E0 (h_init st)) as (A1 & A2 & A3 & A4 & A5).
  destruct (step_free vt st n _ _ _ E1 A3) as (B1 & B2 & B3 & B4 & B5).
  assert (Bn : below (nvars m1) xn) by (rewrite A1; apply below_seq; lia).
  assert (Bv : below (nvars m1) xv) by (rewrite B1; apply below_seq; lia).
  assert (Ln : length xn = n) by (rewrite A1; apply seq_length).
  assert (Lv : length xv = n) by (rewrite B1; apply seq_length).
  assert (ND : NoDup (xv ++ xn)).
  { apply (fresh_disj n (n + n) 0 n); auto.
    - rewrite B1, A2. apply fresh_seq. simpl. lia.
    - rewrite A1. apply fresh_seq. simpl. lia. }
  destruct (add_system xv xn vt m1) as [m2|] eqn:E2; [|discriminate].
  assert (S2 := Hsys vt m1 m2 xv xn Hvt B3 Bv Bn Lv Ln ND E2).
  destruct (add_relu_output solve meth N x_lo x_up xv vt m2) as [[m3 rr]|] eqn:E3; [|discriminate].
  rewrite (scalar_phi n) in E by auto.
  assert (V2 : (nvars m1 <= nvars m2)%nat) by apply S2.
  destruct (relu_output_step solve Hsolve meth N n x_lo x_up W Ho L1 L2 st xv vt m2 m3 rr
    (proj1 (proj2 S2)) (below_weaken _ _ _ Bv V2) Lv Hvt E3) as (P1 & P2 & P3 & P4 & P5 & S3).
  assert (V3 : (nvars m2 <= nvars m3)%nat) by apply S3.
  assert (Bv3 : below (nvars m3) xv) by (apply (below_weaken _ _ _ Bv); lia).
  destruct (add_state_error n x_lo x_up false xeq (Some M) xv vt m3) as [[[m4 s] al]|] eqn:E4; [|discriminate].
  destruct (state_error_step n x_lo x_up L1 L2 (Some M) xeq WR st _ _ _ _ _ _ _ E4
    (proj1 (proj2 S3)) Bv3 Lv Hvt) as (K1 & K2 & _ & _ & S4).
  assert (V4 : (nvars m3 <= nvars m4)%nat) by apply S4.
  assert (Bn4 : below (nvars m4) xn) by (apply (below_weaken _ _ _ Bn); lia).
  destruct (add_state_error n x_lo x_up false xeq (Some M) xn vt m4) as [[[m5 sn] aln]|] eqn:E5; [|discriminate].
  destruct (state_error_step n x_lo x_up L1 L2 (Some M) xeq WR st _ _ _ _ _ _ _ E5
    (proj1 (proj2 S4)) Bn4 Ln Hvt) as (K3 & K4 & _ & _ & S5).
  assert (V5 : (nvars m4 <= nvars m5)%nat) by apply S5.
  cbn [R_of] in *.
  destruct (value_bounds_step vt st lower upper (ret_a rr) (ret_b rr) (ret_z rr) (phi N xeq) s m5
    (proj1 (proj2 S5)) P3) as (m6 & E6 & V6 & H6 & G6).
  { apply Forall_app. split.
    - apply fresh_below in P1. apply (below_weaken _ _ _ P1). lia.
    - apply fresh_below in K1. apply (below_weaken _ _ _ K1). lia. }
  { eapply fresh_disj; eauto. }
  rewrite E6 in E.
  assert (Bn6 : below (nvars m6) xn) by (apply (below_weaken _ _ _ Bn); lia).
  assert (S6 := step_iff vt st m5 m6 _ H6 V6 G6).
  destruct (add_relu_output solve meth N x_lo x_up xn vt m6) as [[m7 rn]|] eqn:E7; [|discriminate].
  destruct (relu_output_step solve Hsolve meth N n x_lo x_up W Ho L1 L2 st xn vt m6 m7 rn
    H6 Bn6 Ln Hvt E7) as (Q1 & Q2 & Q3 & Q4 & Q5 & S7).
  assert (V7 : (nvars m6 <= nvars m7)%nat) by apply S7.
  destruct (relu_ret_det _ _ _ _ _ _ _ _ _ _ E3 E7) as (Da & Db & Dc).
  set (D := fun sg : assignment => (in_box x_lo x_up (map sg xv) /\ in_box x_lo x_up (map sg xn)) /\
    T (map sg xv) (map sg xn) /\ within lower upper (V N M lam xeq (map sg xv))).
  assert (LD : local m1 D).
  { apply (local_map2 m1 xv xn (fun x x' => (in_box x_lo x_up x /\ in_box x_lo x_up x') /\
      T x x' /\ within lower upper (V N M lam xeq x))); auto. }
  assert (T2 : step vt st m1 m2 D (fun sg => T (map sg xv) (map sg xn))).
  { eapply step_weaken; [exact S2| |auto]. unfold D. tauto. }
  assert (T3 := step_seq vt st _ _ _ _ _ _ _ T2 S3 LD ltac:(unfold D; tauto)).
  assert (T4 := step_seq vt st _ _ _ _ _ _ _ T3 S4 LD ltac:(unfold D; tauto)).
  assert (T5 := step_seq vt st _ _ _ _ _ _ _ T4 S5 LD ltac:(unfold D; tauto)).
  assert (EV : forall sg : assignment,
     dot (ret_a rr) (map sg (ret_z rr)) + ret_b rr = phi N (map sg xv) ->
     map sg s = map Rabs (mv M (vsub (map sg xv) xeq)) ->
     dot (ret_a rr) (map sg (ret_z rr)) + ret_b rr - phi N xeq + lam * vsum (map sg s)
     = V N M lam xeq (map sg xv)).
  { intros sg X Y. rewrite X, Y. reflexivity. }
  assert (T6 := step_seq vt st _ _ _ _ _ _ _ T5 S6 LD).
  specialize (T6 ltac:(intros sg _ (D1 & D2 & D3) (((X1 & X2 & X3) & X4) & X5);
                       rewrite (EV sg X3 X4); exact D3)).
  assert (T7 := step_seq vt st _ _ _ _ _ _ _ T6 S7 LD ltac:(unfold D; tauto)).
  assert (H7 : history st m7) by apply S7.
  remember (derivative_objective et eps lam (ret_a rr) (ret_b rr) (phi N xeq) (length M)) as ob eqn:Eob.
  destruct ob as [cs k].
  assert (F2 : Forall2 (fun (c : vec) (v : list nat) => length c = length v) cs
     [ret_z rn; ret_z rr; sn; s]).
  { unfold derivative_objective in Eob. destruct et; injection Eob as -> _;
      repeat constructor; unfold vneg, vscale; rewrite ?map_length, ?repeat_length; congruence. }
  destruct (setObjective_step vt st cs [ret_z rn; ret_z rr; sn; s] k true m7 H7 F2)
    as (m8 & E8 & O1 & O2 & O3 & O4 & O5).
  { cbn [concat]. rewrite app_nil_r. 
    apply fresh_below in P1, K1, K3, Q1.
    repeat (apply Forall_app; split); eapply below_weaken; eauto; lia. }
  { cbn [concat]. rewrite app_nil_r.
    assert (X1 : fresh (nvars m4) (nvars m5) sn) by exact K3.
    destruct P1 as [Na Fa], K1 as [Nb Fb], K3 as [Nc Fc], Q1 as [Nd Fd].
    apply (fresh_disj (nvars m6) (nvars m7) 0 (nvars m6)); [split; auto| |lia].
    split.
    - apply (fresh_disj (nvars m2) (nvars m3) (nvars m3) (nvars m6)); [split; auto| |lia].
      split.
      + apply (fresh_disj (nvars m4) (nvars m5) (nvars m3) (nvars m4)); [split; auto|split; auto|lia].
      + apply Forall_app. split; eapply Forall_impl; try eassumption; simpl; intros; lia.
    - repeat (apply Forall_app; split); eapply Forall_impl; try eassumption; simpl; intros; lia. }
  rewrite E8 in E. injection E as <-. cbn [d_mip d_x d_next d_relu d_relu_next].
  destruct T7 as (_ & _ & U1 & U2).
  split; auto. split; auto. split; auto. split; auto.
  split. { apply fresh_below in P2. rewrite O2. eapply below_weaken; eauto. lia. }
  split. { apply fresh_below in Q2. rewrite O2. auto. }
  split. { eapply fresh_disj; eauto. lia. }
  destruct P5 as (c & B & out & Ec & Em & Eb). destruct Q5 as (c' & B' & out' & Ec' & Em' & Eb').
  rewrite Ec in Ec'. injection Ec' as <- <- <-.
  assert (C := output_constraint_mic solve Hsolve n _ _ _ _ _ _ _ W L1 L2 Ec).
  destruct (net_step st n _ _ _ _ _ _ _ _ _ _ C (proj1 (proj2 S2)) (below_weaken _ _ _ Bv V2) Lv Hvt Em)
    as (_ & Y2 & _ & Y4).
  destruct (net_step st n _ _ _ _ _ _ _ _ _ _ C H6 Bn6 Ln Hvt Em')
    as (_ & Z2 & _ & Z4).
  split; [rewrite Y2; apply seq_length|]. split; [rewrite Z2; apply seq_length|].
  split; [exact P4|]. split; [exact Q4|].
  split.
  { exists c, B, out. split; auto. split; auto. split; auto.
    intros sg G. rewrite O4 in G.
    destruct Z4 as (_ & _ & Z4 & _). destruct (Z4 sg G) as (G6' & _ & Zb & Zm & _).
    destruct Y4 as (_ & _ & Y4 & _).
    assert (G3 : feas vt m3 sg) by (apply S4, S5, S6; auto).
    destruct (Y4 sg G3) as (_ & _ & Yb & Ym & _). auto. }
  split.
  - intros sg G. rewrite O4 in G.
    destruct (U1 sg G) as (_ & (((((X1 & X2 & X3) & X4) & X5) & X6) & X7 & X8)).
    rewrite (EV sg X3 X4) in X6.
    repeat match goal with |- _ /\ _ => split end; auto.
    rewrite <- Da, <- Db in X8. rewrite O5.
    assert (N1 : vsum (map sg s) = error1 M xeq (map sg xv)) by (rewrite X4; reflexivity).
    assert (N2 : vsum (map sg sn) = error1 M xeq (map sg xn)) by (rewrite X5; reflexivity).
    assert (Ls : length (map sg s) = length M) by (rewrite map_length; auto).
    assert (Lsn : length (map sg sn) = length M) by (rewrite map_length; auto).
    unfold derivative_objective in Eob. unfold violation, V.
    destruct et; injection Eob as -> ->; cbn [map map2 vsum];
      rewrite ?dot_vneg_l, ?dot_vscale_l, !dot_repeat_l, N1, N2 by auto; rewrite <- X3, <- X8; ring.
  - intros x x' Bx Bx' HT Hw.
    destruct (A5 (fun _ => 0) x' (init_feas _ _)) as (s0 & G0 & _ & Ex').
    { eapply in_box_length; eauto. }
    destruct (B5 s0 x G0) as (s1 & G1 & Ag & Ex).
    { eapply in_box_length; eauto. }
    assert (Ex1 : map s1 xn = x').
    { rewrite <- Ex'. symmetry. apply (map_agree (nvars m0)); auto.
      rewrite A1. apply below_seq. lia. }
    destruct (U2 s1 G1) as (s7 & G7 & Ag7).
    { unfold D. rewrite Ex, Ex1. auto. }
    exists s7. split; [apply O4; auto|]. split.
    + rewrite <- Ex. symmetry. apply (map_agree (nvars m1)); auto.
    + rewrite <- Ex1. symmetry. apply (map_agree (nvars m1)); auto.
Qed.
End Cert.

(** With full column rank and eps > 0 positivity is strict away from x_eq. *)
Lemma norm1_nonneg : forall x, 0 <= norm1 x.
Proof.
  unfold norm1. induction x; simpl; [lra|]. assert (K := Rabs_pos a). unfold norm1 in *. lra.
Qed.
Lemma norm1_zero : forall x, norm1 x = 0 -> x = zeros (length x).
Proof.
  induction x as [|a x IH]; intros H; auto. unfold norm1 in *. cbn [map vsum] in H.
  assert (K := Rabs_pos a). assert (K' := norm1_nonneg x). unfold norm1 in K'.
  cbn [length]. change (zeros (S (length x))) with (0 :: zeros (length x)). rewrite <- IH by lra.
  f_equal. destruct (Req_dec a 0); auto. assert (Q := Rabs_pos_lt a H0). lra.
Qed.
Lemma vsub_zero : forall x y, length x = length y -> vsub x y = zeros (length x) -> x = y.
Proof.
  unfold vsub, zeros. induction x; destruct y; simpl; intros; try discriminate; auto.
  injection H0 as H1 H2. f_equal; [lra|]. apply IHx; auto.
Qed.
Lemma error1_pos : forall n M xeq x, wfm (length M) n M -> full_column_rank n M ->
  length x = n -> length xeq = n -> x <> xeq -> 0 < error1 M xeq x.
Proof.
  intros n M xeq x WM F L1 L2 D. unfold error1.
  assert (K := norm1_nonneg (mv M (vsub x xeq))).
  destruct (Req_dec (norm1 (mv M (vsub x xeq))) 0) as [Z|]; [|lra].
  exfalso. apply D. apply norm1_zero in Z. rewrite mv_length in Z.
  assert (Lv : length (vsub x xeq) = n) by (rewrite vsub_length; lia).
  specialize (F _ Lv Z). apply vsub_zero; [congruence|]. rewrite F. congruence.
Qed.
