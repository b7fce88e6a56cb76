(** Barrier certificates (C38, C30) — lemmas. *)

Require Import Reals List Bool Arith Lra Lia Psatz.
Require Import Verif.Vec Verif.VecFacts Verif.ModelMip Verif.SpecMip
  Verif.ModelUtils Verif.ModelGrad Verif.ModelNet Verif.SpecCore Verif.SpecNet
  Verif.ProofUtils Verif.ProofGrad Verif.ProofMip Verif.SpecStep Verif.ProofStep Verif.ModelLyapunov
  Verif.SpecLyapunov Verif.ProofNetBounds Verif.ProofNetStep
  Verif.ProofLyapunov Verif.ProofLyapCert Verif.ProofLoss Verif.ModelBarrier Verif.SpecBarrier.
Import ListNotations.
Open Scope R_scope.

(** ** Values *)

Section Value.
Variable N : network.
Variable n : nat.
Variables x_lo x_up x_star : vec.
Hypothesis Args : barrier_args n N x_lo x_up x_star.
Variable c : R.
Hypothesis Hc : 0 < c.
Let h := h_of N x_star c.

Lemma barrier_value_h : forall x, length x = n -> barrier_value N x x_star c = Some (h x).
Proof.
  intros x L. destruct Args. unfold barrier_value. unfold Rltb. destruct (Rlt_dec 0 c); [|lra].
  rewrite !(scalar_phi n) by auto. auto.
Qed.
Lemma barrier_at_star : barrier_value N x_star x_star c = Some c.
Proof.
  rewrite barrier_value_h by apply Args. f_equal. unfold h, h_of. ring.
Qed.
Lemma barrier_derivative_h : forall x x' eps, length x = n -> length x' = n ->
  barrier_derivative N x x' x_star c eps = Some (barrier_violation N x_star c eps x x').
Proof.
  intros x x' eps L L'. unfold barrier_derivative. rewrite !barrier_value_h by auto. auto.
Qed.

Lemma traverse_h : forall l, Forall (fun x : vec => length x = n) l ->
  traverse (fun x => barrier_value N x x_star c) l = Some (map h l).
Proof.
  induction l as [|x l IH]; intros F; auto. assert (F1 := Forall_inv F).
  assert (F2 := Forall_inv_tail F). cbn [traverse].
  rewrite barrier_value_h by auto. rewrite IH by auto. reflexivity.
Qed.

Lemma barrier_derivative_loss_eq : forall eps margin samples next red,
  length samples = length next ->
  Forall (fun x : vec => length x = n) samples -> Forall (fun x : vec => length x = n) next ->
  barrier_derivative_loss N x_star c eps samples next margin red
  = reduce red None (map (fun p => hinge margin (- barrier_violation N x_star c eps (snd p) (fst p)))
                      (combine next samples)).
Proof.
  intros eps margin samples next red L F1 F2. unfold barrier_derivative_loss.
  rewrite L, Nat.eqb_refl. cbn [negb]. rewrite !traverse_h by auto.
  rewrite map2_map_combine. destruct red; reflexivity.
Qed.

Lemma combine_swap : forall {A B} (P : A -> B -> Prop) (l : list A) (r : list B),
  Forall (fun p => P (snd p) (fst p)) (combine r l) <-> Forall (fun p => P (fst p) (snd p)) (combine l r).
Proof.
  induction l as [|a l IH]; intros [|b r]; cbn [combine].
  - split; auto.
  - split; auto.
  - split; auto.
  - split; intros H; constructor; try exact (Forall_inv H); apply IH; exact (Forall_inv_tail H).
Qed.

Lemma barrier_derivative_loss_spec : forall eps margin samples next red,
  samples <> [] -> length samples = length next ->
  Forall (fun x : vec => length x = n) samples -> Forall (fun x : vec => length x = n) next ->
  exists v, barrier_derivative_loss N x_star c eps samples next margin red = Some v /\ 0 <= v /\
    (v = 0 <-> Forall (fun p => barrier_violation N x_star c eps (fst p) (snd p) <= - margin)
                      (combine samples next)).
Proof.
  intros eps margin samples next red Hs L F1 F2. rewrite barrier_derivative_loss_eq by auto.
  destruct (reduce_spec red None (map (fun p => hinge margin (- barrier_violation N x_star c eps (snd p) (fst p)))
                      (combine next samples))) as (v & E & P & Z).
  - destruct samples; [contradiction|]. destruct next; discriminate.
  - destruct red; exact I.
  - apply forall_hinge_nonneg.
  - exists v. split; auto. split; auto. rewrite Z, forall_map_hinge.
    rewrite (combine_swap (fun x x' => margin <= - barrier_violation N x_star c eps x x')).
    split; apply Forall_impl; intros; lra.
Qed.

Lemma weighted_spec : forall w samples loss (P : Prop), 0 < w ->
  (samples <> [] -> exists v, loss = Some v /\ 0 <= v /\ (v = 0 <-> P)) -> (samples = [] -> P) ->
  exists v, weighted w samples loss = Some v /\ 0 <= v /\ (v = 0 <-> P).
Proof.
  intros w samples loss P Hw H1 H2. unfold weighted. destruct (Req_EM_T w 0); [lra|].
  destruct samples as [|x l].
  - exists 0. split; auto. split; [lra|]. split; auto.
  - destruct H1 as (v & -> & Hv & K); [discriminate|]. exists (w * v). split; auto.
    split; [nra|]. rewrite <- K. split; intros E; [|rewrite E; ring].
    apply Rmult_integral in E. destruct E; lra.
Qed.

Lemma max_zero : forall (f : vec -> R) red l, l <> [] ->
  exists v, loss_reduction (map (fun x => Rmax (f x) 0) l) red = Some v /\ 0 <= v /\
    (v = 0 <-> Forall (fun x => f x <= 0) l).
Proof.
  intros f red l Hl.
  destruct (reduce_spec red None (map (fun x => Rmax (f x) 0) l)) as (v & E & P & Z).
  - destruct l; [contradiction|discriminate].
  - destruct red; exact I.
  - apply Forall_map. apply Forall_forall. intros. apply Rmax_r.
  - exists v. split. { destruct red; exact E. } split; auto. rewrite Z, Forall_map.
    split; apply Forall_impl; intros x K.
    + assert (Q := Rmax_l (f x) 0). lra.
    + apply Rmax_right. auto.
Qed.

Lemma safe_loss_spec : forall w samples red, 0 < w -> Forall (fun x : vec => length x = n) samples ->
  exists v, safe_sample_loss N x_star c w samples red = Some v /\ 0 <= v /\
    (v = 0 <-> Forall (fun x => 0 <= h x) samples).
Proof.
  intros w samples red Hw F. unfold safe_sample_loss. apply weighted_spec; auto.
  - intros Hs. rewrite traverse_h by auto. rewrite map_map.
    destruct (max_zero (fun x => - h x) red samples Hs) as (v & E & P & Z).
    exists v. split; auto. split; auto. rewrite Z. split; apply Forall_impl; intros; lra.
  - intros ->. constructor.
Qed.
Lemma unsafe_loss_spec : forall w samples red, 0 < w -> Forall (fun x : vec => length x = n) samples ->
  exists v, unsafe_sample_loss N x_star c w samples red = Some v /\ 0 <= v /\
    (v = 0 <-> Forall (fun x => h x <= 0) samples).
Proof.
  intros w samples red Hw F. unfold unsafe_sample_loss. apply weighted_spec; auto.
  - intros Hs. rewrite traverse_h by auto. rewrite map_map.
    destruct (max_zero h red samples Hs) as (v & E & P & Z). exists v. auto.
  - intros ->. constructor.
Qed.
Lemma derivative_sample_loss_spec : forall eps w samples next red, 0 < w ->
  length samples = length next ->
  Forall (fun x : vec => length x = n) samples -> Forall (fun x : vec => length x = n) next ->
  exists v, derivative_sample_loss N x_star c eps w samples next red = Some v /\ 0 <= v /\
    (v = 0 <-> Forall (fun p => barrier_violation N x_star c eps (fst p) (snd p) <= 0)
                      (combine samples next)).
Proof.
  intros eps w samples next red Hw L F1 F2. unfold derivative_sample_loss. apply weighted_spec; auto.
  - intros Hs. destruct (barrier_derivative_loss_spec eps 0 samples next red) as (v & E & P & Z); auto.
    exists v. split; auto. split; auto. rewrite Z. split; apply Forall_impl; intros; lra.
  - intros ->. constructor.
Qed.
End Value.

(** ** Programs *)

Section Programs.
Variable solve : mip -> gresult.
Hypothesis Hsolve : solver_ok solve.
Variable meth : method.
Variable N : network.
Variable n : nat.
Variables x_lo x_up x_star : vec.
Hypothesis Args : barrier_args n N x_lo x_up x_star.
Variable c : R.
Let h := h_of N x_star c.
Let W : net_wf n N := ba_net _ _ _ _ _ Args.
Let Ho := ba_out _ _ _ _ _ Args.
Let L1 := ba_lo _ _ _ _ _ Args.
Let L2 := ba_up _ _ _ _ _ Args.
Let L3 := ba_star _ _ _ _ _ Args.

Lemma barrier_output_step : forall st xv vt m m' rr, history st m -> below (nvars m) xv ->
  length xv = n -> vt <> VCont ->
  add_barrier_output N solve meth x_lo x_up xv vt m = Some (m', rr) ->
  fresh (nvars m) (nvars m') (ret_z rr) /\ length (ret_a rr) = length (ret_z rr) /\
  (exists k B out, output_constraint solve meth N x_lo x_up = Some (k, B, out) /\
     Aout_slack k = Some [ret_a rr] /\ squeeze_const (Cout k) = Some (ret_b rr)) /\
  step vt st m m' (fun sg => in_box x_lo x_up (map sg xv))
    (fun sg => in_box x_lo x_up (map sg xv) /\
       dot (ret_a rr) (map sg (ret_z rr)) + ret_b rr = phi N (map sg xv)).
Proof.
  intros st xv vt m m' rr H B L Vt E. unfold add_barrier_output in E.
  destruct (output_constraint solve meth N x_lo x_up) as [[[k B0] out]|] eqn:Eo; [|discriminate].
  assert (C := output_constraint_mic solve Hsolve n _ _ _ _ _ _ _ W L1 L2 Eo).
  destruct (add_mic k xv None NewBinary vt m) as [[m1 z] be] eqn:Em.
  destruct (only_row (Aout_slack k)) as [a|] eqn:Ea; [|discriminate].
  destruct (squeeze_const (Cout k)) as [b|] eqn:Eb; [|discriminate].
  injection E as <- <-. cbn [ret_z ret_beta ret_a ret_b ret_bounds].
  destruct (net_step st n _ _ _ _ _ _ _ _ _ _ C H B L Vt Em) as (S1 & S2 & S3 & S4).
  destruct (nm_A _ _ _ _ _ C) as (A & EA & WA).
  assert (Aa : A = [a]).
  { rewrite EA in Ea. cbn in Ea. destruct A as [|r [|]]; try discriminate. injection Ea as <-; auto. }
  subst A. destruct WA as [_ WA]. apply Forall_inv in WA.
  split; [subst z; apply fresh_seq; lia|].
  split; [rewrite WA; subst z; rewrite seq_length; auto|].
  split; [exists k, B0, out; auto|].
  eapply step_weaken; [exact S4|auto|].
  intros sg G (Q1 & Q2 & Q3 & Q4). split; auto.
  assert (O := nm_output _ _ _ _ _ C (map sg xv) (map sg be) ltac:(rewrite map_length; auto)).
  rewrite (eval_phi n) in O by (auto; rewrite map_length; auto).
  rewrite <- Q4 in O. unfold output in O. rewrite (nm_out _ _ _ _ _ C), Ho in O.
  destruct (nm_aout _ _ _ _ _ C) as [O1 O2]. rewrite O1, O2, EA in O.
  destruct (nm_C _ _ _ _ _ C) as [O3 _]. rewrite O3 in O, Eb. simpl in Eb.
  destruct (bias_of (last_layer N)) as [|b' [|]]; try discriminate. injection Eb as ->.
  unfold lhs, term in O. cbn in O. injection O as O. rewrite <- O. ring.
Qed.

Lemma barrier_output_total : forall xv vt m,
  (exists k B out, output_constraint solve meth N x_lo x_up = Some (k, B, out)) ->
  exists m' rr, add_barrier_output N solve meth x_lo x_up xv vt m = Some (m', rr).
Proof.
  intros xv vt m (k & B & out & E). unfold add_barrier_output. rewrite E.
  assert (C := output_constraint_mic solve Hsolve n _ _ _ _ _ _ _ W L1 L2 E).
  destruct (add_mic k xv None NewBinary vt m) as [[m1 z] be].
  destruct (nm_A _ _ _ _ _ C) as (A & EA & WA & FA). rewrite EA. rewrite Ho in WA.
  destruct A as [|a [|]]; try discriminate.
  destruct (nm_C _ _ _ _ _ C) as [O3 O4]. rewrite O3. rewrite Ho in O4.
  destruct (bias_of (last_layer N)) as [|b' [|]]; try discriminate. cbn. eauto.
Qed.

Lemma barrier_ret_det : forall xv xv' vt m m1 r m' m1' r',
  add_barrier_output N solve meth x_lo x_up xv vt m = Some (m1, r) ->
  add_barrier_output N solve meth x_lo x_up xv' vt m' = Some (m1', r') ->
  ret_a r = ret_a r' /\ ret_b r = ret_b r'.
Proof.
  intros xv xv' vt m m1 r m' m1' r' E E'. unfold add_barrier_output in *.
  destruct (output_constraint solve meth N x_lo x_up) as [[[k B] out]|]; [|discriminate].
  destruct (add_mic k xv None NewBinary vt m) as [[? ?] ?].
  destruct (add_mic k xv' None NewBinary vt m') as [[? ?] ?].
  destruct (only_row (Aout_slack k)); [|discriminate].
  destruct (squeeze_const (Cout k)); [|discriminate].
  injection E as <- <-. injection E' as <- <-. auto.
Qed.

Lemma value_program : forall region safe m xv, mic_ok region -> nin region = n ->
  barrier_value_milp N solve meth n x_lo x_up x_star c region safe = Some (m, xv) ->
  obj_max m = true /\ length xv = n /\
  (forall sg, gfeas m sg -> in_box x_lo x_up (map sg xv) /\ in_region region (map sg xv) /\
     objective m sg = if safe then - h (map sg xv) else h (map sg xv)) /\
  (forall x, in_box x_lo x_up x -> in_region region x -> exists sg, gfeas m sg /\ map sg xv = x).
Proof.
  intros region safe m xv Ok Hn E. unfold barrier_value_milp in E.
  destruct (addVars (repeat (NInf, PInf) n) VCont init_mip) as [m0 xv0] eqn:E0.
  destruct (step_free VBin false n _ _ _ E0 (h_init false)) as (F1 & F2 & F3 & F4 & F5).
  assert (Lx : length xv0 = n) by (rewrite F1; apply seq_length).
  assert (Bx : below (nvars m0) xv0) by (rewrite F1; apply below_seq; lia).
  destruct (add_mic region xv0 None NewBinary VBin m0) as [[m1 sl] bi] eqn:E1.
  destruct (step_mic VBin false region xv0 None m0 m1 sl bi E1 Ok F3 Bx ltac:(congruence) I
    ltac:(discriminate) ltac:(discriminate)) as (_ & _ & Nv & S1 & _).
  assert (N1 : (nvars m0 <= nvars m1)%nat) by lia.
  destruct (add_barrier_output N solve meth x_lo x_up xv0 VBin m1) as [[m2 rr]|] eqn:E2; [|discriminate].
  destruct (barrier_output_step false _ VBin _ _ _ (proj1 (proj2 S1)) (below_weaken _ _ _ Bx N1) Lx
              ltac:(discriminate) E2) as (R1 & R3 & _ & S2).
  rewrite (scalar_phi n) in E by auto.
  destruct (setObjective_step VBin false [if safe then vneg (ret_a rr) else ret_a rr] [ret_z rr]
     (if safe then (ret_b rr - phi N x_star + c) * -1 else ret_b rr - phi N x_star + c) true m2
     (proj1 (proj2 S2))) as (m3 & E3 & O1 & O2 & O3 & O4 & O5).
  { constructor; [|constructor]. destruct safe; auto. unfold vneg. rewrite map_length. auto. }
  { cbn [concat]. rewrite app_nil_r. apply fresh_below in R1. auto. }
  { cbn [concat]. rewrite app_nil_r. apply R1. }
  rewrite E3 in E. injection E as <- <-.
  split; auto. split; auto.
  assert (LD : local m0 (fun sg => in_box x_lo x_up (map sg xv0) /\ in_region region (map sg xv0))).
  { apply (local_map m0 xv0 (fun x => in_box x_lo x_up x /\ in_region region x) Bx). }
  assert (St := step_trans VBin false m0 m1 m2
    (fun sg => in_box x_lo x_up (map sg xv0) /\ in_region region (map sg xv0)) _ _ _ _
    (fun sg => in_box x_lo x_up (map sg xv0) /\ in_region region (map sg xv0) /\
       dot (ret_a rr) (map sg (ret_z rr)) + ret_b rr = phi N (map sg xv0)) S1 S2 LD).
  destruct St as (_ & _ & T1 & T2).
  { intros sg _ (_ & s & b & Hb & Hm). exists s, b. split; auto. split; auto. exact I. }
  { intros sg _ (H & _) _. exact H. }
  { intros sg _ (Hb & Hm & _) (H1 & H2). split; auto. split; auto. exists (map sg sl), (map sg bi). auto. }
  split.
  - intros sg G. rewrite <- feas_bin, O4 in G. destruct (T1 sg G) as (_ & Q1 & Q2 & Q3).
    split; auto. split; auto. rewrite O5. cbn [map2 vsum]. unfold h, h_of. rewrite <- Q3.
    destruct safe; rewrite ?dot_vneg_l; ring.
  - intros x Hb Hr. destruct (F5 (fun _ => 0) x (init_feas _ _)) as (sg & G & _ & Ex).
    { eapply in_box_length; eauto. }
    destruct (T2 sg G) as (sg' & G' & A); [rewrite Ex; auto|].
    exists sg'. split; [apply feas_bin, O4; auto|].
    rewrite <- Ex. symmetry. apply (map_agree (nvars m0)); auto.
Qed.

Lemma value_total : forall region safe, mic_ok region -> nin region = n ->
  (exists k B out, output_constraint solve meth N x_lo x_up = Some (k, B, out)) ->
  exists m xv, barrier_value_milp N solve meth n x_lo x_up x_star c region safe = Some (m, xv).
Proof.
  intros region safe Ok Hn Ex. unfold barrier_value_milp.
  destruct (addVars (repeat (NInf, PInf) n) VCont init_mip) as [m0 xv0] eqn:E0.
  destruct (step_free VBin false n _ _ _ E0 (h_init false)) as (F1 & F2 & F3 & F4 & F5).
  assert (Lx : length xv0 = n) by (rewrite F1; apply seq_length).
  assert (Bx : below (nvars m0) xv0) by (rewrite F1; apply below_seq; lia).
  destruct (add_mic region xv0 None NewBinary VBin m0) as [[m1 sl] bi] eqn:E1.
  destruct (step_mic VBin false region xv0 None m0 m1 sl bi E1 Ok F3 Bx ltac:(congruence) I
    ltac:(discriminate) ltac:(discriminate)) as (_ & _ & Nv & S1 & _).
  assert (N1 : (nvars m0 <= nvars m1)%nat) by lia.
  destruct (barrier_output_total xv0 VBin m1 Ex) as (m2 & rr & E2). rewrite E2.
  destruct (barrier_output_step false _ VBin _ _ _ (proj1 (proj2 S1)) (below_weaken _ _ _ Bx N1) Lx
              ltac:(discriminate) E2) as (R1 & R3 & _ & S2).
  rewrite (scalar_phi n) by auto.
  destruct (setObjective_step VBin false [if safe then vneg (ret_a rr) else ret_a rr] [ret_z rr]
     (if safe then (ret_b rr - phi N x_star + c) * -1 else ret_b rr - phi N x_star + c) true m2
     (proj1 (proj2 S2))) as (m3 & E3 & _).
  { constructor; [|constructor]. destruct safe; auto. unfold vneg. rewrite map_length. auto. }
  { cbn [concat]. rewrite app_nil_r. apply fresh_below in R1. auto. }
  { cbn [concat]. rewrite app_nil_r. apply R1. }
  rewrite E3. eauto.
Qed.

Variable st : bool.
Variable add_system : list nat -> list nat -> vtype -> mip -> option mip.
Variable T : vec -> vec -> Prop.
Hypothesis Hsys : system_contract n st add_system T.
Variable eps : R.

Lemma barrier_derivative_program : forall vt m xv xn, vt <> VCont ->
  barrier_derivative_milp N solve meth n x_lo x_up add_system x_star c eps vt = Some (m, xv, xn) ->
  obj_max m = true /\ length xv = n /\ length xn = n /\
  (forall sg, feas vt m sg ->
     in_box x_lo x_up (map sg xv) /\ in_box x_lo x_up (map sg xn) /\ T (map sg xv) (map sg xn) /\
     objective m sg = barrier_violation N x_star c eps (map sg xv) (map sg xn)) /\
  (forall x x', in_box x_lo x_up x -> in_box x_lo x_up x' -> T x x' ->
     exists sg, feas vt m sg /\ map sg xv = x /\ map sg xn = x').
Proof.
  intros vt m xv0 xn0 Hvt E. unfold barrier_derivative_milp in E.
  destruct (addVars (repeat (NInf, PInf) n) VCont init_mip) as [m0 xv] eqn:E0.
  destruct (addVars (repeat (NInf, PInf) n) VCont m0) as [m1 xn] eqn:E1.
  destruct (step_free vt st n _ _ _ E0 (h_init st)) as (A1 & A2 & A3 & A4 & A5).
  destruct (step_free vt st n _ _ _ E1 A3) as (B1 & B2 & B3 & B4 & B5).
  assert (Bv : below (nvars m1) xv) by (rewrite A1; apply below_seq; lia).
  assert (Bn : below (nvars m1) xn) by (rewrite B1; apply below_seq; lia).
  assert (Lv : length xv = n) by (rewrite A1; apply seq_length).
  assert (Ln : length xn = n) by (rewrite B1; apply seq_length).
  assert (ND : NoDup (xv ++ xn)).
  { rewrite A1, B1, A2. cbn [init_mip nvars gvars length]. rewrite <- seq_app. apply seq_NoDup. }
  destruct (add_system xv xn vt m1) as [m2|] eqn:E2; [|discriminate].
  assert (S2 := Hsys vt m1 m2 xv xn Hvt B3 Bv Bn Lv Ln ND E2).
  assert (V2 : (nvars m1 <= nvars m2)%nat) by apply S2.
  destruct (add_barrier_output N solve meth x_lo x_up xv vt m2) as [[m3 rr]|] eqn:E3; [|discriminate].
  destruct (barrier_output_step st xv vt m2 m3 rr (proj1 (proj2 S2)) (below_weaken _ _ _ Bv V2) Lv Hvt E3)
    as (P1 & P3 & _ & S3).
  assert (V3 : (nvars m2 <= nvars m3)%nat) by apply S3.
  assert (Bn3 : below (nvars m3) xn) by (apply (below_weaken _ _ _ Bn); lia).
  destruct (add_barrier_output N solve meth x_lo x_up xn vt m3) as [[m4 rn]|] eqn:E4; [|discriminate].
  destruct (barrier_output_step st xn vt m3 m4 rn (proj1 (proj2 S3)) Bn3 Ln Hvt E4)
    as (Q1 & Q3 & _ & S4).
  assert (V4 : (nvars m3 <= nvars m4)%nat) by apply S4.
  rewrite (scalar_phi n) in E by auto.
  destruct (barrier_ret_det _ _ _ _ _ _ _ _ _ E3 E4) as [Da Db].
  destruct (setObjective_step vt st [vscale (1 - eps) (ret_a rr); vneg (ret_a rr)] [ret_z rr; ret_z rn]
     (eps * (- ret_b rr + phi N x_star - c)) true m4 (proj1 (proj2 S4)))
     as (m5 & E5 & O1 & O2 & O3 & O4 & O5).
  { constructor; [unfold vscale; rewrite map_length; auto|].
    constructor; [unfold vneg; rewrite map_length; congruence|constructor]. }
  { cbn [concat]. rewrite app_nil_r. apply Forall_app. split.
    - apply fresh_below in P1. apply (below_weaken _ _ _ P1); lia.
    - apply fresh_below in Q1. auto. }
  { cbn [concat]. rewrite app_nil_r. eapply fresh_disj; eauto. }
  rewrite E5 in E. injection E as <- <- <-.
  set (D := fun sg : assignment => (in_box x_lo x_up (map sg xv) /\ in_box x_lo x_up (map sg xn)) /\
    T (map sg xv) (map sg xn)).
  assert (LD : local m1 D).
  { apply (local_map2 m1 xv xn (fun x x' => (in_box x_lo x_up x /\ in_box x_lo x_up x') /\ T x x')); auto. }
  assert (T2 : step vt st m1 m2 D (fun sg => T (map sg xv) (map sg xn))).
  { eapply step_weaken; [exact S2| |auto]. unfold D. tauto. }
  assert (T3 := step_seq vt st _ _ _ _ _ _ _ T2 S3 LD ltac:(unfold D; tauto)).
  assert (T4 := step_seq vt st _ _ _ _ _ _ _ T3 S4 LD ltac:(unfold D; tauto)).
  destruct T4 as (_ & _ & U1 & U2).
  split; auto. split; auto. split; auto. split.
  - intros sg G. rewrite O4 in G.
    destruct (U1 sg G) as (_ & ((X1 & X2 & X3) & X4 & X5)).
    split; auto. split; auto. split; auto.
    rewrite <- Da, <- Db in X5. rewrite O5. cbn [map2 vsum].
    rewrite dot_vneg_l, dot_vscale_l. unfold barrier_violation, h_of. rewrite <- X3, <- X5. ring.
  - intros x x' Bx Bx' HT.
    destruct (A5 (fun _ => 0) x (init_feas _ _)) as (s0 & G0 & _ & Ex).
    { eapply in_box_length; eauto. }
    destruct (B5 s0 x' G0) as (s1 & G1 & Ag & Ex').
    { eapply in_box_length; eauto. }
    assert (Ex1 : map s1 xv = x).
    { rewrite <- Ex. symmetry. apply (map_agree (nvars m0)); auto.
      rewrite A1. apply below_seq. lia. }
    destruct (U2 s1 G1) as (s7 & G7 & Ag7).
    { unfold D. rewrite Ex', Ex1. auto. }
    exists s7. split; [apply O4; auto|]. split.
    + rewrite <- Ex1. symmetry. apply (map_agree (nvars m1)); auto.
    + rewrite <- Ex'. symmetry. apply (map_agree (nvars m1)); auto.
Qed.

Lemma barrier_derivative_total : forall vt, vt <> VCont -> system_total n st add_system ->
  (exists k B out, output_constraint solve meth N x_lo x_up = Some (k, B, out)) ->
  exists m xv xn,
    barrier_derivative_milp N solve meth n x_lo x_up add_system x_star c eps vt = Some (m, xv, xn).
Proof.
  intros vt Hvt Tot Ex. unfold barrier_derivative_milp.
  destruct (addVars (repeat (NInf, PInf) n) VCont init_mip) as [m0 xv] eqn:E0.
  destruct (addVars (repeat (NInf, PInf) n) VCont m0) as [m1 xn] eqn:E1.
  destruct (step_free vt st n _ _ _ E0 (h_init st)) as (A1 & A2 & A3 & A4 & A5).
  destruct (step_free vt st n _ _ _ E1 A3) as (B1 & B2 & B3 & B4 & B5).
  assert (Bv : below (nvars m1) xv) by (rewrite A1; apply below_seq; lia).
  assert (Bn : below (nvars m1) xn) by (rewrite B1; apply below_seq; lia).
  assert (Lv : length xv = n) by (rewrite A1; apply seq_length).
  assert (Ln : length xn = n) by (rewrite B1; apply seq_length).
  assert (ND : NoDup (xv ++ xn)).
  { rewrite A1, B1, A2. cbn [init_mip nvars gvars length]. rewrite <- seq_app. apply seq_NoDup. }
  destruct (add_system xv xn vt m1) as [m2|] eqn:E2;
    [|exfalso; apply (Tot vt m1 xv xn Hvt B3 Bv Bn Lv Ln ND E2)].
  assert (S2 := Hsys vt m1 m2 xv xn Hvt B3 Bv Bn Lv Ln ND E2).
  assert (V2 : (nvars m1 <= nvars m2)%nat) by apply S2.
  destruct (barrier_output_total xv vt m2 Ex) as (m3 & rr & E3). rewrite E3.
  destruct (barrier_output_step st xv vt m2 m3 rr (proj1 (proj2 S2)) (below_weaken _ _ _ Bv V2) Lv Hvt E3)
    as (P1 & P3 & _ & S3).
  assert (V3 : (nvars m2 <= nvars m3)%nat) by apply S3.
  assert (Bn3 : below (nvars m3) xn) by (apply (below_weaken _ _ _ Bn); lia).
  destruct (barrier_output_total xn vt m3 Ex) as (m4 & rn & E4). rewrite E4.
  destruct (barrier_output_step st xn vt m3 m4 rn (proj1 (proj2 S3)) Bn3 Ln Hvt E4)
    as (Q1 & Q3 & _ & S4).
  assert (V4 : (nvars m3 <= nvars m4)%nat) by apply S4.
  rewrite (scalar_phi n) by auto.
  destruct (barrier_ret_det _ _ _ _ _ _ _ _ _ E3 E4) as [Da Db].
  destruct (setObjective_step vt st [vscale (1 - eps) (ret_a rr); vneg (ret_a rr)] [ret_z rr; ret_z rn]
     (eps * (- ret_b rr + phi N x_star - c)) true m4 (proj1 (proj2 S4)))
     as (m5 & E5 & _).
  { constructor; [unfold vscale; rewrite map_length; auto|].
    constructor; [unfold vneg; rewrite map_length; congruence|constructor]. }
  { cbn [concat]. rewrite app_nil_r. apply Forall_app. split.
    - apply fresh_below in P1. apply (below_weaken _ _ _ P1); lia.
    - apply fresh_below in Q1. auto. }
  { cbn [concat]. rewrite app_nil_r. eapply fresh_disj; eauto. }
  rewrite E5. eauto.
Qed.

(** ** Certificates *)

Lemma value_verdict : forall region safe m xv v, mic_ok region -> nin region = n ->
  barrier_value_milp N solve meth n x_lo x_up x_star c region safe = Some (m, xv) ->
  solve m = GOptimal v ->
  (v <= 0 <-> forall x, in_box x_lo x_up x -> in_region region x ->
     if safe then 0 <= h x else h x <= 0).
Proof.
  intros region safe m xv v Ok Hn E S. destruct (value_program _ _ _ _ Ok Hn E) as (P1 & P2 & P3 & P4).
  assert (Hs := Hsolve m). rewrite S, P1 in Hs. destruct Hs as [(sg & G & Ev) Mx]. split.
  - intros Hv x B Hr. destruct (P4 x B Hr) as (sg' & G' & Ex). specialize (Mx sg' G').
    destruct (P3 sg' G') as (_ & _ & Eo). rewrite Eo, Ex in Mx. destruct safe; lra.
  - intros K. destruct (P3 sg G) as (B & Hr & Eo). specialize (K _ B Hr). rewrite Ev in Eo.
    destruct safe; lra.
Qed.

Lemma derivative_verdict : forall m xv xn v,
  barrier_derivative_milp N solve meth n x_lo x_up add_system x_star c eps VBin = Some (m, xv, xn) ->
  solve m = GOptimal v ->
  (v <= 0 <-> forall x x', in_box x_lo x_up x -> in_box x_lo x_up x' -> T x x' ->
     (1 - eps) * h x <= h x').
Proof.
  intros m xv xn v E S.
  destruct (barrier_derivative_program VBin m xv xn ltac:(discriminate) E) as (P1 & P2 & P2' & P3 & P4).
  assert (Hs := Hsolve m). rewrite S, P1 in Hs. destruct Hs as [(sg & G & Ev) Mx]. split.
  - intros Hv x x' B B' Ht. destruct (P4 x x' B B' Ht) as (sg' & G' & Ex & Ex').
    apply feas_bin in G' as G2. specialize (Mx sg' G2). destruct (P3 sg' G') as (_ & _ & _ & Eo).
    rewrite Eo, Ex, Ex' in Mx. unfold barrier_violation in Mx. unfold h. lra.
  - intros K. apply feas_bin in G. destruct (P3 sg G) as (B & B' & Ht & Eo). specialize (K _ _ B B' Ht).
    rewrite Ev in Eo. unfold barrier_violation in Eo. unfold h in K. lra.
Qed.

Lemma derivative_keeps : forall m xv xn,
  barrier_derivative_milp N solve meth n x_lo x_up add_system x_star c eps VBin = Some (m, xv, xn) ->
  (forall sg, gfeas m sg -> objective m sg <= 0) -> eps <= 1 ->
  forall x x', in_box x_lo x_up x -> in_box x_lo x_up x' -> T x x' -> 0 <= h x -> 0 <= h x'.
Proof.
  intros m xv xn E Hv He x x' B B' Ht Hx.
  destruct (barrier_derivative_program VBin m xv xn ltac:(discriminate) E) as (P1 & P2 & P2' & P3 & P4).
  destruct (P4 x x' B B' Ht) as (sg & G & Ex & Ex'). destruct (P3 sg G) as (_ & _ & _ & Eo).
  apply feas_bin in G. specialize (Hv sg G). rewrite Eo, Ex, Ex' in Hv.
  unfold barrier_violation in Hv. fold h in Hv. nra.
Qed.

(** No positive value in either program: trajectories that start with h > 0
    and stay in the box keep h > 0 and never reach the unsafe region. *)
Lemma barrier_safe : forall region m xv md xd xdn, mic_ok region -> nin region = n ->
  barrier_value_milp N solve meth n x_lo x_up x_star c region false = Some (m, xv) ->
  barrier_derivative_milp N solve meth n x_lo x_up add_system x_star c eps VBin = Some (md, xd, xdn) ->
  (forall sg, gfeas m sg -> objective m sg <= 0) ->
  (forall sg, gfeas md sg -> objective md sg <= 0) -> eps < 1 ->
  forall x, trajectory_in x_lo x_up T x -> 0 < h (x O) ->
  forall k, (1 - eps) ^ k * h (x O) <= h (x k) /\ ~ in_region region (x k).
Proof.
  intros region m xv md xd xdn Ok Hn E Ed Hu Hd He x [Tb Tt] H0.
  destruct (barrier_derivative_program VBin md xd xdn ltac:(discriminate) Ed) as (_ & _ & _ & P3 & P4).
  destruct (value_program _ _ _ _ Ok Hn E) as (_ & _ & Q3 & Q4).
  assert (G : forall k, (1 - eps) ^ k * h (x O) <= h (x k)).
  { induction k as [|k IH]; [cbn; lra|].
    destruct (P4 (x k) (x (S k)) (Tb k) (Tb (S k)) (Tt k)) as (sg & G & Ex & Ex').
    destruct (P3 sg G) as (_ & _ & _ & Eo). apply feas_bin in G. specialize (Hd sg G).
    rewrite Eo, Ex, Ex' in Hd. unfold barrier_violation in Hd. fold h in Hd. cbn [pow].
    assert (K : (1 - eps) * ((1 - eps) ^ k * h (x O)) <= (1 - eps) * h (x k))
      by (apply Rmult_le_compat_l; lra). lra. }
  intros k. split; auto. intros Hr.
  destruct (Q4 (x k) (Tb k) Hr) as (sg & Gs & Ex). destruct (Q3 sg Gs) as (_ & _ & Eo).
  specialize (Hu sg Gs). rewrite Eo, Ex in Hu. specialize (G k).
  assert (K : 0 < (1 - eps) ^ k) by (apply pow_lt; lra). nra.
Qed.
End Programs.
