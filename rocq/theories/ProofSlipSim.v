(** Runs of the SLIP over several steps. *)

Require Import Reals List Lia Lra Bool Arith.
Require Import Verif.Vec Verif.VecFacts Verif.ModelSlip Verif.SpecSlip Verif.ProofSlip Verif.ProofSlipEx
  Verif.ModelSlipHybrid Verif.SpecSlipHybrid Verif.SpecSlipSim Verif.ProofSlipHybrid.
Import ListNotations.
Open Scope R_scope.

(** ** A flight solver *)
Definition landing_time (p : slip) (x : vec) (theta : R) : R :=
  (sqrt (nth 3 x 0 ^ 2 + 2 * grav p * foot_z p x theta) + nth 3 x 0) / grav p.
Definition parabola (p : slip) (theta t : R) (x : vec) : vec * R :=
  let d := Rmin (landing_time p x theta) 10 in (ballistic p x d, t + d).
Lemma landing_exact : forall p x theta, 0 < grav p -> 0 < foot_z p x theta ->
  0 < landing_time p x theta /\ foot_z p (ballistic p x (landing_time p x theta)) theta = 0 /\
  forall e, 0 <= e < landing_time p x theta -> 0 < foot_z p (ballistic p x e) theta.
Proof.
  intros p x theta G H. set (d := landing_time p x theta).
  assert (E : time_to_touchdown p x (mkStone NInf PInf 0) theta = Touchdown d).
  { apply touchdown_lands; [auto|cbn [stone_height]; lra|].
    destruct (proj1 (landing_root (grav p) (foot_z p x theta) (nth 3 x 0) d G (Rlt_le _ _ H)) eq_refl) as (A & B & C).
    unfold lands, foot_z, ballistic in *. cbn [nth stone_height stone_left stone_right ext_le_r r_le_ext].
    repeat split; lra. }
  destruct (touchdown_above _ _ _ _ _ G E) as [A B]. cbn [stone_height] in *.
  apply touchdown_lands in E; [|auto|cbn [stone_height]; lra]. destruct E as (_ & E & _). cbn [stone_height] in E.
  split; [auto|]. split; [auto|]. intros e [He1 He2]. destruct (Req_dec e 0) as [->|n]; [|apply A; lra].
  replace (foot_z p (ballistic p x 0) theta) with (foot_z p x theta); [auto|].
  unfold foot_z, ballistic. cbn [nth]. field.
Qed.
Lemma parabola_exact : forall p, 0 < grav p -> fly_exact p (parabola p).
Proof.
  intros p G theta t x L H. destruct (landing_exact p x theta G H) as (A & B & C).
  exists (Rmin (landing_time p x theta) 10). unfold parabola. set (d := landing_time p x theta) in *.
  assert (M1 := Rmin_l d 10). assert (M2 := Rmin_r d 10). assert (M3 := Rmin_glb_lt d 10 0 A ltac:(lra)).
  split; [lra|]. split; [reflexivity|]. split; [intros e He; apply C; lra|].
  unfold Rmin. destruct (Rle_dec d 10) as [l|n]; [left; auto|right]. split; [auto|]. apply C. lra.
Qed.

(** ** Energy *)
Lemma ballistic_energy : forall p x d, 0 < grav p -> flight_phase_energy p (ballistic p x d) = flight_phase_energy p x.
Proof. intros p x d G. unfold flight_phase_energy, ballistic, at_. cbn [nth]. field. Qed.
Lemma transition_energy : forall p s theta, l0 p <> 0 ->
  stance_phase_energy p (touchdown_transition p s theta) = flight_phase_energy p s - mass p * grav p * foot_z p s theta.
Proof.
  intros p s theta L.
  set (s' := [nth 0 s 0; l0 p * cos theta; nth 2 s 0; nth 3 s 0]).
  change (touchdown_transition p s theta) with (touchdown_transition p s' theta).
  rewrite touchdown_energy; [|auto|unfold touchdown_guard, s', at_; cbn [nth]; ring].
  unfold flight_phase_energy, s', foot_z, at_. cbn [nth]. ring.
Qed.

Definition no_step : phase * phase := (mkPhase [] 0, mkPhase [] 0).
Lemma steps_length : forall p fly stance thetas x t, (length (simulate_steps p fly stance thetas x t) <= length thetas)%nat.
Proof.
  induction thetas as [|th ths IH]; intros x t; [cbn; lia|]. cbn [simulate_steps].
  destruct (Rleb (at_ x 1) (l0 p * cos th)); [cbn; lia|].
  destruct (fly th t x) as [pre ttd]. destruct (stance ttd (touchdown_transition p pre th)) as [lo tlo].
  destruct (Rltb (at_ lo 1 + PI / 2) (1 / 100000)); [cbn; lia|].
  destruct (Rltb (PI / 2 - at_ lo 1) (1 / 100000)); [cbn; lia|].
  cbn [length]. apply le_n_S. apply IH.
Qed.
Lemma steps_energy : forall p fly stance D, 0 < grav p -> l0 p <> 0 -> mass p <> 0 ->
  fly_exact p fly -> stance_exact_on p D stance ->
  forall thetas x t i, length x = 4%nat ->
  (i < length (simulate_steps p fly stance thetas x t))%nat ->
  (forall j, (j < i)%nat -> completed p D (nth j thetas 0) (nth j (simulate_steps p fly stance thetas x t) no_step)) ->
  let s := nth i (simulate_steps p fly stance thetas x t) no_step in
  flight_phase_energy p (ph_state (fst s)) = flight_phase_energy p x /\
  (foot_z p (ph_state (fst s)) (nth i thetas 0) = 0 -> D (touchdown_transition p (ph_state (fst s)) (nth i thetas 0)) ->
   stance_phase_energy p (ph_state (snd s)) = flight_phase_energy p x /\
   ph_time (fst s) <= ph_time (snd s)).
Proof.
  intros p fly stance D G L0 M F S. induction thetas as [|th ths IH]; intros x t i Lx Hi Hc; [cbn in Hi; lia|].
  revert Hi Hc. cbn [simulate_steps].
  unfold Rleb. destruct (Rle_dec (at_ x 1) (l0 p * cos th)) as [n|n]; [cbn; lia|].
  destruct (F th t x Lx) as (d & Hd & Ef & Up & En); [unfold foot_z, at_ in *; lra|]. rewrite Ef.
  set (pre := ballistic p x d).
  assert (Ep : flight_phase_energy p pre = flight_phase_energy p x) by (apply ballistic_energy; auto).
  destruct (stance (t + d) (touchdown_transition p pre th)) as [lo tlo] eqn:Es.
  assert (First : foot_z p pre th = 0 -> D (touchdown_transition p pre th) ->
     stance_phase_energy p lo = flight_phase_energy p x /\ t + d <= tlo).
  { intros Hz Hd'. destruct (S (t + d) _ Hd') as (T & phi & HT & Es' & P0 & So & Nz & _).
    rewrite Es in Es'. apply pair_equal_spec in Es'. destruct Es' as [-> ->]. split; [|lra].
    rewrite (stance_energy_constant p phi 0 T M ltac:(lra) So Nz), P0, transition_energy, Hz, Ep by auto. ring. }
  set (here := (mkPhase pre (t + d), mkPhase lo tlo)).
  intros Hi Hc.
  destruct i as [|i].
  - destruct (Rltb (at_ lo 1 + PI / 2) (1 / 100000)); [cbn [nth here fst snd ph_state ph_time]; split; auto|].
    destruct (Rltb (PI / 2 - at_ lo 1) (1 / 100000)); cbn [nth here fst snd ph_state ph_time]; split; auto.
  - destruct (Rltb (at_ lo 1 + PI / 2) (1 / 100000)); [cbn in Hi; lia|].
    destruct (Rltb (PI / 2 - at_ lo 1) (1 / 100000)); [cbn in Hi; lia|].
    destruct (Hc 0%nat ltac:(lia)) as (C1 & C2 & C3). cbn [nth here fst snd ph_state] in C1, C2, C3.
    destruct (First C1 C2) as [E1 _].
    set (w := liftoff_transition p lo) in *.
    set (x' := [at_ w 0 + at_ w 2 * (at_ w 3 / grav p); at_ w 1 + at_ w 3 ^ 2 / (2 * grav p); at_ w 2; 0]) in *.
    assert (Ex : flight_phase_energy p x' = flight_phase_energy p x).
    { rewrite <- E1, <- (liftoff_energy p lo) by (unfold liftoff_guard, at_; lra). fold w.
      unfold flight_phase_energy, x', at_. cbn [nth]. field. lra. }
    cbn [nth]. rewrite <- Ex. apply IH; [reflexivity|cbn [length] in Hi; lia|].
    intros j Hj. apply (Hc (Datatypes.S j)). lia.
Qed.
Lemma simulate_energy : forall p fly stance D x0 thetas sol, 0 < grav p -> l0 p <> 0 -> mass p <> 0 ->
  fly_exact p fly -> stance_exact_on p D stance -> length x0 = 4%nat ->
  simulate p fly stance x0 thetas = Some sol ->
  (0 < length sol <= length thetas)%nat /\
  forall i, (i < length sol)%nat ->
  (forall j, (j < i)%nat -> completed p D (nth j thetas 0) (nth j sol no_step)) ->
  flight_phase_energy p (ph_state (fst (nth i sol no_step))) = flight_phase_energy p x0 /\
  (foot_z p (ph_state (fst (nth i sol no_step))) (nth i thetas 0) = 0 ->
   D (touchdown_transition p (ph_state (fst (nth i sol no_step))) (nth i thetas 0)) ->
   stance_phase_energy p (ph_state (snd (nth i sol no_step))) = flight_phase_energy p x0 /\
   ph_time (fst (nth i sol no_step)) <= ph_time (snd (nth i sol no_step))).
Proof.
  intros p fly stance D x0 thetas sol G L0 M F S Lx E. destruct thetas as [|th ths]; [discriminate|].
  unfold simulate in E. destruct (Rltb (l0 p * cos th) (at_ x0 1)) eqn:Eb; [|discriminate].
  apply someq in E. split.
  - rewrite <- E. split; [|apply steps_length].
    unfold Rltb in Eb. destruct (Rlt_dec (l0 p * cos th) (at_ x0 1)); [|discriminate].
    cbn [simulate_steps]. unfold Rleb. destruct (Rle_dec (at_ x0 1) (l0 p * cos th)); [lra|].
    destruct (fly th 0 x0) as [pre ttd]. destruct (stance ttd (touchdown_transition p pre th)) as [lo tlo].
    destruct (Rltb (at_ lo 1 + PI / 2) (1 / 100000)); [cbn; lia|].
    destruct (Rltb (PI / 2 - at_ lo 1) (1 / 100000)); cbn; lia.
  - intros i Hi Hc. rewrite <- E in *. apply (steps_energy p fly stance D G L0 M F S _ x0 0 i Lx Hi Hc).
Qed.

(** A flight that is cut off in the air loses the energy of its height when the stance phase starts. *)
Lemma timeout_energy : forall p fly x0 theta t, 0 < grav p -> l0 p <> 0 -> fly_exact p fly -> length x0 = 4%nat ->
  0 < foot_z p x0 theta ->
  stance_phase_energy p (touchdown_transition p (fst (fly theta t x0)) theta)
  = flight_phase_energy p x0 - mass p * grav p * foot_z p (fst (fly theta t x0)) theta.
Proof.
  intros p fly x0 theta t G L F Lx H. destruct (F theta t x0 Lx H) as (d & Hd & -> & _). cbn [fst].
  rewrite transition_energy, ballistic_energy by auto. reflexivity.
Qed.

(** ** The apexes of apex_map *)
Lemma apex_step : forall p fly stance0 stance x z v t theta rest x' z' v' d, 0 < grav p ->
  fly_exact p fly -> same_stance stance0 stance ->
  apex_map p stance0 x z v theta = Some (x', z', v', d) ->
  0 < z - l0 p * cos theta -> 2 * (z - l0 p * cos theta) <= 100 * grav p ->
  exists s, simulate_steps p fly stance (theta :: rest) [x; z; v; 0] t
            = s :: simulate_steps p fly stance rest [x'; z'; v'; 0] (t + d) /\
  rises_to p s (x', z', v', t + d) /\ foot_z p (ph_state (fst s)) theta = 0.
Proof.
  intros p fly stance0 stance x z v t theta rest x' z' v' d G F Ss E H Hh.
  unfold apex_map in E. unfold Rltb at 1 in E. destruct (Rlt_dec (z - l0 p * cos theta) 0); [lra|].
  destruct (Rltb 0 v && Rltb theta 0)%bool; [discriminate|]. destruct (Rltb v 0 && Rltb 0 theta)%bool; [discriminate|].
  set (f := sqrt (2 * (z - l0 p * cos theta) / grav p)) in *. cbv zeta in E.
  assert (P : 0 <= 2 * (z - l0 p * cos theta) / grav p).
  { apply Rmult_le_pos; [lra|]. left. apply Rinv_0_lt_compat. auto. }
  assert (F0 : 0 <= f) by apply sqrt_pos.
  assert (F2 : f * f = 2 * (z - l0 p * cos theta) / grav p) by (apply sqrt_sqrt; auto).
  assert (F3 : grav p * (f * f) = 2 * (z - l0 p * cos theta)) by (rewrite F2; field; lra).
  destruct (F theta t [x; z; v; 0] eq_refl) as (d0 & Hd & Ef & _ & En); [unfold foot_z; cbn [nth]; lra|].
  assert (Q : forall e, foot_z p (ballistic p [x; z; v; 0] e) theta = grav p * (f * f - e * e) / 2).
  { intros e. unfold foot_z, ballistic. cbn [nth]. replace (z + 0 * e - grav p * e ^ 2 / 2 - l0 p * cos theta)
      with (/ 2 * (2 * (z - l0 p * cos theta)) - grav p * (e * e) / 2) by field. rewrite <- F3. field. }
  assert (Ed : d0 = f).
  { rewrite Q in En. destruct En as [En|[-> En]].
    - assert (Z : (f - d0) * (f + d0) = 0).
      { assert (Z : grav p * ((f - d0) * (f + d0)) = 0) by lra. apply Rmult_integral in Z. destruct Z; lra. }
      apply Rmult_integral in Z. destruct Z; lra.
    - exfalso. assert (grav p * (f * f) <= grav p * 100) by lra. lra. }
  subst d0.
  assert (Ey : ballistic p [x; z; v; 0] f = [x + v * f; l0 p * cos theta; v; - grav p * f]).
  { unfold ballistic. cbn [nth].
    replace (z + 0 * f - grav p * f ^ 2 / 2) with (l0 p * cos theta + (2 * (z - l0 p * cos theta) - grav p * (f * f)) / 2) by field.
    rewrite F3. repeat (f_equal; try field). }
  destruct (stance0 (touchdown_transition p [x + v * f; l0 p * cos theta; v; - grav p * f] theta)) as [[y T]|] eqn:Es; [|discriminate].
  destruct (Ss _ _ _ Es) as (Lv1 & Lv2 & Et).
  unfold Rltb in E. destruct (Rlt_dec (at_ (liftoff_transition p y) 3) 0) as [|nv]; [discriminate|].
  apply someq in E. set (w := liftoff_transition p y) in *.
  exists (mkPhase (ballistic p [x; z; v; 0] f) (t + f), mkPhase y (t + f + T)).
  assert (Ex : x' = at_ w 0 + at_ w 2 * (at_ w 3 / grav p)) by congruence.
  assert (Ez : z' = at_ w 1 + grav p / 2 * (at_ w 3 / grav p) ^ 2) by congruence.
  assert (Ev : v' = at_ w 2) by congruence.
  assert (Edd : d = f + T + at_ w 3 / grav p) by congruence. clear E.
  split; [|split].
  - cbn [simulate_steps]. unfold Rleb. unfold at_ at 1. cbn [nth].
    destruct (Rle_dec z (l0 p * cos theta)); [lra|]. rewrite Ef, Ey, Et. unfold Rltb.
    change (at_ y 1) with (nth 1 y 0).
    destruct (Rlt_dec (nth 1 y 0 + PI / 2) (1 / 100000)); [lra|].
    destruct (Rlt_dec (PI / 2 - nth 1 y 0) (1 / 100000)); [lra|]. fold w.
    rewrite Ex, Ev, Edd.
    replace z' with (at_ w 1 + at_ w 3 ^ 2 / (2 * grav p)) by (rewrite Ez; field; lra).
    replace (t + f + T + at_ w 3 / grav p) with (t + (f + T + at_ w 3 / grav p)) by ring. reflexivity.
  - exists (at_ w 3 / grav p). cbn [snd ph_time ph_state]. fold w.
    split; [apply Rmult_le_pos; [lra|left; apply Rinv_0_lt_compat; auto]|]. split; [rewrite Edd; ring|].
    rewrite Ex, Ez, Ev. unfold ballistic, at_.
    assert (C4 : forall a b c e a' b' c' e' : R, a = a' -> b = b' -> c = c' -> e = e' -> [a; b; c; e] = [a'; b'; c'; e']) by congruence.
    apply C4; [reflexivity| |reflexivity|]; field; lra.
  - cbn [fst ph_state]. rewrite Ey. unfold foot_z. cbn [nth]. ring.
Qed.

Definition height_of (a : R * R * R * R) : R := let '(_, z, _, _) := a in z.
Lemma apex_steps : forall p fly stance0 stance, 0 < grav p -> fly_exact p fly -> same_stance stance0 stance ->
  forall thetas x z v t l, apexes p stance0 x z v t thetas = Some l ->
  (forall i, (i < length thetas)%nat ->
     let h := nth i (z :: map height_of l) 0 - l0 p * cos (nth i thetas 0) in 0 < h /\ 2 * h <= 100 * grav p) ->
  Forall2 (rises_to p) (simulate_steps p fly stance thetas [x; z; v; 0] t) l /\ length l = length thetas.
Proof.
  intros p fly stance0 stance G F Ss. induction thetas as [|th ths IH]; intros x z v t l E H.
  - apply someq in E. subst l. split; constructor.
  - cbn [apexes] in E. destruct (apex_map p stance0 x z v th) as [[[[x' z'] v'] d]|] eqn:Ea; [|discriminate].
    destruct (apexes p stance0 x' z' v' (t + d) ths) as [l'|] eqn:El; [|discriminate].
    apply someq in E. rewrite <- E in *. clear E.
    destruct (H 0%nat ltac:(cbn; lia)) as [H1 H2]. cbn [nth] in H1, H2.
    destruct (apex_step p fly stance0 stance x z v t th ths x' z' v' d G F Ss Ea H1 H2) as (s & -> & Rs & _).
    destruct (IH x' z' v' (t + d) l' El) as [I1 I2].
    { intros i Hi. apply (H (Datatypes.S i)). cbn. lia. }
    split; [constructor; auto|]. cbn [length]. lia.
Qed.
Lemma simulate_apexes : forall p fly stance0 stance thetas x z v l, 0 < grav p -> fly_exact p fly -> same_stance stance0 stance ->
  thetas <> [] -> apexes p stance0 x z v 0 thetas = Some l ->
  (forall i, (i < length thetas)%nat ->
     let h := nth i (z :: map height_of l) 0 - l0 p * cos (nth i thetas 0) in 0 < h /\ 2 * h <= 100 * grav p) ->
  exists sol, simulate p fly stance [x; z; v; 0] thetas = Some sol /\ Forall2 (rises_to p) sol l /\
  length sol = length thetas.
Proof.
  intros p fly stance0 stance thetas x z v l G F Ss Ne E H.
  destruct (apex_steps p fly stance0 stance G F Ss thetas x z v 0 l E H) as [A B].
  destruct thetas as [|th ths]; [congruence|]. exists (simulate_steps p fly stance (th :: ths) [x; z; v; 0] 0).
  split; [|split; auto].
  - unfold simulate. destruct (H 0%nat ltac:(cbn; lia)) as [H1 H2]. cbn [nth] in H1. unfold Rltb, at_. cbn [nth].
    destruct (Rlt_dec (l0 p * cos th) z); [reflexivity|lra].
  - rewrite <- B. clear - A. induction A; cbn [length]; auto.
Qed.

(** ** Time can run backwards *)
Lemma back_in_time : forall p fly stance x t th1 th2 rest f s more, 0 < grav p -> fly_exact p fly ->
  simulate_steps p fly stance (th1 :: th2 :: rest) x t = (f, s) :: more ->
  1 / 100000 <= nth 1 (ph_state s) 0 + PI / 2 -> 1 / 100000 <= PI / 2 - nth 1 (ph_state s) 0 ->
  let w := liftoff_transition p (ph_state s) in
  nth 3 w 0 < 0 -> nth 1 w 0 < l0 p * cos th2 < nth 1 w 0 + nth 3 w 0 ^ 2 / (2 * grav p) ->
  exists f' s' more', more = (f', s') :: more' /\ ph_time f' < ph_time s.
Proof.
  intros p fly stance x t th1 th2 rest f s more G F E L1 L2 w V Hw.
  cbn [simulate_steps] in E. destruct (Rleb (at_ x 1) (l0 p * cos th1)); [discriminate|].
  destruct (fly th1 t x) as [pre ttd]. destruct (stance ttd (touchdown_transition p pre th1)) as [lo tlo] eqn:Es.
  assert (Hs : s = mkPhase lo tlo).
  { destruct (Rltb (at_ lo 1 + PI / 2) (1 / 100000)), (Rltb (PI / 2 - at_ lo 1) (1 / 100000)); congruence. }
  subst s. cbn [ph_state ph_time] in *. unfold Rltb in E.
  change (at_ lo 1) with (nth 1 lo 0) in E.
  destruct (Rlt_dec (nth 1 lo 0 + PI / 2) (1 / 100000)); [lra|].
  destruct (Rlt_dec (PI / 2 - nth 1 lo 0) (1 / 100000)); [lra|].
  fold w in E. change (at_ w 0) with (nth 0 w 0) in E. change (at_ w 1) with (nth 1 w 0) in E.
  change (at_ w 2) with (nth 2 w 0) in E. change (at_ w 3) with (nth 3 w 0) in E.
  set (q := nth 3 w 0) in *. set (z := nth 1 w 0) in *.
  set (x' := [nth 0 w 0 + nth 2 w 0 * (q / grav p); z + q ^ 2 / (2 * grav p); nth 2 w 0; 0]) in *.
  change (at_ x' 1) with (z + q ^ 2 / (2 * grav p)) in E.
  unfold Rleb in E. destruct (Rle_dec (z + q ^ 2 / (2 * grav p)) (l0 p * cos th2)); [lra|].
  destruct (F th2 (tlo + q / grav p) x' eq_refl) as (d & Hd & Ef & Up & En); [unfold foot_z, x'; cbn [nth]; lra|].
  rewrite Ef in E.
  assert (Hq : 0 < - (q / grav p)).
  { assert (0 < / grav p) by (apply Rinv_0_lt_compat; auto). unfold Rdiv. nra. }
  assert (Dq : d <= - (q / grav p)).
  { destruct (Rle_dec d (- (q / grav p))) as [|nn]; [auto|]. exfalso.
    specialize (Up (- (q / grav p)) ltac:(lra)). unfold foot_z, ballistic, x' in Up. cbn [nth] in Up.
    replace (z + q ^ 2 / (2 * grav p) + 0 * - (q / grav p) - grav p * (- (q / grav p)) ^ 2 / 2) with z in Up by (field; lra).
    lra. }
  assert (Lt : tlo + q / grav p + d < tlo).
  { destruct (Rle_lt_or_eq_dec _ _ Dq) as [|Eq]; [lra|]. exfalso.
    assert (Fd : foot_z p (ballistic p x' d) th2 = z - l0 p * cos th2).
    { rewrite Eq. unfold foot_z, ballistic, x'. cbn [nth]. field. lra. }
    rewrite Fd in En. lra. }
  destruct (stance (tlo + q / grav p + d) (touchdown_transition p (ballistic p x' d) th2)) as [lo2 tlo2].
  assert (M : exists s' more', more = (mkPhase (ballistic p x' d) (tlo + q / grav p + d), s') :: more').
  { apply (f_equal (@tl _)) in E. cbn [tl] in E. rewrite <- E.
    destruct (Rlt_dec (at_ lo2 1 + PI / 2) (1 / 100000)); [eauto|].
    destruct (Rlt_dec (PI / 2 - at_ lo2 1) (1 / 100000)); eauto. }
  destruct M as (s' & more' & ->). exists (mkPhase (ballistic p x' d) (tlo + q / grav p + d)), s', more'.
  split; [reflexivity|]. exact Lt.
Qed.
