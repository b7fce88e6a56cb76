(** The gradient of the apex-to-apex map of the SLIP, by the chain rule along curves. *)

Require Import Reals List Arith Lia Lra.
Require Import Verif.Vec Verif.VecFacts Verif.ModelSlip Verif.SpecSlip Verif.ProofSlip.
Import ListNotations.
Open Scope R_scope.

Definition patch (n : nat) (x : vec) (f : R -> option vec) (t : R) : vec :=
  match f t with Some v => if Nat.eqb (length v) n then v else x | None => x end.
Lemma patch_curve : forall n x f vel e, 0 < e -> f 0 = Some x -> length vel = n ->
  (forall t, Rabs t < e -> exists v, f t = Some v /\ length v = n) ->
  (forall i, (i < n)%nat -> derivable_pt_lim (fun t => entry_of (f t) i) 0 (nth i vel 0)) ->
  curve n (patch n x f) x vel /\ forall t, Rabs t < e -> f t = Some (patch n x f t).
Proof.
  intros n x f vel e He F0 Lv Near D.
  assert (P : forall t, Rabs t < e -> f t = Some (patch n x f t)).
  { intros t Ht. destruct (Near t Ht) as [v [E L]]. unfold patch. rewrite E, L, Nat.eqb_refl. reflexivity. }
  assert (Z : Rabs 0 < e) by (rewrite Rabs_R0; auto).
  assert (Lx : length x = n). { destruct (Near 0 Z) as [v [E L]]. rewrite F0 in E. injection E as <-. auto. }
  split; [|exact P]. split; [|split; [auto|split]].
  - specialize (P 0 Z). rewrite F0 in P. injection P as <-. reflexivity.
  - intros t. unfold patch. destruct (f t) as [v|]; [|auto]. destruct (Nat.eqb (length v) n) eqn:B; [|auto].
    apply Nat.eqb_eq. auto.
  - intros i Hi. apply (d_near (fun t => entry_of (f t) i) _ 0 _ e He); [|auto].
    intros t Ht. replace (t - 0) with t in Ht by ring. rewrite (P t Ht). reflexivity.
Qed.

(** ** From touchdown to liftoff *)
Definition liftoff_outputs (p : slip) (ode : vec -> option (vec * R * mat)) (y : vec) : option vec :=
  match touchdown_to_liftoff_gradient p ode y with Some o => Some (lo_x o ++ [lo_t o]) | None => None end.
Lemma nth_map2_vadd : forall (A B : mat) i, length A = length B -> (i < length A)%nat ->
  nth i (map2 vadd A B : mat) [] = vadd (nth i A []) (nth i B []).
Proof.
  induction A as [|a A IH]; intros [|b B] i L Hi; try discriminate; cbn in Hi; try lia.
  destruct i as [|i]; [reflexivity|]. cbn. apply IH; [cbn in L; lia|lia].
Qed.
Lemma nth_outer : forall a b i, (i < length a)%nat -> nth i (outer a b) [] = vscale (nth i a 0) b.
Proof.
  induction a as [|x a IH]; intros b i Hi; cbn in Hi; [lia|]. destruct i; [reflexivity|]. cbn. apply IH. lia.
Qed.
Lemma outer_length : forall a b, length (outer a b) = length a.
Proof. intros. apply map_length. Qed.
Lemma wfm_nth : forall m n A i, wfm m n A -> (i < m)%nat -> length (nth i A []) = n.
Proof. intros m n A i [L F] Hi. rewrite Forall_forall in F. apply F, nth_In. lia. Qed.
Lemma dg_dot : forall x, length x = 5%nat -> dot [1; 0; 0; 0; 0] x = nth 0 x 0.
Proof. intros x L. rewrite (list5 x L). cbn [dot nth]. ring. Qed.

Lemma liftoff_sensitivity : forall p ode y z T M psi o,
  length y = 5%nat -> stance_flow p ode y z T M psi -> touchdown_to_liftoff_gradient p ode y = Some o ->
  lo_x o = z /\ lo_t o = T /\ length z = 5%nat /\ nth 0 z 0 = l0 p /\
  wfm 5 5 (lo_dx o) /\ length (lo_dt o) = 5%nat /\
  forall c d, curve 5 c y d ->
  (exists e, 0 < e /\ forall t, Rabs t < e -> exists o', touchdown_to_liftoff_gradient p ode (c t) = Some o' /\
     length (lo_x o') = 5%nat /\ nth 0 (lo_x o') 0 = l0 p) /\
  forall i, (i < 6)%nat ->
  derivable_pt_lim (fun t => entry_of (liftoff_outputs p ode (c t)) i) 0
    (nth i (mv (lo_dx o) d ++ [dot (lo_dt o) d]) 0).
Proof.
  intros p ode y z T M psi o Ly [E [WM [Nz [Near Flow]]]] Eo.
  unfold touchdown_to_liftoff_gradient in Eo. rewrite E in Eo. cbv zeta in Eo.
  set (xd := stance_dynamics p z) in Eo. set (dg := [1; 0; 0; 0; 0]) in Eo.
  set (dt := vscale (- 1 / dot dg xd) (vm 5 dg M)) in Eo.
  assert (Eo' : o = mkToLiftoff (map2 vadd M (outer xd dt)) z dt T) by congruence. clear Eo. subst o.
  cbn [lo_x lo_t lo_dx lo_dt].
  assert (Lxd : length xd = 5%nat) by reflexivity.
  assert (Edg : dot dg xd = nth 2 z 0) by (unfold dg; rewrite dg_dot by auto; reflexivity).
  assert (Ldt : length dt = 5%nat) by (unfold dt; rewrite vscale_length; apply vm_length, WM).
  assert (LM : length M = 5%nat) by apply WM. assert (LM' : @length vec M = 5%nat) by exact LM.
  assert (C0 : curve 5 (fun _ => y) y (zeros 5)).
  { split; [auto|]. split; [reflexivity|]. split; [auto|]. intros i Hi. rewrite nth_zeros. apply derivable_pt_lim_const. }
  assert (Z : length z = 5%nat /\ nth 0 z 0 = l0 p).
  { destruct (Near _ _ C0) as [[e [He H]] _]. destruct (H 0 ltac:(rewrite Rabs_R0; auto)) as [T' [M' [E' [L' R']]]].
    rewrite E in E'. assert (z = psi T' y) by congruence. subst z. auto. }
  destruct Z as [Lz Rz].
  split; [reflexivity|]. split; [reflexivity|]. split; [auto|]. split; [auto|].
  match goal with |- wfm 5 5 ?g /\ _ => set (G := g) end.
  assert (Row : forall i, (i < 5)%nat -> nth i G [] = vadd (nth i M []) (vscale (nth i xd 0) dt)).
  { intros i Hi. pose proof (nth_map2_vadd M (outer xd dt) i LM (eq_ind_r (fun k => (i < k)%nat) Hi LM)) as Q.
    rewrite nth_outer in Q by exact Hi. exact Q. }
  assert (W : wfm 5 5 G).
  { assert (LG : length G = 5%nat) 
      by exact (eq_trans (map2_length vadd M (outer xd dt)) (f_equal2 Nat.min LM (eq_trans (outer_length xd dt) Lxd))).
    split; [exact LG|]. 
    apply Forall_forall. intros r Hr. apply (In_nth _ _ []) in Hr. destruct Hr as [i [Hi Er]].
    assert (Hi' : (i < 5)%nat) by (pose proof LG as LG'; unfold vec in *; rewrite <- LG'; exact Hi). rewrite Row in Er by auto. subst r.
    rewrite vadd_length; [|rewrite vscale_length, Ldt]; apply (wfm_nth 5 5); auto. }
  split; [exact W|]. split; [exact Ldt|].
  intros c d C. assert (Ld : length d = 5%nat) by apply C.
  destruct (Near c d C) as [[e [He H]] [v Dv]].
  assert (Out : forall t, Rabs t < e -> exists T' M', ode (c t) = Some (psi T' (c t), T', M') /\
    length (psi T' (c t)) = 5%nat /\ nth 0 (psi T' (c t)) 0 = l0 p) by exact H. clear H.
  split.
  { exists e. split; [auto|]. intros t Ht. destruct (Out t Ht) as [T' [M' [E' [L' R']]]].
    unfold touchdown_to_liftoff_gradient. rewrite E'. eexists. split; [reflexivity|]. cbn [lo_x]. auto. }
  set (tau := fun t => match ode (c t) with Some (_, T', _) => T' | None => 0 end) in *.
  assert (T0 : tau 0 = T) by (unfold tau; replace (c 0) with y by (symmetry; apply C); rewrite E; reflexivity).
  pose proof (Flow c d tau v C T0 Dv) as FD.
  assert (Psi : forall t, Rabs t < e -> exists M', ode (c t) = Some (psi (tau t) (c t), tau t, M') /\
     length (psi (tau t) (c t)) = 5%nat /\ nth 0 (psi (tau t) (c t)) 0 = l0 p).
  { intros t Ht. destruct (Out t Ht) as [T' [M' [E' LR]]]. exists M'. unfold tau. rewrite E'. auto. }
  assert (V : v = dot dt d).
  { assert (D0 : derivable_pt_lim (fun t => nth 0 (psi (tau t) (c t)) 0) 0 0).
    { apply (d_near (fun _ => l0 p) _ 0 0 e He); [|apply derivable_pt_lim_const].
      intros t Ht. replace (t - 0) with t in Ht by ring. destruct (Psi t Ht) as [_ [_ [_ Q]]]. auto. }
    pose proof (uniqueness_limite _ _ _ _ D0 (FD 0%nat ltac:(lia))) as U. fold xd in U.
    assert (X0 : nth 0 xd 0 = nth 2 z 0) by reflexivity. rewrite X0 in U.
    unfold dt. rewrite dot_vscale_l, vm_dot by (try apply WM; auto). rewrite Edg.
    change (dot dg (mv M d)) with (dot [1; 0; 0; 0; 0] (mv M d)). rewrite (dg_dot (mv M d)) by (rewrite mv_length; auto).
    rewrite nth_mv by lia. replace v with (- dot (nth 0 M []) d / nth 2 z 0); [field; auto|].
    replace (- dot (nth 0 M []) d) with (nth 2 z 0 * v) by lra. field. auto. }
  clearbody G dt. intros i Hi.
  assert (Val : forall t, Rabs t < e -> liftoff_outputs p ode (c t) = Some (psi (tau t) (c t) ++ [tau t])).
  { intros t Ht. destruct (Psi t Ht) as [M' [E' _]]. unfold liftoff_outputs, touchdown_to_liftoff_gradient. rewrite E'. reflexivity. }
  destruct (Nat.eq_dec i 5) as [->|n5].
  - assert (Lmv : length (mv G d) = 5%nat) by (rewrite mv_length; apply W).
    rewrite app_nth2 by (rewrite Lmv; auto). rewrite Lmv. cbn [Nat.sub nth]. rewrite <- V.
    apply (d_near tau _ 0 v e He); [|exact Dv]. intros t Ht. replace (t - 0) with t in Ht by ring.
    rewrite (Val t Ht). cbn [entry_of]. destruct (Psi t Ht) as [_ [_ [L _]]].
    rewrite app_nth2 by lia. rewrite L. reflexivity.
  - assert (Hi5 : (i < 5)%nat) by lia. assert (Lmv : length (mv G d) = 5%nat) by (rewrite mv_length; apply W).
    rewrite app_nth1 by (rewrite Lmv; auto). rewrite nth_mv by (rewrite mv_length in Lmv; rewrite Lmv; auto). rewrite Row by auto.
    rewrite dot_vadd_l by (rewrite vscale_length, Ldt; apply (wfm_nth 5 5); auto). rewrite dot_vscale_l, <- V.
    apply (d_near (fun t => nth i (psi (tau t) (c t)) 0) _ 0 _ e He).
    + intros t Ht. replace (t - 0) with t in Ht by ring. rewrite (Val t Ht). cbn [entry_of].
      destruct (Psi t Ht) as [_ [_ [L _]]]. rewrite app_nth1 by lia. reflexivity.
    + eapply d_eq; [apply FD; auto|]. fold xd. ring.
Qed.

(** ** From apex to apex *)
Lemma vadd_nth : forall a b i n, length a = n -> length b = n -> nth i (vadd a b) 0 = nth i a 0 + nth i b 0.
Proof.
  intros a b i n La Lb. destruct (Nat.lt_ge_cases i n) as [L|L].
  - apply nth_vadd. congruence.
  - assert (length (vadd a b) = n) by (rewrite vadd_length; congruence). rewrite !nth_overflow by lia. ring.
Qed.
Lemma wf_mv : forall m n A x, wfm m n A -> length (mv A x) = m.
Proof. intros m n A x [L _]. rewrite mv_length. exact L. Qed.

Lemma apex_to_apex_jacobian : forall p ode apex a td z T M psi o,
  0 < grav p -> 0 < nth 1 apex 0 - l0 p * cos a ->
  apex_to_touchdown_gradient p apex a = Some td ->
  stance_flow p ode (touchdown_transition p (td_x td) a) z T M psi ->
  0 < nth 3 (liftoff_transition p z) 0 ->
  apex_to_apex_gradient p ode apex a = Some o ->
  jacobian2 3 8 (next_apex_outputs p ode) apex a
    (aa_dx_dapex o ++ [aa_dt_dapex o] ++ aa_lo_dapex o)
    (aa_dx_dangle o ++ [aa_dt_dangle o] ++ aa_lo_dangle o).
Proof.
  intros p ode apex a td z T M psi o G H Etd SF V Eo.
  set (y := touchdown_transition p (td_x td) a) in *.
  assert (Ly : length y = 5%nat) by reflexivity.
  assert (Elo : exists lo, touchdown_to_liftoff_gradient p ode y = Some lo).
  { destruct SF as [E _]. unfold touchdown_to_liftoff_gradient. rewrite E. eauto. }
  destruct Elo as [lo Elo].
  destruct (liftoff_sensitivity _ _ _ _ _ _ _ _ Ly SF Elo) as [Xlo [Tlo [Lz [Rz [Wlo [Ldt LoD]]]]]].
  assert (Eap : exists ap, liftoff_to_apex_gradient p (liftoff_transition p z) = Some ap).
  { unfold liftoff_to_apex_gradient, at_, Rltb. destruct (Rlt_dec (nth 3 (liftoff_transition p z) 0) 0) as [n|_]; [lra|eauto]. }
  destruct Eap as [ap Eap].
  destruct (liftoff_apex_gradient p _ ap V ltac:(lra) Eap) as [Wap ApD].
  destruct (apex_touchdown_gradient p apex a td G H Etd) as [Wtd [Ltd TdD]].
  destruct (touchdown_gradient p (td_x td) a) as [Wpo [Lpo PoD]].
  unfold apex_to_apex_gradient in Eo. rewrite Etd in Eo.
  destruct (touchdown_transition_gradient p (td_x td) a) as [po pa] eqn:Epo. cbn [fst snd] in Wpo, Lpo, PoD.
  fold y in Eo. rewrite Elo in Eo. rewrite Xlo in Eo. rewrite Eap in Eo. cbv zeta in Eo.
  set (pl := liftoff_transition_gradient p z) in *.
  assert (Wpl : wfm 4 5 pl) by (split; [reflexivity|repeat constructor]).
  set (h1 := td_dx_dangle td) in *. set (G1 := td_dx_dapex td) in *.
  assert (W1 : wfm 4 3 G1 /\ length h1 = 4%nat /\ length (td_dt_dapex td) = 3%nat /\ length (td_x td) = 4%nat).
  { unfold G1, h1. clear - Etd. unfold apex_to_touchdown_gradient in Etd.
    destruct (time_to_touchdown p [at_ apex 0; at_ apex 1; at_ apex 2; 0] (mkStone NInf PInf 0) a) as [|t|]; try discriminate.
    assert (E : forall (u w : to_touchdown), Some u = Some w -> w = u) by congruence. apply E in Etd. clear E. subst td.
    split; [split; [reflexivity|repeat constructor]|]. auto. }
  destruct W1 as [W1 [Lh1 [Ltda Lx1]]].
  assert (Wap' : wfm 3 4 (ap_dx ap) /\ length (ap_dt ap) = 4%nat /\ length (ap_x ap) = 3%nat).
  { clear - Eap. unfold liftoff_to_apex_gradient in Eap. destruct (Rltb (at_ (liftoff_transition p z) 3) 0); [discriminate|].
    assert (E : forall (u w : to_apex), Some u = Some w -> w = u) by congruence. apply E in Eap. clear E. subst ap.
    split; [split; [reflexivity|repeat constructor]|]. auto. }
  destruct Wap' as [Wap' [Lapd Lapx]].
  set (post_dangle := vadd pa (mv po h1)) in *.
  assert (Lpd : length post_dangle = 5%nat).
  { unfold post_dangle. rewrite vadd_length; [auto|]. rewrite (wf_mv 5 4) by auto. auto. }
  match type of Eo with Some ?r = _ => assert (Eo' : o = r) by congruence end. clear Eo. subst o.
  cbn [aa_dx_dapex aa_dt_dapex aa_lo_dapex aa_dx_dangle aa_dt_dangle aa_lo_dangle].
  set (Pa := mm 3 po G1).
  assert (WPa : wfm 5 3 Pa).
  { unfold Pa, mm. split; [rewrite map_length; apply Wpo|]. apply Forall_forall. intros r Hr. apply in_map_iff in Hr.
    destruct Hr as [r' [<- _]]. apply vm_length, W1. }
  set (LG := mm 3 (lo_dx lo) Pa).
  assert (WLG : wfm 5 3 LG).
  { unfold LG, mm. split; [rewrite map_length; apply Wlo|]. apply Forall_forall. intros r Hr. apply in_map_iff in Hr.
    destruct Hr as [r' [<- _]]. apply vm_length, WPa. }
  set (PL := mm 3 pl LG).
  assert (WPL : wfm 4 3 PL).
  { unfold PL, mm. split; [rewrite map_length; apply Wpl|]. apply Forall_forall. intros r Hr. apply in_map_iff in Hr.
    destruct Hr as [r' [<- _]]. apply vm_length, WLG. }
  set (PLo := mm 5 pl (lo_dx lo)).
  assert (WPLo : wfm 4 5 PLo).
  { unfold PLo, mm. split; [rewrite map_length; apply Wpl|]. apply Forall_forall. intros r Hr. apply in_map_iff in Hr.
    destruct Hr as [r' [<- _]]. apply vm_length, Wlo. }
  set (N := mm 5 (ap_dx ap) PLo).
  assert (WN : wfm 3 5 N).
  { unfold N, mm. split; [rewrite map_length; apply Wap'|]. apply Forall_forall. intros r Hr. apply in_map_iff in Hr.
    destruct Hr as [r' [<- _]]. apply vm_length, WPLo. }
  set (NA := mm 3 N Pa).
  assert (WNA : wfm 3 3 NA).
  { unfold NA, mm. split; [rewrite map_length; apply WN|]. apply Forall_forall. intros r Hr. apply in_map_iff in Hr.
    destruct Hr as [r' [<- _]]. apply vm_length, WPa. }
  set (dta := vadd (vadd (td_dt_dapex td) (vm 3 (lo_dt lo) Pa)) (vm 3 (ap_dt ap) PL)).
  assert (L1 : length (vm 3 (lo_dt lo) Pa) = 3%nat) by apply vm_length, WPa.
  assert (L2 : length (vm 3 (ap_dt ap) PL) = 3%nat) by apply vm_length, WPL.
  assert (L3 : length (vadd (td_dt_dapex td) (vm 3 (lo_dt lo) Pa)) = 3%nat) by (rewrite vadd_length; congruence).
  assert (Ldta : length dta = 3%nat) by (unfold dta; rewrite vadd_length; congruence).
  split; [|split].
  { split; [rewrite app_length; exact (f_equal2 Nat.add (proj1 WNA) (f_equal S (proj1 WPL)))|].
    apply Forall_app. split; [apply WNA|]. constructor; [auto|apply WPL]. }
  { rewrite !app_length. cbn [length]. rewrite (wf_mv 3 5) by auto. rewrite (wf_mv 4 5) by auto. reflexivity. }
  intros c d al b C A D. assert (Ld : length d = 3%nat) by apply C.
  (* apex to touchdown *)
  destruct (TdD c d al b C A D) as [[e1 [He1 N1]] D1].
  set (f1 := fun t => match apex_to_touchdown_gradient p (c t) (al t) with Some o => Some (td_x o) | None => None end).
  set (v1 := vadd (mv G1 d) (vscale b h1)).
  assert (Lv1 : length v1 = 4%nat).
  { unfold v1. rewrite vadd_length; rewrite (wf_mv 4 3) by auto; [auto|]. rewrite vscale_length. auto. }
  assert (X4 : forall ap' al' o', apex_to_touchdown_gradient p ap' al' = Some o' -> length (td_x o') = 4%nat).
  { clear. intros ap' al' o' E. unfold apex_to_touchdown_gradient in E.
    destruct (time_to_touchdown p [at_ ap' 0; at_ ap' 1; at_ ap' 2; 0] (mkStone NInf PInf 0) al') as [|t|]; try discriminate.
    assert (Q : forall (u w : to_touchdown), Some u = Some w -> w = u) by congruence. apply Q in E. subst o'. reflexivity. }
  assert (C0 : c 0 = apex) by apply C.
  destruct (patch_curve 4 (td_x td) f1 v1 e1 He1) as [Cv1 P1].
  { unfold f1. rewrite C0, A, Etd. reflexivity. }
  { auto. }
  { intros t Ht. specialize (N1 t Ht). unfold touchdown_outputs in N1. unfold f1.
    destruct (apex_to_touchdown_gradient p (c t) (al t)) as [o'|] eqn:E'; [|congruence]. exists (td_x o'). split; [auto|eauto]. }
  { intros i Hi. apply (d_near (fun t => entry_of (touchdown_outputs p (c t) (al t)) i) _ 0 _ e1 He1).
    - intros t Ht. unfold touchdown_outputs, f1. destruct (apex_to_touchdown_gradient p (c t) (al t)) as [o'|] eqn:E'; [|reflexivity].
      cbn [entry_of]. apply app_nth1. rewrite (X4 _ _ _ E'). auto.
    - eapply d_eq; [apply D1; lia|]. rewrite !app_nth1 by (rewrite ?Lh1, ?(proj1 W1); auto).
      unfold v1. rewrite (vadd_nth _ _ _ 4) by (rewrite ?vscale_length; auto; apply (wf_mv 4 3); auto).
      rewrite nth_vscale, nth_mv by (rewrite (proj1 W1); auto). ring. }
  set (c1 := patch 4 (td_x td) f1) in *.
  (* touchdown transition *)
  destruct (PoD c1 v1 al b Cv1 A D) as [_ D2].
  set (c2 := fun t => touchdown_transition p (c1 t) (al t)).
  set (v2 := vadd (mv Pa d) (vscale b post_dangle)).
  assert (Lv2 : length v2 = 5%nat).
  { unfold v2. rewrite vadd_length; rewrite (wf_mv 5 3) by auto; [auto|]. rewrite vscale_length. auto. }
  assert (Lmp : length (mv po h1) = 5%nat) by (apply (wf_mv 5 4); auto).
  assert (Cv2 : curve 5 c2 y v2).
  { split; [|split; [auto|split; [reflexivity|]]].
    - unfold c2, y. rewrite A. f_equal. apply Cv1.
    - intros i Hi. eapply d_eq; [apply D2; auto|].
      unfold v2. rewrite (vadd_nth _ _ _ 5) by (rewrite ?vscale_length; auto; apply (wf_mv 5 3); auto).
      rewrite nth_vscale. unfold post_dangle. rewrite (vadd_nth _ _ _ 5) by auto.
      unfold Pa. rewrite mv_mm by (auto; apply W1). rewrite !nth_mv by (rewrite (proj1 Wpo); auto).
      unfold v1. rewrite dot_vadd_r by (rewrite (wf_mv 4 3), vscale_length by auto; auto).
      rewrite dot_vscale_r. ring. }
  (* stance *)
  destruct (LoD c2 v2 Cv2) as [[e3 [He3 N3]] D3].
  set (f3 := fun t => match touchdown_to_liftoff_gradient p ode (c2 t) with Some o => Some (lo_x o) | None => None end).
  set (v3 := mv (lo_dx lo) v2).
  assert (Lv3 : length v3 = 5%nat) by (apply (wf_mv 5 5); auto).
  assert (Sm : forall t, Rabs (t - 0) < e3 -> Rabs t < e3) by (intros t; replace (t - 0) with t by ring; auto).
  destruct (patch_curve 5 z f3 v3 e3 He3) as [Cv3 P3].
  { unfold f3. replace (c2 0) with y by (symmetry; apply Cv2). rewrite Elo, Xlo. reflexivity. }
  { auto. }
  { intros t Ht. destruct (N3 t Ht) as [o' [E' [L' _]]]. unfold f3. rewrite E'. eauto. }
  { intros i Hi. apply (d_near (fun t => entry_of (liftoff_outputs p ode (c2 t)) i) _ 0 _ e3 He3).
    - intros t Ht. destruct (N3 t (Sm t Ht)) as [o' [E' [L' _]]]. unfold liftoff_outputs, f3. rewrite E'.
      cbn [entry_of]. apply app_nth1. rewrite L'. auto.
    - eapply d_eq; [apply D3; lia|]. unfold v3. apply app_nth1. rewrite (wf_mv 5 5); auto. }
  set (c3 := patch 5 z f3) in *.
  (* liftoff transition *)
  set (c4 := fun t => liftoff_transition p (c3 t)).
  set (v4 := mv pl v3).
  assert (Lv4 : length v4 = 4%nat) by (apply (wf_mv 4 5); auto).
  assert (R3 : exists e, 0 < e /\ forall t, Rabs t < e -> nth 0 (c3 t) 0 = l0 p).
  { exists e3. split; [auto|]. intros t Ht. destruct (N3 t Ht) as [o' [E' [_ R']]]. specialize (P3 t Ht).
    unfold f3 in P3. rewrite E' in P3. assert (Q : lo_x o' = c3 t) by congruence. rewrite <- Q. auto. }
  assert (Cv4 : curve 4 c4 (liftoff_transition p z) v4).
  { split; [|split; [auto|split; [reflexivity|]]].
    - unfold c4. f_equal. apply Cv3.
    - intros i Hi. eapply d_eq; [apply (liftoff_gradient_rest p z c3 v3 Cv3 R3 i Hi)|].
      unfold v4. rewrite nth_mv by auto. reflexivity. }
  (* apex *)
  destruct (ApD c4 v4 Cv4) as [[e5 [He5 N5]] D5].
  set (e := Rmin e1 (Rmin e3 e5)).
  assert (He : 0 < e) by (unfold e; repeat apply Rmin_pos; auto).
  assert (Le : e <= e1 /\ e <= e3 /\ e <= e5).
  { unfold e. pose proof (Rmin_l e1 (Rmin e3 e5)). pose proof (Rmin_r e1 (Rmin e3 e5)).
    pose proof (Rmin_l e3 e5). pose proof (Rmin_r e3 e5). lra. }
  assert (Val : forall t, Rabs t < e -> exists td' lo' ap',
    touchdown_outputs p (c t) (al t) = Some (td_x td' ++ [td_t td']) /\ length (td_x td') = 4%nat /\
    liftoff_outputs p ode (c2 t) = Some (lo_x lo' ++ [lo_t lo']) /\ length (lo_x lo') = 5%nat /\
    apex_outputs p (c4 t) = Some (ap_x ap' ++ [ap_t ap']) /\ length (ap_x ap') = 3%nat /\
    next_apex_outputs p ode (c t) (al t) = Some (ap_x ap' ++ [td_t td' + lo_t lo' + ap_t ap'] ++ c4 t)).
  { intros t Ht. specialize (N1 t ltac:(lra)). specialize (P1 t ltac:(lra)). destruct (N3 t ltac:(lra)) as [lo' [E3 [L3' _]]].
    specialize (P3 t ltac:(lra)). specialize (N5 t ltac:(lra)).
    unfold touchdown_outputs in *. unfold f1 in P1. unfold f3 in P3.
    destruct (apex_to_touchdown_gradient p (c t) (al t)) as [td'|] eqn:E1; [|congruence].
    rewrite E3 in P3. assert (Q1 : td_x td' = c1 t) by congruence. assert (Q3 : lo_x lo' = c3 t) by congruence.
    unfold apex_outputs in *. destruct (liftoff_to_apex_gradient p (c4 t)) as [ap'|] eqn:E5; [|congruence].
    exists td', lo', ap'. split; [reflexivity|]. split; [eauto|]. split; [unfold liftoff_outputs; rewrite E3; reflexivity|].
    split; [auto|]. split; [reflexivity|]. split.
    { clear - E5. unfold liftoff_to_apex_gradient in E5. destruct (Rltb (at_ (c4 t) 3) 0); [discriminate|].
      assert (E : forall (u w : to_apex), Some u = Some w -> w = u) by congruence. apply E in E5. subst ap'. reflexivity. }
    unfold next_apex_outputs, apex_to_apex_gradient. rewrite E1. rewrite Q1.
    destruct (touchdown_transition_gradient p (c1 t) (al t)) as [q1 q2].
    change (touchdown_transition p (c1 t) (al t)) with (c2 t). rewrite E3, Q3.
    change (liftoff_transition p (c3 t)) with (c4 t). rewrite E5. reflexivity. }
  split.
  { exists e. split; [auto|]. intros t Ht. destruct (Val t Ht) as [td' [lo' [ap' Q]]].
    destruct Q as [_ [_ [_ [_ [_ [_ Q]]]]]]. rewrite Q. discriminate. }
  intros i Hi.
  assert (Sm' : forall t, Rabs (t - 0) < e -> Rabs t < e) by (intros t; replace (t - 0) with t by ring; auto).
  assert (Ev3 : v3 = vadd (mv LG d) (vscale b (mv (lo_dx lo) post_dangle))).
  { unfold v3, v2, LG. rewrite mv_vadd by (rewrite (wf_mv 5 3), vscale_length by auto; auto).
    rewrite mv_vscale, mv_mm by (auto; apply WPa). reflexivity. }
  assert (Ev4 : v4 = vadd (mv PL d) (vscale b (mv pl (mv (lo_dx lo) post_dangle)))).
  { unfold v4, PL. rewrite Ev3. rewrite mv_vadd by (rewrite (wf_mv 5 3), vscale_length, (wf_mv 5 5) by auto; auto).
    rewrite mv_vscale, mv_mm by (auto; apply WLG). reflexivity. }
  assert (LNA : length NA = 3%nat) by apply WNA.
  assert (LPL : length PL = 4%nat) by apply WPL.
  destruct (Nat.lt_ge_cases i 3) as [I3|I3]; [|destruct (Nat.eq_dec i 3) as [->|n3]].
  - (* the next apex state *)
    apply (d_near (fun t => entry_of (apex_outputs p (c4 t)) i) _ 0 _ e He).
    { intros t Ht. destruct (Val t (Sm' t Ht)) as [td' [lo' [ap' [_ [_ [_ [_ [Q5 [L5 Q]]]]]]]]].
      rewrite Q5, Q. cbn [entry_of]. rewrite !app_nth1 by lia. reflexivity. }
    eapply d_eq; [apply D5; lia|]. rewrite !app_nth1 by (rewrite ?(proj1 Wap'), ?LNA, ?(wf_mv 3 5) by auto; auto).
    rewrite <- !nth_mv by (rewrite ?(proj1 Wap'), ?LNA; auto). rewrite Rmult_comm, <- nth_vscale.
    rewrite <- (vadd_nth _ _ i 3) by (rewrite ?vscale_length; apply (wf_mv 3 _) with (1 := WNA) || (apply (wf_mv 3 5); auto)).
    f_equal. rewrite Ev4. rewrite mv_vadd by (rewrite vscale_length, (wf_mv 4 3), (wf_mv 4 5) by auto; auto).
    rewrite mv_vscale. unfold NA, PL, LG, N. assert (LPad : length (mv Pa d) = 5%nat) by (apply (wf_mv 5 3); auto).
    repeat (rewrite mv_mm by (auto; first [apply WPa|apply WLG|apply WPL|apply WPLo])). unfold PLo.
    rewrite !mv_mm by (auto; apply Wlo). reflexivity.
  - (* the time *)
    apply (d_near (fun t => entry_of (touchdown_outputs p (c t) (al t)) 4 + entry_of (liftoff_outputs p ode (c2 t)) 5
                            + entry_of (apex_outputs p (c4 t)) 3) _ 0 _ e He).
    { intros t Ht. destruct (Val t (Sm' t Ht)) as [td' [lo' [ap' [Q1 [L1' [Q3 [L3' [Q5 [L5 Q]]]]]]]]].
      rewrite Q1, Q3, Q5, Q. cbn [entry_of]. rewrite !app_nth2 by lia. rewrite L1', L3', L5. reflexivity. }
    eapply d_eq; [apply derivable_pt_lim_plus; [apply derivable_pt_lim_plus; [apply D1; lia|apply D3; lia]|apply D5; lia]|].
    rewrite !app_nth2 by (rewrite ?(proj1 Wap'), ?LNA, ?(wf_mv 3 5), ?(wf_mv 5 5), ?(proj1 W1), ?Lh1 by auto; auto).
    rewrite ?(proj1 Wap'), ?LNA, ?(wf_mv 3 5), ?(wf_mv 5 5), ?(proj1 W1), ?Lh1 by auto. cbn [Nat.sub nth app].
    unfold dta. rewrite dot_vadd_l by congruence. rewrite dot_vadd_l by congruence.
    rewrite !vm_dot by (auto; first [apply WPa|apply WPL]).
    unfold v2. rewrite (dot_vadd_r (mv Pa d)) by (rewrite (wf_mv 5 3), vscale_length by auto; auto).
    rewrite Ev4. rewrite (dot_vadd_r (mv PL d)) by (rewrite (wf_mv 4 3), vscale_length, (wf_mv 4 5) by auto; auto).
    rewrite !dot_vscale_r.
    assert (LN : length (mv N post_dangle) = 3%nat) by (apply (wf_mv 3 5); auto).
    rewrite (app_nth2 (mv N post_dangle)) by (rewrite LN; auto). rewrite LN. cbn [Nat.sub nth]. ring.
  - (* the state after liftoff *)
    assert (J : (i - 4 < 4)%nat) by lia.
    apply (d_near (fun t => nth (i - 4) (c4 t) 0) _ 0 _ e He).
    { intros t Ht. destruct (Val t (Sm' t Ht)) as [td' [lo' [ap' [_ [_ [_ [_ [_ [L5 Q]]]]]]]]].
      rewrite Q. cbn [entry_of]. rewrite (app_nth2 (ap_x ap')) by lia. rewrite L5.
      rewrite app_nth2 by (cbn; lia). cbn [length]. f_equal. lia. }
    eapply d_eq; [apply Cv4; auto|].
    rewrite (app_nth2 NA) by lia. rewrite (app_nth2 (mv N _)) by (rewrite (wf_mv 3 5) by auto; lia).
    rewrite LNA, (wf_mv 3 5) by auto. rewrite !app_nth2 by (cbn; lia). cbn [length].
    replace (i - 3 - 1)%nat with (i - 4)%nat by lia.
    assert (K1 : length (mv PL d) = 4%nat) by (apply (wf_mv 4 3); auto).
    assert (K2 : length (vscale b (mv pl (mv (lo_dx lo) post_dangle))) = 4%nat) by (rewrite vscale_length; apply (wf_mv 4 5); auto).
    rewrite Ev4. rewrite (vadd_nth _ _ _ 4 K1 K2).
    rewrite nth_vscale, !nth_mv by (rewrite ?LPL; auto). refine (f_equal2 Rplus _ _); [reflexivity|]. apply Rmult_comm.
Qed.
