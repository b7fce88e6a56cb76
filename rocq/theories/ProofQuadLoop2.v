(** The quadrotor's rows when the bounds of its network hold on part of the box. *)

Require Import Reals List Lia Lra Bool Arith.
Require Import Verif.Vec Verif.VecFacts Verif.ModelMip Verif.SpecMip Verif.SpecCore
  Verif.ModelUtils Verif.SpecUtils Verif.ModelNet Verif.SpecNet Verif.SpecStep
  Verif.ProofUtils Verif.ProofMaxBox Verif.ProofGrad Verif.ProofMip Verif.ProofSat
  Verif.ProofConcat Verif.ProofBounds Verif.ProofNet Verif.ProofNetBounds Verif.ProofNetTotal
  Verif.ProofWarm Verif.ProofStep Verif.ProofNetStep Verif.ModelPattern Verif.ModelStrengthen
  Verif.ModelLyapunov Verif.SpecLyapunov Verif.ProofLyapunov Verif.ModelHybrid Verif.SpecHybrid
  Verif.ProofHybrid2 Verif.ModelSystems Verif.SpecSystems Verif.ProofMilp Verif.ProofRoa
  Verif.ModelExSystems Verif.SpecExSystems Verif.ProofSystems Verif.ProofSystems2
  Verif.ProofExSystems Verif.ModelQuadLoop Verif.SpecQuadLoop Verif.ProofQuadLoop.
Import ListNotations.
Open Scope R_scope.


Record net_on (n : nat) (N : network) (x_lo x_up : vec) (D : vec -> Prop) (c : mic) : Prop := {
  no_ok : mic_ok c;
  no_nin : nin c = n;
  no_nsl : nsl c = num_units (hidden N);
  no_nbin : nbin c = num_units (hidden N);
  no_out : num_out c = out_features (last_layer N);
  no_nobnd : input_lo c = None /\ input_up c = None /\ slack_lo c = None /\ slack_up c = None;
  no_aout : Aout_input c = None /\ Aout_binary c = None;
  no_A : exists A, Aout_slack c = Some A /\
           wfm (out_features (last_layer N)) (num_units (hidden N)) A;
  no_C : Cout c = Some (bias_of (last_layer N)) /\
         length (bias_of (last_layer N)) = out_features (last_layer N);
  no_complete : forall x, D x ->
     exists b, bins b /\ mic_sat c x (concat (post_acts (hidden N) x)) b;
  no_box : forall x s b, mic_sat c x s b -> in_box x_lo x_up x;
  no_sound : forall x s b, bins b -> mic_sat c x s b ->
     s = concat (post_acts (hidden N) x);
  no_output : forall x b, length x = n ->
     output c x (concat (post_acts (hidden N) x)) b = net_eval N x
}.

Lemma net_step_on : forall st n N x_lo x_up D c xv vt m m' z be,
  net_on n N x_lo x_up D c -> history st m -> below (nvars m) xv -> length xv = n ->
  vt <> VCont ->
  add_mic c xv None NewBinary vt m = (m', z, be) ->
  z = seq (nvars m) (num_units (hidden N)) /\
  be = seq (nvars m + num_units (hidden N)) (num_units (hidden N)) /\
  nvars m' = (nvars m + num_units (hidden N) + num_units (hidden N))%nat /\
  step vt st m m' (fun sg => D (map sg xv))
    (fun sg => in_box x_lo x_up (map sg xv) /\ bins (map sg be) /\
               mic_sat c (map sg xv) (map sg z) (map sg be) /\
               map sg z = concat (post_acts (hidden N) (map sg xv))).
Proof.
  intros st n N x_lo x_up D c xv vt m m' z be C H B L V E.
  destruct C as [C1 C2 C3 C4 C5 (C6 & C7 & C8 & C9) C10 C11 C12 C13 C14 C15 C16].
  destruct (step_mic vt st _ _ _ _ _ _ _ E C1 H B) as (S1 & S2 & S3 & S4 & _); auto.
  - congruence.
  - exact I.
  - rewrite C3 in *. rewrite C4 in *. split; auto. split; auto. split; auto.
    eapply step_weaken; [exact S4| |].
    + intros sg G HD. destruct (C13 _ HD) as (b & Hb & Hm).
      eexists. exists b. split; [exact Hb|]. split; [exact Hm|exact I].
    + intros sg G (K & Hm & _). split; [eapply C14; eauto|]. split; auto. split; auto.
      eapply C15; eauto.
Qed.

Lemma net_affine_on : forall n N lo up D c, net_on n N lo up D c ->
  exists A, Aout_slack c = Some A /\
    wfm (out_features (last_layer N)) (num_units (hidden N)) A /\
    Cout c = Some (bias_of (last_layer N)) /\
    length (bias_of (last_layer N)) = out_features (last_layer N) /\
    forall x, length x = n ->
      vadd (mv A (concat (post_acts (hidden N) x))) (bias_of (last_layer N)) = net_eval N x.
Proof.
  intros n N lo up D c C. destruct C as [C1 C2 C3 C4 C5 C6 (C7 & C8) (A & CA & WA) (C9 & C9') _ _ _ C10].
  exists A. split; auto. split; auto. split; auto. split; auto.
  intros x L. rewrite <- (C10 x [] L). unfold output, lhs. rewrite C5, C7, C8, CA, C9.
  cbn [term]. destruct WA as [WA _].
  rewrite (vadd_zeros_l (out_features (last_layer N))) by (rewrite mv_length; auto).
  rewrite (vadd_zeros_r (out_features (last_layer N))) by (rewrite mv_length; auto). auto.
Qed.

Lemma ex_out_spec_on : forall n N lo up D c A C, net_on n N lo up D c -> ex_out c = Some (A, C) ->
  wfm (out_features (last_layer N)) (num_units (hidden N)) A /\
  length C = out_features (last_layer N) /\
  forall x, length x = n -> vadd (mv A (concat (post_acts (hidden N) x))) C = net_eval N x.
Proof.
  intros n N lo up D c A C M E. destruct (net_affine_on _ _ _ _ _ _ M) as (A' & E1 & W & E2 & L & F).
  unfold ex_out in E. destruct (no_aout _ _ _ _ _ _ M) as [Ei Eb]. rewrite Ei, Eb, E1, E2 in E.
  apply Some_inj in E. apply pair_equal_spec in E. destruct E as [<- <-]. auto.
Qed.

Lemma mic_vars_on : forall vt st n N lo up D c iv m m1 z be,
  net_on n N lo up D c -> history st m -> below (nvars m) iv -> length iv = n -> vt <> VCont ->
  add_mic c iv None NewBinary vt m = (m1, z, be) ->
  length z = num_units (hidden N) /\ below (nvars m1) z /\ history st m1 /\
  (forall l, below (nvars m) l -> below (nvars m1) l).
Proof.
  intros vt st n N lo up D c iv m m1 z be M H B L V E.
  destruct (net_step_on st n N lo up D c iv vt m m1 z be M H B L V E) as (Z1 & Z2 & Z3 & S1 & S2 & _).
  split; [subst z; apply seq_length|]. split.
  { subst z. unfold below. apply Forall_forall. intros i Hi. apply in_seq in Hi. lia. }
  split; auto. intros l Hl. eapply Forall_impl; [|exact Hl]. cbv beta. intros. lia.
Qed.

Lemma rows_step_on : forall vt st n N lo up D c iv m m1 z be m' (Rws P : assignment -> Prop),
  net_on n N lo up D c -> history st m -> below (nvars m) iv -> length iv = n -> vt <> VCont ->
  add_mic c iv None NewBinary vt m = (m1, z, be) ->
  nvars m' = nvars m1 -> history st m' ->
  (forall sg, feas vt m' sg <-> feas vt m1 sg /\ Rws sg) ->
  local m P ->
  (forall sg, map sg z = concat (post_acts (hidden N) (map sg iv)) -> (Rws sg <-> P sg)) ->
  step vt st m m' (fun sg => D (map sg iv) /\ P sg)
                  (fun sg => in_box lo up (map sg iv) /\ P sg).
Proof.
  intros vt st n N lo up D c iv m m1 z be m' Rws P M H B L V E Nv H' F LP X.
  destruct (net_step_on st n N lo up D c iv vt m m1 z be M H B L V E) as (Z1 & Z2 & Z3 & S1 & S2 & S3 & S4).
  split; [lia|]. split; auto. split.
  - intros sg G. apply F in G. destruct G as [G R1]. destruct (S3 sg G) as (G0 & Ib & _ & _ & Hz).
    split; auto. split; auto. apply X; auto.
  - intros sg G (Ib & HP). destruct (S4 sg G Ib) as (s1 & G1 & A). exists s1. split; auto.
    apply F. split; auto. apply X; [apply S3; auto|]. apply (LP sg s1); auto.
Qed.

Lemma quad_rows_on : forall vt st n N lo up D c A C iv z xn xv p m, net_on n N lo up D c ->
  ex_out c = Some (A, C) -> out_features (last_layer N) = 9%nat -> history st m ->
  below (nvars m) xn -> below (nvars m) xv -> below (nvars m) z ->
  length xn = 9%nat -> length xv = 3%nat -> length z = num_units (hidden N) -> length iv = n ->
  length p = 9%nat ->
  let m' := addMConstr [eye 9; zerom 3 3 ++ eyek 3 (-1) ++ zerom 3 3; map vneg A] [xn; xv; z] SEq
              (vsub C p) m in
  nvars m' = nvars m /\ history st m' /\
  exists Rw : assignment -> Prop, (forall sg, feas vt m' sg <-> feas vt m sg /\ Rw sg) /\
    forall sg, map sg z = concat (post_acts (hidden N) (map sg iv)) ->
      (Rw sg <-> map sg xn = vsub (vadd (zeros 3 ++ map sg xv ++ zeros 3) (net_eval N (map sg iv))) p).
Proof.
  intros vt st n N lo up D c A C iv z xn xv p m M Eo Ek H Bn Bx Bz Ln Lx Lz Li Lp m'.
  destruct (ex_out_spec_on _ _ _ _ _ _ _ _ M Eo) as (WA & LC & F). rewrite Ek in *.
  assert (Lb : length (vsub C p) = 9%nat) by (rewrite vsub_length; unfold vec in *; congruence).
  set (G := zerom 3 3 ++ eyek 3 (-1) ++ zerom 3 3) in *.
  assert (Wb : blocks_wf (length (vsub C p)) (combine [eye 9; G; map vneg A] [xn; xv; z])).
  { rewrite Lb. cbn [combine]. unfold blocks_wf.
    constructor; [cbn [fst snd]; rewrite Ln; split; [apply eyek_length|apply wfm_eyek]|].
    constructor; [cbn [fst snd]; rewrite Lx; split; [reflexivity|repeat constructor]|].
    constructor; [|constructor]. cbn. destruct WA as [A1 A2].
    split; [rewrite map_length; auto|]. apply Forall_forall. intros x Hx.
    apply in_map_iff in Hx. destruct Hx as (y & <- & Hy). rewrite vneg_length.
    rewrite Forall_forall in A2. rewrite (A2 y Hy). auto. }
  assert (Bb : below (nvars m) (concat [xn; xv; z])).
  { cbn [concat]. rewrite app_nil_r. apply below_app. split; auto. apply below_app. split; auto. }
  assert (Hne : [eye 9; G; map vneg A] <> []) by discriminate.
  destruct (step_addM vt st [eye 9; G; map vneg A] [xn; xv; z] SEq (vsub C p) m)
    as (H2 & N2 & F2); auto.
  split; auto. split; auto.
  exists (fun sg => sense_ok SEq (bsum (length (vsub C p))
      (combine [eye 9; G; map vneg A] [xn; xv; z]) sg) (vsub C p)).
  split; [exact F2|].
  intros sg Hz. rewrite Lb. cbn [combine bsum sense_ok]. rewrite Hz.
  assert (N1 : length (map sg xn) = 9%nat) by (rewrite map_length; auto).
  assert (N4 : length (map sg xv) = 3%nat) by (rewrite map_length; auto).
  assert (N7 : length (map sg iv) = n) by (rewrite map_length; auto).
  rewrite mv_eye by auto.
  assert (EG : mv G (map sg xv) = vneg (zeros 3 ++ map sg xv ++ zeros 3)).
  { destruct (vec3 _ N4) as (a & b & d & ->). unfold G, zerom, eyek. cbn.
    rewrite !cons_eq_iff. repeat split; ring. }
  rewrite EG, mv_map_vneg. specialize (F _ N7).
  set (a := mv A (concat (post_acts (hidden N) (map sg iv)))) in *.
  assert (Na : length a = 9%nat) by (unfold a; rewrite mv_length; apply WA).
  rewrite residue_v_eq; auto. 2: { rewrite !app_length, !zeros_length. lia. }
  rewrite F. tauto.
Qed.

Ltac below_list := unfold below in *;
  repeat match goal with H : Forall _ (_ :: _) |- _ => apply Forall_cons_iff in H; destruct H end;
  repeat (apply Forall_cons || apply Forall_nil); auto.
Ltac solve_rows := first [lra | 
  repeat match goal with H : ?a = _ |- context [?a] => rewrite H; clear H end; lra |
  repeat match goal with H : _ = ?a |- context [?a] => rewrite <- H; clear H end; lra].
Ltac conc l := repeat (destruct l as [|? l]; [discriminate|]); destruct l as [|? l]; [|discriminate].


Lemma quad_given_on : forall S h meth D vt st m m' xv xn uv alo aup c B r,
  ex_built S -> ex_kind_ S = KQuad h meth -> vt <> VCont -> history st m ->
  below (nvars m) xv -> below (nvars m) xn -> below (nvars m) uv ->
  length xv = 12%nat -> length xn = 12%nat -> length uv = 4%nat ->
  (forall a, alo = Some a -> length a = 4%nat) -> (forall a, aup = Some a -> length a = 4%nat) ->
  let lo := part 3 6 (ex_xlo S) ++ part 9 12 (ex_xlo S) ++ tight_lo (ex_ulo S) alo in
  let up := part 3 6 (ex_xup S) ++ part 9 12 (ex_xup S) ++ tight_up (ex_uup S) aup in
  net_on 10 (ex_net S) lo up D c ->
  quad_given S xv xn uv lo up c B vt m = Some (m', r) ->
  step vt st m m'
    (fun sg => D (map sg (part 3 6 xv ++ part 9 12 xv ++ uv)) /\
               ex_move S (map sg xv) (map sg uv) = Some (map sg xn))
    (fun sg => ex_domain S alo aup (map sg xv) (map sg uv) /\
               ex_move S (map sg xv) (map sg uv) = Some (map sg xn)).
Proof.
  intros S hov meth D vt st m m' xv xn uv alo aup c B r Bt Ek Vt H Bx Bn Bu Lx Ln Lu La Lb lo up M E.
  assert (Bt' := Bt). destruct Bt' as (W & Lxu & Lul & Luu & _).
  destruct (ex_built_facts _ Bt) as [Lxl Lo].
  assert (DT : forall sg, ex_domain S alo aup (map sg xv) (map sg uv) <->
    Forall (fun i => nth i (ex_xlo S) 0 <= nth i (map sg xv) 0 <= nth i (ex_xup S) 0)
         (fst (ex_reads (ex_kind_ S))) /\
    Forall (fun j => nth j (tight_lo (ex_ulo S) alo) 0 <= nth j (map sg uv) 0 <=
                    nth j (tight_up (ex_uup S) aup) 0) (snd (ex_reads (ex_kind_ S)))).
  { intros sg. apply domain_tight; auto; rewrite Ek; auto. }
  unfold lo, up in M, E. clear lo up. rewrite Ek in *. cbn [ex_nx ex_nu ex_nin ex_nout] in *.
  destruct (tight_length _ _ _ _ _ Lul Luu La Lb) as [T1 T2].
  unfold quad_given in E. rewrite Ek in E.
  set (tl := tight_lo (ex_ulo S) alo) in *. set (tu := tight_up (ex_uup S) aup) in *.
  set (xl := ex_xlo S) in *. set (xu := ex_xup S) in *. clearbody tl tu xl xu.
  conc tl. conc tu. conc xl. conc xu. conc xv. conc xn. conc uv.
  unfold part in E, M |- *. cbn [firstn skipn app Nat.sub] in E, M |- *.
  match type of M with net_on _ _ ?a ?b _ _ => set (lo := a) in *; set (up := b) in * end.
  match type of E with context [add_mic _ ?a] => set (iv := a) in * end.
  destruct (add_mic c iv None NewBinary vt m) as [[m1 z] be] eqn:Em.
  destruct (ex_out c) as [[A C]|] eqn:Eo; [|discriminate].
  match type of E with context [vsub C ?p] => set (ph := p) in * end.
  match type of E with context [midpoint_rows _ _ _ _ _ _ ?a] => set (m2 := a) in * end.
  apply Some_inj in E. apply pair_equal_spec in E. destruct E as [E _].
  assert (Bi : below (nvars m) iv) by (unfold iv; below_list).
  assert (Li : length iv = 10%nat) by reflexivity.
  destruct (mic_vars_on vt st _ _ _ _ _ _ _ _ _ _ _ M H Bi Li Vt Em) as (Lz & Bz & H1 & Up).
  assert (Lp : length ph = 9%nat).
  { unfold ph. rewrite (forward_eval _ _ _ W) by reflexivity.
    rewrite (net_eval_length _ _ _ W) by reflexivity. auto. }
  match eval cbv delta [m2] in m2 with addMConstr _ [?a; ?b; _] _ _ _ =>
    destruct (quad_rows_on vt st _ _ _ _ _ _ A C iv z a b ph m1 M Eo Lo H1)
      as (N2 & H2 & Rw & F2 & X2); auto; try (apply Up; below_list)
  end.
  fold m2 in N2, H2, F2.
  match type of E with midpoint_rows _ _ ?a ?b ?c ?d _ = _ =>
    destruct (midpoint_step vt st 3 (ex_dt S) a b c d m2 H2) as (N3 & H3 & F3); auto;
      try (rewrite N2; apply Up; below_list) end.
  rewrite E in *.
  match type of Bx with below _ ?x => match type of Bn with below _ ?y => match type of Bu with below _ ?u =>
  match type of F3 with forall sg, _ <-> _ /\ @?q sg =>
  eapply step_weaken; [eapply (rows_step_on vt st _ _ _ _ _ _ _ _ _ _ _ m' (fun sg => Rw sg /\ q sg)
      (fun sg => ex_move S (map sg x) (map sg u) = Some (map sg y))
      M H Bi Li Vt Em); auto| |] end end end end.
  - congruence.
  - intros sg. rewrite F3, F2. tauto.
  - match goal with |- local m (fun sg => ex_move S (map sg ?x) (map sg ?u) = Some (map sg ?y)) =>
      apply (local3 m x u y (fun a b c => ex_move S a b = Some c)); auto end.
  - intros sg Hz. rewrite (X2 sg Hz).
    unfold ex_move, ex_step. cbn [ex_kind_ ex_net ex_dt ex_uup ex_ulo]. rewrite Ek.
    assert (Li' : length (map sg iv) = 10%nat) by (rewrite map_length; auto).
    rewrite <- (forward_eval _ _ _ W Li').
    assert (Ey : length (forward (ex_net S) (map sg iv)) = 9%nat).
    { rewrite (forward_eval _ _ _ W Li'), (net_eval_length _ _ _ W Li'); auto. }
    change (forward (ex_net S) (part 3 6 (ex_xeq (KQuad hov meth)) ++ part 9 12 (ex_xeq (KQuad hov meth)) ++ ex_ueq (KQuad hov meth))) with ph.
    unfold part.
    cbn [map firstn skipn app Nat.sub length Nat.eqb andb].
    unfold iv in *. cbn [map] in *.
    match type of Ey with length ?f = _ => set (ff := f) in *; clearbody ff end.
    clearbody ph. conc ff. conc ph. cbn.
    rewrite !cons_eq_iff. split.
    + intros K. f_equal. rewrite !cons_eq_iff. decompose [and] K. repeat split; solve_rows.
    + intros K. apply Some_inj in K. rewrite !cons_eq_iff in K. decompose [and] K.
      repeat split; solve_rows.
  - cbv beta. intros sg _ [D1 D2]. split; auto.
  - cbv beta. intros sg _ [D1 D2]. split; auto. apply DT.
    unfold iv, lo, up in D1. clear - D1.
    cbn; unfold in_box in D1; cbn [map] in D1; rewrite !vle_cons in D1;
      rewrite !Forall_cons_iff; repeat split; try apply Forall_nil; tauto.
Qed.

Section Solver.
Variable solve : mip -> gresult.
Hypothesis Hsolve : solver_ok solve.


Lemma given_bounds_on : forall n p iv meth N x_lo x_up c B, net_wf n N ->
  wf_mip p -> zv_ok n p iv -> length x_lo = n -> length x_up = n ->
  callback_layer_bound solve (Some (p, iv)) meth N x_lo x_up = Some B ->
  output_constraint_given_bounds N (b_pre_lo B) (b_pre_up B) x_lo x_up = Some c ->
  net_on n N x_lo x_up (reach p iv x_lo x_up) c.
Proof.
  intros n p iv meth N x_lo x_up c B W Wp Zp L1 L2 E1 E3.
  destruct (cb_bound_spec solve Hsolve p iv n Wp Zp _ _ _ _ _ W L1 L2 E1) as (z1 & z2 & I1 & I2 & I3 & _).
  destruct (encoding_given_bounds n N _ _ _ _ W L1 L2 I1 I2)
    as (c0 & Ec & M1 & M2 & M3 & M4 & M5 & M6 & M7).
  rewrite E3 in Ec. injection Ec as <-.
  assert (W' := W). destruct W' as (Hh & Wh & Wl).
  assert (F : (input_lo c = None /\ input_up c = None /\ slack_lo c = None /\ slack_up c = None)
    /\ (Aout_input c = None /\ Aout_binary c = None) /\
    Cout c = Some (bias_of (last_layer N)) /\ exists A, Aout_slack c = Some A).
  { unfold output_constraint_given_bounds in E3.
    destruct (write_layers _ _ _ _ _ _ _) as [[bi be]|]; [|discriminate].
    destruct (rev (hidden N)) as [|[l a] t]; [discriminate|].
    injection E3 as <-.
    cbn [input_lo input_up slack_lo slack_up Aout_input Aout_binary Cout Aout_slack].
    repeat match goal with |- _ /\ _ => split end; auto. eexists; reflexivity. }
  destruct F as (F1 & F2 & F3 & A & F4).
  constructor; auto.
  - exists A. split; auto. destruct M1 as ((O1 & O2 & _) & _).
    rewrite F4 in O2. simpl in O2. rewrite M5, M3 in O2. exact O2.
  - split; auto. unfold bias_of. destruct Wl as [_ [_ Wb]].
    destruct (bias (last_layer N)); auto. apply zeros_length.
  - intros x Bx. destruct (I3 x Bx) as (A1 & _ & _).
    assert (Lx : length x = n) by (destruct Bx as [Bx _]; apply in_box_lengths in Bx; lia).
    destruct (pick_net_ok _ _ _ _ _ _ Wh Lx A1) as (P1 & P2 & P3).
    exists (pick_net (hidden N) (b_pre_lo B) (b_pre_up B) (concat (pre_acts (hidden N) x))).
    split; auto. apply M6. destruct (num_units_pre _ _ _ _ Wh Lx) as [Q1 Q2].
    split; [congruence|]. split; [congruence|]. split; [apply Bx|].
    eapply net_complete; eauto.
  - intros x s b Hs. apply M6 in Hs. tauto.
  - intros x s b Hb Hs. apply M6 in Hs. destruct Hs as (K1 & K2 & K3 & K4).
    assert (Lx : length x = n) by (apply in_box_lengths in K3; lia).
    rewrite M3 in K1.
    destruct (net_sound _ _ _ _ _ _ _ _ Wh Lx K1 Hb K4) as [-> _]. auto.
Qed.

End Solver.
