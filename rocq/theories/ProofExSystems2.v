(** The example systems: exactness, equilibria, totality, closed loops. *)

Require Import Reals List Lia Lra Bool Arith.
Require Import Verif.Vec Verif.VecFacts Verif.ModelMip Verif.SpecMip Verif.SpecCore
  Verif.ModelUtils Verif.SpecUtils Verif.ModelNet Verif.SpecNet Verif.SpecStep
  Verif.ProofUtils Verif.ProofMaxBox Verif.ProofGrad Verif.ProofMip Verif.ProofSat
  Verif.ProofConcat Verif.ProofBounds Verif.ProofNet Verif.ProofNetBounds Verif.ProofNetTotal
  Verif.ProofWarm Verif.ProofStep Verif.ProofNetStep Verif.ModelPattern Verif.ModelStrengthen
  Verif.ModelLyapunov Verif.SpecLyapunov Verif.ProofLyapunov Verif.ModelHybrid Verif.SpecHybrid
  Verif.ProofHybrid2 Verif.ModelSystems Verif.SpecSystems Verif.ProofMilp Verif.ProofRoa
  Verif.ModelExSystems Verif.SpecExSystems Verif.ProofSystems Verif.ProofSystems2
  Verif.ProofFeedback Verif.ProofExSystems Verif.ModelExamplesEx.
Import ListNotations.
Open Scope R_scope.

Ltac conc l := repeat (destruct l as [|? l]; [discriminate|]); destruct l as [|? l]; [|discriminate].
Ltac below_list := unfold below in *;
  repeat match goal with H : Forall _ (_ :: _) |- _ => apply Forall_cons_iff in H; destruct H end;
  repeat (apply Forall_cons || apply Forall_nil); auto.
Lemma nodup3 : forall (l : list nat) i j k, NoDup l -> (i < length l)%nat -> (j < length l)%nat ->
  (k < length l)%nat -> i <> j -> i <> k -> j <> k -> NoDup [nth i l 0%nat; nth j l 0%nat; nth k l 0%nat].
Proof.
  intros l i j k N Li Lj Lk D1 D2 D3. rewrite (NoDup_nth l 0%nat) in N.
  constructor; [|constructor; [|constructor; [|constructor]]]; cbn; intros K.
  - destruct K as [K|[K|[]]]; [apply D1; symmetry|apply D2; symmetry]; apply N; auto.
  - destruct K as [K|[]]. apply D3; symmetry; apply N; auto.
  - exact K.
Qed.
Ltac nd i j k := match goal with N : NoDup ?l |- _ =>
  assert (D := nodup3 l i j k N); cbn [length nth app] in D; apply D; lia end.

Section Solver.
Variable solve : mip -> gresult.
Hypothesis Hsolve : solver_ok solve.

Lemma ex_add_step : forall S vt st m m' xv xn uv alo aup r,
  ex_built S -> vt <> VCont -> history st m ->
  below (nvars m) xv -> below (nvars m) xn -> below (nvars m) uv ->
  length xv = ex_nx (ex_kind_ S) -> length xn = ex_nx (ex_kind_ S) -> length uv = ex_nu (ex_kind_ S) ->
  (forall a, alo = Some a -> length a = ex_nu (ex_kind_ S)) ->
  (forall a, aup = Some a -> length a = ex_nu (ex_kind_ S)) ->
  ex_add_ret solve S xv xn uv alo aup vt m = Some (m', r) ->
  step vt st m m'
    (fun sg => ex_domain S alo aup (map sg xv) (map sg uv) /\
               ex_move S (map sg xv) (map sg uv) = Some (map sg xn))
    (fun sg => ex_domain S alo aup (map sg xv) (map sg uv) /\
               ex_move S (map sg xv) (map sg uv) = Some (map sg xn)).
Proof.
  intros S vt st m m' xv xn uv alo aup r Bt Vt H Bx Bn Bu Lx Ln Lu La Lb E.
  unfold ex_add_ret in E. destruct (ex_kind_ S) eqn:Ek; cbn [ex_nx ex_nu] in *.
  - eapply unicycle_step; eauto.
  - eapply zerovel_step; eauto.
  - eapply accel_step; eauto.
  - eapply pixhawk_step; eauto.
  - eapply quad_step; eauto.
  - eapply pole_step; eauto.
Qed.

Lemma ex_local : forall S alo aup xv xn uv m,
  below (nvars m) xv -> below (nvars m) xn -> below (nvars m) uv ->
  local m (fun sg => ex_domain S alo aup (map sg xv) (map sg uv) /\
               ex_move S (map sg xv) (map sg uv) = Some (map sg xn)).
Proof.
  intros. apply (local3 m xv uv xn (fun a b c => ex_domain S alo aup a b /\ ex_move S a b = Some c)); auto.
Qed.

Lemma ex_exact : forall S vt st m m' xv xn uv alo aup r,
  ex_built S -> vt <> VCont -> history st m ->
  below (nvars m) xv -> below (nvars m) xn -> below (nvars m) uv ->
  length xv = ex_nx (ex_kind_ S) -> length xn = ex_nx (ex_kind_ S) -> length uv = ex_nu (ex_kind_ S) ->
  (forall a, alo = Some a -> length a = ex_nu (ex_kind_ S)) ->
  (forall a, aup = Some a -> length a = ex_nu (ex_kind_ S)) ->
  ex_add_ret solve S xv xn uv alo aup vt m = Some (m', r) ->
  (forall sg, feas vt m' sg -> feas vt m sg) /\
  forall sg, feas vt m sg ->
    ((exists sg', feas vt m' sg' /\ agree m sg sg') <->
     ex_domain S alo aup (map sg xv) (map sg uv) /\
     ex_move S (map sg xv) (map sg uv) = Some (map sg xn)).
Proof.
  intros S vt st m m' xv xn uv alo aup r Bt Vt H Bx Bn Bu Lx Ln Lu La Lb E.
  destruct (ex_add_step S vt st m m' xv xn uv alo aup r) as (_ & _ & S3 & S4); auto.
  split; [intros sg G; apply (S3 sg G)|]. intros sg G. split.
  - intros (s' & G' & A). destruct (S3 s' G') as [_ Q].
    apply (ex_local S alo aup xv xn uv m Bx Bn Bu s' sg); auto.
    intros i Hi. symmetry. apply A. auto.
  - intros D. apply S4; auto.
Qed.

Lemma layer_bound_total : solver_total solve -> forall n meth N lo up, net_wf n N ->
  length lo = n -> length up = n -> vle lo up ->
  exists B c, compute_layer_bound solve meth N lo up = Some B /\
    output_constraint_given_bounds N (b_pre_lo B) (b_pre_up B) lo up = Some c.
Proof.
  intros St n meth N lo up W L1 L2 V.
  destruct (output_constraint solve meth N lo up) as [[[c B] o]|] eqn:E.
  2: { apply (output_constraint_total solve Hsolve St n) in E; auto. tauto. }
  unfold output_constraint in E. destruct (negb (vleb lo up)); [discriminate|].
  destruct (compute_layer_bound solve meth N lo up) as [B1|]; [|discriminate].
  exists B1. destruct (output_constraint_given_bounds N (b_pre_lo B1) (b_pre_up B1) lo up) as [c1|] eqn:E2.
  - exists c1. auto.
  - exfalso. repeat match type of E with
      | match ?x with _ => _ end = _ => destruct x; try discriminate
      end.
Qed.

Lemma ex_encode_total : solver_total solve -> forall n k N lo up, net_wf n N ->
  length lo = n -> length up = n -> vle lo up -> exists c B A C,
  ex_encode solve k N lo up = Some (c, B) /\ ex_out c = Some (A, C).
Proof.
  intros St n k N lo up W L1 L2 V.
  assert (X : exists c B, ex_encode solve k N lo up = Some (c, B)).
  { assert (T : forall meth, exists c B o, output_constraint solve meth N lo up = Some (c, B, o)).
    { intros meth. destruct (output_constraint solve meth N lo up) as [[[c B] o]|] eqn:E; eauto.
      apply (output_constraint_total solve Hsolve St n) in E; auto. tauto. }
    unfold ex_encode. destruct k;
      try (match goal with |- context [output_constraint _ ?M] =>
             destruct (T M) as (c & B & o & ->) end; eauto).
    destruct (layer_bound_total St n meth N lo up W L1 L2 V) as (B & c & -> & ->). eauto. }
  destruct X as (c & B & E). exists c, B.
  assert (M : net_mic n N lo up c) by (eapply ex_encode_mic; eauto).
  destruct (net_affine _ _ _ _ _ M) as (A & E1 & _ & E2 & _).
  destruct (nm_aout _ _ _ _ _ M) as [Ei Eb].
  exists A, (bias_of (last_layer N)). split; auto. unfold ex_out. rewrite Ei, Eb, E1, E2. auto.
Qed.

Lemma addL_total : forall (vt : vtype) st c v m, history st m -> below (nvars m) v -> length c = length v -> NoDup v ->
  exists m', addLConstr [c] [v] SEq 0 m = Some m' /\ nvars m' = nvars m /\ history st m'.
Proof.
  intros vt st c v m H B L D.
  destruct (step_addLConstr vt st [c] [v] SEq 0 m H) as (m' & E & N & _ & H' & _); auto;
    [cbn; rewrite app_nil_r; exact B|cbn; rewrite app_nil_r; exact D|].
  exists m'. split; auto.
Qed.

Lemma domain_vle : forall S alo aup x u, ex_built S ->
  (forall a, alo = Some a -> length a = ex_nu (ex_kind_ S)) ->
  (forall a, aup = Some a -> length a = ex_nu (ex_kind_ S)) ->
  ex_domain S alo aup x u ->
  Forall (fun i => nth i (ex_xlo S) 0 <= nth i (ex_xup S) 0) (fst (ex_reads (ex_kind_ S))) /\
  Forall (fun j => nth j (tight_lo (ex_ulo S) alo) 0 <= nth j (tight_up (ex_uup S) aup) 0)
         (snd (ex_reads (ex_kind_ S))).
Proof.
  intros S alo aup x u Bt La Lb D. apply domain_tight in D; auto.
  destruct D as [D1 D2]. split; [eapply Forall_impl; [|exact D1]|eapply Forall_impl; [|exact D2]];
    cbv beta; intros; lra.
Qed.

Lemma quad_add_total : solver_total solve -> forall S h meth xv xn uv tl tu vt m, ex_built S ->
  ex_kind_ S = KQuad h meth -> length tl = 4%nat -> length tu = 4%nat ->
  Forall (fun i => nth i (ex_xlo S) 0 <= nth i (ex_xup S) 0) [3; 4; 5; 9; 10; 11]%nat ->
  Forall (fun j => nth j tl 0 <= nth j tu 0) [0; 1; 2; 3]%nat ->
  quad_add solve S xv xn uv tl tu vt m <> None.
Proof.
  intros St S h meth xv xn uv tl tu vt m Bt Ek T1 T2 V1 V2.
  assert (Bt' := Bt). destruct Bt' as (W & Lxu & _).
  destruct (ex_built_facts _ Bt) as [Lxl Lo]. rewrite Ek in *. cbn [ex_nx ex_nin] in *.
  unfold quad_add, quad_given. rewrite Ek.
  set (xl := ex_xlo S) in *. set (xu := ex_xup S) in *. clearbody xl xu.
  conc tl. conc tu. conc xl. conc xu.
  unfold part at 1 2 3 4. cbn [firstn skipn app Nat.sub].
  match goal with |- context [ex_encode solve ?k ?N ?lo ?up] =>
    destruct (ex_encode_total St _ k N lo up W) as (c & B & A & C & Ec & Eo) end; auto.
  { cbn in V1, V2; rewrite !Forall_cons_iff in *; rewrite !vle_cons, vle_nil; tauto. }
  rewrite Ec.
  match goal with |- context [add_mic c ?iv ?a ?b ?d ?e] =>
    destruct (add_mic c iv a b d e) as [[m1 z] be] eqn:Em end.
  rewrite Eo. discriminate.
Qed.

Lemma ex_total : solver_total solve -> forall S vt st m xv xn uv alo aup x u,
  ex_built S -> vt <> VCont -> history st m ->
  below (nvars m) xv -> below (nvars m) xn -> below (nvars m) uv ->
  length xv = ex_nx (ex_kind_ S) -> length xn = ex_nx (ex_kind_ S) -> length uv = ex_nu (ex_kind_ S) ->
  NoDup (xv ++ xn ++ uv) ->
  (forall a, alo = Some a -> length a = ex_nu (ex_kind_ S)) ->
  (forall a, aup = Some a -> length a = ex_nu (ex_kind_ S)) ->
  ex_domain S alo aup x u ->
  ex_add_ret solve S xv xn uv alo aup vt m <> None.
Proof.
  intros St S vt st m xv xn uv alo aup x u Bt Vt H Bx Bn Bu Lx Ln Lu Nd La Lb D.
  destruct (domain_vle _ _ _ _ _ Bt La Lb D) as [V1 V2]. clear D x u.
  assert (Bt' := Bt). destruct Bt' as (W & Lxu & Lul & Luu & _).
  destruct (ex_built_facts _ Bt) as [Lxl Lo].
  destruct (tight_length _ _ _ _ _ Lul Luu La Lb) as [T1 T2].
  unfold ex_add_ret.
  set (tl := tight_lo (ex_ulo S) alo) in *. set (tu := tight_up (ex_uup S) aup) in *. clearbody tl tu.
  assert (Lp : forall k v, net_wf k (ex_net S) -> length v = k ->
    length (forward (ex_net S) v) = out_features (last_layer (ex_net S))).
  { intros k v Wk Lv. rewrite (forward_eval _ _ _ Wk Lv), (net_eval_length _ _ _ Wk Lv). auto. }
  destruct (ex_kind_ S) eqn:Ek; cbn [ex_nx ex_nu ex_nin ex_nout] in *.
  - conc tl. conc tu. conc xv. conc xn. conc uv.
    unfold unicycle_add.
    destruct (vec3 _ Lxl) as (y0 & y1 & y2 & Exl). destruct (vec3 _ Lxu) as (w0 & w1 & w2 & Exu).
    rewrite Exl, Exu in *. clear La Lb Lul Luu Lxl Lxu T1 T2.
    match goal with |- context [ex_encode solve ?k ?N ?lo ?up] => set (lo0 := lo); set (up0 := up);
      destruct (ex_encode_total St _ k N lo0 up0 W) as (c & B & A & C & Ec & Eo) end;
      try apply uni_in_length.
    { unfold lo0, up0. destruct thetadot_as_input; cbn in V1, V2; rewrite !Forall_cons_iff in *;
        unfold uni_in; rewrite !vle_cons, vle_nil; tauto. }
    rewrite Ec.
    match goal with |- context [add_mic c ?i ?a ?b ?d ?e] => set (iv := i);
      destruct (add_mic c iv a b d e) as [[m1 z] be] eqn:Em end.
    rewrite Eo.
    assert (M : net_mic (if thetadot_as_input then 3 else 2) (ex_net S) lo0 up0 c).
    { eapply ex_encode_mic; eauto; apply uni_in_length. }
    assert (Bi : below (nvars m) iv) by (unfold iv, uni_in; destruct thetadot_as_input; below_list).
    assert (Li : length iv = if thetadot_as_input then 3%nat else 2%nat) by apply uni_in_length.
    destruct (mic_vars vt st _ _ _ _ _ _ _ _ _ _ M H Bi Li Vt Em) as (Lz & Bz & H1 & Up).
    match goal with |- context [addMConstr _ [?a; ?b; z] _ (vsub C ?p) _] =>
      destruct (delta_rows vt st _ _ _ _ _ A C iv z a b p 2 m1 M Eo Lo H1) as (N2 & H2 & _);
        auto; try (apply Up; below_list) end.
    { rewrite (Lp _ _ W) by apply zeros_length. auto. }
    match goal with |- context [addLConstr [?c] [?v] SEq 0 ?m] =>
      destruct (addL_total vt st c v m) as (m3 & -> & _); auto end.
    { rewrite N2. apply Up. below_list. }
    { nd 5%nat 2%nat 7%nat. }
    discriminate.
  - conc tl. conc tu. conc xv. conc xn. conc uv.
    unfold zerovel_add.
    destruct (vec3 _ Lxl) as (y0 & y1 & y2 & Exl). destruct (vec3 _ Lxu) as (w0 & w1 & w2 & Exu).
    rewrite Exl, Exu in *. clear La Lb Lul Luu Lxl Lxu T1 T2.
    match goal with |- match ex_encode solve ?k ?N ?lo ?up with _ => _ end <> _ => set (lo0 := lo); set (up0 := up);
      destruct (ex_encode_total St _ k N lo0 up0 W) as (c & B & A & C & Ec & Eo) end;
      try apply uni_in_length.
    { unfold lo0, up0. destruct thetadot_as_input; cbn in V1, V2; rewrite !Forall_cons_iff in *;
        unfold uni_in; rewrite !vle_cons, vle_nil; tauto. }
    rewrite Ec.
    match goal with |- match ex_encode solve ?k ?N ?lo ?up with _ => _ end <> _ => set (lo1 := lo); set (up1 := up);
      destruct (ex_encode_total St _ k N lo1 up1 W) as (c0 & B0 & A0 & C0 & Ec0 & Eo0) end;
      try apply uni_in_length.
    { unfold lo1, up1. destruct thetadot_as_input; cbn in V1, V2; rewrite !Forall_cons_iff in *;
        unfold uni_in; rewrite !vle_cons, vle_nil; intuition lra. }
    rewrite Ec0.
    destruct (addVars [(Vec.Fin 0, Vec.Fin 0)] VCont m) as [m1 zid] eqn:Ea.
    destruct (step_addVars vt st _ _ _ _ _ Ea H) with (x := [0]) as (Sa & Ei & Na & _).
    { intros _ _. constructor; [cbn; lra|constructor]. }
    { constructor; [|constructor]. unfold var_ok. cbn. repeat split; lra. }
    { intros K; exfalso; apply K; reflexivity. }
    cbn [length seq] in Ei, Na. rewrite Ei in *. clear Ei zid.
    assert (H1 : history st m1) by apply Sa.
    assert (Up1 : forall l, below (nvars m) l -> below (nvars m1) l).
    { intros l Hl. eapply Forall_impl; [|exact Hl]. cbv beta. intros. lia. }
    set (zv := nvars m) in *. assert (Bzv : below (nvars m1) [zv]) by (repeat constructor; lia).
    match goal with |- context [add_mic c ?i ?a ?b ?d ?e] => set (iv := i);
      destruct (add_mic c iv a b d e) as [[m2 z] be] eqn:Em end.
    match goal with |- context [add_mic c0 ?i ?a ?b ?d ?e] => set (iv0 := i);
      destruct (add_mic c0 iv0 a b d e) as [[m3 z0] be0] eqn:Em0 end.
    rewrite Eo, Eo0.
    assert (M : net_mic (if thetadot_as_input then 3 else 2) (ex_net S) lo0 up0 c).
    { eapply ex_encode_mic; eauto; apply uni_in_length. }
    assert (M0 : net_mic (if thetadot_as_input then 3 else 2) (ex_net S) lo1 up1 c0).
    { eapply ex_encode_mic; eauto; apply uni_in_length. }
    assert (Bi : below (nvars m1) iv) by (apply Up1; unfold iv, uni_in; destruct thetadot_as_input; below_list).
    assert (Li : length iv = if thetadot_as_input then 3%nat else 2%nat) by apply uni_in_length.
    destruct (mic_vars vt st _ _ _ _ _ _ _ _ _ _ M H1 Bi Li Vt Em) as (Lz & Bz & H2 & Up2).
    assert (Bi0 : below (nvars m2) iv0).
    { apply Up2. assert (Bx' := Up1 _ Bx). assert (Bu' := Up1 _ Bu). clear Bx Bu.
      unfold iv0, uni_in; destruct thetadot_as_input; below_list. }
    assert (Li0 : length iv0 = if thetadot_as_input then 3%nat else 2%nat) by apply uni_in_length.
    destruct (mic_vars vt st _ _ _ _ _ _ _ _ _ _ M0 H2 Bi0 Li0 Vt Em0) as (Lz0 & Bz0 & H3 & Up3).
    match goal with |- context [addMConstr _ [?a; ?b; z; z0] _ _ _] =>
    destruct (diff_rows vt st _ _ _ _ _ _ c c0 A C A0 C0 iv iv0 z z0 a b m3 M M0 Eo Eo0 Lo H3)
      as (N4 & H4 & _); auto; try (apply Up3, Up2, Up1; below_list) end.
    match goal with |- context [addLConstr [?c] [?v] SEq 0 ?m] =>
      destruct (addL_total vt st c v m) as (m5 & -> & _); auto end.
    { rewrite N4. apply Up3, Up2, Up1. below_list. }
    { nd 5%nat 2%nat 7%nat. }
    discriminate.
  - conc tl. conc tu. conc xv. conc xn. conc uv.
    unfold accel_add.
    destruct (vec4 _ Lxl) as (y0 & y1 & y2 & y3 & Exl). destruct (vec4 _ Lxu) as (w0 & w1 & w2 & w3 & Exu).
    rewrite Exl, Exu in *. clear La Lb Lul Luu Lxl Lxu T1 T2.
    match goal with |- context [ex_encode solve ?k ?N ?lo ?up] => set (lo0 := lo); set (up0 := up);
      destruct (ex_encode_total St _ k N lo0 up0 W) as (c & B & A & C & Ec & Eo) end; auto.
    { unfold lo0, up0. cbn in V1, V2; rewrite !Forall_cons_iff in *;
        rewrite !vle_cons, vle_nil; tauto. }
    rewrite Ec.
    match goal with |- context [add_mic c ?i ?a ?b ?d ?e] => set (iv := i);
      destruct (add_mic c iv a b d e) as [[m1 z] be] eqn:Em end.
    rewrite Eo.
    assert (M : net_mic 4 (ex_net S) lo0 up0 c) by (eapply ex_encode_mic; eauto).
    assert (Bi : below (nvars m) iv) by (unfold iv; below_list).
    assert (Li : length iv = 4%nat) by reflexivity.
    destruct (mic_vars vt st _ _ _ _ _ _ _ _ _ _ M H Bi Li Vt Em) as (Lz & Bz & H1 & Up).
    match goal with |- context [addMConstr _ [?a; ?b; z] _ (vsub C ?p) _] =>
      destruct (delta_rows vt st _ _ _ _ _ A C iv z a b p 2 m1 M Eo Lo H1) as (N2 & H2 & _);
        auto; try (apply Up; below_list) end.
    { rewrite (Lp _ _ W) by apply zeros_length. auto. }
    match goal with |- context [addLConstr [?c] [?v] SEq 0 ?m] =>
      destruct (addL_total vt st c v m) as (m3 & -> & N3 & H3); auto end.
    { rewrite N2. apply Up. below_list. }
    { nd 6%nat 2%nat 8%nat. }
    match goal with |- context [addLConstr [?c] [?v] SEq 0 ?m] =>
      destruct (addL_total vt st c v m) as (m4 & -> & _); auto end.
    { rewrite N3, N2. apply Up. below_list. }
    { nd 7%nat 3%nat 9%nat. }
    discriminate.
  - unfold pixhawk_add. rewrite Ek.
    set (xl := ex_xlo S) in *. set (xu := ex_xup S) in *. clearbody xl xu.
    conc tl. conc tu. conc xl. conc xu.
    unfold part at 1 2. cbn [firstn skipn app Nat.sub].
    match goal with |- context [ex_encode solve ?k ?N ?lo ?up] =>
      destruct (ex_encode_total St _ k N lo up W) as (c & B & A & C & Ec & Eo) end; auto.
    { cbn in V1, V2; rewrite !Forall_cons_iff in *; rewrite !vle_cons, vle_nil; tauto. }
    rewrite Ec.
    match goal with |- context [add_mic c ?iv ?a ?b ?d ?e] =>
      destruct (add_mic c iv a b d e) as [[m1 z] be] eqn:Em end.
    rewrite Eo. discriminate.
  - eapply quad_add_total; eauto.
  - unfold pole_add. rewrite Ek.
    set (xl := ex_xlo S) in *. set (xu := ex_xup S) in *. clearbody xl xu.
    conc tl. conc tu. conc xl. conc xu.
    unfold last2 at 1 2. cbn [firstn skipn app Nat.sub length].
    match goal with |- context [ex_encode solve ?k ?N ?lo ?up] =>
      destruct (ex_encode_total St _ k N lo up W) as (c & B & A & C & Ec & Eo) end; auto.
    { cbn in V1, V2; rewrite !Forall_cons_iff in *; rewrite !vle_cons, vle_nil; tauto. }
    rewrite Ec.
    match goal with |- context [add_mic c ?iv ?a ?b ?d ?e] =>
      destruct (add_mic c iv a b d e) as [[m1 z] be] eqn:Em end.
    rewrite Eo. discriminate.
Qed.

(** As forward systems. *)
Lemma quad_forward_contract : forall S h meth st, ex_built S -> ex_kind_ S = KQuad h meth ->
  forward_contract st (ex_fwd solve S) (ex_next S).
Proof.
  intros S h meth st Bt Ek vt m m' xv xn uv alo aup r Vt H Bx Bn Bu Lx Ln Lu La Lb E.
  cbn [ex_fwd f_nx f_nu f_add] in *.
  rewrite Ek in E at 1 2. cbn [takes_binary_var_type takes_u_input_prog andb] in E.
  destruct (ex_add_ret solve S xv xn uv (Some alo) (Some aup) vt m) as [[m1 r1]|] eqn:Ea; [|discriminate].
  assert (E1 : m1 = m') by (destruct r1; apply Some_inj in E; apply pair_equal_spec in E; tauto).
  subst m1. eapply step_weaken; [eapply (ex_add_step S vt st m m' xv xn uv); eauto| |].
  - intros a Ha. apply Some_inj in Ha. subst a. auto.
  - intros a Ha. apply Some_inj in Ha. subst a. auto.
  - cbv beta. intros sg _ [Hb [[D1 D2] D3]]. split; auto. split; auto.
    rewrite Ek in *. cbn [ex_nx ex_nu ex_reads snd] in *. clear - Hb D2 La Lb Lu.
    assert (Lu' : length (map sg uv) = 4%nat) by (rewrite map_length; auto).
    rewrite Forall_forall in *. intros j Hj. destruct (D2 j Hj) as (K & _). split; auto.
    assert (Lj : (j < 4)%nat) by (cbn in Hj; lia). destruct Hb as [B1 B2].
    split; intros a Ha; apply Some_inj in Ha; subst a; apply nth_vle; auto; lia.
  - cbv beta. intros sg _ [[D1 D2] D3]. split; auto. split; auto.
    eapply Forall_impl; [|exact D2]. cbv beta. intros j (K & _). split; auto. split; discriminate.
Qed.

Lemma quad_forward_total : solver_total solve -> forall S h meth, ex_built S -> ex_kind_ S = KQuad h meth ->
  vle (ex_xlo S) (ex_xup S) -> forward_total (in_box (ex_ulo S) (ex_uup S)) (ex_fwd solve S).
Proof.
  intros St S h meth Bt Ek Vx vt m xv xn uv alo aup u L1 L2 L3 L4 L5 Hb HU.
  cbn [ex_fwd f_nx f_nu f_add] in *.
  rewrite Ek at 1 2. cbn [takes_binary_var_type takes_u_input_prog andb].
  assert (Bt' := Bt). destruct Bt' as (W & Lxu & Lul & Luu & _).
  destruct (ex_built_facts _ Bt) as [Lxl Lo].
  assert (K : in_box (tight_lo (ex_ulo S) (Some alo)) (tight_up (ex_uup S) (Some aup)) u).
  { assert (Lu := in_box_lengths _ _ _ HU).
    apply tight_box; try (unfold vec in *; lia).
    - intros a Ea. apply Some_inj in Ea. subst a. unfold vec in *. lia.
    - intros a Ea. apply Some_inj in Ea. subst a. unfold vec in *. lia.
    - split; [exact HU|]. destruct Hb. split; intros l El; apply Some_inj in El; subst; auto. }
  assert (V : vle (tight_lo (ex_ulo S) (Some alo)) (tight_up (ex_uup S) (Some aup))).
  { destruct K. eapply vle_trans; eauto. }
  assert (La : forall a, Some alo = Some a -> length a = ex_nu (ex_kind_ S)) by (intros a Ea; apply Some_inj in Ea; subst; auto).
  assert (Lb : forall a, Some aup = Some a -> length a = ex_nu (ex_kind_ S)) by (intros a Ea; apply Some_inj in Ea; subst; auto).
  destruct (tight_length _ _ _ _ _ Lul Luu La Lb) as [T1 T2].
  unfold ex_add_ret. rewrite Ek in *. cbn [ex_nx ex_nu] in *.
  assert (Q : quad_add solve S xv xn uv (tight_lo (ex_ulo S) (Some alo)) (tight_up (ex_uup S) (Some aup)) vt m <> None).
  { eapply quad_add_total; eauto; apply Forall_forall; intros i Hi; apply nth_vle; auto; cbn in Hi; lia. }
  destruct (quad_add solve S xv xn uv (tight_lo (ex_ulo S) (Some alo)) (tight_up (ex_uup S) (Some aup)) vt m)
    as [[m1 [r|a b]]|]; [discriminate|discriminate|tauto].
Qed.
End Solver.

(** ** step_forward and the equations *)

Lemma ex_step_move : forall S x u,
  ex_step S x u =
  match ex_kind_ S with
  | KUnicycle _ | KZeroVel _ =>
      if (vleb u (ex_uup S) && vleb (ex_ulo S) u)%bool then ex_move S x u else None
  | _ => ex_move S x u
  end.
Proof.
  intros S x u. unfold ex_move, ex_step. cbn [ex_kind_ ex_net ex_dt ex_uup ex_ulo].
  destruct (ex_kind_ S) eqn:Ek; try reflexivity;
    rewrite vleb_refl; cbn [andb];
    destruct (vleb u (ex_uup S) && vleb (ex_ulo S) u)%bool;
    destruct x as [|? [|? [|? [|]]]]; auto; destruct u as [|? [|? [|]]]; auto.
Qed.

Lemma domain_limits : forall S alo aup x u, ex_built S -> ex_reads_all (ex_kind_ S) ->
  length u = ex_nu (ex_kind_ S) -> ex_domain S alo aup x u -> in_box (ex_ulo S) (ex_uup S) u.
Proof.
  intros S alo aup x u (_ & _ & L1 & L2 & _) Ra Lu (_ & D). unfold ex_reads_all in Ra. rewrite Ra in D.
  rewrite Forall_forall in D.
  split; apply vle_nth; (split; [unfold vec in *; congruence|]); intros i Hi;
    (assert (K : In i (seq 0 (ex_nu (ex_kind_ S)))) by (apply in_seq; unfold vec in *; lia));
    destruct (D i K) as [[K1 K2] _]; auto.
Qed.

Lemma ex_step_agrees : forall S alo aup x u, ex_built S -> ex_reads_all (ex_kind_ S) ->
  length u = ex_nu (ex_kind_ S) -> ex_domain S alo aup x u -> ex_step S x u = ex_move S x u.
Proof.
  intros S alo aup x u Bt Ra Lu D. destruct (domain_limits _ _ _ _ _ Bt Ra Lu D) as [H1 H2].
  rewrite ex_step_move. apply vleb_spec in H1. apply vleb_spec in H2. rewrite H1, H2. cbn [andb].
  destruct (ex_kind_ S); auto.
Qed.

Lemma ex_exact_step : forall solve S vt st m m' xv xn uv alo aup r, solver_ok solve ->
  ex_built S -> ex_reads_all (ex_kind_ S) -> vt <> VCont -> history st m ->
  below (nvars m) xv -> below (nvars m) xn -> below (nvars m) uv ->
  length xv = ex_nx (ex_kind_ S) -> length xn = ex_nx (ex_kind_ S) -> length uv = ex_nu (ex_kind_ S) ->
  (forall a, alo = Some a -> length a = ex_nu (ex_kind_ S)) ->
  (forall a, aup = Some a -> length a = ex_nu (ex_kind_ S)) ->
  ex_add_ret solve S xv xn uv alo aup vt m = Some (m', r) ->
  (forall sg, feas vt m' sg -> feas vt m sg) /\
  forall sg, feas vt m sg ->
    ((exists sg', feas vt m' sg' /\ agree m sg sg') <->
     ex_domain S alo aup (map sg xv) (map sg uv) /\
     ex_step S (map sg xv) (map sg uv) = Some (map sg xn)).
Proof.
  intros solve S vt st m m' xv xn uv alo aup r Hs Bt Ra Vt H Bx Bn Bu Lx Ln Lu La Lb E.
  destruct (ex_exact solve Hs S vt st m m' xv xn uv alo aup r) as [E1 E2]; auto.
  split; auto. intros sg G. rewrite (E2 sg G).
  split; intros [D1 D2]; split; auto;
    rewrite (ex_step_agrees S alo aup (map sg xv) (map sg uv)) in * by (auto; rewrite map_length; auto); auto.
Qed.

(** ** Equilibria *)

Lemma ex_equilibrium : forall S, ex_built S ->
  match ex_kind_ S with
  | KUnicycle _ | KZeroVel _ => in_box (ex_ulo S) (ex_uup S) (zeros 2)
  | _ => True
  end ->
  ex_step S (ex_xeq (ex_kind_ S)) (ex_ueq (ex_kind_ S)) = Some (ex_xeq (ex_kind_ S)).
Proof.
  intros S Bt Hl. assert (Bt' := Bt). destruct Bt' as (W & _).
  destruct (ex_built_facts _ Bt) as [_ Lo].
  assert (Lp : forall k v, net_wf k (ex_net S) -> length v = k ->
    length (forward (ex_net S) v) = out_features (last_layer (ex_net S))).
  { intros k v Wk Lv. rewrite (forward_eval _ _ _ Wk Lv), (net_eval_length _ _ _ Wk Lv). auto. }
  rewrite Lo in Lp.
  unfold ex_step. destruct (ex_kind_ S) as [td|td| |h|h meth|h meth] eqn:Ek;
    cbn [ex_xeq ex_ueq ex_nx ex_nin ex_nout zeros repeat] in *.
  - destruct Hl as [H1 H2]. apply vleb_spec in H1. apply vleb_spec in H2.
    cbn [zeros repeat] in H1, H2. rewrite H1, H2. cbn [andb].
    assert (Ed : (if td then vsub (forward (ex_net S) [0; 0; 0]) (forward (ex_net S) [0; 0; 0])
       else vsub (forward (ex_net S) [0; 0]) (forward (ex_net S) [0; 0])) = [0; 0]).
    { destruct td.
      - specialize (Lp 3%nat [0; 0; 0] W eq_refl). destruct (vec2 _ Lp) as (a & b & ->). cbn.
        f_equal; [lra|]. f_equal. lra.
      - specialize (Lp 2%nat [0; 0] W eq_refl). destruct (vec2 _ Lp) as (a & b & ->). cbn.
        f_equal; [lra|]. f_equal. lra. }
    cbn [zeros repeat]. rewrite Ed. cbn. f_equal. rewrite !cons_eq_iff. repeat split; lra.
  - destruct Hl as [H1 H2]. apply vleb_spec in H1. apply vleb_spec in H2.
    cbn [zeros repeat] in H1, H2. rewrite H1, H2. cbn [andb].
    assert (Ed : (if td then vsub (forward (ex_net S) [0; 0; 0]) (forward (ex_net S) [0; 0; 0])
       else vsub (forward (ex_net S) [0; 0]) (forward (ex_net S) [0; 0])) = [0; 0]).
    { destruct td.
      - specialize (Lp 3%nat [0; 0; 0] W eq_refl). destruct (vec2 _ Lp) as (a & b & ->). cbn.
        f_equal; [lra|]. f_equal. lra.
      - specialize (Lp 2%nat [0; 0] W eq_refl). destruct (vec2 _ Lp) as (a & b & ->). cbn.
        f_equal; [lra|]. f_equal. lra. }
    rewrite Ed. cbn. f_equal. rewrite !cons_eq_iff. repeat split; lra.
  - cbn [skipn app]. specialize (Lp 4%nat [0; 0; 0; 0] W eq_refl). destruct (vec2 _ Lp) as (a & b & ->).
    cbn. f_equal. rewrite !cons_eq_iff. repeat split; lra.
  - cbn [length Nat.eqb andb part firstn skipn app Nat.sub].
    specialize (Lp 7%nat [0; 0; 0; 0; 0; 0; h] W eq_refl).
    set (f := forward (ex_net S) [0; 0; 0; 0; 0; 0; h]) in *. clearbody f. conc f.
    cbn. f_equal. rewrite !cons_eq_iff. repeat split; lra.
  - unfold ex_xeq, ex_nx, part, zeros. cbn [length Nat.eqb andb firstn skipn app Nat.sub repeat].
    specialize (Lp 10%nat [0; 0; 0; 0; 0; 0; h; h; h; h] W eq_refl).
    set (f := forward (ex_net S) [0; 0; 0; 0; 0; 0; h; h; h; h]) in *. clearbody f. conc f.
    cbn. f_equal. rewrite !cons_eq_iff. repeat split; lra.
  - unfold ex_xeq, ex_nx, zeros. cbn [length Nat.eqb andb firstn skipn app repeat].
    specialize (Lp 7%nat [0; 0; 0; 0; 0; 0; h] W eq_refl).
    set (f := forward (ex_net S) [0; 0; 0; 0; 0; 0; h]) in *. clearbody f. conc f.
    cbn. f_equal. rewrite !cons_eq_iff. repeat split; lra.
Qed.

(** Without a velocity the car only turns. *)
Lemma zerovel_turns : forall S td px py th w, ex_built S -> ex_kind_ S = KZeroVel td ->
  in_box (ex_ulo S) (ex_uup S) [0; w] ->
  ex_step S [px; py; th] [0; w] = Some [px; py; th + w * ex_dt S].
Proof.
  intros S td px py th w Bt Ek [H1 H2]. assert (Bt' := Bt). destruct Bt' as (W & _).
  destruct (ex_built_facts _ Bt) as [_ Lo].
  unfold ex_step. rewrite Ek in *. apply vleb_spec in H1. apply vleb_spec in H2. rewrite H1, H2.
  cbn [andb ex_nin ex_nout] in *.
  assert (Lp : forall k v, net_wf k (ex_net S) -> length v = k -> length (forward (ex_net S) v) = 2%nat).
  { intros k v Wk Lv. rewrite (forward_eval _ _ _ Wk Lv), (net_eval_length _ _ _ Wk Lv). auto. }
  destruct td.
  - specialize (Lp 3%nat [th; 0; w] W eq_refl). destruct (vec2 _ Lp) as (a & b & ->). cbn.
    f_equal. rewrite !cons_eq_iff. repeat split; lra.
  - specialize (Lp 2%nat [th; 0] W eq_refl). destruct (vec2 _ Lp) as (a & b & ->). cbn.
    f_equal. rewrite !cons_eq_iff. repeat split; lra.
Qed.

(** ** Closed loops *)

(** Only the quadrotor accepts the arguments of FeedbackSystem. *)
Lemma ex_loop_raises : forall solve S F xv xn vt m, fb_fwd F = ex_fwd solve S ->
  (forall h meth, ex_kind_ S <> KQuad h meth) -> fb_add_ret solve F xv xn vt m = None.
Proof.
  intros solve S F xv xn vt m Ef Ek. unfold fb_add_ret. rewrite Ef. cbn [ex_fwd f_nu f_add].
  assert (Eu : takes_u_input_prog (ex_kind_ S) = false).
  { destruct (ex_kind_ S); try reflexivity. destruct (Ek _ _ eq_refl). }
  rewrite Eu, andb_false_r.
  destruct (addVars (repeat (NInf, PInf) (ex_nu (ex_kind_ S))) VCont m) as [m1 uv].
  destruct (add_controller solve F xv uv vt m1) as [[[m2 [a b]] rc]|]; auto.
Qed.

Lemma quad_loop_exact : forall solve S h meth F st vt m m' xv xn r, solver_ok solve -> ex_built S ->
  ex_kind_ S = KQuad h meth -> vle (ex_xlo S) (ex_xup S) ->
  fb_fwd F = ex_fwd solve S -> feedback_built F -> is_net (fb_ctl F) ->
  vt <> VCont -> history st m -> below (nvars m) xv -> below (nvars m) xn ->
  length xv = 12%nat -> length xn = 12%nat ->
  fb_add_ret solve F xv xn vt m = Some (m', r) ->
  (forall sg, feas vt m' sg ->
     feas vt m sg /\ in_box (ex_xlo S) (ex_xup S) (map sg xv) /\
     compute_u F (map sg xv) = Some (map sg (fr_u r)) /\
     in_box (ex_ulo S) (ex_uup S) (map sg (fr_u r)) /\
     fb_step F (map sg xv) = Some (map sg xn)) /\
  (forall sg u, feas vt m sg -> in_box (ex_xlo S) (ex_xup S) (map sg xv) ->
     compute_u F (map sg xv) = Some u -> in_box (ex_ulo S) (ex_uup S) u ->
     fb_step F (map sg xv) = Some (map sg xn) ->
     exists sg', feas vt m' sg' /\ agree m sg sg').
Proof.
  intros solve S h meth F st vt m m' xv xn r Hs Bt Ek Vx Ef Bf Hn Vt H Bx Bn Lx Ln E.
  assert (Fc : forward_contract st (fb_fwd F) (ex_next S)).
  { rewrite Ef. eapply quad_forward_contract; eauto. }
  assert (Ra : ex_reads_all (ex_kind_ S)) by (rewrite Ek; reflexivity).
  assert (Nx : f_nx (fb_fwd F) = 12%nat) by (rewrite Ef; cbn; rewrite Ek; auto).
  assert (S1 : step vt st m m' (fun sg => fb_next F (ex_next S) (map sg xv) (map sg xn))
    (fun sg => ex_next S (map sg xv) (map sg (fr_u r)) (map sg xn) /\
       (is_net (fb_ctl F) -> in_box (f_lo (fb_fwd F)) (f_up (fb_fwd F)) (map sg xv)) /\
       (in_box (f_lo (fb_fwd F)) (f_up (fb_fwd F)) (map sg xv) ->
        compute_u F (map sg xv) = Some (map sg (fr_u r))))).
  { eapply closed_loop_step; eauto; try (rewrite Ef; auto); try congruence. }
  assert (Lr : length (fr_u r) = 4%nat).
  { erewrite (fr_u_length solve F) by eauto. rewrite Ef. cbn. rewrite Ek. auto. }
  assert (L4 : forall sg : assignment, length (map sg (fr_u r)) = ex_nu (ex_kind_ S)).
  { intros sg. rewrite map_length, Ek. exact Lr. }
  rewrite Ef in S1. cbn [ex_fwd f_lo f_up] in S1. destruct S1 as (_ & _ & S3 & S4). split.
  - intros sg G. destruct (S3 sg G) as (G0 & (K0 & K1) & K2 & K3). split; auto.
    assert (Ib := K2 Hn). split; auto. split; auto.
    split; [eapply domain_limits; eauto|].
    unfold fb_step. rewrite (K3 Ib), Ef. cbn [ex_fwd f_step].
    rewrite (ex_step_agrees S None None); auto.
  - intros sg u G Ib Eu Hu Es. apply S4; auto.
    split; [rewrite Ef; exact Ib|]. exists u. split; auto.
    unfold fb_step in Es. rewrite Eu, Ef in Es. cbn [ex_fwd f_step] in Es.
    assert (Lu : length u = ex_nu (ex_kind_ S)).
    { destruct Bt as (_ & _ & L1 & _). apply in_box_lengths in Hu. unfold vec in *. lia. }
    assert (D : ex_domain S None None (map sg xv) u).
    { destruct (ex_built_facts _ Bt) as [Lxl _]. assert (Bt' := Bt). destruct Bt' as (_ & Lxu & Lul & _).
      split; apply Forall_forall; intros i Hi.
      - destruct Ib as [I1 I2]. rewrite Ek in *. cbn [ex_nx ex_reads fst] in *.
        split; apply nth_vle; auto; [|rewrite map_length]; cbn in Hi; unfold vec in *; lia.
      - destruct Hu as [I1 I2]. rewrite Ek in *. cbn [ex_nu ex_reads snd] in *.
        split; [|split; discriminate].
        split; apply nth_vle; auto; cbn in Hi; unfold vec in *; lia. }
    split; auto. rewrite <- (ex_step_agrees S None None); auto.
Qed.

Lemma quad_loop_contract : forall solve S h meth F st, solver_ok solve -> ex_built S ->
  ex_kind_ S = KQuad h meth -> vle (ex_xlo S) (ex_xup S) ->
  fb_fwd F = ex_fwd solve S -> feedback_built F -> is_net (fb_ctl F) ->
  system_contract 12 st (fb_add solve F) (fb_next F (ex_next S)).
Proof.
  intros solve S h meth F st Hs Bt Ek Vx Ef Bf Hn.
  assert (T := feedback_contract solve Hs F (ex_next S) st Bf).
  rewrite Ef in T. cbn [ex_fwd f_nx f_lo f_up] in T. rewrite Ek in T. cbn [ex_nx] in T. apply T; auto.
  eapply quad_forward_contract; eauto.
Qed.

Lemma quad_loop_total : forall solve S h meth F st x0 u0, solver_ok solve -> solver_total solve ->
  ex_built S -> ex_kind_ S = KQuad h meth -> vle (ex_xlo S) (ex_xup S) ->
  fb_fwd F = ex_fwd solve S -> feedback_built F ->
  in_box (ex_xlo S) (ex_xup S) x0 -> compute_u F x0 = Some u0 -> in_box (ex_ulo S) (ex_uup S) u0 ->
  system_total 12 st (fb_add solve F).
Proof.
  intros solve S h meth F st x0 u0 Hs St Bt Ek Vx Ef Bf Hx Hc Hu.
  assert (T := feedback_total solve Hs St F st (in_box (ex_ulo S) (ex_uup S)) x0 u0 Bf).
  rewrite Ef in T. cbn [ex_fwd f_nx f_lo f_up] in T. rewrite Ek in T. cbn [ex_nx] in T. apply T; auto.
  eapply quad_forward_total; eauto.
Qed.
