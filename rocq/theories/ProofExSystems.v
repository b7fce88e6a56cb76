(** The constraints of the example systems describe their steps. *)

Require Import Reals List Lia Lra Bool Arith.
Require Import Verif.Vec Verif.VecFacts Verif.ModelMip Verif.SpecMip Verif.SpecCore
  Verif.ModelUtils Verif.SpecUtils Verif.ModelNet Verif.SpecNet Verif.SpecStep
  Verif.ProofUtils Verif.ProofMaxBox Verif.ProofGrad Verif.ProofMip Verif.ProofSat
  Verif.ProofConcat Verif.ProofBounds Verif.ProofNet Verif.ProofNetBounds Verif.ProofNetTotal
  Verif.ProofWarm Verif.ProofStep Verif.ProofNetStep Verif.ModelPattern Verif.ModelStrengthen
  Verif.ModelLyapunov Verif.SpecLyapunov Verif.ProofLyapunov Verif.ModelHybrid Verif.SpecHybrid
  Verif.ProofHybrid2 Verif.ModelSystems Verif.SpecSystems Verif.ProofMilp Verif.ProofRoa
  Verif.ModelExSystems Verif.SpecExSystems Verif.ProofSystems Verif.ProofSystems2.
Import ListNotations.
Open Scope R_scope.

Lemma nodupb_inv : forall l, nodupb l = true -> NoDup l.
Proof.
  induction l as [|a l IH]; intros E; constructor; cbn [nodupb] in E; apply andb_true_iff in E;
    destruct E as [E1 E2]; auto.
  intros K. apply negb_true_iff in E1.
  assert (T : existsb (Nat.eqb a) l = true) by (apply existsb_exists; exists a; split; auto; apply Nat.eqb_refl).
  congruence.
Qed.

(** One row added with addLConstr. *)
Lemma addL_row : forall vt st c v m m', addLConstr [c] [v] SEq 0 m = Some m' -> history st m ->
  length c = length v -> below (nvars m) v ->
  nvars m' = nvars m /\ history st m' /\
  (forall sg, feas vt m' sg <-> feas vt m sg /\ dot c (map sg v) = 0).
Proof.
  intros vt st c v m m' E H L B. assert (I := addLConstr_inv _ _ _ _ _ _ E).
  destruct I as (_ & _ & _ & N). apply nodupb_inv in N.
  destruct (step_addLConstr vt st [c] [v] SEq 0 m H) as (m1 & E1 & N1 & F1 & H1 & _); auto.
  { simpl. rewrite app_nil_r. exact B. }
  rewrite E in E1. apply Some_inj in E1. subst m1. split; auto. split; auto.
  intros sg. rewrite F1. cbn [concat sense_ok]. rewrite !app_nil_r.
  split; intros [X Y]; split; auto; [injection Y; auto|rewrite Y; auto].
Qed.

(** A network encoding followed by rows that fix the rest. *)
Lemma rows_step : forall vt st n N lo up c iv m m1 z be m' (Rws P : assignment -> Prop),
  net_mic n N lo up c -> history st m -> below (nvars m) iv -> length iv = n -> vt <> VCont ->
  add_mic c iv None NewBinary vt m = (m1, z, be) ->
  nvars m' = nvars m1 -> history st m' ->
  (forall sg, feas vt m' sg <-> feas vt m1 sg /\ Rws sg) ->
  local m P ->
  (forall sg, map sg z = concat (post_acts (hidden N) (map sg iv)) -> (Rws sg <-> P sg)) ->
  step vt st m m' (fun sg => in_box lo up (map sg iv) /\ P sg)
                  (fun sg => in_box lo up (map sg iv) /\ P sg).
Proof.
  intros vt st n N lo up c iv m m1 z be m' Rws P M H B L V E Nv H' F LP X.
  destruct (net_step st n N lo up c iv vt m m1 z be M H B L V E) as (Z1 & Z2 & Z3 & S1 & S2 & S3 & S4).
  split; [lia|]. split; auto. split.
  - intros sg G. apply F in G. destruct G as [G R1]. destruct (S3 sg G) as (G0 & Ib & _ & _ & Hz).
    split; auto. split; auto. apply X; auto.
  - intros sg G (Ib & D). destruct (S4 sg G Ib) as (s1 & G1 & A). exists s1. split; auto.
    apply F. split; auto. apply X; [apply S3; auto|]. apply (LP sg s1); auto.
Qed.

Section Solver.
Variable solve : mip -> gresult.
Hypothesis Hsolve : solver_ok solve.

Lemma given_bounds_mic : forall n meth N x_lo x_up c B, net_wf n N ->
  length x_lo = n -> length x_up = n ->
  compute_layer_bound solve meth N x_lo x_up = Some B ->
  output_constraint_given_bounds N (b_pre_lo B) (b_pre_up B) x_lo x_up = Some c ->
  net_mic n N x_lo x_up c.
Proof.
  intros n meth N x_lo x_up c B W L1 L2 E1 E3.
  destruct (layer_bound_spec solve Hsolve n _ _ _ _ _ W L1 L2 E1) as (z1 & z2 & I1 & I2 & I3 & _).
  destruct (encoding_given_bounds n N _ _ _ _ W L1 L2 I1 I2)
    as (c0 & Ec & M1 & M2 & M3 & M4 & M5 & M6 & M7).
  rewrite E3 in Ec. injection Ec as <-.
  assert (W' := W). destruct W' as (Hh & Wh & Wl).
  assert (F : (input_lo c = None /\ input_up c = None /\ slack_lo c = None /\ slack_up c = None)
    /\ (Aout_input c = None /\ Aout_binary c = None) /\
    Cout c = Some (bias_of (last_layer N)) /\ exists A, Aout_slack c = Some A).
  { unfold output_constraint_given_bounds in E3.
    destruct (write_layers _ _ _ _ _ _ _) as [[bi be]|]; [|discriminate].
    destruct (rev (hidden N)) as [|[l a] t]; [discriminate|].
    injection E3 as <-.
    cbn [input_lo input_up slack_lo slack_up Aout_input Aout_binary Cout Aout_slack].
    repeat match goal with |- _ /\ _ => split end; auto. eexists; reflexivity. }
  destruct F as (F1 & F2 & F3 & A & F4).
  constructor; auto.
  - exists A. split; auto. destruct M1 as ((O1 & O2 & _) & _).
    rewrite F4 in O2. simpl in O2. rewrite M5, M3 in O2. exact O2.
  - split; auto. unfold bias_of. destruct Wl as [_ [_ Wb]].
    destruct (bias (last_layer N)); auto. apply zeros_length.
  - intros x Bx. destruct (I3 x Bx) as (A1 & _ & _).
    assert (Lx : length x = n) by (apply in_box_lengths in Bx; lia).
    destruct (pick_net_ok _ _ _ _ _ _ Wh Lx A1) as (P1 & P2 & P3).
    exists (pick_net (hidden N) (b_pre_lo B) (b_pre_up B) (concat (pre_acts (hidden N) x))).
    split; auto. apply M6. destruct (num_units_pre _ _ _ _ Wh Lx) as [Q1 Q2].
    split; [congruence|]. split; [congruence|]. split; auto.
    eapply net_complete; eauto.
  - intros x s b Hs. apply M6 in Hs. tauto.
  - intros x s b Hb Hs. apply M6 in Hs. destruct Hs as (K1 & K2 & K3 & K4).
    assert (Lx : length x = n) by (apply in_box_lengths in K3; lia).
    rewrite M3 in K1.
    destruct (net_sound _ _ _ _ _ _ _ _ Wh Lx K1 Hb K4) as [-> _]. auto.
Qed.

Lemma ex_encode_mic : forall n k N lo up c B, net_wf n N -> length lo = n -> length up = n ->
  ex_encode solve k N lo up = Some (c, B) -> net_mic n N lo up c.
Proof.
  intros n k N lo up c B W L1 L2 E. unfold ex_encode in E.
  assert (T : forall meth, match output_constraint solve meth N lo up with
      | None => None | Some (c, B, _) => Some (c, B) end = Some (c, B) -> net_mic n N lo up c).
  { intros meth Et. destruct (output_constraint solve meth N lo up) as [[[c1 B1] o]|] eqn:Eo;
      [|discriminate]. apply Some_inj in Et. apply pair_equal_spec in Et. destruct Et as [-> _].
    eapply output_constraint_mic; eauto. }
  destruct k; eauto.
  destruct (compute_layer_bound solve meth N lo up) as [B1|] eqn:E1; [|discriminate].
  destruct (output_constraint_given_bounds N (b_pre_lo B1) (b_pre_up B1) lo up) as [c1|] eqn:E2;
    [|discriminate]. apply Some_inj in E. apply pair_equal_spec in E. destruct E as [-> ->].
  eapply given_bounds_mic; eauto.
Qed.


Lemma tight_lo_nth : forall lo alo n j v, length lo = n -> (forall a, alo = Some a -> length a = n) ->
  (j < n)%nat ->
  (nth j (tight_lo lo alo) 0 <= v <-> nth j lo 0 <= v /\ (forall a, alo = Some a -> nth j a 0 <= v)).
Proof.
  intros lo [a|] n j v L La Lj; cbn [tight_lo].
  - specialize (La a eq_refl).
    assert (E : nth j (map2 Rmax lo a) 0 = Rmax (nth j lo 0) (nth j a 0)).
    { clear v. subst n. revert a j La Lj. induction lo as [|x lo IH]; intros [|y a] j La Lj;
        cbn in *; try lia. destruct j as [|j]; auto. apply IH; lia. }
    rewrite E. split.
    + intros K. split; [eapply Rle_trans; [apply Rmax_l|exact K]|].
      intros b Eb. apply Some_inj in Eb. subst b. eapply Rle_trans; [apply Rmax_r|exact K].
    + intros [K1 K2]. apply Rmax_lub; auto.
  - split; [intros K; split; auto; discriminate|tauto].
Qed.
Lemma tight_up_nth : forall up aup n j v, length up = n -> (forall a, aup = Some a -> length a = n) ->
  (j < n)%nat ->
  (v <= nth j (tight_up up aup) 0 <-> v <= nth j up 0 /\ (forall a, aup = Some a -> v <= nth j a 0)).
Proof.
  intros up [a|] n j v L La Lj; cbn [tight_up].
  - specialize (La a eq_refl).
    assert (E : nth j (map2 Rmin up a) 0 = Rmin (nth j up 0) (nth j a 0)).
    { clear v. subst n. revert a j La Lj. induction up as [|x up IH]; intros [|y a] j La Lj;
        cbn in *; try lia. destruct j as [|j]; auto. apply IH; lia. }
    rewrite E. split.
    + intros K. split; [eapply Rle_trans; [exact K|apply Rmin_l]|].
      intros b Eb. apply Some_inj in Eb. subst b. eapply Rle_trans; [exact K|apply Rmin_r].
    + intros [K1 K2]. apply Rmin_glb; auto.
  - split; [intros K; split; auto; discriminate|tauto].
Qed.

(** The domain in terms of the bounds that the code computes. *)
Lemma domain_tight : forall S alo aup x u, ex_built S ->
  (forall a, alo = Some a -> length a = ex_nu (ex_kind_ S)) ->
  (forall a, aup = Some a -> length a = ex_nu (ex_kind_ S)) ->
  (ex_domain S alo aup x u <->
   Forall (fun i => nth i (ex_xlo S) 0 <= nth i x 0 <= nth i (ex_xup S) 0)
         (fst (ex_reads (ex_kind_ S))) /\
   Forall (fun j => nth j (tight_lo (ex_ulo S) alo) 0 <= nth j u 0 <=
                    nth j (tight_up (ex_uup S) aup) 0) (snd (ex_reads (ex_kind_ S)))).
Proof.
  intros S alo aup x u (_ & _ & L1 & L2 & _) La Lb. unfold ex_domain.
  assert (Hr : Forall (fun j => (j < ex_nu (ex_kind_ S))%nat) (snd (ex_reads (ex_kind_ S)))).
  { destruct (ex_kind_ S) as [[]|[]| | | |]; cbn; repeat constructor. }
  rewrite !Forall_forall in *.
  split; intros [D1 D2]; (split; [exact D1|]); intros j Hj; specialize (D2 j Hj); specialize (Hr j Hj);
    rewrite (tight_lo_nth _ _ _ _ _ L1 La Hr), (tight_up_nth _ _ _ _ _ L2 Lb Hr) in *; tauto.
Qed.

Lemma ex_built_facts : forall S, ex_built S ->
  length (ex_xlo S) = ex_nx (ex_kind_ S) /\
  out_features (last_layer (ex_net S)) = ex_nout (ex_kind_ S).
Proof.
  intros S (_ & _ & _ & _ & E). unfold new_ex in E.
  destruct (ex_kind_ S);
    match type of E with (if ?b then _ else _) = _ => destruct b eqn:Eb; [|discriminate] end;
    rewrite !andb_true_iff, !Nat.eqb_eq in Eb; intuition.
Qed.

Lemma ex_out_spec : forall n N lo up c A C, net_mic n N lo up c -> ex_out c = Some (A, C) ->
  wfm (out_features (last_layer N)) (num_units (hidden N)) A /\
  length C = out_features (last_layer N) /\
  forall x, length x = n -> vadd (mv A (concat (post_acts (hidden N) x))) C = net_eval N x.
Proof.
  intros n N lo up c A C M E. destruct (net_affine _ _ _ _ _ M) as (A' & E1 & W & E2 & L & F).
  unfold ex_out in E. destruct (nm_aout _ _ _ _ _ M) as [Ei Eb]. rewrite Ei, Eb, E1, E2 in E.
  apply Some_inj in E. apply pair_equal_spec in E. destruct E as [<- <-]. auto.
Qed.


(** The rows x' = x + phi(iv) - p. *)
Lemma delta_rows : forall vt st n N lo up c A C iv z xn xv p k m, net_mic n N lo up c ->
  ex_out c = Some (A, C) -> out_features (last_layer N) = k -> history st m ->
  below (nvars m) xn -> below (nvars m) xv -> below (nvars m) z ->
  length xn = k -> length xv = k -> length z = num_units (hidden N) -> length iv = n ->
  length p = k ->
  let m' := addMConstr [eye k; eyek k (-1); map vneg A] [xn; xv; z] SEq (vsub C p) m in
  nvars m' = nvars m /\ history st m' /\
  exists Rw : assignment -> Prop, (forall sg, feas vt m' sg <-> feas vt m sg /\ Rw sg) /\
    forall sg, map sg z = concat (post_acts (hidden N) (map sg iv)) ->
      (Rw sg <-> map sg xn = vsub (vadd (map sg xv) (net_eval N (map sg iv))) p).
Proof.
  intros vt st n N lo up c A C iv z xn xv p k m M Eo Ek H Bn Bx Bz Ln Lx Lz Li Lp m'.
  destruct (ex_out_spec _ _ _ _ _ _ _ M Eo) as (WA & LC & F). rewrite Ek in *.
  assert (Lb : length (vsub C p) = k) by (rewrite vsub_length; unfold vec in *; congruence).
  assert (We : forall e, wfm k k (eyek k e)) by (intros; split; [apply eyek_length|apply wfm_eyek]).
  assert (Wb : blocks_wf (length (vsub C p)) (combine [eye k; eyek k (-1); map vneg A] [xn; xv; z])).
  { rewrite Lb. cbn [combine]. unfold blocks_wf.
    constructor; [cbn; rewrite Ln; apply We|]. constructor; [cbn; rewrite Lx; apply We|].
    constructor; [|constructor]. cbn. destruct WA as [A1 A2].
    split; [rewrite map_length; auto|]. apply Forall_forall. intros x Hx.
    apply in_map_iff in Hx. destruct Hx as (y & <- & Hy). rewrite vneg_length.
    rewrite Forall_forall in A2. rewrite (A2 y Hy). auto. }
  assert (Bb : below (nvars m) (concat [xn; xv; z])).
  { cbn [concat]. rewrite app_nil_r. apply below_app. split; auto. apply below_app. split; auto. }
  assert (Hne : [eye k; eyek k (-1); map vneg A] <> []) by discriminate.
  destruct (step_addM vt st [eye k; eyek k (-1); map vneg A] [xn; xv; z] SEq (vsub C p) m)
    as (H2 & N2 & F2); auto.
  split; auto. split; auto.
  exists (fun sg => sense_ok SEq (bsum (length (vsub C p))
      (combine [eye k; eyek k (-1); map vneg A] [xn; xv; z]) sg) (vsub C p)).
  split; [exact F2|].
  intros sg Hz. rewrite Lb. cbn [combine bsum sense_ok]. unfold eye. rewrite Hz.
  assert (N1 : length (map sg xn) = k) by (rewrite map_length; auto).
  assert (N4 : length (map sg xv) = k) by (rewrite map_length; auto).
  assert (N7 : length (map sg iv) = n) by (rewrite map_length; auto).
  change (eyek k 1) with (eye k). rewrite mv_eye by auto. rewrite mv_eyek_neg by auto.
  rewrite mv_map_vneg. specialize (F _ N7).
  set (a := mv A (concat (post_acts (hidden N) (map sg iv)))) in *.
  assert (Na : length a = k) by (unfold a; rewrite mv_length; apply WA).
  rewrite residue_v_eq by auto. rewrite F. tauto.
Qed.

(** The rows q' = q + dt/2 (v + v'). *)
Lemma midpoint_step : forall vt st k dt qn q vn v m, history st m ->
  below (nvars m) qn -> below (nvars m) q -> below (nvars m) vn -> below (nvars m) v ->
  length qn = k -> length q = k -> length vn = k -> length v = k ->
  let m' := midpoint_rows k dt qn q vn v m in
  nvars m' = nvars m /\ history st m' /\
  (forall sg, feas vt m' sg <-> feas vt m sg /\
     map sg qn = vadd (map sg q) (vscale (dt / 2) (vadd (map sg v) (map sg vn)))).
Proof.
  intros vt st k dt qn q vn v m H B1 B2 B3 B4 L1 L2 L3 L4 m'.
  assert (We : forall e, wfm k k (eyek k e)) by (intros; split; [apply eyek_length|apply wfm_eyek]).
  destruct (step_addM vt st [eye k; eyek k (-1); eyek k (- dt / 2); eyek k (- dt / 2)]
              [qn; q; vn; v] SEq (zeros k) m) as (H2 & N2 & F2); auto.
  { discriminate. }
  { rewrite zeros_length. cbn [combine]. unfold blocks_wf.
    constructor; [cbn; rewrite L1; apply We|]. constructor; [cbn; rewrite L2; apply We|].
    constructor; [cbn; rewrite L3; apply We|]. constructor; [cbn; rewrite L4; apply We|].
    constructor. }
  { cbn. rewrite app_nil_r. apply below_app. split; auto. apply below_app. split; auto.
    apply below_app. split; auto. }
  split; auto. split; auto. intros sg. unfold m', midpoint_rows. rewrite F2. rewrite zeros_length. cbn [combine bsum sense_ok].
  assert (N1 : length (map sg qn) = k) by (rewrite map_length; auto).
  assert (N4 : length (map sg q) = k) by (rewrite map_length; auto).
  assert (N5 : length (map sg vn) = k) by (rewrite map_length; auto).
  assert (N6 : length (map sg v) = k) by (rewrite map_length; auto).
  unfold eye. change (eyek k 1) with (eye k). rewrite mv_eye by auto.
  rewrite mv_eyek_neg by auto. rewrite !mv_eyek by auto. rewrite residue_q_eq by auto. tauto.
Qed.

(** What adding the encoding gives, in the form used below. *)
Lemma mic_vars : forall vt st n N lo up c iv m m1 z be,
  net_mic n N lo up c -> history st m -> below (nvars m) iv -> length iv = n -> vt <> VCont ->
  add_mic c iv None NewBinary vt m = (m1, z, be) ->
  length z = num_units (hidden N) /\ below (nvars m1) z /\ history st m1 /\
  (forall l, below (nvars m) l -> below (nvars m1) l).
Proof.
  intros vt st n N lo up c iv m m1 z be M H B L V E.
  destruct (net_step st n N lo up c iv vt m m1 z be M H B L V E) as (Z1 & Z2 & Z3 & S1 & S2 & _).
  split; [subst z; apply seq_length|]. split.
  { subst z. unfold below. apply Forall_forall. intros i Hi. apply in_seq in Hi. lia. }
  split; auto. intros l Hl. eapply Forall_impl; [|exact Hl]. cbv beta. intros. lia.
Qed.

Ltac below_list := unfold below in *;
  repeat match goal with H : Forall _ (_ :: _) |- _ => apply Forall_cons_iff in H; destruct H end;
  repeat (apply Forall_cons || apply Forall_nil); auto.

Lemma vec2 : forall {A} (l : list A), length l = 2%nat -> exists a b, l = [a; b].
Proof. intros A [|a [|b [|c l]]] E; try discriminate. eauto. Qed.
Lemma vec3 : forall {A} (l : list A), length l = 3%nat -> exists a b c, l = [a; b; c].
Proof. intros A [|a [|b [|c [|d l]]]] E; try discriminate. eauto. Qed.
Lemma vec4 : forall {A} (l : list A), length l = 4%nat -> exists a b c d, l = [a; b; c; d].
Proof. intros A [|a [|b [|c [|d [|e l]]]]] E; try discriminate. eauto 6. Qed.
Lemma uni_in_length : forall {A} td (a b c : A), length (uni_in td a b c) = (if td then 3 else 2)%nat.
Proof. intros A []; reflexivity. Qed.
Lemma uni_in_map : forall {A B} (f : A -> B) td a b c,
  map f (uni_in td a b c) = uni_in td (f a) (f b) (f c).
Proof. intros A B f []; reflexivity. Qed.
Lemma vleb_refl : forall v, vleb v v = true.
Proof. intros v. apply vleb_spec. unfold vle. induction v; constructor; auto; lra. Qed.

Lemma unicycle_step : forall S td vt st m m' xv xn uv alo aup r,
  ex_built S -> ex_kind_ S = KUnicycle td -> vt <> VCont -> history st m ->
  below (nvars m) xv -> below (nvars m) xn -> below (nvars m) uv ->
  length xv = 3%nat -> length xn = 3%nat -> length uv = 2%nat ->
  (forall a, alo = Some a -> length a = 2%nat) -> (forall a, aup = Some a -> length a = 2%nat) ->
  unicycle_add solve S td xv xn uv (tight_lo (ex_ulo S) alo) (tight_up (ex_uup S) aup) vt m
    = Some (m', r) ->
  step vt st m m'
    (fun sg => ex_domain S alo aup (map sg xv) (map sg uv) /\
               ex_move S (map sg xv) (map sg uv) = Some (map sg xn))
    (fun sg => ex_domain S alo aup (map sg xv) (map sg uv) /\
               ex_move S (map sg xv) (map sg uv) = Some (map sg xn)).
Proof.
  intros S td vt st m m' xv xn uv alo aup r Bt Ek Vt H Bx Bn Bu Lx Ln Lu La Lb E.
  assert (Bt' := Bt). destruct Bt' as (W & Lxu & Lul & Luu & _).
  destruct (ex_built_facts _ Bt) as [Lxl Lo].
  assert (DT : forall sg, ex_domain S alo aup (map sg xv) (map sg uv) <->
    Forall (fun i => nth i (ex_xlo S) 0 <= nth i (map sg xv) 0 <= nth i (ex_xup S) 0)
         (fst (ex_reads (ex_kind_ S))) /\
    Forall (fun j => nth j (tight_lo (ex_ulo S) alo) 0 <= nth j (map sg uv) 0 <=
                    nth j (tight_up (ex_uup S) aup) 0) (snd (ex_reads (ex_kind_ S)))).
  { intros sg. apply domain_tight; auto; rewrite Ek; auto. }
  rewrite Ek in *. cbn [ex_nx ex_nu ex_nin ex_nout] in *.
  destruct (tight_length _ _ _ _ _ Lul Luu La Lb) as [T1 T2].
  destruct (vec2 _ T1) as (l0 & l1 & Et1). destruct (vec2 _ T2) as (p0 & p1 & Et2).
  rewrite Et1, Et2 in *.
  destruct (vec3 _ Lxl) as (y0 & y1 & tlo & Exl). destruct (vec3 _ Lxu) as (q0 & q1 & tup & Exu).
  destruct (vec3 _ Lx) as (x0 & x1 & x2 & ->). destruct (vec3 _ Ln) as (n0 & n1 & n2 & ->).
  destruct (vec2 _ Lu) as (v0 & v1 & ->).
  unfold unicycle_add in E. rewrite Exl, Exu in *.
  set (lo := uni_in td tlo l0 l1) in *. set (up := uni_in td tup p0 p1) in *.
  set (iv := uni_in td x2 v0 v1) in *.
  destruct (ex_encode solve (KUnicycle td) (ex_net S) lo up) as [[c B]|] eqn:Ec; [|discriminate].
  destruct (add_mic c iv None NewBinary vt m) as [[m1 z] be] eqn:Em.
  destruct (ex_out c) as [[A C]|] eqn:Eo; [|discriminate].
  set (ph := forward (ex_net S) (zeros (if td then 3 else 2))) in *.
  set (m2 := addMConstr [eye 2; eyek 2 (-1); map vneg A] [[n0; n1]; [x0; x1]; z] SEq (vsub C ph) m1) in *.
  destruct (addLConstr [[1; -1; - ex_dt S]] [[n2; x2; v1]] SEq 0 m2) as [m3|] eqn:El; [|discriminate].
  apply Some_inj in E. apply pair_equal_spec in E. destruct E as [-> _].
  assert (M : net_mic (if td then 3 else 2) (ex_net S) lo up c).
  { eapply ex_encode_mic; eauto; apply uni_in_length. }
  assert (Bi : below (nvars m) iv) by (unfold iv, uni_in; destruct td; below_list).
  assert (Li : length iv = if td then 3%nat else 2%nat) by apply uni_in_length.
  destruct (mic_vars vt st _ _ _ _ _ _ _ _ _ _ M H Bi Li Vt Em) as (Lz & Bz & H1 & Up).
  assert (Lp : length ph = 2%nat).
  { unfold ph. rewrite (forward_eval _ _ _ W) by apply zeros_length.
    rewrite (net_eval_length _ _ _ W) by apply zeros_length. auto. }
  destruct (delta_rows vt st _ _ _ _ _ A C iv z [n0; n1] [x0; x1] ph 2 m1 M Eo Lo H1)
    as (N2 & H2 & Rw & F2 & X2); auto; try (apply Up; below_list).
  fold m2 in N2, H2, F2.
  destruct (addL_row vt st _ _ _ _ El H2 eq_refl) as (N3 & H3 & F3).
  { rewrite N2. apply Up. below_list. }
  eapply step_weaken; [eapply (rows_step vt st _ _ _ _ _ _ _ _ _ _ m'
      (fun sg => Rw sg /\ dot [1; -1; - ex_dt S] (map sg [n2; x2; v1]) = 0)
      (fun sg => ex_move S (map sg [x0; x1; x2]) (map sg [v0; v1]) = Some (map sg [n0; n1; n2]))
      M H Bi Li Vt Em); auto| |].
  - congruence.
  - intros sg. rewrite F3, F2. tauto.
  - apply (local3 m [x0; x1; x2] [v0; v1] [n0; n1; n2] (fun a b c => ex_move S a b = Some c)); auto.
  - intros sg Hz. rewrite (X2 sg Hz).
    unfold ex_move, ex_step. cbn [ex_kind_ ex_net ex_dt ex_uup ex_ulo]. rewrite Ek.
    cbn [map]. rewrite vleb_refl. cbn [andb].
    assert (Li' : length (map sg iv) = if td then 3%nat else 2%nat) by (rewrite map_length; auto).
    rewrite <- (forward_eval _ _ _ W Li').
    assert (Ey : length (forward (ex_net S) (map sg iv)) = 2%nat).
    { rewrite (forward_eval _ _ _ W Li'), (net_eval_length _ _ _ W Li'); auto. }
    assert (Ed : (if td then vsub (forward (ex_net S) [sg x2; sg v0; sg v1]) (forward (ex_net S) (zeros 3))
                  else vsub (forward (ex_net S) [sg x2; sg v0]) (forward (ex_net S) (zeros 2)))
                 = vsub (forward (ex_net S) (map sg iv)) ph).
    { unfold ph, iv. rewrite uni_in_map. destruct td; reflexivity. }
    rewrite Ed. clear Ed.
    destruct (vec2 _ Ey) as (f0 & f1 & Ef). destruct (vec2 _ Lp) as (h0 & h1 & Eh).
    rewrite Ef, Eh. cbn.
    rewrite !cons_eq_iff. split.
    + intros ((K1 & K2 & _) & K3). f_equal. f_equal; [lra|]. f_equal; [lra|]. f_equal. lra.
    + intros K. apply Some_inj in K. rewrite !cons_eq_iff in K. destruct K as (K1 & K2 & K3 & _).
      repeat split; lra.
  - cbv beta. intros sg _ [D1 D2]. split; auto. apply DT in D1.
    unfold iv, lo, up. rewrite uni_in_map. clear - D1.
    destruct td; cbn in D1; destruct D1 as [D1 D2]; rewrite !Forall_cons_iff in *;
      unfold in_box, uni_in; rewrite !vle_cons, vle_nil; tauto.
  - cbv beta. intros sg _ [D1 D2]. split; auto. apply DT.
    unfold iv, lo, up in D1. rewrite uni_in_map in D1. clear - D1.
    destruct td; cbn; unfold in_box, uni_in in D1; rewrite !vle_cons in D1;
      rewrite !Forall_cons_iff; repeat split; try apply Forall_nil; tauto.
Qed.

Ltac solve_rows := first [lra | 
  repeat match goal with H : ?a = _ |- context [?a] => rewrite H; clear H end; lra |
  repeat match goal with H : _ = ?a |- context [?a] => rewrite <- H; clear H end; lra].
Ltac conc l := repeat (destruct l as [|? l]; [discriminate|]); destruct l as [|? l]; [|discriminate].

Lemma accel_step : forall S vt st m m' xv xn uv alo aup r,
  ex_built S -> ex_kind_ S = KAccel -> vt <> VCont -> history st m ->
  below (nvars m) xv -> below (nvars m) xn -> below (nvars m) uv ->
  length xv = 4%nat -> length xn = 4%nat -> length uv = 2%nat ->
  (forall a, alo = Some a -> length a = 2%nat) -> (forall a, aup = Some a -> length a = 2%nat) ->
  accel_add solve S xv xn uv (tight_lo (ex_ulo S) alo) (tight_up (ex_uup S) aup) vt m
    = Some (m', r) ->
  step vt st m m'
    (fun sg => ex_domain S alo aup (map sg xv) (map sg uv) /\
               ex_move S (map sg xv) (map sg uv) = Some (map sg xn))
    (fun sg => ex_domain S alo aup (map sg xv) (map sg uv) /\
               ex_move S (map sg xv) (map sg uv) = Some (map sg xn)).
Proof.
  intros S vt st m m' xv xn uv alo aup r Bt Ek Vt H Bx Bn Bu Lx Ln Lu La Lb E.
  assert (Bt' := Bt). destruct Bt' as (W & Lxu & Lul & Luu & _).
  destruct (ex_built_facts _ Bt) as [Lxl Lo].
  assert (DT : forall sg, ex_domain S alo aup (map sg xv) (map sg uv) <->
    Forall (fun i => nth i (ex_xlo S) 0 <= nth i (map sg xv) 0 <= nth i (ex_xup S) 0)
         (fst (ex_reads (ex_kind_ S))) /\
    Forall (fun j => nth j (tight_lo (ex_ulo S) alo) 0 <= nth j (map sg uv) 0 <=
                    nth j (tight_up (ex_uup S) aup) 0) (snd (ex_reads (ex_kind_ S)))).
  { intros sg. apply domain_tight; auto; rewrite Ek; auto. }
  rewrite Ek in *. cbn [ex_nx ex_nu ex_nin ex_nout] in *.
  destruct (tight_length _ _ _ _ _ Lul Luu La Lb) as [T1 T2].
  destruct (vec2 _ T1) as (l0 & l1 & Et1). destruct (vec2 _ T2) as (p0 & p1 & Et2).
  rewrite Et1, Et2 in *.
  destruct (vec4 _ Lxl) as (y0 & y1 & tlo & slo & Exl).
  destruct (vec4 _ Lxu) as (q0 & q1 & tup & sup & Exu).
  destruct (vec4 _ Lx) as (x0 & x1 & x2 & x3 & ->). destruct (vec4 _ Ln) as (n0 & n1 & n2 & n3 & ->).
  destruct (vec2 _ Lu) as (v0 & v1 & ->).
  unfold accel_add in E. rewrite Exl, Exu in *.
  set (lo := [tlo; slo; l0; l1]) in *. set (up := [tup; sup; p0; p1]) in *.
  set (iv := [x2; x3; v0; v1]) in *.
  destruct (ex_encode solve KAccel (ex_net S) lo up) as [[c B]|] eqn:Ec; [|discriminate].
  destruct (add_mic c iv None NewBinary vt m) as [[m1 z] be] eqn:Em.
  destruct (ex_out c) as [[A C]|] eqn:Eo; [|discriminate].
  set (ph := forward (ex_net S) (zeros 4)) in *.
  set (m2 := addMConstr [eye 2; eyek 2 (-1); map vneg A] [[n0; n1]; [x0; x1]; z] SEq (vsub C ph) m1) in *.
  destruct (addLConstr [[1; -1; - ex_dt S]] [[n2; x2; v0]] SEq 0 m2) as [m3|] eqn:El; [|discriminate].
  destruct (addLConstr [[1; -1; - ex_dt S]] [[n3; x3; v1]] SEq 0 m3) as [m4|] eqn:El2; [|discriminate].
  apply Some_inj in E. apply pair_equal_spec in E. destruct E as [-> _].
  assert (M : net_mic 4 (ex_net S) lo up c).
  { eapply ex_encode_mic; eauto; reflexivity. }
  assert (Bi : below (nvars m) iv) by (unfold iv; below_list).
  assert (Li : length iv = 4%nat) by reflexivity.
  destruct (mic_vars vt st _ _ _ _ _ _ _ _ _ _ M H Bi Li Vt Em) as (Lz & Bz & H1 & Up).
  assert (Lp : length ph = 2%nat).
  { unfold ph. rewrite (forward_eval _ _ _ W) by apply zeros_length.
    rewrite (net_eval_length _ _ _ W) by apply zeros_length. auto. }
  destruct (delta_rows vt st _ _ _ _ _ A C iv z [n0; n1] [x0; x1] ph 2 m1 M Eo Lo H1)
    as (N2 & H2 & Rw & F2 & X2); auto; try (apply Up; below_list).
  fold m2 in N2, H2, F2.
  destruct (addL_row vt st _ _ _ _ El H2 eq_refl) as (N3 & H3 & F3).
  { rewrite N2. apply Up. below_list. }
  destruct (addL_row vt st _ _ _ _ El2 H3 eq_refl) as (N4 & H4 & F4).
  { rewrite N3, N2. apply Up. below_list. }
  eapply step_weaken; [eapply (rows_step vt st _ _ _ _ _ _ _ _ _ _ m'
      (fun sg => (Rw sg /\ dot [1; -1; - ex_dt S] (map sg [n2; x2; v0]) = 0) /\
                 dot [1; -1; - ex_dt S] (map sg [n3; x3; v1]) = 0)
      (fun sg => ex_move S (map sg [x0; x1; x2; x3]) (map sg [v0; v1]) = Some (map sg [n0; n1; n2; n3]))
      M H Bi Li Vt Em); auto| |].
  - congruence.
  - intros sg. rewrite F4, F3, F2. tauto.
  - apply (local3 m [x0; x1; x2; x3] [v0; v1] [n0; n1; n2; n3] (fun a b c => ex_move S a b = Some c)); auto.
  - intros sg Hz. rewrite (X2 sg Hz).
    unfold ex_move, ex_step. cbn [ex_kind_ ex_net ex_dt ex_uup ex_ulo]. rewrite Ek.
    assert (Li' : length (map sg iv) = 4%nat) by (rewrite map_length; auto).
    rewrite <- (forward_eval _ _ _ W Li').
    assert (Ey : length (forward (ex_net S) (map sg iv)) = 2%nat).
    { rewrite (forward_eval _ _ _ W Li'), (net_eval_length _ _ _ W Li'); auto. }
    change (forward (ex_net S) (skipn 2 (ex_xeq KAccel) ++ ex_ueq KAccel)) with ph.
    unfold iv in *. cbn [map] in *.
    destruct (vec2 _ Ey) as (f0 & f1 & Ef). destruct (vec2 _ Lp) as (h0 & h1 & Eh).
    rewrite Ef, Eh. cbn.
    rewrite !cons_eq_iff. split.
    + intros (((K1 & K2 & _) & K3) & K4). f_equal. f_equal; [lra|]. f_equal; [lra|]. f_equal; [lra|].
      f_equal; lra.
    + intros K. apply Some_inj in K. rewrite !cons_eq_iff in K. destruct K as (K1 & K2 & K3 & K4 & _).
      repeat split; lra.
  - cbv beta. intros sg _ [D1 D2]. split; auto. apply DT in D1.
    unfold iv, lo, up. clear - D1.
    cbn in D1; destruct D1 as [D1 D2]; rewrite !Forall_cons_iff in *;
      unfold in_box; cbn [map]; rewrite !vle_cons, vle_nil; tauto.
  - cbv beta. intros sg _ [D1 D2]. split; auto. apply DT.
    unfold iv, lo, up in D1. clear - D1.
    cbn; unfold in_box in D1; cbn [map] in D1; rewrite !vle_cons in D1;
      rewrite !Forall_cons_iff; repeat split; try apply Forall_nil; tauto.
Qed.

Lemma pixhawk_step : forall S h vt st m m' xv xn uv alo aup r,
  ex_built S -> ex_kind_ S = KPixhawk h -> vt <> VCont -> history st m ->
  below (nvars m) xv -> below (nvars m) xn -> below (nvars m) uv ->
  length xv = 9%nat -> length xn = 9%nat -> length uv = 4%nat ->
  (forall a, alo = Some a -> length a = 4%nat) -> (forall a, aup = Some a -> length a = 4%nat) ->
  pixhawk_add solve S xv xn uv (tight_lo (ex_ulo S) alo) (tight_up (ex_uup S) aup) vt m
    = Some (m', r) ->
  step vt st m m'
    (fun sg => ex_domain S alo aup (map sg xv) (map sg uv) /\
               ex_move S (map sg xv) (map sg uv) = Some (map sg xn))
    (fun sg => ex_domain S alo aup (map sg xv) (map sg uv) /\
               ex_move S (map sg xv) (map sg uv) = Some (map sg xn)).
Proof.
  intros S hov vt st m m' xv xn uv alo aup r Bt Ek Vt H Bx Bn Bu Lx Ln Lu La Lb E.
  assert (Bt' := Bt). destruct Bt' as (W & Lxu & Lul & Luu & _).
  destruct (ex_built_facts _ Bt) as [Lxl Lo].
  assert (DT : forall sg, ex_domain S alo aup (map sg xv) (map sg uv) <->
    Forall (fun i => nth i (ex_xlo S) 0 <= nth i (map sg xv) 0 <= nth i (ex_xup S) 0)
         (fst (ex_reads (ex_kind_ S))) /\
    Forall (fun j => nth j (tight_lo (ex_ulo S) alo) 0 <= nth j (map sg uv) 0 <=
                    nth j (tight_up (ex_uup S) aup) 0) (snd (ex_reads (ex_kind_ S)))).
  { intros sg. apply domain_tight; auto; rewrite Ek; auto. }
  rewrite Ek in *. cbn [ex_nx ex_nu ex_nin ex_nout] in *.
  destruct (tight_length _ _ _ _ _ Lul Luu La Lb) as [T1 T2].
  unfold pixhawk_add in E. rewrite Ek in E.
  set (tl := tight_lo (ex_ulo S) alo) in *. set (tu := tight_up (ex_uup S) aup) in *.
  set (xl := ex_xlo S) in *. set (xu := ex_xup S) in *. clearbody tl tu xl xu.
  conc tl. conc tu. conc xl. conc xu. conc xv. conc xn. conc uv.
  unfold part in E. cbn [firstn skipn app Nat.sub] in E.
  match type of E with context [ex_encode _ _ _ ?a ?b] => set (lo := a) in *; set (up := b) in * end.
  match type of E with context [add_mic _ ?a] => set (iv := a) in * end.
  destruct (ex_encode solve (KPixhawk hov) (ex_net S) lo up) as [[c B]|] eqn:Ec; [|discriminate].
  destruct (add_mic c iv None NewBinary vt m) as [[m1 z] be] eqn:Em.
  destruct (ex_out c) as [[A C]|] eqn:Eo; [|discriminate].
  match type of E with context [vsub C ?p] => set (ph := p) in * end.
  match type of E with context [midpoint_rows _ _ _ _ _ _ ?a] => set (m2 := a) in * end.
  apply Some_inj in E. apply pair_equal_spec in E. destruct E as [E _].
  assert (M : net_mic 7 (ex_net S) lo up c).
  { eapply ex_encode_mic; eauto; reflexivity. }
  assert (Bi : below (nvars m) iv) by (unfold iv; below_list).
  assert (Li : length iv = 7%nat) by reflexivity.
  destruct (mic_vars vt st _ _ _ _ _ _ _ _ _ _ M H Bi Li Vt Em) as (Lz & Bz & H1 & Up).
  assert (Lp : length ph = 6%nat).
  { unfold ph. rewrite (forward_eval _ _ _ W) by reflexivity.
    rewrite (net_eval_length _ _ _ W) by reflexivity. auto. }
  match eval cbv delta [m2] in m2 with addMConstr _ [?a; ?b; _] _ _ _ =>
    destruct (delta_rows vt st _ _ _ _ _ A C iv z a b ph 6 m1 M Eo Lo H1)
      as (N2 & H2 & Rw & F2 & X2); auto; try (apply Up; below_list)
  end.
  fold m2 in N2, H2, F2.
  match type of E with midpoint_rows _ _ ?a ?b ?c ?d _ = _ =>
    destruct (midpoint_step vt st 3 (ex_dt S) a b c d m2 H2) as (N3 & H3 & F3); auto;
      try (rewrite N2; apply Up; below_list) end.
  rewrite E in *.
  match type of Bx with below _ ?x => match type of Bn with below _ ?y => match type of Bu with below _ ?u =>
  match type of F3 with forall sg, _ <-> _ /\ @?q sg =>
  eapply step_weaken; [eapply (rows_step vt st _ _ _ _ _ _ _ _ _ _ m' (fun sg => Rw sg /\ q sg)
      (fun sg => ex_move S (map sg x) (map sg u) = Some (map sg y))
      M H Bi Li Vt Em); auto| |] end end end end.
  - congruence.
  - intros sg. rewrite F3, F2. tauto.
  - match goal with |- local m (fun sg => ex_move S (map sg ?x) (map sg ?u) = Some (map sg ?y)) =>
      apply (local3 m x u y (fun a b c => ex_move S a b = Some c)); auto end.
  - intros sg Hz. rewrite (X2 sg Hz).
    unfold ex_move, ex_step. cbn [ex_kind_ ex_net ex_dt ex_uup ex_ulo]. rewrite Ek.
    assert (Li' : length (map sg iv) = 7%nat) by (rewrite map_length; auto).
    rewrite <- (forward_eval _ _ _ W Li').
    assert (Ey : length (forward (ex_net S) (map sg iv)) = 6%nat).
    { rewrite (forward_eval _ _ _ W Li'), (net_eval_length _ _ _ W Li'); auto. }
    unfold part.
    change (forward (ex_net S) (zeros 3 ++ ex_ueq (KPixhawk hov))) with ph.
    cbn [map firstn skipn app Nat.sub length Nat.eqb andb].
    unfold iv in *. cbn [map] in *.
    match type of Ey with length ?f = _ => set (ff := f) in *; clearbody ff end.
    clearbody ph. conc ff. conc ph. cbn.
    rewrite !cons_eq_iff. split.
    + intros K. f_equal. rewrite !cons_eq_iff. decompose [and] K. repeat split; solve_rows.
    + intros K. apply Some_inj in K. rewrite !cons_eq_iff in K. decompose [and] K.
      repeat split; solve_rows.
  - cbv beta. intros sg _ [D1 D2]. split; auto. apply DT in D1.
    unfold iv, lo, up. clear - D1.
    cbn in D1; destruct D1 as [D1 D2]; rewrite !Forall_cons_iff in *;
      unfold in_box; cbn [map]; rewrite !vle_cons, vle_nil; tauto.
  - cbv beta. intros sg _ [D1 D2]. split; auto. apply DT.
    unfold iv, lo, up in D1. clear - D1.
    cbn; unfold in_box in D1; cbn [map] in D1; rewrite !vle_cons in D1;
      rewrite !Forall_cons_iff; repeat split; try apply Forall_nil; tauto.
Qed.
Lemma pole_step : forall S h meth vt st m m' xv xn uv alo aup r,
  ex_built S -> ex_kind_ S = KPole h meth -> vt <> VCont -> history st m ->
  below (nvars m) xv -> below (nvars m) xn -> below (nvars m) uv ->
  length xv = 7%nat -> length xn = 7%nat -> length uv = 3%nat ->
  (forall a, alo = Some a -> length a = 3%nat) -> (forall a, aup = Some a -> length a = 3%nat) ->
  pole_add solve S xv xn uv (tight_lo (ex_ulo S) alo) (tight_up (ex_uup S) aup) vt m
    = Some (m', r) ->
  step vt st m m'
    (fun sg => ex_domain S alo aup (map sg xv) (map sg uv) /\
               ex_move S (map sg xv) (map sg uv) = Some (map sg xn))
    (fun sg => ex_domain S alo aup (map sg xv) (map sg uv) /\
               ex_move S (map sg xv) (map sg uv) = Some (map sg xn)).
Proof.
  intros S hov meth vt st m m' xv xn uv alo aup r Bt Ek Vt H Bx Bn Bu Lx Ln Lu La Lb E.
  assert (Bt' := Bt). destruct Bt' as (W & Lxu & Lul & Luu & _).
  destruct (ex_built_facts _ Bt) as [Lxl Lo].
  assert (DT : forall sg, ex_domain S alo aup (map sg xv) (map sg uv) <->
    Forall (fun i => nth i (ex_xlo S) 0 <= nth i (map sg xv) 0 <= nth i (ex_xup S) 0)
         (fst (ex_reads (ex_kind_ S))) /\
    Forall (fun j => nth j (tight_lo (ex_ulo S) alo) 0 <= nth j (map sg uv) 0 <=
                    nth j (tight_up (ex_uup S) aup) 0) (snd (ex_reads (ex_kind_ S)))).
  { intros sg. apply domain_tight; auto; rewrite Ek; auto. }
  rewrite Ek in *. cbn [ex_nx ex_nu ex_nin ex_nout] in *.
  destruct (tight_length _ _ _ _ _ Lul Luu La Lb) as [T1 T2].
  unfold pole_add in E. rewrite Ek in E.
  set (tl := tight_lo (ex_ulo S) alo) in *. set (tu := tight_up (ex_uup S) aup) in *.
  set (xl := ex_xlo S) in *. set (xu := ex_xup S) in *. clearbody tl tu xl xu.
  conc tl. conc tu. conc xl. conc xu. conc xv. conc xn. conc uv.
  unfold last2 in E. cbn [length firstn skipn app Nat.sub] in E.
  match type of E with context [ex_encode _ _ _ ?a ?b] => set (lo := a) in *; set (up := b) in * end.
  match type of E with context [add_mic _ ?a] => set (iv := a) in * end.
  destruct (ex_encode solve (KPole hov meth) (ex_net S) lo up) as [[c B]|] eqn:Ec; [|discriminate].
  destruct (add_mic c iv None NewBinary vt m) as [[m1 z] be] eqn:Em.
  destruct (ex_out c) as [[A C]|] eqn:Eo; [|discriminate].
  match type of E with context [vsub C ?p] => set (ph := p) in * end.
  match type of E with context [midpoint_rows _ _ _ _ _ _ ?a] => set (m2 := a) in * end.
  apply Some_inj in E. apply pair_equal_spec in E. destruct E as [E _].
  assert (M : net_mic 7 (ex_net S) lo up c).
  { eapply ex_encode_mic; eauto; reflexivity. }
  assert (Bi : below (nvars m) iv) by (unfold iv; below_list).
  assert (Li : length iv = 7%nat) by reflexivity.
  destruct (mic_vars vt st _ _ _ _ _ _ _ _ _ _ M H Bi Li Vt Em) as (Lz & Bz & H1 & Up).
  assert (Lp : length ph = 5%nat).
  { unfold ph. rewrite (forward_eval _ _ _ W) by reflexivity.
    rewrite (net_eval_length _ _ _ W) by reflexivity. auto. }
  match eval cbv delta [m2] in m2 with addMConstr _ [?a; ?b; _] _ _ _ =>
    destruct (delta_rows vt st _ _ _ _ _ A C iv z a b ph 5 m1 M Eo Lo H1)
      as (N2 & H2 & Rw & F2 & X2); auto; try (apply Up; below_list)
  end.
  fold m2 in N2, H2, F2.
  match type of E with midpoint_rows _ _ ?a ?b ?c ?d _ = _ =>
    destruct (midpoint_step vt st 2 (ex_dt S) a b c d m2 H2) as (N3 & H3 & F3); auto;
      try (rewrite N2; apply Up; below_list) end.
  rewrite E in *.
  match type of Bx with below _ ?x => match type of Bn with below _ ?y => match type of Bu with below _ ?u =>
  match type of F3 with forall sg, _ <-> _ /\ @?q sg =>
  eapply step_weaken; [eapply (rows_step vt st _ _ _ _ _ _ _ _ _ _ m' (fun sg => Rw sg /\ q sg)
      (fun sg => ex_move S (map sg x) (map sg u) = Some (map sg y))
      M H Bi Li Vt Em); auto| |] end end end end.
  - congruence.
  - intros sg. rewrite F3, F2. tauto.
  - match goal with |- local m (fun sg => ex_move S (map sg ?x) (map sg ?u) = Some (map sg ?y)) =>
      apply (local3 m x u y (fun a b c => ex_move S a b = Some c)); auto end.
  - intros sg Hz. rewrite (X2 sg Hz).
    unfold ex_move, ex_step. cbn [ex_kind_ ex_net ex_dt ex_uup ex_ulo]. rewrite Ek.
    assert (Li' : length (map sg iv) = 7%nat) by (rewrite map_length; auto).
    rewrite <- (forward_eval _ _ _ W Li').
    assert (Ey : length (forward (ex_net S) (map sg iv)) = 5%nat).
    { rewrite (forward_eval _ _ _ W Li'), (net_eval_length _ _ _ W Li'); auto. }
    unfold part.
    change (forward (ex_net S) (firstn 2 (ex_xeq (KPole hov meth)) ++ skipn 5 (ex_xeq (KPole hov meth)) ++ ex_ueq (KPole hov meth))) with ph.
    cbn [map firstn skipn app Nat.sub length Nat.eqb andb].
    unfold iv in *. cbn [map] in *.
    match type of Ey with length ?f = _ => set (ff := f) in *; clearbody ff end.
    clearbody ph. conc ff. conc ph. cbn.
    rewrite !cons_eq_iff. split.
    + intros K. f_equal. rewrite !cons_eq_iff. decompose [and] K. repeat split; solve_rows.
    + intros K. apply Some_inj in K. rewrite !cons_eq_iff in K. decompose [and] K.
      repeat split; solve_rows.
  - cbv beta. intros sg _ [D1 D2]. split; auto. apply DT in D1.
    unfold iv, lo, up. clear - D1.
    cbn in D1; destruct D1 as [D1 D2]; rewrite !Forall_cons_iff in *;
      unfold in_box; cbn [map]; rewrite !vle_cons, vle_nil; tauto.
  - cbv beta. intros sg _ [D1 D2]. split; auto. apply DT.
    unfold iv, lo, up in D1. clear - D1.
    cbn; unfold in_box in D1; cbn [map] in D1; rewrite !vle_cons in D1;
      rewrite !Forall_cons_iff; repeat split; try apply Forall_nil; tauto.
Qed.

(** The rows x'[3:] = [0; v; 0] + phi(iv) - p of the quadrotor. *)
Lemma quad_rows : forall vt st n N lo up c A C iv z xn xv p m, net_mic n N lo up c ->
  ex_out c = Some (A, C) -> out_features (last_layer N) = 9%nat -> history st m ->
  below (nvars m) xn -> below (nvars m) xv -> below (nvars m) z ->
  length xn = 9%nat -> length xv = 3%nat -> length z = num_units (hidden N) -> length iv = n ->
  length p = 9%nat ->
  let m' := addMConstr [eye 9; zerom 3 3 ++ eyek 3 (-1) ++ zerom 3 3; map vneg A] [xn; xv; z] SEq
              (vsub C p) m in
  nvars m' = nvars m /\ history st m' /\
  exists Rw : assignment -> Prop, (forall sg, feas vt m' sg <-> feas vt m sg /\ Rw sg) /\
    forall sg, map sg z = concat (post_acts (hidden N) (map sg iv)) ->
      (Rw sg <-> map sg xn = vsub (vadd (zeros 3 ++ map sg xv ++ zeros 3) (net_eval N (map sg iv))) p).
Proof.
  intros vt st n N lo up c A C iv z xn xv p m M Eo Ek H Bn Bx Bz Ln Lx Lz Li Lp m'.
  destruct (ex_out_spec _ _ _ _ _ _ _ M Eo) as (WA & LC & F). rewrite Ek in *.
  assert (Lb : length (vsub C p) = 9%nat) by (rewrite vsub_length; unfold vec in *; congruence).
  set (G := zerom 3 3 ++ eyek 3 (-1) ++ zerom 3 3) in *.
  assert (Wb : blocks_wf (length (vsub C p)) (combine [eye 9; G; map vneg A] [xn; xv; z])).
  { rewrite Lb. cbn [combine]. unfold blocks_wf.
    constructor; [cbn [fst snd]; rewrite Ln; split; [apply eyek_length|apply wfm_eyek]|].
    constructor; [cbn [fst snd]; rewrite Lx; split; [reflexivity|repeat constructor]|].
    constructor; [|constructor]. cbn. destruct WA as [A1 A2].
    split; [rewrite map_length; auto|]. apply Forall_forall. intros x Hx.
    apply in_map_iff in Hx. destruct Hx as (y & <- & Hy). rewrite vneg_length.
    rewrite Forall_forall in A2. rewrite (A2 y Hy). auto. }
  assert (Bb : below (nvars m) (concat [xn; xv; z])).
  { cbn [concat]. rewrite app_nil_r. apply below_app. split; auto. apply below_app. split; auto. }
  assert (Hne : [eye 9; G; map vneg A] <> []) by discriminate.
  destruct (step_addM vt st [eye 9; G; map vneg A] [xn; xv; z] SEq (vsub C p) m)
    as (H2 & N2 & F2); auto.
  split; auto. split; auto.
  exists (fun sg => sense_ok SEq (bsum (length (vsub C p))
      (combine [eye 9; G; map vneg A] [xn; xv; z]) sg) (vsub C p)).
  split; [exact F2|].
  intros sg Hz. rewrite Lb. cbn [combine bsum sense_ok]. rewrite Hz.
  assert (N1 : length (map sg xn) = 9%nat) by (rewrite map_length; auto).
  assert (N4 : length (map sg xv) = 3%nat) by (rewrite map_length; auto).
  assert (N7 : length (map sg iv) = n) by (rewrite map_length; auto).
  rewrite mv_eye by auto.
  assert (EG : mv G (map sg xv) = vneg (zeros 3 ++ map sg xv ++ zeros 3)).
  { destruct (vec3 _ N4) as (a & b & d & ->). unfold G, zerom, eyek. cbn.
    rewrite !cons_eq_iff. repeat split; ring. }
  rewrite EG, mv_map_vneg. specialize (F _ N7).
  set (a := mv A (concat (post_acts (hidden N) (map sg iv)))) in *.
  assert (Na : length a = 9%nat) by (unfold a; rewrite mv_length; apply WA).
  rewrite residue_v_eq; auto. 2: { rewrite !app_length, !zeros_length. lia. }
  rewrite F. tauto.
Qed.

Lemma quad_step : forall S h meth vt st m m' xv xn uv alo aup r,
  ex_built S -> ex_kind_ S = KQuad h meth -> vt <> VCont -> history st m ->
  below (nvars m) xv -> below (nvars m) xn -> below (nvars m) uv ->
  length xv = 12%nat -> length xn = 12%nat -> length uv = 4%nat ->
  (forall a, alo = Some a -> length a = 4%nat) -> (forall a, aup = Some a -> length a = 4%nat) ->
  quad_add solve S xv xn uv (tight_lo (ex_ulo S) alo) (tight_up (ex_uup S) aup) vt m
    = Some (m', r) ->
  step vt st m m'
    (fun sg => ex_domain S alo aup (map sg xv) (map sg uv) /\
               ex_move S (map sg xv) (map sg uv) = Some (map sg xn))
    (fun sg => ex_domain S alo aup (map sg xv) (map sg uv) /\
               ex_move S (map sg xv) (map sg uv) = Some (map sg xn)).
Proof.
  intros S hov meth vt st m m' xv xn uv alo aup r Bt Ek Vt H Bx Bn Bu Lx Ln Lu La Lb E.
  assert (Bt' := Bt). destruct Bt' as (W & Lxu & Lul & Luu & _).
  destruct (ex_built_facts _ Bt) as [Lxl Lo].
  assert (DT : forall sg, ex_domain S alo aup (map sg xv) (map sg uv) <->
    Forall (fun i => nth i (ex_xlo S) 0 <= nth i (map sg xv) 0 <= nth i (ex_xup S) 0)
         (fst (ex_reads (ex_kind_ S))) /\
    Forall (fun j => nth j (tight_lo (ex_ulo S) alo) 0 <= nth j (map sg uv) 0 <=
                    nth j (tight_up (ex_uup S) aup) 0) (snd (ex_reads (ex_kind_ S)))).
  { intros sg. apply domain_tight; auto; rewrite Ek; auto. }
  rewrite Ek in *. cbn [ex_nx ex_nu ex_nin ex_nout] in *.
  destruct (tight_length _ _ _ _ _ Lul Luu La Lb) as [T1 T2].
  unfold quad_add, quad_given in E. rewrite Ek in E.
  set (tl := tight_lo (ex_ulo S) alo) in *. set (tu := tight_up (ex_uup S) aup) in *.
  set (xl := ex_xlo S) in *. set (xu := ex_xup S) in *. clearbody tl tu xl xu.
  conc tl. conc tu. conc xl. conc xu. conc xv. conc xn. conc uv.
  unfold part in E. cbn [firstn skipn app Nat.sub] in E.
  match type of E with context [ex_encode _ _ _ ?a ?b] => set (lo := a) in *; set (up := b) in * end.
  match type of E with context [add_mic _ ?a] => set (iv := a) in * end.
  destruct (ex_encode solve (KQuad hov meth) (ex_net S) lo up) as [[c B]|] eqn:Ec; [|discriminate].
  destruct (add_mic c iv None NewBinary vt m) as [[m1 z] be] eqn:Em.
  destruct (ex_out c) as [[A C]|] eqn:Eo; [|discriminate].
  match type of E with context [vsub C ?p] => set (ph := p) in * end.
  match type of E with context [midpoint_rows _ _ _ _ _ _ ?a] => set (m2 := a) in * end.
  apply Some_inj in E. apply pair_equal_spec in E. destruct E as [E _].
  assert (M : net_mic 10 (ex_net S) lo up c).
  { eapply ex_encode_mic; eauto; reflexivity. }
  assert (Bi : below (nvars m) iv) by (unfold iv; below_list).
  assert (Li : length iv = 10%nat) by reflexivity.
  destruct (mic_vars vt st _ _ _ _ _ _ _ _ _ _ M H Bi Li Vt Em) as (Lz & Bz & H1 & Up).
  assert (Lp : length ph = 9%nat).
  { unfold ph. rewrite (forward_eval _ _ _ W) by reflexivity.
    rewrite (net_eval_length _ _ _ W) by reflexivity. auto. }
  match eval cbv delta [m2] in m2 with addMConstr _ [?a; ?b; _] _ _ _ =>
    destruct (quad_rows vt st _ _ _ _ _ A C iv z a b ph m1 M Eo Lo H1)
      as (N2 & H2 & Rw & F2 & X2); auto; try (apply Up; below_list)
  end.
  fold m2 in N2, H2, F2.
  match type of E with midpoint_rows _ _ ?a ?b ?c ?d _ = _ =>
    destruct (midpoint_step vt st 3 (ex_dt S) a b c d m2 H2) as (N3 & H3 & F3); auto;
      try (rewrite N2; apply Up; below_list) end.
  rewrite E in *.
  match type of Bx with below _ ?x => match type of Bn with below _ ?y => match type of Bu with below _ ?u =>
  match type of F3 with forall sg, _ <-> _ /\ @?q sg =>
  eapply step_weaken; [eapply (rows_step vt st _ _ _ _ _ _ _ _ _ _ m' (fun sg => Rw sg /\ q sg)
      (fun sg => ex_move S (map sg x) (map sg u) = Some (map sg y))
      M H Bi Li Vt Em); auto| |] end end end end.
  - congruence.
  - intros sg. rewrite F3, F2. tauto.
  - match goal with |- local m (fun sg => ex_move S (map sg ?x) (map sg ?u) = Some (map sg ?y)) =>
      apply (local3 m x u y (fun a b c => ex_move S a b = Some c)); auto end.
  - intros sg Hz. rewrite (X2 sg Hz).
    unfold ex_move, ex_step. cbn [ex_kind_ ex_net ex_dt ex_uup ex_ulo]. rewrite Ek.
    assert (Li' : length (map sg iv) = 10%nat) by (rewrite map_length; auto).
    rewrite <- (forward_eval _ _ _ W Li').
    assert (Ey : length (forward (ex_net S) (map sg iv)) = 9%nat).
    { rewrite (forward_eval _ _ _ W Li'), (net_eval_length _ _ _ W Li'); auto. }
    change (forward (ex_net S) (part 3 6 (ex_xeq (KQuad hov meth)) ++ part 9 12 (ex_xeq (KQuad hov meth)) ++ ex_ueq (KQuad hov meth))) with ph.
    unfold part.
    cbn [map firstn skipn app Nat.sub length Nat.eqb andb].
    unfold iv in *. cbn [map] in *.
    match type of Ey with length ?f = _ => set (ff := f) in *; clearbody ff end.
    clearbody ph. conc ff. conc ph. cbn.
    rewrite !cons_eq_iff. split.
    + intros K. f_equal. rewrite !cons_eq_iff. decompose [and] K. repeat split; solve_rows.
    + intros K. apply Some_inj in K. rewrite !cons_eq_iff in K. decompose [and] K.
      repeat split; solve_rows.
  - cbv beta. intros sg _ [D1 D2]. split; auto. apply DT in D1.
    unfold iv, lo, up. clear - D1.
    cbn in D1; destruct D1 as [D1 D2]; rewrite !Forall_cons_iff in *;
      unfold in_box; cbn [map]; rewrite !vle_cons, vle_nil; tauto.
  - cbv beta. intros sg _ [D1 D2]. split; auto. apply DT.
    unfold iv, lo, up in D1. clear - D1.
    cbn; unfold in_box in D1; cbn [map] in D1; rewrite !vle_cons in D1;
      rewrite !Forall_cons_iff; repeat split; try apply Forall_nil; tauto.
Qed.

(** The rows x' = x + phi(iv) - phi(iv0) of the model with zero velocity. *)
Lemma diff_rows : forall vt st n N lo up lo0 up0 c c0 A C A0 C0 iv iv0 z z0 xn xv m,
  net_mic n N lo up c -> net_mic n N lo0 up0 c0 ->
  ex_out c = Some (A, C) -> ex_out c0 = Some (A0, C0) ->
  out_features (last_layer N) = 2%nat -> history st m ->
  below (nvars m) xn -> below (nvars m) xv -> below (nvars m) z -> below (nvars m) z0 ->
  length xn = 2%nat -> length xv = 2%nat -> length z = num_units (hidden N) ->
  length z0 = num_units (hidden N) -> length iv = n -> length iv0 = n ->
  let m' := addMConstr [eye 2; eyek 2 (-1); map vneg A; A0] [xn; xv; z; z0] SEq (vsub C C0) m in
  nvars m' = nvars m /\ history st m' /\
  exists Rw : assignment -> Prop, (forall sg, feas vt m' sg <-> feas vt m sg /\ Rw sg) /\
    forall sg, map sg z = concat (post_acts (hidden N) (map sg iv)) ->
      map sg z0 = concat (post_acts (hidden N) (map sg iv0)) ->
      (Rw sg <-> map sg xn = vadd (map sg xv) (vsub (net_eval N (map sg iv)) (net_eval N (map sg iv0)))).
Proof.
  intros vt st n N lo up lo0 up0 c c0 A C A0 C0 iv iv0 z z0 xn xv m M M0 Eo Eo0 Ek H
    Bn Bx Bz Bz0 Ln Lx Lz Lz0 Li Li0 m'.
  destruct (ex_out_spec _ _ _ _ _ _ _ M Eo) as (WA & LC & F). rewrite Ek in *.
  destruct (ex_out_spec _ _ _ _ _ _ _ M0 Eo0) as (WA0 & LC0 & F0). rewrite Ek in *.
  assert (Lb : length (vsub C C0) = 2%nat) by (rewrite vsub_length; unfold vec in *; congruence).
  assert (We : forall e, wfm 2 2 (eyek 2 e)) by (intros; split; [apply eyek_length|apply wfm_eyek]).
  assert (Wb : blocks_wf (length (vsub C C0)) (combine [eye 2; eyek 2 (-1); map vneg A; A0] [xn; xv; z; z0])).
  { rewrite Lb. cbn [combine]. unfold blocks_wf.
    constructor; [cbn [fst snd]; rewrite Ln; apply We|].
    constructor; [cbn [fst snd]; rewrite Lx; apply We|].
    constructor. { cbn [fst snd]. destruct WA as [A1 A2].
    split; [rewrite map_length; auto|]. apply Forall_forall. intros x Hx.
    apply in_map_iff in Hx. destruct Hx as (y & <- & Hy). rewrite vneg_length.
    rewrite Forall_forall in A2. rewrite (A2 y Hy). auto. }
    constructor; [|constructor]. cbn [fst snd]. rewrite Lz0. exact WA0. }
  assert (Bb : below (nvars m) (concat [xn; xv; z; z0])).
  { cbn [concat]. rewrite app_nil_r. apply below_app. split; auto. apply below_app. split; auto.
    apply below_app. split; auto. }
  assert (Hne : [eye 2; eyek 2 (-1); map vneg A; A0] <> []) by discriminate.
  destruct (step_addM vt st [eye 2; eyek 2 (-1); map vneg A; A0] [xn; xv; z; z0] SEq (vsub C C0) m)
    as (H2 & N2 & F2); auto.
  split; auto. split; auto.
  exists (fun sg => sense_ok SEq (bsum (length (vsub C C0))
      (combine [eye 2; eyek 2 (-1); map vneg A; A0] [xn; xv; z; z0]) sg) (vsub C C0)).
  split; [exact F2|].
  intros sg Hz Hz0. rewrite Lb. cbn [combine bsum sense_ok]. rewrite Hz, Hz0.
  assert (N1 : length (map sg xn) = 2%nat) by (rewrite map_length; auto).
  assert (N4 : length (map sg xv) = 2%nat) by (rewrite map_length; auto).
  assert (N7 : length (map sg iv) = n) by (rewrite map_length; auto).
  assert (N8 : length (map sg iv0) = n) by (rewrite map_length; auto).
  rewrite mv_eye by auto. rewrite mv_eyek_neg by auto.
  rewrite mv_map_vneg. rewrite <- (F _ N7), <- (F0 _ N8).
  set (a := mv A (concat (post_acts (hidden N) (map sg iv)))) in *.
  set (a0 := mv A0 (concat (post_acts (hidden N) (map sg iv0)))) in *.
  assert (Na : length a = 2%nat) by (unfold a; rewrite mv_length; apply WA).
  assert (Na0 : length a0 = 2%nat) by (unfold a0; rewrite mv_length; apply WA0).
  clearbody a a0. clear - Na Na0 N1 N4 LC LC0.
  destruct (vec2 _ Na) as (? & ? & ->). destruct (vec2 _ Na0) as (? & ? & ->).
  destruct (vec2 _ N1) as (? & ? & ->). destruct (vec2 _ N4) as (? & ? & ->).
  destruct (vec2 _ LC) as (? & ? & ->). destruct (vec2 _ LC0) as (? & ? & ->).
  cbn. rewrite !cons_eq_iff. split; intros (K1 & K2 & _); repeat split; lra.
Qed.

Lemma zerovel_step : forall S td vt st m m' xv xn uv alo aup r,
  ex_built S -> ex_kind_ S = KZeroVel td -> vt <> VCont -> history st m ->
  below (nvars m) xv -> below (nvars m) xn -> below (nvars m) uv ->
  length xv = 3%nat -> length xn = 3%nat -> length uv = 2%nat ->
  (forall a, alo = Some a -> length a = 2%nat) -> (forall a, aup = Some a -> length a = 2%nat) ->
  zerovel_add solve S td xv xn uv (tight_lo (ex_ulo S) alo) (tight_up (ex_uup S) aup) vt m
    = Some (m', r) ->
  step vt st m m'
    (fun sg => ex_domain S alo aup (map sg xv) (map sg uv) /\
               ex_move S (map sg xv) (map sg uv) = Some (map sg xn))
    (fun sg => ex_domain S alo aup (map sg xv) (map sg uv) /\
               ex_move S (map sg xv) (map sg uv) = Some (map sg xn)).
Proof.
  intros S td vt st m m' xv xn uv alo aup r Bt Ek Vt H Bx Bn Bu Lx Ln Lu La Lb E.
  assert (Bt' := Bt). destruct Bt' as (W & Lxu & Lul & Luu & _).
  destruct (ex_built_facts _ Bt) as [Lxl Lo].
  assert (DT : forall sg, ex_domain S alo aup (map sg xv) (map sg uv) <->
    Forall (fun i => nth i (ex_xlo S) 0 <= nth i (map sg xv) 0 <= nth i (ex_xup S) 0)
         (fst (ex_reads (ex_kind_ S))) /\
    Forall (fun j => nth j (tight_lo (ex_ulo S) alo) 0 <= nth j (map sg uv) 0 <=
                    nth j (tight_up (ex_uup S) aup) 0) (snd (ex_reads (ex_kind_ S)))).
  { intros sg. apply domain_tight; auto; rewrite Ek; auto. }
  rewrite Ek in *. cbn [ex_nx ex_nu ex_nin ex_nout] in *.
  destruct (tight_length _ _ _ _ _ Lul Luu La Lb) as [T1 T2].
  destruct (vec2 _ T1) as (l0 & l1 & Et1). destruct (vec2 _ T2) as (p0 & p1 & Et2).
  rewrite Et1, Et2 in *.
  destruct (vec3 _ Lxl) as (y0 & y1 & tlo & Exl). destruct (vec3 _ Lxu) as (q0 & q1 & tup & Exu).
  destruct (vec3 _ Lx) as (x0 & x1 & x2 & ->). destruct (vec3 _ Ln) as (n0 & n1 & n2 & ->).
  destruct (vec2 _ Lu) as (v0 & v1 & ->).
  unfold zerovel_add in E. rewrite Exl, Exu in *.
  set (lo := uni_in td tlo l0 l1) in *. set (up := uni_in td tup p0 p1) in *.
  set (lo0 := uni_in td tlo 0 l1) in *. set (up0 := uni_in td tup 0 p1) in *.
  set (iv := uni_in td x2 v0 v1) in *.
  destruct (ex_encode solve (KZeroVel td) (ex_net S) lo up) as [[c B]|] eqn:Ec; [|discriminate].
  destruct (ex_encode solve (KZeroVel td) (ex_net S) lo0 up0) as [[c0 B0]|] eqn:Ec0; [|discriminate].
  destruct (addVars [(Vec.Fin 0, Vec.Fin 0)] VCont m) as [m1 zid] eqn:Ea.
  destruct (step_addVars vt st _ _ _ _ _ Ea H) with (x := [0]) as (Sa & Ei & Na & _).
  { intros _ _. constructor; [cbn; lra|constructor]. }
  { constructor; [|constructor]. unfold var_ok. cbn. repeat split; lra. }
  { intros K; exfalso; apply K; reflexivity. }
  cbn [length seq] in Ei, Na. rewrite Ei in *. clear Ei zid.
  assert (H1 : history st m1) by apply Sa.
  assert (Up1 : forall l, below (nvars m) l -> below (nvars m1) l).
  { intros l Hl. eapply Forall_impl; [|exact Hl]. cbv beta. intros. lia. }
  set (zv := nvars m) in *. assert (Bzv : below (nvars m1) [zv]) by (repeat constructor; lia).
  set (iv0 := uni_in td x2 zv v1) in *.
  destruct (add_mic c iv None NewBinary vt m1) as [[m2 z] be] eqn:Em.
  destruct (add_mic c0 iv0 None NewBinary vt m2) as [[m3 z0] be0] eqn:Em0.
  destruct (ex_out c) as [[A C]|] eqn:Eo; [|discriminate].
  destruct (ex_out c0) as [[A0 C0]|] eqn:Eo0; [|discriminate].
  set (m4 := addMConstr [eye 2; eyek 2 (-1); map vneg A; A0] [[n0; n1]; [x0; x1]; z; z0] SEq (vsub C C0) m3) in *.
  destruct (addLConstr [[1; -1; - ex_dt S]] [[n2; x2; v1]] SEq 0 m4) as [m5|] eqn:El; [|discriminate].
  apply Some_inj in E. apply pair_equal_spec in E. destruct E as [-> _].
  assert (M : net_mic (if td then 3 else 2) (ex_net S) lo up c).
  { eapply ex_encode_mic; eauto; apply uni_in_length. }
  assert (M0 : net_mic (if td then 3 else 2) (ex_net S) lo0 up0 c0).
  { eapply ex_encode_mic; eauto; apply uni_in_length. }
  assert (Bi : below (nvars m1) iv) by (apply Up1; unfold iv, uni_in; destruct td; below_list).
  assert (Li : length iv = if td then 3%nat else 2%nat) by apply uni_in_length.
  destruct (mic_vars vt st _ _ _ _ _ _ _ _ _ _ M H1 Bi Li Vt Em) as (Lz & Bz & H2 & Up2).
  destruct (net_step st _ _ _ _ _ _ _ _ _ _ _ M H1 Bi Li Vt Em) as (_ & _ & _ & Sn).
  assert (Bi0 : below (nvars m2) iv0).
  { apply Up2. apply Up1 in Bx. apply Up1 in Bu. unfold iv0, uni_in; destruct td; below_list. }
  assert (Li0 : length iv0 = if td then 3%nat else 2%nat) by apply uni_in_length.
  destruct (mic_vars vt st _ _ _ _ _ _ _ _ _ _ M0 H2 Bi0 Li0 Vt Em0) as (Lz0 & Bz0 & H3 & Up3).
  destruct (net_step st _ _ _ _ _ _ _ _ _ _ _ M0 H2 Bi0 Li0 Vt Em0) as (_ & _ & _ & Sn0).
  destruct (diff_rows vt st _ _ _ _ _ _ c c0 A C A0 C0 iv iv0 z z0 [n0; n1] [x0; x1] m3 M M0 Eo Eo0 Lo H3)
    as (N4 & H4 & Rw & F4 & X4); auto; try (apply Up3, Up2, Up1; below_list).
  fold m4 in N4, H4, F4.
  destruct (addL_row vt st _ _ _ _ El H4 eq_refl) as (N5 & H5 & F5).
  { rewrite N4. apply Up3, Up2, Up1. below_list. }
  set (P := fun sg : assignment => ex_move S (map sg [x0; x1; x2]) (map sg [v0; v1]) = Some (map sg [n0; n1; n2])).
  assert (KEY : forall sg, sg zv = 0 -> map sg z = concat (post_acts (hidden (ex_net S)) (map sg iv)) ->
    map sg z0 = concat (post_acts (hidden (ex_net S)) (map sg iv0)) ->
    (Rw sg /\ dot [1; -1; - ex_dt S] (map sg [n2; x2; v1]) = 0 <-> P sg)).
  { intros sg Z0 Hz Hz0. rewrite (X4 sg Hz Hz0).
    unfold P, ex_move, ex_step. cbn [ex_kind_ ex_net ex_dt ex_uup ex_ulo]. rewrite Ek.
    cbn [map]. rewrite vleb_refl. cbn [andb].
    assert (Li' : length (map sg iv) = if td then 3%nat else 2%nat) by (rewrite map_length; auto).
    assert (Li0' : length (map sg iv0) = if td then 3%nat else 2%nat) by (rewrite map_length; auto).
    rewrite <- (forward_eval _ _ _ W Li'), <- (forward_eval _ _ _ W Li0').
    assert (Ey : length (forward (ex_net S) (map sg iv)) = 2%nat).
    { rewrite (forward_eval _ _ _ W Li'), (net_eval_length _ _ _ W Li'); auto. }
    assert (Ey0 : length (forward (ex_net S) (map sg iv0)) = 2%nat).
    { rewrite (forward_eval _ _ _ W Li0'), (net_eval_length _ _ _ W Li0'); auto. }
    assert (Ed : (if td then vsub (forward (ex_net S) [sg x2; sg v0; sg v1]) (forward (ex_net S) [sg x2; 0; sg v1])
                  else vsub (forward (ex_net S) [sg x2; sg v0]) (forward (ex_net S) [sg x2; 0]))
                 = vsub (forward (ex_net S) (map sg iv)) (forward (ex_net S) (map sg iv0))).
    { unfold iv, iv0. rewrite !uni_in_map, Z0. destruct td; reflexivity. }
    rewrite Ed. clear Ed.
    destruct (vec2 _ Ey) as (f0 & f1 & Ef). destruct (vec2 _ Ey0) as (h0 & h1 & Eh).
    rewrite Ef, Eh. cbn.
    rewrite !cons_eq_iff. split.
    + intros ((K1 & K2 & _) & K3). f_equal. f_equal; [lra|]. f_equal; [lra|]. f_equal. lra.
    + intros K. apply Some_inj in K. rewrite !cons_eq_iff in K. destruct K as (K1 & K2 & K3 & _).
      repeat split; lra. }
  assert (DB : forall sg, sg zv = 0 -> ex_domain S alo aup (map sg [x0; x1; x2]) (map sg [v0; v1]) ->
     in_box lo up (map sg iv) /\ in_box lo0 up0 (map sg iv0)).
  { intros sg Z0 D1. apply DT in D1.
    unfold iv, iv0, lo, up, lo0, up0. rewrite !uni_in_map, Z0. clear - D1.
    destruct td; cbn in D1; destruct D1 as [D1 D2]; rewrite !Forall_cons_iff in *;
      unfold in_box, uni_in; rewrite !vle_cons, vle_nil; intuition lra. }
  assert (BD : forall sg, in_box lo up (map sg iv) ->
     ex_domain S alo aup (map sg [x0; x1; x2]) (map sg [v0; v1])).
  { intros sg D1. apply DT.
    unfold iv, lo, up in D1. rewrite uni_in_map in D1. clear - D1.
    destruct td; cbn; unfold in_box, uni_in in D1; rewrite !vle_cons in D1;
      rewrite !Forall_cons_iff; repeat split; try apply Forall_nil; tauto. }
  assert (LD : local m (fun sg => ex_domain S alo aup (map sg [x0; x1; x2]) (map sg [v0; v1]))).
  { apply (local3 m [x0; x1; x2] [v0; v1] [] (fun a b _ => ex_domain S alo aup a b)); auto. constructor. }
  assert (LP : local m P).
  { apply (local3 m [x0; x1; x2] [v0; v1] [n0; n1; n2] (fun a b c => ex_move S a b = Some c)); auto. }
  destruct Sa as (A1 & _ & A3 & A4). destruct Sn as (B1 & _ & B3 & B4). destruct Sn0 as (D1 & _ & D3 & D4).
  assert (ZV : forall sg, feas vt m1 sg -> sg zv = 0).
  { intros sg G. apply A3 in G. destruct G as (_ & V & _).
    inversion V as [|? ? ? ? V1 V2]; subst. unfold var_ok in V1. cbn in V1. lra. }
  split; [lia|]. split; auto. split.
  - intros sg G. apply F5 in G. destruct G as [G K1]. apply F4 in G. destruct G as [G K2].
    apply D3 in G. destruct G as (G & _ & _ & _ & Hz0).
    apply B3 in G. destruct G as (G & Ib & _ & _ & Hz). assert (Z0 := ZV _ G).
    apply A3 in G. destruct G as (G & _). split; auto. split; [apply BD; auto|].
    apply KEY; auto.
  - intros sg G (G1 & G2). destruct (A4 sg G I) as (s1 & K1 & E1).
    destruct (B4 s1 K1) as (s2 & K2 & E2).
    { apply DB; auto. apply (LD sg s1); auto. }
    assert (G1' : ex_domain S alo aup (map s1 [x0; x1; x2]) (map s1 [v0; v1])) by (apply (LD sg s1); auto).
    assert (Ag2 : agree m sg s2). { intros i Hi. rewrite (E1 i Hi). apply E2. lia. }
    assert (Z2 : s2 zv = 0). { apply ZV. apply (B3 s2 K2). }
    destruct (D4 s2 K2) as (s3 & K3 & E3).
    { apply DB; auto. apply (LD sg s2); auto. }
    assert (Ag3 : agree m sg s3). { intros i Hi. rewrite (Ag2 i Hi). apply E3. lia. }
    exists s3. split; auto. apply F5.
    destruct (D3 s3 K3) as (K4 & _ & _ & _ & Hz0). destruct (B3 s3 K4) as (K5 & _ & _ & _ & Hz).
    assert (Z3 : s3 zv = 0) by (apply ZV; auto).
    assert (KK : Rw s3 /\ dot [1; -1; - ex_dt S] (map s3 [n2; x2; v1]) = 0).
    { apply KEY; auto. apply (LP sg s3); auto. }
    split; [apply F4; split; auto|]; apply KK.
Qed.

End Solver.
