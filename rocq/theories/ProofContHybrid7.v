(** The hybrid derivative programs are always built. *)

Require Import Reals List Lia Lra Bool Arith.
Require Import Verif.Vec Verif.VecFacts Verif.ModelMip Verif.SpecMip Verif.SpecCore
  Verif.ModelUtils Verif.SpecUtils Verif.ModelNet Verif.SpecNet Verif.SpecStep
  Verif.ModelPattern Verif.SpecPattern
  Verif.ModelGrad Verif.ModelLyapunov Verif.SpecLyapunov Verif.ModelContinuous Verif.SpecContinuous
  Verif.ModelHybrid Verif.SpecHybrid Verif.ModelContHybrid Verif.SpecContHybrid
  Verif.ProofUtils Verif.ProofMip Verif.ProofSat Verif.ProofConcat Verif.ProofTorch
  Verif.ProofBounds Verif.ProofNet Verif.ProofNetBounds Verif.ProofNetTotal Verif.ProofMaxBox Verif.ProofGrad
  Verif.ProofPattern Verif.ProofGradVec
  Verif.ProofStep Verif.ProofLyapunov Verif.ProofLyapCert Verif.ProofLyapMore Verif.ProofContinuous
  Verif.ProofContinuous2 Verif.ProofContinuous3 Verif.ProofContinuous4 Verif.ProofContinuous5 Verif.ProofContinuous6
  Verif.ProofHybrid Verif.ProofHybrid2
  Verif.ProofContHybrid Verif.ProofContHybrid2 Verif.ProofContHybrid3 Verif.ProofContHybrid4 Verif.ProofContHybrid5
  Verif.ProofContHybrid6.
Import ListNotations.
Open Scope R_scope.

(** ** Pieces *)

Lemma add_gradient_total : forall n N beta lin lo up vs m,
  net_wf n N -> out_features (last_layer N) = 1%nat -> slopes_nonneg (hidden N) -> vle lo up ->
  length lo = n -> exists m' z co, add_gradient N beta lin lo up vs m = Some (m', z, co).
Proof.
  intros n N beta lin lo up vs m W Ho Hsl V L. unfold add_gradient, output_gradient_times_vector.
  assert (Hx : x_size N = n).
  { destruct W as [Hne [W _]]. unfold x_size. destruct (hidden N) as [|[l a] hs]; [congruence|]. apply W. }
  assert (Lu : length up = n) by (rewrite <- L; symmetry; eapply vle_length; eauto).
  rewrite Hx, L, Lu, Nat.eqb_refl. cbn [andb].
  destruct (wz_loop_spec (hidden N) n _ (last_layer N) lo up (proj1 (proj2 W)) (proj2 (proj2 W)) Hsl V L)
    as (B & EB & B1 & B2 & B3 & B4 & B5).
  unfold compute_Wz_bounds_IA. rewrite EB.
  assert (Bs : bounds_shape N B) by (split; [lia|split; auto]).
  destruct (grad_mic n N B W Ho Bs) as (c & row & Ec & _). rewrite Ec.
  destruct (gradient_rows n N B c W Ho Bs Ec)
    as (Ax & As & Ab & rhs & row' & X1 & X2 & X3 & X4 & X5 & _).
  rewrite X1, X2, X3, X4, X5.
  destruct (addVars (repeat (NInf, PInf) (nsl c)) VCont m) as [m1 z]. eauto.
Qed.

Lemma sign_xdot_total : forall lo up xd z al m, vle lo up -> length xd = length lo ->
  length z = length lo -> length al = length lo ->
  exists m', sign_xdot_loop lo up xd z al m = Some m'.
Proof.
  induction lo as [|l lo IH]; intros up xd z al m V L1 L2 L3.
  - inversion V; subst. destruct xd; [|discriminate]. destruct z; [|discriminate].
    destruct al; [|discriminate]. eexists. reflexivity.
  - destruct up as [|u up]; [inversion V|]. apply vle_cons in V. destruct V as [V0 V].
    destruct xd as [|d xd]; [discriminate|]. destruct z as [|t z]; [discriminate|].
    destruct al as [|a al]; [discriminate|]. cbn [sign_xdot_loop].
    destruct (replace_binary_continuous_product l u) as [rw|] eqn:E.
    + apply IH; auto.
    + apply product_reject in E. lra.
Qed.

Lemma mode_loop_total :
  forall (add : mode_data -> vec -> vec -> list nat -> mip -> option (mip * list nat * vec))
    (ok : mode_data -> vec -> vec -> list nat -> Prop) ms bs vs m,
  (forall md lo up v m, ok md lo up v -> exists m' z co, add md lo up v m = Some (m', z, co)) ->
  length bs = length ms -> length vs = length ms ->
  (forall i md, nth_error ms i = Some md -> ok md (fst (nth i bs ([], []))) (snd (nth i bs ([], []))) (nth i vs [])) ->
  exists m' zs cos, mode_loop add ms bs vs m = Some (m', zs, cos).
Proof.
  intros add ok. induction ms as [|md ms IH]; intros bs vs m Ht L1 L2 Ok.
  - exists m, [], []. destruct bs; [|discriminate]. reflexivity.
  - destruct bs as [|[lo up] bs]; [discriminate|]. destruct vs as [|v vs]; [discriminate|].
    cbn [mode_loop]. destruct (Ht md lo up v m (Ok 0%nat md eq_refl)) as (m1 & z & co & E). rewrite E.
    destruct (IH bs vs m1) as (m2 & zs & cos & E2); auto.
    + intros i md' Hi. exact (Ok (S i) md' Hi).
    + rewrite E2. eauto.
Qed.

Lemma all_some_total : forall {A B} (f : A -> option B) l, Forall (fun a => exists b, f a = Some b) l ->
  exists r, all_some (map f l) = Some r.
Proof.
  induction 1 as [|a l (b & E) F (r & IH)]; cbn; eauto. rewrite E, IH. eauto.
Qed.

Lemma finite_ax : forall axb md,
  Forall (fun r => exists l u, axb (md_P md) (md_q md) r = Some (Fin l, Fin u)) (md_A md) ->
  exists ax, Ai_times_x axb md = Some ax /\
    Forall (fun b : Vec.ext * Vec.ext => exists l u, b = (Fin l, Fin u)) ax.
Proof.
  intros axb md F. unfold Ai_times_x. induction F as [|r A (l & u & E) F (ax & IH & Fa)]; cbn.
  - exists []. auto.
  - rewrite E, IH. exists ((Fin l, Fin u) :: ax). split; auto. constructor; eauto.
Qed.

Lemma Aisi_total : forall axb md,
  Forall (fun r => exists l u, axb (md_P md) (md_q md) r = Some (Fin l, Fin u)) (md_A md) ->
  exists lo up, Aisi_bounds axb md = Some (lo, up).
Proof.
  intros axb md F. destruct (finite_ax _ _ F) as (ax & E & Fa). unfold Aisi_bounds. rewrite E.
  assert (X : exists lo, all_some (map (fun b : Vec.ext * Vec.ext => fin (ext_min (fst b) (Fin 0))) ax) = Some lo).
  { apply all_some_total. eapply Forall_impl; [|exact Fa]. intros b (l & u & ->). cbn.
    unfold ext_min. cbn. destruct (Rle_dec l 0); cbn; eauto. }
  assert (Y : exists up, all_some (map (fun b : Vec.ext * Vec.ext => fin (ext_max (snd b) (Fin 0))) ax) = Some up).
  { apply all_some_total. eapply Forall_impl; [|exact Fa]. intros b (l & u & ->). cbn.
    unfold ext_max. cbn. destruct (Rle_dec u 0); cbn; eauto. }
  destruct X as [lo ->]. destruct Y as [up ->]. eauto.
Qed.

Definition allfin (l : list Vec.ext) : Prop := Forall (fun e => exists r, e = Fin r) l.
Lemma allfin_some : forall l, allfin l -> exists v, all_some (map fin l) = Some v.
Proof. intros l F. apply all_some_total. eapply Forall_impl; [|exact F]. intros e (r & ->). cbn. eauto. Qed.
Lemma fold_fin : forall {A} (op : Vec.ext -> Vec.ext -> Vec.ext) (g : A -> list Vec.ext) l acc,
  (forall a b, exists r, op (Fin a) (Fin b) = Fin r) -> Forall (fun p => allfin (g p)) l -> allfin acc ->
  allfin (fold_left (fun acc p => map2 op acc (g p)) l acc).
Proof.
  intros A op g l acc Hop F. revert acc. induction F as [|p l Fp F IH]; intros acc Fa; cbn; auto.
  apply IH. revert Fp. generalize (g p). intros w Fp. clear -Hop Fa Fp. revert w Fp.
  induction Fa as [|e acc (r & ->) Fa IH]; intros w Fp; [constructor|].
  inversion Fp as [|e' w' (r' & ->) Fp']; subst; constructor; auto. apply IH; auto.
Qed.
Lemma map2_start : forall (op : Vec.ext -> Vec.ext -> Vec.ext) e w n, (forall r, op e (Fin r) = Fin r) ->
  allfin w -> allfin (map2 op (repeat e n) w).
Proof.
  intros op e w n H F. revert n. induction F as [|a w (r & ->) F IH]; intros [|n]; cbn; try constructor.
  - rewrite H. eauto.
  - apply IH.
Qed.

Lemma dx_total : forall axb h, finite_rows axb h -> h_modes h <> [] ->
  exists dlo dup lo up, dx_bounds axb h = Some (dlo, dup) /\
    all_some (map fin dlo) = Some lo /\ all_some (map fin dup) = Some up.
Proof.
  intros axb h F Ne. unfold dx_bounds.
  assert (X : exists axs, all_some (map (Ai_times_x axb) (h_modes h)) = Some axs /\
    Forall (Forall (fun b : Vec.ext * Vec.ext => exists l u, b = (Fin l, Fin u))) axs /\
    length axs = length (h_modes h)).
  { unfold finite_rows in F. clear Ne. induction F as [|md ms Fm F (axs & IH & Fa & La)]; cbn.
    - exists []. auto.
    - destruct (finite_ax _ _ Fm) as (ax & E & Fx). rewrite E, IH. exists (ax :: axs). cbn. auto. }
  destruct X as (axs & -> & Fa & La).
  set (ps := combine axs (h_modes h)).
  assert (Fp : Forall (fun p : list (Vec.ext * Vec.ext) * mode_data =>
     allfin (map2 ext_plus (map fst (fst p)) (md_c (snd p))) /\
     allfin (map2 ext_plus (map snd (fst p)) (md_c (snd p)))) ps).
  { rewrite Forall_forall. intros [ax md] Hin. apply in_combine_l in Hin. cbn [fst snd].
    rewrite Forall_forall in Fa. specialize (Fa _ Hin). clear -Fa. generalize (md_c md). unfold allfin.
    induction Fa as [|b ax (l & u & ->) Fa IH]; intros [|c cs]; cbn; split; try constructor; eauto; apply IH. }
  assert (Np : ps <> []).
  { unfold ps. destruct (h_modes h); [congruence|]. destruct axs; [discriminate|]. cbn. discriminate. }
  assert (G : forall (op : Vec.ext -> Vec.ext -> Vec.ext) (e : Vec.ext) (s : Vec.ext * Vec.ext -> Vec.ext),
    (forall r, op e (Fin r) = Fin r) -> (forall a b, exists r, op (Fin a) (Fin b) = Fin r) ->
    Forall (fun p : list (Vec.ext * Vec.ext) * mode_data => allfin (map2 ext_plus (map s (fst p)) (md_c (snd p)))) ps ->
    allfin (fold_left (fun acc p => map2 op acc (map2 ext_plus (map s (fst p)) (md_c (snd p)))) ps (repeat e (h_nx h)))).
  { intros op e s H1 H2 Fs. destruct ps as [|p ps']; [congruence|]. inversion Fs; subst. cbn [fold_left].
    apply (fold_fin op (fun p => map2 ext_plus (map s (fst p)) (md_c (snd p)))); auto.
    apply map2_start; auto. }
  assert (A1 := G ext_min PInf fst).
  assert (A2 := G ext_max NInf snd).
  destruct (allfin_some _ (A1 ltac:(reflexivity) ltac:(intros a b; unfold ext_min; cbn; destruct (Rle_dec a b); eauto)
     ltac:(eapply Forall_impl; [|exact Fp]; intros p Q; apply Q))) as (lo & El).
  destruct (allfin_some _ (A2 ltac:(reflexivity) ltac:(intros a b; unfold ext_max; cbn; destruct (Rle_dec a b); eauto)
     ltac:(eapply Forall_impl; [|exact Fp]; intros p Q; apply Q))) as (up & Eu).
  do 4 eexists. split; [reflexivity|]. split; [exact El|exact Eu].
Qed.

Section Total.
Variable solve : mip -> gresult.
Hypothesis Hsolve : solver_ok solve.
Variable meth : method.
Variable N : network.
Variable h : hybrid.
Variables x_lo x_up xeq : vec.
Variable axb : mat -> vec -> vec -> option (Vec.ext * Vec.ext).
Hypothesis Args : hybrid_args N h x_lo x_up xeq axb.
Variables lam eps : R.
Variables lower upper : option R.
Hypothesis Fm : finite_modes h.
Hypothesis Fr : finite_rows axb h.
Hypothesis Hsl : slopes_nonneg (hidden N).
Hypothesis Hpt : exists k x v, length x = h_nx h /\ moves h k x v.
Hypothesis Hoc : exists c B out, output_constraint solve meth N x_lo x_up = Some (c, B, out).
Let n := h_nx h.
Let M := eye n.
Let ms := h_modes h.
Let K := length ms.

Let La := ha_lyap _ _ _ _ _ _ Args.
Let W := la_net _ _ _ _ _ _ La.
Let Ho := la_out _ _ _ _ _ _ La.
Let L1 := la_lo _ _ _ _ _ _ La.
Let L2 := la_up _ _ _ _ _ _ La.
Let WR : wfm (length M) n M := la_R _ _ _ _ _ _ La.
Let Leq : length xeq = n := in_box_length _ _ _ _ (la_eq _ _ _ _ _ _ La) L1.

Lemma mic_total : exists c, hybrid_mic h None None None None = Some c.
Proof.
  destruct (ha_built _ _ _ _ _ _ Args) as (bounds & bounded & Vb & Bu).
  destruct Hpt as (k & x & v & Lx & md & Hk & I & _).
  destruct (hybrid_mic h None None None None) as [c|] eqn:E; [eauto|]. exfalso.
  apply (hybrid_total bounds bounded (h_nx h) 0 h x [] (image md x []) Vb Bu Fm Lx eq_refl); auto.
  exists md. split; [eapply nth_error_In; eauto|]. split; auto. unfold inside. rewrite app_nil_r. exact I.
Qed.

(** The common prefix. *)
Lemma prefix_total : forall st xv m2, history st m2 -> below (nvars m2) xv -> length xv = n ->
  exists m3 rr m4 s al m5, add_relu_output solve meth N x_lo x_up xv VBin m2 = Some (m3, rr) /\
    add_state_error n x_lo x_up false xeq None xv VBin m3 = Some (m4, s, al) /\
    add_value_bounds lower upper (ret_a rr) (ret_b rr) lam (ret_z rr) (phi N xeq) s m4 = Some m5.
Proof.
  intros st xv m2 H2 Bv2 Lv.
  assert (Hvt : VBin <> VCont) by discriminate.
  destruct (relu_output_total solve Hsolve meth N n x_lo x_up W Ho L1 L2 xv VBin m2 (la_units _ _ _ _ _ _ La) Hoc) as (m3 & rr & E3).
  destruct (relu_output_step solve Hsolve meth N n x_lo x_up W Ho L1 L2 st xv VBin m2 m3 rr
    H2 Bv2 Lv Hvt E3) as (P1 & P2 & P3 & P4 & P5 & S3).
  assert (V3 : (nvars m2 <= nvars m3)%nat) by apply S3.
  assert (H3 : history st m3) by apply S3.
  assert (Bv3 : below (nvars m3) xv) by (apply (below_weaken _ _ _ Bv2); lia).
  destruct (state_error_total n x_lo x_up L1 L2 None xeq WR st false xv VBin m3 (la_eq _ _ _ _ _ _ La) (la_rows _ _ _ _ _ _ La)
    H3 Bv3 Lv Hvt) as (m4 & s & al & E4).
  destruct (state_error_step n x_lo x_up L1 L2 None xeq WR st _ _ _ _ _ _ _ E4
    H3 Bv3 Lv Hvt) as (K1 & K2 & _ & _ & S4).
  assert (V4 : (nvars m3 <= nvars m4)%nat) by apply S4.
  assert (H4 : history st m4) by apply S4.
  destruct (value_bounds_step lam VBin st lower upper (ret_a rr) (ret_b rr) (ret_z rr) (phi N xeq) s m4
    H4 P3) as (m5 & E5 & _).
  { apply Forall_app. split.
    - apply fresh_below in P1. apply (below_weaken _ _ _ P1). lia.
    - apply fresh_below in K1. exact K1. }
  { eapply fresh_disj; eauto. }
  exists m3, rr, m4, s, al, m5. auto.
Qed.

Lemma program1_total : forall R0, R_identity n R0 = true ->
  exists d, hybrid_ct_milp solve axb meth N h x_lo x_up xeq lam eps ExpLower R0 lower upper = Some d.
Proof.
  intros R0 HR. unfold hybrid_ct_milp. fold n. rewrite HR.
  destruct (hybrid_facts N h x_lo x_up xeq axb Args) as (Enu & Wm & Va).
  assert (Hax := ha_axb _ _ _ _ _ _ Args). assert (Hns := ha_slopes _ _ _ _ _ _ Args).
  set (st := true).
  destruct (addVars (repeat (NInf, PInf) n) VCont init_mip) as [m0 xv] eqn:E0.
  destruct (addVars (repeat (NInf, PInf) n) VCont m0) as [m1 xd] eqn:E1.
  destruct (step_free VBin st n _ _ _ E0 (h_init st)) as (A1 & A2 & A3 & A4 & A5).
  destruct (step_free VBin st n _ _ _ E1 A3) as (B1 & B2 & B3 & B4 & B5).
  assert (Bv : below (nvars m1) xv) by (rewrite A1; apply below_seq; lia).
  assert (Bd : below (nvars m1) xd) by (rewrite B1; apply below_seq; lia).
  assert (Lv : length xv = n) by (rewrite A1; apply seq_length).
  assert (Ld : length xd = n) by (rewrite B1; apply seq_length).
  assert (Fd : fresh 0 (nvars m1) xd).
  { rewrite B1. eapply fresh_weaken; [apply (fresh_seq (nvars m0) n (nvars m1)); lia|lia|lia]. }
  destruct mic_total as (c & Ec). rewrite Ec.
  destruct (add_mic c xv (Some xd) NewBinary VBin m1) as [[m2 sv] gv] eqn:E2.
  destruct (hybrid_fine h n eq_refl Enu Wm Va st c xv (Some xd) m1 m2 sv gv Ec E2 B3 Bv Lv)
    as (T1 & T2 & T3 & H2 & T4 & T5 & T6).
  { cbn. auto. }
  assert (Bv2 : below (nvars m2) xv) by (apply (below_weaken _ _ _ Bv); lia).
  destruct (prefix_total st xv m2 H2 Bv2 Lv) as (m3 & rr & m4 & s & al & m5 & E3 & E4 & E5).
  rewrite E3, E4. rewrite (scalar_phi n) by auto. rewrite E5.
  destruct (core solve Hsolve meth N h x_lo x_up xeq lam st lower upper La Hns Enu xv m2 m3 rr m4 s al m5 H2 Bv2 Lv E3 E4 E5)
    as (V5 & H5 & F5 & P3 & Ls & Bb & Lb & Ba & Lal & _).
  assert (Ne : h_modes h <> []).
  { destruct Hpt as (k & x & v & _ & md & Hk & _) . intros Q. rewrite Q in Hk. destruct k; discriminate. }
  destruct (dx_total axb h Fr Ne) as (dlo & dup & lo & up & Ed & El & Eu). rewrite Ed, El, Eu.
  destruct Hpt as (k & x & v & Lx & Mv).
  destruct (dx_valid h n eq_refl Wm axb Hax _ _ _ _ _ _ _ Ed El Eu Lx Mv) as [Q1 Q2].
  assert (Vl : vle lo up) by (eapply vle_trans; eauto).
  assert (Lvv := moves_length h Wm _ _ _ Mv). fold n in Lvv.
  assert (Llo : length lo = n) by (rewrite <- Lvv; eapply vle_length; eauto).
  destruct (add_gradient_total n N (ret_beta rr) (fun A => A) lo up xd m5 W Ho Hsl Vl Llo) as (m6 & z1 & co & E6).
  rewrite E6.
  assert (Bd5 : below (nvars m5) xd) by (apply (below_weaken _ _ _ Bd); lia).
  destruct (gradient_spec st n N (ret_beta rr) (fun A => A) (fun w => w) n lo up xd m5 m6 z1 co W Ho Vl)
    as (_ & (Fz1 & V6 & H6 & D6) & Lco & Kg); auto.
  cbn [concat] in Fz1. rewrite app_nil_r in Fz1.
  destruct (addVars (repeat (NInf, PInf) n) VCont m6) as [m7 z2] eqn:E7.
  destruct (step_free VBin st n _ _ _ E7 H6) as (Z1 & Z2 & H7 & Z4 & Z5).
  assert (Lz2 : length z2 = n) by (rewrite Z1; apply seq_length).
  assert (Fz2 : fresh (nvars m6) (nvars m7) z2) by (rewrite Z1; apply fresh_seq; lia).
  destruct (sign_xdot_total lo up xd z2 (concat al) m7 Vl) as (m8 & E8); [congruence|congruence|exact (eq_trans Lal (eq_sym Llo))|].
  rewrite E8.
  destruct (sign_xdot_spec st lo up xd z2 (concat al) m7 m8 E8 H7) as (V8 & H8 & _ & D8 & K8).
  { apply (below_weaken _ _ _ Bd); lia. }
  { rewrite Z1. apply below_seq. lia. }
  { apply (below_weaken _ _ _ Ba). lia. }
  destruct (setObjective_step VBin st
     [co; repeat (2 * lam) n; repeat (-1 * lam) n; vscale eps (ret_a rr); repeat (eps * lam) n]
     [z1; z2; xd; ret_z rr; s] (eps * ret_b rr - eps * phi N xeq) true m8 H8)
    as (m9 & E9 & _).
  { constructor; [exact Lco|]. constructor; [rewrite repeat_length; auto|].
    constructor; [rewrite repeat_length; auto|].
    constructor; [unfold vscale; rewrite map_length; exact P3|].
    constructor; [rewrite repeat_length; auto|constructor]. }
  { cbn [concat]. rewrite app_nil_r. apply fresh_below in Fz1, Fz2, F5.
    apply Forall_app; split; [eapply below_weaken; [exact Fz1|lia]|].
    apply Forall_app; split; [eapply below_weaken; [exact Fz2|lia]|].
    apply Forall_app; split; [eapply below_weaken; [exact Bd|lia]|].
    apply (below_weaken _ _ _ F5). lia. }
  { cbn [concat]. rewrite app_nil_r.
    rewrite (app_assoc z1).
    eapply (fresh_disj (nvars m5) (nvars m7) 0 (nvars m5)).
    - eapply fresh_app; [exact Fz1|exact Fz2|lia|lia|lia].
    - eapply fresh_weaken; [eapply fresh_app; [exact Fd|exact F5|lia|lia|lia]|lia|lia].
    - right. lia. }
  match goal with |- exists d, match ?X with _ => _ end = _ => replace X with (Some m9) by (symmetry; exact E9) end. eexists. reflexivity.
Qed.

Lemma program2_total : forall R0, R_identity n R0 = true ->
  exists d, hybrid_ct_milp2 solve axb meth N h x_lo x_up xeq lam eps ExpLower R0 lower upper = Some d.
Proof.
  intros R0 HR. unfold hybrid_ct_milp2. fold n. fold ms. rewrite HR.
  destruct (hybrid_facts N h x_lo x_up xeq axb Args) as (Enu & Wm & Va).
  assert (Hax := ha_axb _ _ _ _ _ _ Args). assert (Hns := ha_slopes _ _ _ _ _ _ Args).
  set (st := true).
  destruct (addVars (repeat (NInf, PInf) n) VCont init_mip) as [m0 xv] eqn:E0.
  destruct (step_free VBin st n _ _ _ E0 (h_init st)) as (A1 & A2 & A3 & A4 & A5).
  assert (Bv : below (nvars m0) xv) by (rewrite A1; apply below_seq; simpl; lia).
  assert (Lv : length xv = n) by (rewrite A1; apply seq_length).
  destruct mic_total as (c & Ec). rewrite Ec.
  destruct (add_mic c xv None NewBinary VBin m0) as [[m2 sv] gv] eqn:E2.
  destruct (hybrid_fine h n eq_refl Enu Wm Va st c xv None m0 m2 sv gv Ec E2 A3 Bv Lv)
    as (T1 & T2 & T3 & H2 & T4 & T5 & T6).
  { cbn. auto. }
  fold ms in T1, T2, T3. fold K in T1, T2, T3.
  assert (Bv2 : below (nvars m2) xv) by (apply (below_weaken _ _ _ Bv); lia).
  destruct (prefix_total st xv m2 H2 Bv2 Lv) as (m3 & rr & m4 & s & al & m5 & E3 & E4 & E5).
  rewrite E3, E4. rewrite (scalar_phi n) by auto. rewrite E5.
  destruct (core solve Hsolve meth N h x_lo x_up xeq lam st lower upper La Hns Enu xv m2 m3 rr m4 s al m5 H2 Bv2 Lv E3 E4 E5)
    as (V5 & H5 & F5 & P3 & Ls & Bb & Lb & Ba & Lal & _).
  assert (Mof : forall i md, nth_error ms i = Some md -> mode_wf n 0 md).
  { intros i md Hi. rewrite Forall_forall in Wm. apply Wm. eapply nth_error_In; eauto. }
  assert (Klt : forall i md, nth_error ms i = Some md -> (i < K)%nat).
  { intros i md Hi. apply nth_error_Some. rewrite Hi. discriminate. }
  destruct (all_some (map (Aisi_bounds axb) ms)) as [ab|] eqn:Eab.
  2:{ exfalso. destruct (all_some_total (Aisi_bounds axb) ms) as (r & Er); [|congruence].
      eapply Forall_impl; [|exact Fr]. intros md Q. destruct (Aisi_total axb md Q) as (lo & up & Q'). eauto. }
  set (gb := map gigammai_bounds ms).
  set (sc := chunks n (length ms) sv). set (gc := map (fun g : nat => [g]) gv).
  assert (Lsv : length sv = (K * n)%nat) by (rewrite T1; apply seq_length).
  assert (Lgv : length gv = K) by (rewrite T2; apply seq_length).
  assert (Bsv : below (nvars m2) sv) by (rewrite T1; apply below_seq; lia).
  assert (Bgv : below (nvars m2) gv) by (rewrite T2; apply below_seq; lia).
  assert (Bsc : below (nvars m5) (concat sc)).
  { apply chunks_below. apply (below_weaken _ _ _ Bsv). lia. }
  assert (Cgc : concat gc = gv).
  { unfold gc. clear. induction gv as [|g l IH]; cbn; auto. f_equal. exact IH. }
  assert (Bgc : below (nvars m5) (concat gc)).
  { rewrite Cgc. apply (below_weaken _ _ _ Bgv). lia. }
  assert (Lab : length ab = length ms).
  { destruct (all_some_map _ _ _ ([], []) (mkMode [] [] [] [] [] [] []) Eab) as [Q _]. exact Q. }
  assert (Lgb : length gb = length ms) by (unfold gb; apply map_length).
  assert (Lsc : length sc = length ms) by apply chunks_length.
  assert (Lgc : length gc = length ms) by (unfold gc; rewrite map_length; exact Lgv).
  assert (OkA' : forall i md, nth_error ms i = Some md ->
     okA h md (fst (nth i ab ([], []))) (snd (nth i ab ([], []))) (nth i sc []) /\
     length (fst (nth i ab ([], []))) = n).
  { intros i md Hi.
    destruct (all_some_map _ _ _ ([], []) md Eab) as [_ Ha]. specialize (Ha i (Klt _ _ Hi)).
    rewrite (nth_error_nth _ _ md Hi) in Ha. destruct (nth i ab ([], [])) as [lo up] eqn:Enth. cbn [fst snd].
    assert (Ha2 := eq_trans Ha (f_equal Some Enth)).
    destruct (Aisi_valid h n eq_refl Wm axb Hax md lo up (Mof _ _ Hi) Ha2) as [[Q1 Q2] _].
    split; [split; [eapply Mof; eauto|split]|].
    - eapply vle_trans; eauto.
    - apply chunks_nth_length; auto. eapply Klt; eauto.
    - apply vle_length in Q1. rewrite Q1. apply zeros_length. }
  assert (Okg' : forall i md, nth_error ms i = Some md ->
     okg h md (fst (nth i gb ([], []))) (snd (nth i gb ([], []))) (nth i gc []) /\
     length (fst (nth i gb ([], []))) = n).
  { intros i md Hi.
    assert (Eg : nth i gb ([], []) = gigammai_bounds md).
    { unfold gb. rewrite (nth_indep _ ([], []) (gigammai_bounds md)) by (rewrite map_length; eapply Klt; eauto).
      rewrite map_nth. f_equal. apply nth_error_nth. exact Hi. }
    destruct (Mof _ _ Hi) as (_ & _ & Wc & _).
    rewrite Eg. unfold gigammai_bounds. cbn [fst snd]. split; [split; [eapply Mof; eauto|split]|].
    - generalize (md_c md). intros w. induction w as [|a w IH]; cbn; [constructor|]. apply vle_cons.
      split; auto. unfold Rmin, Rmax. destruct (Rle_dec 0 a); lra.
    - unfold gc. rewrite (nth_indep _ [] [0%nat]) by (rewrite map_length, Lgv; eapply Klt; eauto).
      rewrite (map_nth (fun g : nat => [g])). reflexivity.
    - rewrite map_length. exact Wc. }
  assert (OkA : forall i md, nth_error ms i = Some md ->
     okA h md (fst (nth i ab ([], []))) (snd (nth i ab ([], []))) (nth i sc [])) by (intros; apply OkA'; auto).
  assert (Okg : forall i md, nth_error ms i = Some md ->
     okg h md (fst (nth i gb ([], []))) (snd (nth i gb ([], []))) (nth i gc [])) by (intros; apply Okg'; auto).
  destruct (mode_loop_total (fun md => add_gradient N (ret_beta rr) (fun A => mm n A (md_A md)))
    (fun md lo up v => okA h md lo up v /\ length lo = n) ms ab sc m5) as (m6 & z1 & co1 & E6); auto.
  { intros md lo up v m ((_ & Q & _) & Ll). eapply add_gradient_total; eauto. }
  rewrite E6.
  destruct (mode_loop_total (fun md => add_gradient N (ret_beta rr) (fun A => col (mv A (md_c md))))
    (fun md lo up v => okg h md lo up v /\ length lo = n) ms gb gc m6) as (m7 & z2 & co2 & E7); auto.
  { intros md lo up v m ((_ & Q & _) & Ll). eapply add_gradient_total; eauto. }
  rewrite E7.
  assert (Sg : forall M0 lo up v m, length M0 = n -> vle lo up -> length lo = n ->
     exists m' z co, add_sign n (concat al) M0 lo up v m = Some (m', z, co)).
  { intros M0 lo up v m Q1 Q2 Q3. unfold add_sign.
    destruct (addVars (repeat (NInf, PInf) n) VCont m) as [m' z] eqn:Ez.
    assert (Lz : length z = n).
    { apply addVars_fields in Ez. destruct Ez as (_ & _ & Ei & _). rewrite Ei, seq_length, repeat_length. auto. }
    assert (Q4 : length lo = length M0) by (rewrite Q3; exact (eq_sym Q1)).
    assert (Q5 : length z = length M0) by (rewrite Lz; exact (eq_sym Q1)).
    assert (Q6 : length (concat al) = length M0) by (exact (eq_trans Lal (eq_sym Q1))).
    destruct (dl1_total M0 lo up z (concat al) v m' Q2 Q4 Q5 Q6) as (m'' & ->). eauto. }
  destruct (mode_loop_total (fun md => add_sign n (concat al) (md_A md))
    (fun md lo up v => okA h md lo up v /\ length lo = n) ms ab sc m7) as (m8 & z3 & co3 & E8); auto.
  { intros md lo up v m ((((WA & _) & _) & Q & _) & Ll). apply Sg; auto. }
  rewrite E8.
  destruct (mode_loop_total (fun md => add_sign n (concat al) (col (md_c md)))
    (fun md lo up v => okg h md lo up v /\ length lo = n) ms gb gc m8) as (m9 & z4 & co4 & E9); auto.
  { intros md lo up v m (((_ & _ & Wc & _) & Q & _) & Ll). apply Sg; auto. unfold col. rewrite map_length. exact Wc. }
  rewrite E9. cbv zeta.
  destruct (mode_loop_spec st (list (list bool)) _ (ret_beta rr) (okA h) (fun p sg => map sg (ret_beta rr) = flat p)
    (fun p md lo up w => pattern_shape (hidden N) p /\ length w = n /\ in_box lo up (mv (md_A md) w))
    (fun p md w => concat (tangents (hidden N) p (mv (md_A md) w)))
    (fun p md w => nth 0 (jvp N p (mv (md_A md) w)) 0) (add1_spec N h x_lo x_up xeq st La (ret_beta rr) Lb) ms ab sc m5 m6 z1 co1 E6 H5 Bsc Bb Lab Lsc OkA)
    as (G6 & Lc6 & K6).
  assert (V6 : (nvars m5 <= nvars m6)%nat) by apply G6. assert (H6 : history st m6) by apply G6.
  destruct (mode_loop_spec st (list (list bool)) _ (ret_beta rr) (okg h) (fun p sg => map sg (ret_beta rr) = flat p)
    (fun p md lo up w => pattern_shape (hidden N) p /\ length w = 1%nat /\ in_box lo up (vscale (nth 0 w 0) (md_c md)))
    (fun p md w => concat (tangents (hidden N) p (vscale (nth 0 w 0) (md_c md))))
    (fun p md w => nth 0 (jvp N p (vscale (nth 0 w 0) (md_c md))) 0) (add2_spec N h x_lo x_up xeq st La (ret_beta rr) Lb) ms gb gc m6 m7 z2 co2 E7 H6
    (below_weaken _ _ _ Bgc V6) (below_weaken _ _ _ Bb V6) Lgb Lgc Okg) as (G7 & Lc7 & K7).
  assert (V7 : (nvars m6 <= nvars m7)%nat) by apply G7. assert (H7 : history st m7) by apply G7.
  assert (V57 : (nvars m5 <= nvars m7)%nat) by lia.
  destruct (mode_loop_spec st (list bool) _ (concat al) (okA h) (fun p sg => map sg (concat al) = map bit p)
    (fun p md lo up w => length p = n /\ length w = n /\ in_box lo up (mv (md_A md) w))
    (fun p md w => vmul (map bit p) (mv (md_A md) w))
    (fun p md w => 2 * vsum (vmul (map bit p) (mv (md_A md) w))) (add3_spec h st (concat al) Lal) ms ab sc m7 m8 z3 co3 E8 H7
    (below_weaken _ _ _ Bsc V57) (below_weaken _ _ _ Ba V57) Lab Lsc OkA) as (G8 & Lc8 & K8).
  assert (V8 : (nvars m7 <= nvars m8)%nat) by apply G8. assert (H8 : history st m8) by apply G8.
  assert (V58 : (nvars m5 <= nvars m8)%nat) by lia.
  destruct (mode_loop_spec st (list bool) _ (concat al) (okg h) (fun p sg => map sg (concat al) = map bit p)
    (fun p md lo up w => length p = n /\ length w = 1%nat /\ in_box lo up (mv (col (md_c md)) w))
    (fun p md w => vmul (map bit p) (mv (col (md_c md)) w))
    (fun p md w => 2 * vsum (vmul (map bit p) (mv (col (md_c md)) w))) (add4_spec h st (concat al) Lal) ms gb gc m8 m9 z4 co4 E9 H8
    (below_weaken _ _ _ Bgc V58) (below_weaken _ _ _ Ba V58) Lgb Lgc Okg) as (G9 & Lc9 & K9).
  assert (V9 : (nvars m8 <= nvars m9)%nat) by apply G9. assert (H9 : history st m9) by apply G9.
  assert (Eco : co4 = co3).
  { rewrite (mode_loop_const _ (repeat 2 n) (fun md lo up v m m' z co => add_sign_co n (concat al) (md_A md) lo up v m m' z co) _ _ _ _ _ _ _ E8).
    rewrite (mode_loop_const _ (repeat 2 n) (fun md lo up v m m' z co => add_sign_co n (concat al) (col (md_c md)) lo up v m m' z co) _ _ _ _ _ _ _ E9).
    reflexivity. }
  subst co4.
  assert (Lz1 := Forall2_len _ _ _ Lc6). assert (Lz2 := Forall2_len _ _ _ Lc7).
  assert (Lz3 := Forall2_len _ _ _ Lc8). assert (Lz4 := Forall2_len _ _ _ Lc9).
  set (cs := map (fun md => vscale lam (vneg (colsum n (md_A md)))) ms) in *.
  set (cg := map (fun md => (- vsum (md_c md)) * lam) ms) in *.
  assert (Lcol : forall md, In md ms -> length (vscale lam (vneg (colsum n (md_A md)))) = n).
  { intros md Hm. rewrite Forall_forall in Wm. destruct (Wm md Hm) as ((_ & FA) & _).
    rewrite vscale_length, vneg_length. apply colsum_length. exact FA. }
  assert (Lcs : length (concat cs) = length sv).
  { rewrite Lsv. unfold cs, K. clear -Lcol. induction ms as [|md l IH]; auto. cbn [map concat length].
    rewrite app_length, Lcol by (left; auto). rewrite IH; [lia|]. intros md' H. apply Lcol. right; auto. }
  assert (G69 : grows st m5 m9 (z1 ++ z2 ++ z3 ++ z4)).
  { eapply grows_app; [exact G6|]. eapply grows_app; [exact G7|]. eapply grows_app; [exact G8|exact G9]. }
  assert (Fre : fresh 0 (nvars m9) (concat (z1 ++ z2 ++ z3 ++ z4) ++ (sv ++ gv ++ ret_z rr ++ s))).
  { eapply fresh_weaken; [eapply fresh_app'; [apply G69| | |]|lia|].
    - rewrite app_assoc. eapply (fresh_app 0 (nvars m2)); [|exact F5|lia|lia|lia].
      eapply (fresh_app 0 (nvars m0 + K * n) (nvars m0 + K * n)).
      + rewrite T1. eapply fresh_weaken; [apply fresh_seq; reflexivity|lia|lia].
      + rewrite T2. apply fresh_seq. lia.
      + lia.
      + lia.
      + lia.
    - lia.
    - lia.
    - lia. }
  destruct (setObjective_step VBin st
     (co1 ++ co2 ++ map (vscale lam) co3 ++ map (vscale lam) co3 ++
        [concat cs; cg; vscale eps (ret_a rr); repeat (eps * lam) n])
     (z1 ++ z2 ++ z3 ++ z4 ++ [sv; gv; ret_z rr; s]) (eps * ret_b rr - eps * phi N xeq) true m9 H9)
    as (m10 & E10 & O1 & O2 & O3 & O4 & O5).
  { apply Forall2_app; [exact Lc6|]. apply Forall2_app; [exact Lc7|].
    assert (Sc : forall l z, Forall2 (fun (c : vec) (z : list nat) => length c = length z) l z ->
       Forall2 (fun (c : vec) (z : list nat) => length c = length z) (map (vscale lam) l) z).
    { induction 1; cbn; constructor; auto. rewrite vscale_length. auto. }
    apply Forall2_app; [apply Sc; exact Lc8|]. apply Forall2_app; [apply Sc; exact Lc9|].
    constructor; [exact Lcs|]. constructor; [unfold cg; rewrite map_length, Lgv; reflexivity|].
    constructor; [rewrite vscale_length; exact P3|].
    constructor; [rewrite repeat_length; auto|constructor]. }
  { apply fresh_below in Fre. rewrite !concat_app in *. rewrite <- !app_assoc in Fre.
    cbn [concat]. rewrite app_nil_r. exact Fre. }
  { destruct Fre as [Fre _]. rewrite !concat_app in *. rewrite <- !app_assoc in Fre.
    cbn [concat]. rewrite app_nil_r. exact Fre. }
  match goal with |- exists d, match ?X with _ => _ end = _ => replace X with (Some m10) by (symmetry; exact E10) end. eexists. reflexivity.
Qed.
End Total.
