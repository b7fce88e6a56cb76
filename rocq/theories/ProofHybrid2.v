(** Exactness of the hybrid encoding, the dynamics constraint in a program,
    mode selection. *)

Require Import Reals List Bool Lia Lra.
Require Import Verif.Vec Verif.VecFacts Verif.ModelMip Verif.SpecMip Verif.ModelUtils
  Verif.SpecUtils Verif.ProofUtils Verif.ModelNet Verif.ProofMip Verif.ProofMaxBox
  Verif.ProofConcat Verif.ProofMilp Verif.ProofNet Verif.ProofGrad Verif.ModelHybrid Verif.SpecHybrid
  Verif.SpecCore Verif.ProofHybrid Verif.SpecStep Verif.ProofStep Verif.ModelLyapunov
  Verif.SpecLyapunov.
Import ListNotations.
Open Scope R_scope.

Section Exact2.
Variables (h : hybrid) (nx nu : nat).
Hypothesis Enx : h_nx h = nx.
Hypothesis Enu : h_nu h = nu.
Hypothesis W : Forall (mode_wf nx nu) (h_modes h).
Hypothesis Va : Forall (mode_valid nx nu) (h_modes h).
Let K := length (h_modes h).

Lemma hybrid_inv : forall x_lo x_up u_lo u_up c, hybrid_mic h x_lo x_up u_lo u_up = Some c ->
  exists lo up pr ineq, (0 < K)%nat /\ len_ok nx x_lo = true /\ len_ok nx x_up = true /\
    len_ok nu u_lo = true /\ len_ok nu u_up = true /\
    all_some (map fin (tighten ext_max (lo_all h) nx nu NInf x_lo u_lo)) = Some lo /\
    all_some (map fin (tighten ext_min (up_all h) nx nu PInf x_up u_up)) = Some up /\
    all_product_rows nx nu K lo up = Some pr /\
    ineq = bapp pr (all_polytope_rows nx nu K 0 (h_modes h)) /\
    c = mkMic (nx + nu) (K * (nx + nu)) K None
          (Some (hcats (map md_A (h_modes h) ++ map md_B (h_modes h))))
          (Some (hcats (map (fun m => col (md_c m)) (h_modes h)))) None
          (Some (k_x ineq)) (Some (k_s ineq)) (Some (k_b ineq)) (Some (k_rhs ineq))
          None None (Some [ones K]) (Some [1]) None None None None None None.
Proof.
  intros x_lo x_up u_lo u_up c H. unfold hybrid_mic in H. rewrite Enx, Enu in H. fold K in H.
  destruct (h_modes h) as [|m ms] eqn:E; [discriminate|]. rewrite <- E in H |- *.
  destruct (len_ok nx x_lo && len_ok nx x_up && len_ok nu u_lo && len_ok nu u_up)%bool eqn:G;
    [|discriminate]. cbn [negb] in H.
  rewrite !andb_true_iff in G. destruct G as (((G1 & G2) & G3) & G4).
  destruct (all_some (map fin (tighten ext_max (lo_all h) nx nu NInf x_lo u_lo))) as [lo|] eqn:E1;
    [|discriminate].
  destruct (all_some (map fin (tighten ext_min (up_all h) nx nu PInf x_up u_up))) as [up|] eqn:E2;
    [|discriminate].
  destruct (all_product_rows nx nu K lo up) as [pr|] eqn:E3; [|discriminate].
  apply Some_inj in H. exists lo, up, pr, (bapp pr (all_polytope_rows nx nu K 0 (h_modes h))).
  split; [unfold K; rewrite ?E; simpl; lia|].
  repeat match goal with |- _ /\ _ => split end; auto.
Qed.

Lemma eq_row : forall b : vec, length b = K ->
  (lhs 1 None None (Some [ones K]) [] [] b = [1] <-> vsum b = 1).
Proof.
  intros b Lb. unfold lhs, term. cbn [mv map zeros repeat]. rewrite dot_ones_l by auto.
  unfold vadd. cbn [map2]. split.
  - intros H. injection H as H. lra.
  - intros ->. apply cons_eq_iff. split; auto. lra.
Qed.

Lemma hybrid_sat : forall x_lo x_up u_lo u_up c z s b,
  hybrid_mic h x_lo x_up u_lo u_up = Some c -> bins b ->
  forall lo up, all_some (map fin (tighten ext_max (lo_all h) nx nu NInf x_lo u_lo)) = Some lo ->
    all_some (map fin (tighten ext_min (up_all h) nx nu PInf x_up u_up)) = Some up ->
  (mic_sat c z s b <->
   (length z = (nx + nu)%nat /\ length s = (K * (nx + nu))%nat /\ length b = K) /\
   products_ok nx nu K lo up z s b /\
   (forall i m, nth_error (h_modes h) i = Some m ->
       vle (mv (md_P m) (part nx nu K i s)) (vscale (nth i b 0) (md_q m))) /\
   vsum b = 1).
Proof.
  intros x_lo x_up u_lo u_up c z s b H B lo up El Eu.
  destruct (hybrid_inv _ _ _ _ _ H) as (lo' & up' & pr & ineq & HK & G1 & G2 & G3 & G4 & E1 & E2 & E3 & E4 & Ec).
  rewrite El in E1. apply Some_inj in E1. subst lo'. rewrite Eu in E2. apply Some_inj in E2. subst up'.
  destruct (all_product_rows_spec _ _ _ _ _ _ E3) as [P1 P2].
  destruct (all_polytope_rows_spec nx nu K (h_modes h) 0) as [Q1 Q2]; auto.
  unfold mic_sat, rows_sat, bounds_ok, lo_ok, up_ok, sat_in, sat_eq. subst c.
  cbn [nin nsl nbin rhs_in rhs_eq Ain_input Ain_slack Ain_binary Aeq_input Aeq_slack Aeq_binary
       input_lo input_up slack_lo slack_up binary_lo binary_up length].
  assert (T : length z = (nx + nu)%nat -> length s = (K * (nx + nu))%nat -> length b = K ->
    (vle (lhs (length (k_rhs ineq)) (Some (k_x ineq)) (Some (k_s ineq)) (Some (k_b ineq)) z s b)
        (k_rhs ineq) <->
     products_ok nx nu K lo up z s b /\
     (forall i m, nth_error (h_modes h) i = Some m ->
       vle (mv (md_P m) (part nx nu K i s)) (vscale (nth i b 0) (md_q m))))).
  { intros Lz Ls Lb. rewrite <- (P2 z s b Lz Ls Lb B). rewrite <- (Q2 z s b Lz Ls Lb).
    change (kle ineq z s b <-> kle pr z s b /\ kle (all_polytope_rows nx nu K 0 (h_modes h)) z s b).
    rewrite E4. apply (kle_app (nx + nu) (K * (nx + nu)) K); auto. }
  split.
  - intros ((Lz & Ls & Lb & A1 & A2) & _). apply T in A1; auto.
    assert (A3 : vsum b = 1) by (apply eq_row; auto).
    tauto.
  - intros ((Lz & Ls & Lb) & A1 & A2 & A3). split; [|tauto].
    split; auto. split; auto. split; auto. split; [apply T; auto|].
    change (lhs 1 None None (Some [ones K]) [] [] b = [1]). apply eq_row; auto.
Qed.

Lemma vscale1_0 : forall P z q, (vle (mv P (vscale 1 z)) (vscale 1 q) <-> vle (mv P z) q).
Proof. intros. rewrite !vscale_1. tauto. Qed.

Theorem hybrid_exact : forall x_lo x_up u_lo u_up c x u x',
  hybrid_mic h x_lo x_up u_lo u_up = Some c -> length x = nx -> length u = nu ->
  ((exists s b, bins b /\ mic_sat c (x ++ u) s b /\ output c (x ++ u) s b = x') <->
   opt_box x_lo x_up x /\ opt_box u_lo u_up u /\ hybrid_next h x u x').
Proof.
  intros x_lo x_up u_lo u_up c x u x' H Lx Lu.
  destruct (hybrid_inv _ _ _ _ _ H) as (lo & up & pr & ineq & HK & G1 & G2 & G3 & G4 & E1 & E2 & E3 & E4 & Ec).
  destruct (tighten_lo h nx nu Enx Enu W x_lo u_lo lo x u G1 G3 E1 Lx Lu) as [Ll Tl].
  destruct (tighten_up h nx nu Enx Enu W x_up u_up up x u G2 G4 E2 Lx Lu) as [Lu' Tu].
  assert (Lz : length (x ++ u) = (nx + nu)%nat) by (rewrite app_length; lia).
  assert (Out : forall s b i0 m0, length s = (K * (nx + nu))%nat -> length b = K ->
     nth_error (h_modes h) i0 = Some m0 -> nth i0 b 0 = 1 ->
     (forall i, (i < K)%nat -> i <> i0 -> nth i b 0 = 0) ->
     (forall i, (i < K)%nat -> part nx nu K i s = vscale (nth i b 0) (x ++ u)) ->
     output c (x ++ u) s b = image m0 x u).
  { intros s b i0 m0 Ls Lb Hm O Z P.
    destruct (hybrid_output h nx nu Enx Enu W x u s b i0 m0 HK Lx Lu Ls Lb Hm O Z P)
      as (O1 & O2 & O3 & O4).
    assert (Wm : mode_wf nx nu m0)
      by (rewrite Forall_forall in W; apply W; eapply nth_error_In; eauto).
    destruct Wm as ((WA & _) & (WB & _) & Wc & _).
    unfold output, image. rewrite Ec.
    unfold num_out. cbn [Aout_input Aout_slack Aout_binary Cout olen].
    unfold lhs, term. rewrite O3, O4. unfold mat, vec in *. rewrite O1.
    assert (LA : length (vadd (mv (md_A m0) x) (mv (md_B m0) u)) = nx).
    { rewrite vadd_length; rewrite !mv_length; [exact WA|]. transitivity nx; auto. }
    rewrite (vadd_zeros_l nx) by exact LA.
    rewrite (vadd_zeros_r nx); auto. rewrite vadd_length; [exact LA|].
    transitivity nx; auto. }
  split.
  - intros (s & b & B & Sa & O).
    apply (hybrid_sat _ _ _ _ _ _ _ _ H B lo up E1 E2) in Sa.
    destruct Sa as ((_ & Ls & Lb) & P1 & P2 & P3).
    apply products_part in P1; auto. destruct P1 as [[B1 B2] P1].
    apply Tl in B1. apply Tu in B2. destruct B1 as (_ & B1 & B1'). destruct B2 as (_ & B2 & B2').
    split; [split; auto|]. split; [split; auto|].
    destruct (bins_sum1_pos b B P3) as (i0 & Hi0 & O1 & Z).
    rewrite Lb in Hi0, Z.
    destruct (nth_error (h_modes h) i0) as [m0|] eqn:Em;
      [|apply nth_error_None in Em; unfold K in Hi0; lia].
    exists m0. split; [eapply nth_error_In; eauto|]. split.
    + specialize (P2 i0 m0 Em). rewrite P1, O1, !vscale_1 in P2 by auto. auto.
    + rewrite <- O. eapply Out; eauto.
  - intros ([Bx1 Bx2] & [Bu1 Bu2] & m0 & Hm & I & ->).
    destruct (In_nth_error _ _ Hm) as [i0 Em].
    assert (Hi0 : (i0 < K)%nat) by (apply nth_error_Some; rewrite Em; discriminate).
    destruct (all_valid h nx nu Enx Enu W Va m0 (x ++ u) Hm I Lz) as [V1 V2].
    exists (slack_for K (one_hot K i0) x u), (one_hot K i0).
    assert (B := bins_one_hot K i0). split; auto.
    assert (Ls : length (slack_for K (one_hot K i0) x u) = (K * (nx + nu))%nat)
      by (rewrite slack_for_length, Lx, Lu; auto).
    assert (Pt : forall i, (i < K)%nat -> part nx nu K i (slack_for K (one_hot K i0) x u)
               = vscale (nth i (one_hot K i0) 0) (x ++ u)).
    { intros i Hi. rewrite <- Lx, <- Lu. apply slack_for_part; auto. }
    split.
    + apply (hybrid_sat _ _ _ _ _ _ _ _ H B lo up E1 E2).
      split; [split; [auto|split; [auto|apply one_hot_length]]|]. split.
      { apply products_part; auto. split; auto. split.
        - apply Tl. auto.
        - apply Tu. auto. }
      split; [|apply vsum_one_hot; auto].
      intros i m Ei. assert (Hi : (i < K)%nat) by (apply nth_error_Some; rewrite Ei; discriminate).
      rewrite Pt by auto. rewrite nth_one_hot by auto. destruct (Nat.eqb_spec i i0) as [->|N].
      * rewrite Em in Ei. injection Ei as <-. rewrite !vscale_1. auto.
      * rewrite mv_vscale. rewrite !vscale_0.
        assert (Wm : mode_wf nx nu m)
          by (rewrite Forall_forall in W; apply W; eapply nth_error_In; eauto).
        destruct Wm as (_ & _ & _ & _ & Lq & _). rewrite mv_length, Lq. apply vle_refl.
    + apply (Out _ _ i0 m0); auto.
      * apply one_hot_length.
      * rewrite nth_one_hot by auto. rewrite Nat.eqb_refl. auto.
      * intros i Hi N. rewrite nth_one_hot by auto. apply Nat.eqb_neq in N. rewrite N. auto.
Qed.

Lemma hybrid_mic_ok : forall x_lo x_up u_lo u_up c, hybrid_mic h x_lo x_up u_lo u_up = Some c ->
  mic_ok c /\ nin c = (nx + nu)%nat /\ num_out c = nx /\
  input_lo c = None /\ input_up c = None /\ slack_lo c = None /\ slack_up c = None.
Proof.
  intros x_lo x_up u_lo u_up c H.
  destruct (hybrid_inv _ _ _ _ _ H) as (lo & up & pr & ineq & HK & G1 & G2 & G3 & G4 & E1 & E2 & E3 & E4 & Ec).
  destruct (all_product_rows_spec _ _ _ _ _ _ E3) as [P1 _].
  destruct (all_polytope_rows_spec nx nu K (h_modes h) 0) as [Q1 _]; auto.
  assert (KW : kwf3 (nx + nu) (K * (nx + nu)) K ineq) by (rewrite E4; apply kwf3_app; auto).
  destruct KW as (K1 & K2 & K3).
  assert (HC : wfm nx (K * (nx + nu)) (hcats (map md_A (h_modes h) ++ map md_B (h_modes h))) /\
               wfm nx K (hcats (map (fun m => col (md_c m)) (h_modes h)))).
  { assert (NE : h_modes h <> []) by (intros Q; unfold K in HK; rewrite Q in HK; simpl in HK; lia).
    assert (Q : forall Ms ns, Ms <> [] -> Forall2 (fun M n => wfm nx n M) Ms ns ->
       wfm nx (list_sum ns) (hcats Ms)).
    { induction Ms as [|M Ms IH]; intros ns Hn F; [congruence|].
      destruct F as [|M' n Ms' ns WM F]; [congruence|].
      destruct Ms' as [|M2 Ms2].
      - inversion F; subst. simpl. rewrite Nat.add_0_r. auto.
      - change (hcats (M' :: M2 :: Ms2)) with (hcat M' (hcats (M2 :: Ms2))).
        assert (I : forall Ms ns, Ms <> [] -> Forall2 (fun M n => wfm nx n M) Ms ns ->
           wfm nx (list_sum ns) (hcats Ms)).
        { clear. induction Ms as [|M Ms IH]; intros ns Hn F; [congruence|].
          inversion F; subst. destruct Ms as [|M2 Ms].
          - inversion H3; subst. simpl. rewrite Nat.add_0_r. auto.
          - change (hcats (M :: M2 :: Ms)) with (hcat M (hcats (M2 :: Ms))).
            simpl list_sum. apply wfm_hcat; auto. apply IH; auto. discriminate. }
        simpl list_sum. apply wfm_hcat; auto. apply I; auto. discriminate. }
    assert (FA : forall (g : mode_data -> mat) n, (forall m, mode_wf nx nu m -> wfm nx n (g m)) ->
       forall ms, Forall (mode_wf nx nu) ms ->
       Forall2 (fun M n => wfm nx n M) (map g ms) (repeat n (length ms))).
    { intros g n Hg ms Hms. induction Hms; simpl; constructor; auto. }
    assert (LS : forall n k, list_sum (repeat n k) = (k * n)%nat)
      by (induction k; simpl; auto).
    split.
    - replace (K * (nx + nu))%nat with (list_sum (repeat nx K ++ repeat nu K))
        by (rewrite list_sum_app, !LS; lia).
      apply Q.
      + intros Z. apply app_eq_nil in Z. destruct Z as [Z _]. apply map_eq_nil in Z. auto.
      + apply Forall2_app; apply FA; auto; intros m Wm; apply Wm.
    - replace K with (list_sum (repeat 1%nat K)) by (rewrite LS; lia).
      apply Q.
      + intros Z. apply map_eq_nil in Z. auto.
      + apply FA; auto. intros m Wm. split; [unfold col; rewrite map_length; apply Wm|].
        apply Forall_forall. intros r Hr. unfold col in Hr. apply in_map_iff in Hr.
        destruct Hr as (a & <- & _). auto. }
  destruct HC as [HC1 HC2].
  assert (NO : num_out c = nx).
  { rewrite Ec. unfold num_out. cbn [Aout_input Aout_slack Aout_binary olen].
    destruct HC1 as [HC1 _]. unfold mat, vec in *. rewrite HC1. auto. }
  split; [|rewrite Ec; cbn; rewrite Ec in NO; auto 10].
  unfold mic_ok. split.
  - unfold mic_wf. rewrite NO. rewrite Ec.
    unfold num_ineq, num_eq.
    cbn [nin nsl nbin rhs_in rhs_eq Ain_input Ain_slack Ain_binary Aeq_input Aeq_slack Aeq_binary
       Aout_input Aout_slack Aout_binary Cout
       input_lo input_up slack_lo slack_up binary_lo binary_up length owf olen_is none_if].
    repeat match goal with |- _ /\ _ => split end; auto;
      try exact I; try (apply K1 || apply K2 || apply K3).
    split; auto. constructor; auto. apply ones_length.
  - rewrite Ec. unfold slack_size, binary_size.
    cbn [nsl nbin Ain_slack Ain_binary rhs_in rhs_eq Ain_input Aeq_input Aeq_slack Aeq_binary].
    split; auto. split; auto. unfold some_of3. split; intros; [left|right; right]; discriminate.
Qed.
End Exact2.

(** ** In a program *)

Lemma hybrid_dynamics_step : forall bounds bounded nx nu h st vt m m' xv xn uv,
  bounds_valid bounds -> built bounds bounded nx nu h ->
  vt <> VCont -> history st m -> below (nvars m) (xv ++ uv) -> below (nvars m) xn ->
  length xv = nx -> length uv = nu -> length xn = nx ->
  hybrid_add_dynamics h xv xn uv vt m = Some m' ->
  step vt st m m' (fun sg => hybrid_next h (map sg xv) (map sg uv) (map sg xn))
                  (fun sg => hybrid_next h (map sg xv) (map sg uv) (map sg xn)).
Proof.
  intros bounds bounded nx nu h st vt m m' xv xn uv Vb Bu Vt H Bx Bn Lx Lu Ln E.
  destruct (built_inv _ _ _ _ _ Vb Bu) as (Enx & Enu & W & Va).
  unfold hybrid_add_dynamics in E.
  destruct (hybrid_mic h None None None None) as [c|] eqn:Ec; [|discriminate].
  destruct (add_mic c (xv ++ uv) (Some xn) NewBinary vt m) as [[m1 sl] bi] eqn:Em.
  injection E as ->.
  destruct (hybrid_mic_ok h nx nu Enx Enu W Va _ _ _ _ _ Ec) as (Ok & Ni & No & B1 & B2 & B3 & B4).
  destruct (step_mic vt st c (xv ++ uv) (Some xn) m m' sl bi Em Ok H) as (_ & _ & _ & St & _); auto.
  { rewrite app_length. lia. }
  { simpl. split; auto. lia. }
  assert (Ex : forall sg, (exists s b, bins b /\ mic_sat c (map sg (xv ++ uv)) s b /\
                           output c (map sg (xv ++ uv)) s b = map sg xn) <->
               hybrid_next h (map sg xv) (map sg uv) (map sg xn)).
  { intros sg. rewrite map_app.
    rewrite (hybrid_exact h nx nu Enx Enu W Va None None None None c _ _ _ Ec)
      by (rewrite map_length; auto).
    unfold opt_box. split; [tauto|]. intros Q. split; [|split; auto]; split; discriminate. }
  eapply step_weaken; [exact St| |]; cbv beta.
  - intros sg G Q. apply Ex in Q. destruct Q as (s & b & Q1 & Q2 & Q3). exists s, b.
    split; [exact Q1|]. split; [exact Q2|]. symmetry. exact Q3.
  - intros sg G (Q1 & Q2 & Q3). apply Ex. exists (map sg sl), (map sg bi).
    split; [exact Q1|]. split; [exact Q2|]. symmetry. exact Q3.
Qed.

Lemma hybrid_contract : forall bounds bounded nx h st,
  bounds_valid bounds -> built bounds bounded nx 0 h ->
  system_contract nx st (fun xv xn vt m => hybrid_add_dynamics h xv xn [] vt m)
    (fun x x' => hybrid_next h x [] x').
Proof.
  intros bounds bounded nx h st Vb Bu. intros vt m m' xv xn Vt H Bx Bn Lx Ln _ E.
  apply (hybrid_dynamics_step bounds bounded nx 0 h st vt m m' xv xn []); auto.
  rewrite app_nil_r. auto.
Qed.

(** ** The constraints exist for bounded, not empty modes *)

Lemma F2_exists : forall lo z, Forall2 ext_le_r lo z ->
  Forall (fun e => e <> NInf) lo -> exists v, lo = map Fin v /\ vle v z.
Proof.
  intros lo z F. induction F as [|e t lo z P F IH]; intros H.
  - exists []. split; auto. constructor.
  - destruct IH as (v & -> & V); [inversion H; auto|].
    destruct e as [|r|]; simpl in P; [inversion H; congruence| |tauto].
    exists (r :: v). split; auto. constructor; auto.
Qed.
Lemma F2_exists_up : forall up z, Forall2 (fun e x => r_le_ext x e) up z ->
  Forall (fun e => e <> PInf) up -> exists v, up = map Fin v /\ vle z v.
Proof.
  intros up z F. induction F as [|e t up z P F IH]; intros H.
  - exists []. split; auto. constructor.
  - destruct IH as (v & -> & V); [inversion H; auto|].
    destruct e as [|r|]; simpl in P; [tauto| |inversion H; congruence].
    exists (r :: v). split; auto. constructor; auto.
Qed.
Lemma all_some_fin : forall v, all_some (map fin (map Fin v)) = Some v.
Proof. induction v; simpl; auto. rewrite IHv. auto. Qed.

Lemma fold_not : forall (f : ext -> ext -> ext) (g : mode_data -> list ext) (bad : ext) ms acc,
  (forall a b, a <> bad -> b <> bad -> f a b <> bad) ->
  Forall (fun e => e <> bad) acc ->
  Forall (fun m => Forall (fun e => e <> bad) (g m)) ms ->
  Forall (fun e => e <> bad) (fold_left (fun acc m => map2 f acc (g m)) ms acc).
Proof.
  intros f g bad. induction ms as [|m ms IH]; intros acc F H1 H2; simpl; auto.
  apply IH; auto; [|inversion H2; auto].
  assert (H3 : Forall (fun e => e <> bad) (g m)) by (inversion H2; auto).
  clear - F H1 H3. revert H3. generalize (g m) as ys0. induction H1; intros ys Hl; [constructor|].
  destruct ys as [|y ys]; [constructor|]. cbn [map2]. inversion Hl; subst. constructor; auto.
Qed.

Lemma F_repeat : forall (bad e : ext) n, e <> bad -> Forall (fun e => e <> bad) (repeat e n).
Proof. intros. apply Forall_forall. intros x Hx. apply repeat_spec in Hx. congruence. Qed.

Lemma map2_dflt : forall (f : ext -> ext -> ext) d (l : list ext) n, length l = n -> (forall e, f e d = e) ->
  map2 f l (repeat d n) = l.
Proof.
  intros f d l n L H. subst n. induction l as [|e l IH]; auto. cbn [length repeat map2].
  rewrite H, IH. auto.
Qed.

Lemma hybrid_total : forall bounds bounded nx nu h x u x',
  bounds_valid bounds -> built bounds bounded nx nu h -> finite_modes h ->
  length x = nx -> length u = nu -> hybrid_next h x u x' ->
  hybrid_mic h None None None None <> None.
Proof.
  intros bounds bounded nx nu h x u x' Vb Bu Fm Lx Lu (m0 & Hm & I & _).
  destruct (built_inv _ _ _ _ _ Vb Bu) as (Enx & Enu & W & Va).
  assert (Lz : length (x ++ u) = (nx + nu)%nat) by (rewrite app_length; lia).
  destruct (all_valid h nx nu Enx Enu W Va m0 (x ++ u) Hm I Lz) as [V1 V2].
  assert (N1 : Forall (fun e => e <> NInf) (lo_all h)).
  { unfold lo_all. apply fold_not.
    - intros [|a|] [|b|]; simpl; intros; congruence.
    - apply F_repeat. discriminate.
    - eapply Forall_impl; [|exact Fm]. intros m [Q _]. eapply Forall_impl; [|exact Q].
      intros e (r & ->). discriminate. }
  assert (N2 : Forall (fun e => e <> PInf) (up_all h)).
  { unfold up_all. apply fold_not.
    - intros [|a|] [|b|]; simpl; intros; congruence.
    - apply F_repeat. discriminate.
    - eapply Forall_impl; [|exact Fm]. intros m [_ Q]. eapply Forall_impl; [|exact Q].
      intros e (r & ->). discriminate. }
  destruct (F2_exists _ _ V1 N1) as (lo & El & Ql).
  destruct (F2_exists_up _ _ V2 N2) as (up & Eu & Qu).
  assert (Ll := lo_all_length h nx nu Enx Enu W). assert (Lup := up_all_length h nx nu Enx Enu W).
  unfold hybrid_mic. rewrite Enx, Enu. cbn [len_ok andb negb].
  destruct (h_modes h) as [|m ms] eqn:E; [destruct Hm|].
  unfold tighten. rewrite <- !repeat_app.
  rewrite (map2_dflt ext_max NInf (lo_all h)) by (auto; intros [|e|]; auto).
  rewrite (map2_dflt ext_min PInf (up_all h)) by (auto; intros [|e|]; auto).
  rewrite El, Eu, !all_some_fin.
  destruct (all_product_rows nx nu (length (m :: ms)) lo up) eqn:Ep; [discriminate|].
  exfalso. revert Ep. apply all_product_rows_total. intros j Hj.
  rewrite vle_nth in Ql, Qu. destruct Ql as [Q1 Q2]. destruct Qu as [Q3 Q4].
  specialize (Q2 j). specialize (Q4 j).
  assert (nth j lo 0 <= nth j (x ++ u) 0) by (apply Q2; unfold vec in *; lia).
  assert (nth j (x ++ u) 0 <= nth j up 0) by (apply Q4; unfold vec in *; lia). lra.
Qed.

Lemma hybrid_system_total : forall bounds bounded nx h st x x',
  bounds_valid bounds -> built bounds bounded nx 0 h -> finite_modes h ->
  length x = nx -> hybrid_next h x [] x' ->
  system_total nx st (fun xv xn vt m => hybrid_add_dynamics h xv xn [] vt m).
Proof.
  intros bounds bounded nx h st x x' Vb Bu Fm Lx Hn. intros vt m xv xn _ _ _ _ _ _ _.
  unfold hybrid_add_dynamics.
  destruct (hybrid_mic h None None None None) as [c|] eqn:E.
  - destruct (add_mic c (xv ++ []) (Some xn) NewBinary vt m) as [[m1 sl] bi]. discriminate.
  - exfalso. revert E. eapply (hybrid_total bounds bounded nx 0 h x []); eauto.
Qed.

(** ** Modes *)

Lemma in_mode_iff : forall m z, length (md_q m) = length (md_P m) ->
  (in_mode m z = true <-> inside m z).
Proof.
  intros m z L. unfold in_mode, inside, vle.
  assert (Q : forall a b, length a = length b ->
    (forallb (fun b => b) (map2 Rleb a b) = true <-> Forall2 Rle a b)).
  { induction a as [|x a IH]; intros [|y b] H; try discriminate; cbn [map2 forallb].
    - split; auto.
    - rewrite andb_true_iff, Rleb_true, IH by (simpl in H; lia). split.
      + intros [? ?]; constructor; auto.
      + intros F. inversion F; auto. }
  apply Q. rewrite mv_length. auto.
Qed.

Lemma mode_from_spec : forall nx nu ms k z, Forall (mode_wf nx nu) ms ->
  match mode_from k ms z with
  | Some i => (k <= i)%nat /\ (exists m, nth_error ms (i - k) = Some m /\ inside m z) /\
      forall j m, (j < i - k)%nat -> nth_error ms j = Some m -> ~ inside m z
  | None => forall m, In m ms -> ~ inside m z
  end.
Proof.
  intros nx nu ms. induction ms as [|m ms IH]; intros k z W; simpl.
  - tauto.
  - assert (Wm : mode_wf nx nu m) by (inversion W; auto). 
    assert (Lq : length (md_q m) = length (md_P m)) by apply Wm.
    destruct (in_mode m z) eqn:E.
    + apply in_mode_iff in E; auto. split; auto. rewrite Nat.sub_diag. split.
      * exists m. auto.
      * intros; lia.
    + assert (NI : ~ inside m z).
      { intros Q. apply in_mode_iff in Q; auto. congruence. }
      specialize (IH (S k) z ltac:(inversion W; auto)).
      destruct (mode_from (S k) ms z) as [i|].
      * destruct IH as (I1 & (m' & I2 & I3) & I4). split; [lia|].
        replace (i - k)%nat with (S (i - S k)) by lia. split.
        -- exists m'. auto.
        -- intros [|j] m2 Hj E2; simpl in E2; [injection E2 as <-; auto|].
           apply (I4 j m2); auto. lia.
      * intros m' [->|Hm']; auto.
Qed.

Lemma find_mode_spec : forall bounds bounded nx nu h x u, bounds_valid bounds ->
  built bounds bounded nx nu h ->
  match find_mode h x u with
  | Some i => exists m, nth_error (h_modes h) i = Some m /\ inside m (x ++ u) /\
      forall j m', (j < i)%nat -> nth_error (h_modes h) j = Some m' -> ~ inside m' (x ++ u)
  | None => forall m, In m (h_modes h) -> ~ inside m (x ++ u)
  end.
Proof.
  intros bounds bounded nx nu h x u Vb Bu.
  destruct (built_inv _ _ _ _ _ Vb Bu) as (Enx & Enu & W & Va).
  assert (Q := mode_from_spec nx nu (h_modes h) 0 (x ++ u) W). unfold find_mode.
  destruct (mode_from 0 (h_modes h) (x ++ u)) as [i|]; auto.
  rewrite Nat.sub_0_r in Q. destruct Q as (_ & (m & Q1 & Q2) & Q3). exists m. auto.
Qed.

Lemma step_forward_spec : forall bounds bounded nx nu h x u, bounds_valid bounds ->
  built bounds bounded nx nu h ->
  (forall x', step_forward h x u None = Some x' ->
     exists i m, find_mode h x u = Some i /\ nth_error (h_modes h) i = Some m /\ x' = image m x u) /\
  (step_forward h x u None = None <-> forall m, In m (h_modes h) -> ~ inside m (x ++ u)) /\
  (forall i m, nth_error (h_modes h) i = Some m -> step_forward h x u (Some i) = Some (image m x u)) /\
  (forall i, nth_error (h_modes h) i = None -> step_forward h x u (Some i) = None).
Proof.
  intros bounds bounded nx nu h x u Vb Bu. assert (F := find_mode_spec _ _ _ _ h x u Vb Bu).
  unfold step_forward. split; [|split; [|split]].
  - intros x' H. destruct (find_mode h x u) as [i|] eqn:E; [|discriminate].
    destruct (nth_error (h_modes h) i) as [m|] eqn:E2; [|discriminate]. injection H as <-.
    exists i, m. auto.
  - destruct (find_mode h x u) as [i|] eqn:E.
    + destruct F as (m & F1 & F2 & _). rewrite F1. split; [discriminate|].
      intros Q. exfalso. apply (Q m); auto. eapply nth_error_In; eauto.
    + split; auto.
  - intros i m H. rewrite H. auto.
  - intros i H. rewrite H. auto.
Qed.

Lemma possible_dx_spec : forall bounds bounded nx nu h x u, bounds_valid bounds ->
  built bounds bounded nx nu h ->
  forall x', In x' (possible_dx h x u) <-> hybrid_next h x u x'.
Proof.
  intros bounds bounded nx nu h x u Vb Bu x'.
  destruct (built_inv _ _ _ _ _ Vb Bu) as (Enx & Enu & W & Va).
  rewrite Forall_forall in W.
  unfold possible_dx, hybrid_next. rewrite in_map_iff. split.
  - intros (m & <- & Hm). apply filter_In in Hm. destruct Hm as [H1 H2]. exists m.
    split; auto. split; auto. apply in_mode_iff; auto. apply (W m H1).
  - intros (m & H1 & H2 & ->). exists m. split; auto. apply filter_In. split; auto.
    apply in_mode_iff; auto. apply (W m H1).
Qed.
