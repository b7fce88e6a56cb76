(** Blocks of rows that determine their new variables: gradient products, sign
    products, loops over the modes. *)

Require Import Reals List Lia Lra Bool Arith.
Require Import Verif.Vec Verif.VecFacts Verif.ModelMip Verif.SpecMip Verif.SpecCore
  Verif.ModelUtils Verif.SpecUtils Verif.ModelNet Verif.SpecNet Verif.SpecStep
  Verif.ModelPattern Verif.SpecPattern
  Verif.ModelGrad Verif.ModelLyapunov Verif.SpecLyapunov Verif.ModelContinuous Verif.SpecContinuous
  Verif.ModelHybrid Verif.SpecHybrid Verif.ModelContHybrid Verif.SpecContHybrid
  Verif.ProofUtils Verif.ProofMip Verif.ProofSat Verif.ProofConcat Verif.ProofTorch
  Verif.ProofBounds Verif.ProofNet Verif.ProofMaxBox Verif.ProofGrad Verif.ProofPattern Verif.ProofGradVec
  Verif.ProofStep Verif.ProofLyapunov Verif.ProofLyapCert Verif.ProofContinuous Verif.ProofContinuous2
  Verif.ProofContinuous3 Verif.ProofContinuous4.
Import ListNotations.
Open Scope R_scope.

Section Blocks.
Variable st : bool.

Definition grows (m m' : mip) (zss : list (list nat)) : Prop :=
  fresh (nvars m) (nvars m') (concat zss) /\ (nvars m <= nvars m')%nat /\ history st m' /\
  forall sg, feas VBin m' sg -> feas VBin m sg.
Definition pins (m m' : mip) (zss : list (list nat)) (C : assignment -> Prop) (vs : list vec) : Prop :=
  (forall sg, feas VBin m' sg -> C sg -> map (map sg) zss = vs) /\
  (forall sg, feas VBin m sg -> C sg ->
     exists sg', feas VBin m' sg' /\ agree m sg sg' /\ map (map sg') zss = vs).

Lemma grows_nil : forall m, history st m -> grows m m [].
Proof. intros m H. split; [apply fresh_nil|]. auto. Qed.
Lemma pins_nil : forall m C, pins m m [] C [].
Proof. intros m C. split; auto. intros sg G _. exists sg. split; auto. split; [intros i _; auto|auto]. Qed.

Lemma grows_app : forall m m1 m2 z1 z2, grows m m1 z1 -> grows m1 m2 z2 -> grows m m2 (z1 ++ z2).
Proof.
  intros m m1 m2 z1 z2 (F1 & L1 & H1 & D1) (F2 & L2 & H2 & D2).
  split; [|split; [lia|split; auto]].
  rewrite concat_app. eapply fresh_weaken; [eapply fresh_app; [exact F1|exact F2|lia|lia|lia]|lia|lia].
Qed.
Lemma map_map_agree : forall m (s1 s2 : assignment) zss, below (nvars m) (concat zss) -> agree m s1 s2 ->
  map (map s2) zss = map (map s1) zss.
Proof.
  intros m s1 s2 zss. induction zss as [|z zss IH]; intros B A; auto.
  cbn [concat] in B. apply Forall_app in B. destruct B as [B1 B2]. cbn [map]. f_equal; auto.
  symmetry. apply (map_agree (nvars m)); auto.
Qed.
Lemma pins_app : forall m m1 m2 z1 z2 C v1 v2, local m C ->
  grows m m1 z1 -> grows m1 m2 z2 -> pins m m1 z1 C v1 -> pins m1 m2 z2 C v2 ->
  pins m m2 (z1 ++ z2) C (v1 ++ v2).
Proof.
  intros m m1 m2 z1 z2 C v1 v2 LC (F1 & L1 & H1 & D1) (F2 & L2 & H2 & D2) (S1 & X1) (S2 & X2).
  split.
  - intros sg G HC. rewrite map_app, S1, S2; auto.
  - intros sg G HC. destruct (X1 sg G HC) as (s1 & G1 & A1 & E1).
    destruct (X2 s1 G1) as (s2 & G2 & A2 & E2); [eapply LC; eauto|].
    exists s2. split; auto. split; [eapply agree_trans; [|exact A1|exact A2]; lia|].
    rewrite map_app, E2. f_equal. rewrite <- E1. apply (map_map_agree m1); auto.
    apply fresh_below in F1. exact F1.
Qed.

(** ** Gradient products *)

Lemma gradient_rows : forall n N B c, net_wf n N -> out_features (last_layer N) = 1%nat ->
  bounds_shape N B -> output_gradient_times_vector_w_bounds N B = Some c ->
  exists Ax As Ab rhs row, Ain_input c = Some Ax /\ Ain_slack c = Some As /\ Ain_binary c = Some Ab /\
    rhs_in c = Some rhs /\ Aout_slack c = Some [row] /\ length row = num_units (hidden N) /\
    nsl c = num_units (hidden N) /\
    wfm (length rhs) n Ax /\ wfm (length rhs) (num_units (hidden N)) As /\
    wfm (length rhs) (num_units (hidden N)) Ab /\
    forall d pats, length d = n -> pattern_shape (hidden N) pats -> tangent_boxes N B pats d ->
      length (concat (tangents (hidden N) pats d)) = num_units (hidden N) /\
      (forall s, length s = num_units (hidden N) ->
         (vle (vadd (vadd (mv Ax d) (mv As s)) (mv Ab (flat pats))) rhs <->
          s = concat (tangents (hidden N) pats d))) /\
      dot row (concat (tangents (hidden N) pats d)) = nth 0 (jvp N pats d) 0.
Proof.
  intros n N B c W Ho Bs E.
  destruct (grad_mic n N B W Ho Bs) as (c' & row & E' & Ok & N1 & N2 & N3 & _ & Ea & Lr & K).
  rewrite E in E'. apply Some_inj in E'. subst c'.
  destruct Ok as (Wf & _).
  destruct (output_gradient_times_vector_w_bounds N B) as [c'|] eqn:Ec; [|discriminate].
  apply Some_inj in E. subst c'.
  unfold output_gradient_times_vector_w_bounds in Ec.
  destruct (grad_layers (x_size N) (num_units (hidden N)) None 0 (hidden N) (w_lo B) (w_up B)) as [k|]; [|discriminate].
  destruct (rev (hidden N)) as [|[l a] t]; [discriminate|].
  apply Some_inj in Ec.
  exists (k_x k), (k_s k), (k_b k), (k_rhs k), row.
  assert (X : Ain_input c = Some (k_x k) /\ Ain_slack c = Some (k_s k) /\ Ain_binary c = Some (k_b k) /\
    rhs_in c = Some (k_rhs k) /\ rhs_eq c = None) by (rewrite <- Ec; cbn; auto).
  destruct X as (X1 & X2 & X3 & X4 & X5).
  destruct Wf as (_ & _ & _ & _ & Y1 & Y2 & Y3 & _).
  unfold num_ineq in Y1, Y2, Y3. rewrite X1, X4, N1 in Y1. rewrite X2, X4, N2 in Y2. rewrite X3, X4, N3 in Y3.
  cbn [owf] in Y1, Y2, Y3.
  repeat (split; [assumption|]).
  intros d pats Ld S Tb. destruct (K d pats Ld S Tb) as (K1 & K2 & K3).
  split; auto. split; auto. intros s Ls. rewrite <- (K2 s Ls).
  unfold rows_sat, sat_in, sat_eq. rewrite X1, X2, X3, X4, X5, N1, N2, N3.
  unfold lhs, term. assert (Lf := flat_length _ _ S). tauto.
Qed.

Lemma gradient_spec : forall n N beta lin (f : vec -> vec) kv lo up vs m m' z co,
  net_wf n N -> out_features (last_layer N) = 1%nat -> vle lo up ->
  (forall r Ax, wfm r n Ax -> wfm r kv (lin Ax) /\ forall w, length w = kv -> mv (lin Ax) w = mv Ax (f w)) ->
  (forall w : vec, length w = kv -> length (f w) = n) ->
  add_gradient N beta lin lo up vs m = Some (m', z, co) ->
  history st m -> below (nvars m) vs -> below (nvars m) beta -> length vs = kv ->
  length beta = num_units (hidden N) ->
  length lo = n /\ grows m m' [z] /\ length co = length z /\
  forall (C : assignment -> Prop) pats (w : vec), (forall sg, C sg -> map sg vs = w /\ map sg beta = flat pats) ->
    length w = kv -> pattern_shape (hidden N) pats -> in_box lo up (f w) ->
    pins m m' [z] C [concat (tangents (hidden N) pats (f w))] /\
    dot co (concat (tangents (hidden N) pats (f w))) = nth 0 (jvp N pats (f w)) 0.
Proof.
  intros n N beta lin f kv lo up vs m m' z co W Ho V Hlin Lf E Hi Bv Bb Lv Lb.
  unfold add_gradient, output_gradient_times_vector in E.
  destruct ((length lo =? x_size N)%nat && (length up =? x_size N)%nat)%bool eqn:El; [|discriminate].
  apply andb_true_iff in El. destruct El as [El _]. apply Nat.eqb_eq in El.
  assert (Hx : x_size N = n).
  { destruct W as [Hne [W _]]. unfold x_size. destruct (hidden N) as [|[l a] hs]; [congruence|]. apply W. }
  rewrite Hx in El.
  destruct (compute_Wz_bounds_IA N lo up) as [B|] eqn:Ew; [|discriminate].
  destruct (output_gradient_times_vector_w_bounds N B) as [c|] eqn:Ec; [|discriminate].
  unfold compute_Wz_bounds_IA in Ew.
  destruct (wz_loop_spec (hidden N) n _ (last_layer N) lo up (proj1 (proj2 W)) (proj2 (proj2 W)) (wz_slopes _ _ _ _ _ Ew) V El)
    as (B' & EB & B1 & B2 & B3 & B4 & B5).
  rewrite Ew in EB. apply Some_inj in EB. subst B'.
  assert (Bs : bounds_shape N B) by (split; [lia|split; auto]).
  destruct (gradient_rows n N B c W Ho Bs Ec)
    as (Ax & As & Ab & rhs & row & X1 & X2 & X3 & X4 & X5 & Lrow & Nsl & Y1 & Y2 & Y3 & K).
  rewrite X1, X2, X3, X4, X5, Nsl in E.
  destruct (addVars (repeat (NInf, PInf) (num_units (hidden N))) VCont m) as [m1 z1] eqn:E1.
  destruct (step_free VBin st _ _ _ _ E1 Hi) as (A1 & A2 & A3 & A4 & A5).
  cbn [concat] in E. rewrite app_nil_r in E.
  apply Some_inj in E. apply pair_equal_spec in E. destruct E as [E E4].
  apply pair_equal_spec in E. destruct E as [E2 E3]. subst z1 co.
  destruct (Hlin _ _ Y1) as [Yl Hl].
  assert (Lz : length z = num_units (hidden N)) by (rewrite A1; apply seq_length).
  assert (Bz : below (nvars m1) z) by (rewrite A1; apply ProofLyapCert.below_seq; lia).
  assert (Wf : blocks_wf (length rhs) (combine [lin Ax; As; Ab] [vs; z; beta])).
  { constructor; [cbn [fst snd]; rewrite Lv; exact Yl|]. constructor; [cbn [fst snd]; rewrite Lz; exact Y2|].
    constructor; [cbn [fst snd]; rewrite Lb; exact Y3|constructor]. }
  assert (Gf : forall sg, gfeas m' sg <-> gfeas m1 sg /\
     vle (vadd (vadd (mv (lin Ax) (map sg vs)) (mv As (map sg z))) (mv Ab (map sg beta))) rhs).
  { intros sg. rewrite <- E2. rewrite gfeas_addMConstr; auto; [|discriminate].
    cbn [combine bsum sense_ok].
    rewrite (vadd_zeros_r (length rhs) (mv Ab (map sg beta))) by (rewrite mv_length; apply Y3).
    rewrite vadd_assoc. tauto. }
  assert (V' : nvars m' = nvars m1) by (rewrite <- E2; apply nvars_addMConstr).
  assert (Bvb : below (nvars m1) vs /\ below (nvars m1) beta) by
    (split; eapply below_weaken; eauto; lia).
  split; auto. split; [|split].
  - split; [|split; [lia|split]].
    + cbn [concat]. rewrite app_nil_r, A1, V'. apply fresh_seq. lia.
    + rewrite <- E2. apply h_mconstr; auto. apply (history_allk st); auto.
      cbn [concat]. rewrite app_nil_r. apply Forall_app. split; [apply Bvb|].
      apply Forall_app. split; [exact Bz|apply Bvb].
    + intros sg G. apply A4. apply feas_bin. apply feas_bin in G. apply Gf in G. apply G.
  - rewrite Lrow, Lz. auto.
  - intros C pats w HC Lw Sh Bx.
    assert (Tb : tangent_boxes N B pats (f w)).
    { intros i Hi'. destruct (B5 (f w) pats Bx Sh) as [_ (_ & _ & Z)].
      rewrite app_length, pre_tangents_length in Z by auto.
      specialize (Z i ltac:(simpl; lia)). rewrite app_nth1 in Z; auto.
      rewrite pre_tangents_length; auto. }
    destruct (K (f w) pats (Lf w Lw) Sh Tb) as (K1 & K2 & K3).
    split; [split|exact K3].
    + intros sg G HCs. destruct (HC sg HCs) as [Q1 Q2]. apply feas_bin in G. apply Gf in G. destruct G as [_ G].
      rewrite Q1, Q2, Hl in G by auto. apply K2 in G; [|rewrite map_length; exact Lz].
      cbn [map]. f_equal. exact G.
    + intros sg G HCs. destruct (HC sg HCs) as [Q1 Q2].
      destruct (A5 sg _ G K1) as (s1 & G1 & Ag & Es).
      assert (R1 : map s1 vs = w) by (rewrite <- Q1; symmetry; apply (map_agree (nvars m)); auto).
      assert (R2 : map s1 beta = flat pats) by (rewrite <- Q2; symmetry; apply (map_agree (nvars m)); auto).
      exists s1. split; [|split; auto].
      * apply feas_bin. apply Gf. split; [apply (proj1 (feas_bin _ _)); exact G1|].
        rewrite R1, R2, Hl by auto. apply K2; [rewrite map_length; exact Lz|exact Es].
      * cbn [map]. f_equal. exact Es.
Qed.

(** ** Sign products *)

Lemma sign_spec : forall n kv al M lo up vs m m' z co,
  add_sign n al M lo up vs m = Some (m', z, co) -> wfm n kv M ->
  history st m -> below (nvars m) vs -> below (nvars m) al -> length vs = kv -> length al = n ->
  vle lo up /\ grows m m' [z] /\ length co = length z /\
  forall (C : assignment -> Prop) sgs (w : vec), (forall sg, C sg -> map sg vs = w /\ map sg al = map bit sgs) ->
    length w = kv -> length sgs = n -> in_box lo up (mv M w) ->
    pins m m' [z] C [vmul (map bit sgs) (mv M w)] /\
    dot co (vmul (map bit sgs) (mv M w)) = 2 * vsum (vmul (map bit sgs) (mv M w)).
Proof.
  intros n kv al M lo up vs m m' z co E [LM FM] Hi Bv Ba Lv La.
  unfold add_sign in E. destruct (addVars (repeat (NInf, PInf) n) VCont m) as [m1 z1] eqn:E1.
  destruct (dl1_loop M lo up z1 al vs m1) as [m2|] eqn:E2; [|discriminate].
  apply Some_inj in E. apply pair_equal_spec in E. destruct E as [E E4].
  apply pair_equal_spec in E. destruct E as [Ea E3]. subst m2 z1 co.
  destruct (step_free VBin st _ _ _ _ E1 Hi) as (A1 & A2 & A3 & A4 & A5).
  assert (Lz : length z = n) by (rewrite A1; apply seq_length).
  assert (Bz : below (nvars m1) z) by (rewrite A1; apply ProofLyapCert.below_seq; lia).
  destruct (dl1_spec st kv vs Lv M lo up z al m1 m' E2 A3) as (D1 & D2 & D3 & D4 & D5 & D6 & D7); auto.
  { eapply below_weaken; eauto. lia. }
  { eapply below_weaken; eauto. lia. }
  { unfold mat, vec in *. congruence. }
  split.
  { clear -E2. revert lo up z al m1 E2. induction M as [|r M IH]; intros lo up z al m1 E2; cbn [dl1_loop] in E2.
    - destruct lo, up, z; try discriminate. constructor.
    - destruct lo as [|l lo]; [discriminate|]. destruct up as [|u up]; [discriminate|].
      destruct z as [|t z]; [discriminate|]. destruct al as [|a al]; [discriminate|].
      destruct (replace_binary_continuous_product l u) as [rw|] eqn:Er; [|discriminate].
      apply vle_cons. split; [|eapply IH; eauto].
      destruct (Rle_lt_dec l u); auto. exfalso. apply product_reject in r0. congruence. }
  split; [|split].
  - split; [|split; [lia|split; auto]].
    cbn [concat]. rewrite app_nil_r, A1, D1. apply fresh_seq. lia.
  - rewrite repeat_length. auto.
  - intros C sgs w HC Lw Lsg Bx.
    assert (Lp : length (vmul (map bit sgs) (mv M w)) = n).
    { unfold vmul. rewrite map2_length, map_length, mv_length. unfold mat, vec in *. lia. }
    split; [split|].
    + intros sg G HCs. destruct (HC sg HCs) as [Q1 Q2].
      assert (Bb : bins (map sg al)) by (rewrite Q2; apply bits_bins).
      destruct (proj1 (D7 sg Bb) G) as (_ & _ & Et). rewrite Q1, Q2 in Et. cbn [map]. f_equal. exact Et.
    + intros sg G HCs. destruct (HC sg HCs) as [Q1 Q2].
      destruct (A5 sg _ G Lp) as (s1 & G1 & Ag & Es).
      assert (R1 : map s1 vs = w) by (rewrite <- Q1; symmetry; apply (map_agree (nvars m)); auto).
      assert (R2 : map s1 al = map bit sgs) by (rewrite <- Q2; symmetry; apply (map_agree (nvars m)); auto).
      exists s1. split; [|split; auto].
      * apply D7; [rewrite R2; apply bits_bins|]. rewrite R1, R2. auto.
      * cbn [map]. f_equal. exact Es.
    + apply dot_repeat_l. exact Lp.
Qed.

(** ** The loops over the modes *)

Fixpoint vals3 {A} (f : mode_data -> vec -> A) (ms : list mode_data) (ws : list vec) : list A :=
  match ms, ws with
  | md :: ms', w :: ws' => f md w :: vals3 f ms' ws'
  | _, _ => []
  end.

Lemma mode_loop_spec : forall (P : Type) (add : mode_data -> vec -> vec -> list nat -> mip -> option (mip * list nat * vec))
  (bl : list nat) (ok : mode_data -> vec -> vec -> list nat -> Prop)
  (ex : P -> assignment -> Prop) (good : P -> mode_data -> vec -> vec -> vec -> Prop)
  (val : P -> mode_data -> vec -> vec) (res : P -> mode_data -> vec -> R),
  (forall md lo up vs m m' z co, add md lo up vs m = Some (m', z, co) -> ok md lo up vs ->
     history st m -> below (nvars m) vs -> below (nvars m) bl ->
     grows m m' [z] /\ length co = length z /\
     forall (C : assignment -> Prop) p (w : vec), (forall sg, C sg -> map sg vs = w /\ ex p sg) -> good p md lo up w ->
       pins m m' [z] C [val p md w] /\ dot co (val p md w) = res p md w) ->
  forall ms bs vss m m' zss cos, mode_loop add ms bs vss m = Some (m', zss, cos) ->
  history st m -> below (nvars m) (concat vss) -> below (nvars m) bl ->
  length bs = length ms -> length vss = length ms ->
  (forall i md, nth_error ms i = Some md -> ok md (fst (nth i bs ([], []))) (snd (nth i bs ([], []))) (nth i vss [])) ->
  grows m m' zss /\ Forall2 (fun (c : vec) z => length c = length z) cos zss /\
  forall (C : assignment -> Prop) p (ws : list vec), local m C -> (forall sg, C sg -> map (map sg) vss = ws /\ ex p sg) ->
    length ws = length ms ->
    (forall i md, nth_error ms i = Some md ->
       good p md (fst (nth i bs ([], []))) (snd (nth i bs ([], []))) (nth i ws [])) ->
    pins m m' zss C (vals3 (val p) ms ws) /\
    vsum (map2 dot cos (vals3 (val p) ms ws)) = vsum (vals3 (res p) ms ws).
Proof.
  intros P add bl ok ex good val res Hadd.
  induction ms as [|md ms IH]; intros bs vss m m' zss cos E Hi Bv Bl Lb Lv Hok; cbn [mode_loop] in E.
  - injection E as <- <- <-. split; [apply grows_nil; auto|]. split; [constructor|].
    intros C p ws _ _ Lw _. cbn. split; [apply pins_nil|auto].
  - destruct bs as [|[lo up] bs]; [discriminate|]. destruct vss as [|v vss]; [discriminate|].
    destruct (add md lo up v m) as [[[m1 z] co]|] eqn:E1; [|discriminate].
    destruct (mode_loop add ms bs vss m1) as [[[m2 zs] cs]|] eqn:E2; [|discriminate].
    apply Some_inj in E. apply pair_equal_spec in E. destruct E as [E Ec].
    apply pair_equal_spec in E. destruct E as [Em Ez]. subst m2 zss cos.
    cbn [concat] in Bv. apply Forall_app in Bv. destruct Bv as [Bv1 Bv2].
    destruct (Hadd md lo up v m m1 z co E1 (Hok 0%nat md eq_refl) Hi Bv1 Bl) as (G1 & L1 & K1).
    assert (G1' := G1). destruct G1' as (_ & Le & H1 & _).
    destruct (IH bs vss m1 m' zs cs E2 H1) as (G2 & L2 & K2).
    + eapply below_weaken; eauto.
    + eapply below_weaken; eauto.
    + simpl in Lb; lia.
    + simpl in Lv; lia.
    + intros i md' Ei. exact (Hok (S i) md' Ei).
    + split; [exact (grows_app _ _ _ [z] zs G1 G2)|]. split; [constructor; auto|].
      intros C p ws LC HC Lw Hg. destruct ws as [|w ws]; [discriminate|].
      destruct (K1 C p w) as [P1 R1].
      { intros sg Hs. destruct (HC sg Hs) as [Q1 Q2]. cbn [map] in Q1. injection Q1 as Q1 _. split; auto. }
      { exact (Hg 0%nat md eq_refl). }
      destruct (K2 C p ws) as [P2 R2].
      { intros s1 s2 A. apply LC. intros i Hi'. apply A. lia. }
      { intros sg Hs. destruct (HC sg Hs) as [Q1 Q2]. cbn [map] in Q1. injection Q1 as _ Q1. split; auto. }
      { simpl in Lw; lia. }
      { intros i md' Ei. exact (Hg (S i) md' Ei). }
      cbn [vals3]. split.
      * exact (pins_app m m1 m' [z] zs C [val p md w] _ LC G1 G2 P1 P2).
      * cbn [map2 vsum]. rewrite R1, R2. reflexivity.
Qed.
End Blocks.
