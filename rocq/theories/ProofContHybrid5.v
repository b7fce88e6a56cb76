(** The second derivative program for hybrid systems: one block per mode. *)

Require Import Reals List Lia Lra Bool Arith.
Require Import Verif.Vec Verif.VecFacts Verif.ModelMip Verif.SpecMip Verif.SpecCore
  Verif.ModelUtils Verif.SpecUtils Verif.ModelNet Verif.SpecNet Verif.SpecStep
  Verif.ModelPattern Verif.SpecPattern
  Verif.ModelGrad Verif.ModelLyapunov Verif.SpecLyapunov Verif.ModelContinuous Verif.SpecContinuous
  Verif.ModelHybrid Verif.SpecHybrid Verif.ModelContHybrid Verif.SpecContHybrid
  Verif.ProofUtils Verif.ProofMip Verif.ProofSat Verif.ProofConcat Verif.ProofTorch
  Verif.ProofBounds Verif.ProofNet Verif.ProofMaxBox Verif.ProofGrad Verif.ProofPattern Verif.ProofGradVec
  Verif.ProofStep Verif.ProofLyapunov Verif.ProofLyapCert Verif.ProofContinuous Verif.ProofContinuous2
  Verif.ProofContinuous3 Verif.ProofContinuous4
  Verif.ProofHybrid Verif.ProofHybrid2
  Verif.ProofContHybrid Verif.ProofContHybrid2 Verif.ProofContHybrid3 Verif.ProofContHybrid4.
Import ListNotations.
Open Scope R_scope.

(** ** Lists of per-mode values *)

Lemma vals3_pick : forall (f : mode_data -> vec -> R) ms (ws : list vec) k mdk, length ws = length ms ->
  nth_error ms k = Some mdk ->
  (forall i md, nth_error ms i = Some md -> i <> k -> f md (nth i ws []) = 0) ->
  vsum (vals3 f ms ws) = f mdk (nth k ws []).
Proof.
  intros f. induction ms as [|md ms IH]; intros [|w ws] k mdk L Hk Z; try discriminate.
  - destruct k; discriminate.
  - cbn [vals3 vsum]. injection L as L. destruct k as [|k].
    + injection Hk as ->. cbn [nth].
      assert (E : vsum (vals3 f ms ws) = 0).
      { assert (Z' : forall i md, nth_error ms i = Some md -> f md (nth i ws []) = 0).
        { intros i md' Hi. apply (Z (S i) md' Hi). lia. }
        clear -L Z'. revert ws L Z'. induction ms as [|md ms IH]; intros [|w ws] L Z'; try discriminate; auto.
        cbn [vals3 vsum]. rewrite (Z' 0%nat md eq_refl : f md w = 0). rewrite IH; [ring| |].
        - injection L; auto.
        - intros i md' Hi. apply (Z' (S i) md' Hi). }
      rewrite E. ring.
    + cbn [nth]. assert (Z0 : f md w = 0) by (apply (Z 0%nat md eq_refl); lia). rewrite Z0.
      rewrite (IH ws k mdk L Hk); [ring|]. intros i md' Hi Ne. apply (Z (S i) md' Hi). lia.
Qed.

Lemma dot_concat_vals : forall n (f : mode_data -> vec) ms (ws : list vec),
  (forall md, In md ms -> length (f md) = n) -> Forall (fun w => length w = n) ws ->
  length ws = length ms ->
  dot (concat (map f ms)) (concat ws) = vsum (vals3 (fun md w => dot (f md) w) ms ws).
Proof.
  intros n f. induction ms as [|md ms IH]; intros [|w ws] Hf Hw L; try discriminate; auto.
  cbn [map concat vals3 vsum]. inversion Hw as [|? ? Lw Hw']; subst.
  rewrite dot_app by (apply Hf; left; auto). f_equal. apply IH; auto.
  intros md' H'. apply Hf. right; auto.
Qed.
Lemma dot_map_vals : forall (f : mode_data -> R) ms (r : vec), length r = length ms ->
  dot (map f ms) r = vsum (vals3 (fun md w => f md * nth 0 w 0) ms (map (fun t => [t]) r)).
Proof.
  intros f. induction ms as [|md ms IH]; intros [|t r] L; try discriminate; auto.
  cbn [map dot vals3 vsum]. cbn [nth]. f_equal. apply IH. injection L; auto.
Qed.

Lemma objective_vals : forall (sg : assignment) cos zs vals, map (map sg) zs = vals ->
  vsum (map2 (fun (c : vec) (v : list nat) => dot c (map sg v)) cos zs) = vsum (map2 dot cos vals).
Proof.
  intros sg. induction cos as [|c cos IH]; intros [|z zs] vals E; subst; auto.
  cbn [map map2 vsum]. f_equal. apply IH. auto.
Qed.
Lemma objective_scaled : forall (sg : assignment) lam cos zs,
  vsum (map2 (fun (c : vec) (v : list nat) => dot c (map sg v)) (map (vscale lam) cos) zs)
  = lam * vsum (map2 (fun (c : vec) (v : list nat) => dot c (map sg v)) cos zs).
Proof.
  intros sg lam. induction cos as [|c cos IH]; intros [|z zs]; cbn [map map2 vsum]; try ring.
  rewrite IH, dot_vscale_l. ring.
Qed.
Lemma vsum_map2_app : forall {A B} (f : A -> B -> R) a a' b b', length a = length b ->
  vsum (map2 f (a ++ a') (b ++ b')) = vsum (map2 f a b) + vsum (map2 f a' b').
Proof.
  intros A B f. induction a as [|x a IH]; intros a' [|y b] b' L; try discriminate; cbn [app map2 vsum].
  - ring.
  - rewrite IH by (injection L; auto). ring.
Qed.

Lemma mode_loop_const : forall (add : mode_data -> vec -> vec -> list nat -> mip -> option (mip * list nat * vec)) (c0 : vec),
  (forall md lo up v m m' z co, add md lo up v m = Some (m', z, co) -> co = c0) ->
  forall ms bs vs m m' zs cos, mode_loop add ms bs vs m = Some (m', zs, cos) ->
  cos = map (fun _ => c0) ms.
Proof.
  intros add c0 H. induction ms as [|md ms IH]; intros bs vs m m' zs cos E; cbn [mode_loop] in E.
  - injection E as _ _ <-. reflexivity.
  - destruct bs as [|[lo up] bs]; [discriminate|]. destruct vs as [|v vs]; [discriminate|].
    destruct (add md lo up v m) as [[[m1 z] co]|] eqn:E1; [|discriminate].
    destruct (mode_loop add ms bs vs m1) as [[[m2 zs'] cs]|] eqn:E2; [|discriminate].
    apply Some_inj in E. apply pair_equal_spec in E. destruct E as [_ <-].
    cbn [map]. rewrite (H _ _ _ _ _ _ _ _ E1), (IH _ _ _ _ _ _ E2). reflexivity.
Qed.
Lemma add_sign_co : forall n al M lo up v m m' z co, add_sign n al M lo up v m = Some (m', z, co) ->
  co = repeat 2 n.
Proof.
  intros n al M lo up v m m' z co E. unfold add_sign in E.
  destruct (addVars (repeat (NInf, PInf) n) VCont m) as [m1 z1].
  destruct (dl1_loop M lo up z1 al v m1); [|discriminate].
  apply Some_inj in E. apply pair_equal_spec in E. destruct E as [_ <-]. auto.
Qed.

(** ** Chunks *)

Lemma chunks_below : forall n K b s, below b s -> below b (concat (chunks n K s)).
Proof.
  intros n K b s H. unfold chunks. generalize (seq 0 K). induction l as [|i l IH]; cbn; [constructor|].
  apply Forall_app. split; auto. apply Forall_forall. intros y Hy. unfold below in H. rewrite Forall_forall in H. apply H. unfold slice in Hy.
  rewrite <- (firstn_skipn (i * n) s). apply in_or_app. right.
  rewrite <- (firstn_skipn n (skipn (i * n) s)). apply in_or_app. left. exact Hy.
Qed.
Lemma chunks_length : forall n K s, length (chunks n K s) = K.
Proof. intros. unfold chunks. rewrite map_length, seq_length. auto. Qed.
Lemma chunks_nth_length : forall n K s i, length s = (K * n)%nat -> (i < K)%nat ->
  length (nth i (chunks n K s) []) = n.
Proof.
  intros n K s i L H. unfold chunks.
  rewrite (nth_indep _ [] (slice (0 * n) n s)) by (rewrite map_length, seq_length; auto).
  rewrite (map_nth (fun i => slice (i * n) n s) (seq 0 K) 0%nat i). rewrite seq_nth by auto.
  apply slice_length. rewrite L. nia.
Qed.
Lemma map_slice : forall {A B} (f : A -> B) off n s, map f (slice off n s) = slice off n (map f s).
Proof. intros. unfold slice. rewrite skipn_map, firstn_map. auto. Qed.
Lemma chunks_vals : forall (sg : assignment) n K s (f : nat -> vec), (forall i, length (f i) = n) ->
  map sg s = concat (map f (seq 0 K)) -> map (map sg) (chunks n K s) = map f (seq 0 K).
Proof.
  intros sg n K s f Lf E. unfold chunks. rewrite map_map. apply map_ext_in. intros i Hi.
  apply in_seq in Hi. rewrite map_slice, E.
  assert (H := slice_concat f n K 0 i Lf). rewrite H by lia. reflexivity.
Qed.

Section Second.
Variable solve : mip -> gresult.
Hypothesis Hsolve : solver_ok solve.
Variable meth : method.
Variable N : network.
Variable h : hybrid.
Variables x_lo x_up xeq : vec.
Variables lam eps : R.
Variable st : bool.
Variables lower upper : option R.
Let n := h_nx h.
Hypothesis Args : lyap_args n N x_lo x_up None xeq.
Hypothesis Hns : no_slope_one (hidden N).
Hypothesis Enu : h_nu h = 0%nat.
Hypothesis Wm : Forall (mode_wf n 0) (h_modes h).
Hypothesis Va : Forall (mode_valid n 0) (h_modes h).
Hypothesis Hbox : hybrid_box h x_lo x_up.
Variable axb : mat -> vec -> vec -> option (Vec.ext * Vec.ext).
Hypothesis Hax : row_bounds_valid axb.

Let W := la_net _ _ _ _ _ _ Args.
Let Ho := la_out _ _ _ _ _ _ Args.
Let L1 := la_lo _ _ _ _ _ _ Args.
Let L2 := la_up _ _ _ _ _ _ Args.
Let M := eye n.
Let Leq : length xeq = n := in_box_length _ _ _ _ (la_eq _ _ _ _ _ _ Args) L1.
Let ms := h_modes h.
Let K := length ms.

(** The values of s and gamma in mode k at x. *)
Let WX (k : nat) (x : vec) : list vec := map (fun i => vscale (nth i (one_hot K k) 0) x) (seq 0 K).
Let WG (k : nat) : list vec := map (fun t => [t]) (one_hot K k).

Lemma WX_nth : forall k x i, (i < K)%nat -> nth i (WX k x) [] = vscale (nth i (one_hot K k) 0) x.
Proof.
  intros k x i H. unfold WX.
  rewrite (nth_indep _ [] (vscale (nth 0 (one_hot K k) 0) x)) by (rewrite map_length, seq_length; auto).
  etransitivity; [exact (map_nth (fun i => vscale (nth i (one_hot K k) 0) x) (seq 0 K) 0%nat i)|].
  rewrite seq_nth by auto. auto.
Qed.
Lemma WG_nth : forall k i, (i < K)%nat -> nth i (WG k) [] = [nth i (one_hot K k) 0].
Proof.
  intros k i H. unfold WG. rewrite (nth_indep _ [] [0]) by (rewrite map_length, one_hot_length; auto).
  apply (map_nth (fun t => [t])).
Qed.
Lemma WX_length : forall k x, length (WX k x) = K.
Proof. intros. unfold WX. rewrite map_length, seq_length. auto. Qed.
Lemma WG_length : forall k, length (WG k) = K.
Proof. intros. unfold WG. rewrite map_length, one_hot_length. auto. Qed.
Lemma lt_K : forall i md, nth_error ms i = Some md -> (i < K)%nat.
Proof. intros i md E. apply nth_error_Some. rewrite E. discriminate. Qed.
Lemma mode_of : forall i md, nth_error ms i = Some md -> mode_wf n 0 md.
Proof. intros i md E. rewrite Forall_forall in Wm. apply Wm. eapply nth_error_In; eauto. Qed.

(** The four kinds of blocks, for one mode. *)
Definition okA (md : mode_data) (lo up : vec) (vs : list nat) : Prop :=
  mode_wf n 0 md /\ vle lo up /\ length vs = n.
Definition okg (md : mode_data) (lo up : vec) (vs : list nat) : Prop :=
  mode_wf n 0 md /\ vle lo up /\ length vs = 1%nat.

Lemma add1_spec : forall beta, length beta = num_units (hidden N) ->
  forall md lo up vs m m' z co,
  add_gradient N beta (fun A => mm n A (md_A md)) lo up vs m = Some (m', z, co) -> okA md lo up vs ->
  history st m -> below (nvars m) vs -> below (nvars m) beta ->
  grows st m m' [z] /\ length co = length z /\
  forall (C : assignment -> Prop) (p : list (list bool)) (w : vec),
    (forall sg, C sg -> map sg vs = w /\ map sg beta = flat p) ->
    (pattern_shape (hidden N) p /\ length w = n /\ in_box lo up (mv (md_A md) w)) ->
    pins m m' [z] C [concat (tangents (hidden N) p (mv (md_A md) w))] /\
    dot co (concat (tangents (hidden N) p (mv (md_A md) w))) = nth 0 (jvp N p (mv (md_A md) w)) 0.
Proof.
  intros beta Lb md lo up vs m m' z co E (Wf & Vl & Lv) Hi Bv Bb.
  destruct Wf as ((WA & FA) & _).
  destruct (gradient_spec st n N beta (fun A => mm n A (md_A md)) (fun w => mv (md_A md) w) n lo up vs m m' z co
    W Ho Vl) as (_ & G & L & Kg); auto.
  { intros r Ax Wx. split; [apply wfm_mm with (k := n); auto; split; auto|].
    intros w Lw. apply mv_mm; auto. }
  { intros w _. rewrite mv_length. exact WA. }
  split; auto. split; auto. intros C p w HC (Sh & Lw & Bx). apply Kg; auto.
Qed.

Lemma add2_spec : forall beta, length beta = num_units (hidden N) ->
  forall md lo up vs m m' z co,
  add_gradient N beta (fun A => col (mv A (md_c md))) lo up vs m = Some (m', z, co) -> okg md lo up vs ->
  history st m -> below (nvars m) vs -> below (nvars m) beta ->
  grows st m m' [z] /\ length co = length z /\
  forall (C : assignment -> Prop) (p : list (list bool)) (w : vec),
    (forall sg, C sg -> map sg vs = w /\ map sg beta = flat p) ->
    (pattern_shape (hidden N) p /\ length w = 1%nat /\ in_box lo up (vscale (nth 0 w 0) (md_c md))) ->
    pins m m' [z] C [concat (tangents (hidden N) p (vscale (nth 0 w 0) (md_c md)))] /\
    dot co (concat (tangents (hidden N) p (vscale (nth 0 w 0) (md_c md)))) = nth 0 (jvp N p (vscale (nth 0 w 0) (md_c md))) 0.
Proof.
  intros beta Lb md lo up vs m m' z co E (Wf & Vl & Lv) Hi Bv Bb.
  destruct Wf as (_ & _ & Wc & _).
  destruct (gradient_spec st n N beta (fun A => col (mv A (md_c md))) (fun w => vscale (nth 0 w 0) (md_c md)) 1 lo up vs m m' z co
    W Ho Vl) as (_ & G & L & Kg); auto.
  { intros r Ax [Wx Fx]. split.
    - split; [unfold col; rewrite map_length, mv_length; exact Wx|].
      apply Forall_forall. intros y Hy. unfold col in Hy. apply in_map_iff in Hy. destruct Hy as (q & <- & _). auto.
    - intros w Lw. destruct w as [|t [|? ?]]; try discriminate. rewrite mv_col. cbn [nth].
      rewrite mv_vscale. reflexivity. }
  { intros w _. rewrite vscale_length. exact Wc. }
  split; auto. split; auto. intros C p w HC (Sh & Lw & Bx). apply Kg; auto.
Qed.

Lemma add3_spec : forall al, length al = n ->
  forall md lo up vs m m' z co,
  add_sign n al (md_A md) lo up vs m = Some (m', z, co) -> okA md lo up vs ->
  history st m -> below (nvars m) vs -> below (nvars m) al ->
  grows st m m' [z] /\ length co = length z /\
  forall (C : assignment -> Prop) (p : list bool) (w : vec),
    (forall sg, C sg -> map sg vs = w /\ map sg al = map bit p) ->
    (length p = n /\ length w = n /\ in_box lo up (mv (md_A md) w)) ->
    pins m m' [z] C [vmul (map bit p) (mv (md_A md) w)] /\
    dot co (vmul (map bit p) (mv (md_A md) w)) = 2 * vsum (vmul (map bit p) (mv (md_A md) w)).
Proof.
  intros al La md lo up vs m m' z co E (Wf & Vl & Lv) Hi Bv Bb.
  destruct (sign_spec st n n al (md_A md) lo up vs m m' z co E (proj1 Wf)) as (_ & G & L & Kg); auto.
  split; auto. split; auto. intros C p w HC (Lp & Lw & Bx). apply Kg; auto.
Qed.
Lemma add4_spec : forall al, length al = n ->
  forall md lo up vs m m' z co,
  add_sign n al (col (md_c md)) lo up vs m = Some (m', z, co) -> okg md lo up vs ->
  history st m -> below (nvars m) vs -> below (nvars m) al ->
  grows st m m' [z] /\ length co = length z /\
  forall (C : assignment -> Prop) (p : list bool) (w : vec),
    (forall sg, C sg -> map sg vs = w /\ map sg al = map bit p) ->
    (length p = n /\ length w = 1%nat /\ in_box lo up (mv (col (md_c md)) w)) ->
    pins m m' [z] C [vmul (map bit p) (mv (col (md_c md)) w)] /\
    dot co (vmul (map bit p) (mv (col (md_c md)) w)) = 2 * vsum (vmul (map bit p) (mv (col (md_c md)) w)).
Proof.
  intros al La md lo up vs m m' z co E (Wf & Vl & Lv) Hi Bv Bb.
  destruct (sign_spec st n 1 al (col (md_c md)) lo up vs m m' z co E) as (_ & G & L & Kg); auto.
  { destruct Wf as (_ & _ & Wc & _). split; [unfold col; rewrite map_length; exact Wc|].
    apply Forall_forall. intros y Hy. unfold col in Hy. apply in_map_iff in Hy. destruct Hy as (q & <- & _). auto. }
  split; auto. split; auto. intros C p w HC (Lp & Lw & Bx). apply Kg; auto.
Qed.

(** At mode k all products lie within their bounds. *)
Lemma good_A : forall ab k x mdk, all_some (map (Aisi_bounds axb) ms) = Some ab ->
  length x = n -> nth_error ms k = Some mdk -> vle (mv (md_P mdk) x) (md_q mdk) ->
  forall i md, nth_error ms i = Some md ->
    length (nth i (WX k x) []) = n /\
    in_box (fst (nth i ab ([], []))) (snd (nth i ab ([], []))) (mv (md_A md) (nth i (WX k x) [])).
Proof.
  intros ab k x mdk E Lx Hk I i md Hi. assert (Hlt := lt_K _ _ Hi).
  destruct (all_some_map _ _ _ ([], []) md E) as [La Ha]. specialize (Ha i Hlt).
  rewrite (nth_error_nth _ _ md Hi) in Ha. destruct (nth i ab ([], [])) as [lo up] eqn:Enth. cbn [fst snd]. assert (Ha2 := eq_trans Ha (f_equal Some Enth)).
  destruct (Aisi_valid h n eq_refl Wm axb Hax md lo up (mode_of _ _ Hi) Ha2) as [Z Q].
  rewrite WX_nth by auto. rewrite vscale_length. split; auto.
  rewrite nth_one_hot by auto. destruct (Nat.eqb_spec i k) as [->|Ne].
  - fold ms in Hk. rewrite Hk in Hi. injection Hi as <-. rewrite vscale_1. auto.
  - rewrite vscale_0, Lx, mv_zeros_r. destruct (mode_of _ _ Hi) as ((WA & _) & _). rewrite WA. auto.
Qed.
Lemma good_g : forall k, forall i md, nth_error ms i = Some md ->
    length (nth i (WG k) []) = 1%nat /\
    in_box (fst (nth i (map gigammai_bounds ms) ([], []))) (snd (nth i (map gigammai_bounds ms) ([], [])))
           (vscale (nth 0 (nth i (WG k) []) 0) (md_c md)).
Proof.
  intros k i md Hi. assert (Hlt := lt_K _ _ Hi).
  rewrite WG_nth by auto. split; auto. cbn [nth].
  rewrite (nth_indep _ ([], []) (gigammai_bounds md)) by (rewrite map_length; auto).
  rewrite map_nth, (nth_error_nth _ _ md Hi). unfold gigammai_bounds. cbn [fst snd].
  destruct (gi_valid (md_c md)) as [Z Q]. rewrite nth_one_hot by auto. destruct (Nat.eqb_spec i k).
  - rewrite vscale_1. auto.
  - rewrite vscale_0. auto.
Qed.

Lemma program2_forced : forall et R0 d,
  hybrid_ct_milp2 solve axb meth N h x_lo x_up xeq lam eps et R0 lower upper = Some d ->
  et = ExpLower /\ forced_program solve meth N h x_lo x_up xeq lam eps st lower upper d.
Proof.
  intros et R0 d E. unfold hybrid_ct_milp2 in E. fold n in E. fold ms in E. destruct et; try discriminate.
  destruct (R_identity n R0); [|discriminate]. split; auto.
  destruct (addVars (repeat (NInf, PInf) n) VCont init_mip) as [m0 xv] eqn:E0.
  destruct (step_free VBin st n _ _ _ E0 (h_init st)) as (A1 & A2 & A3 & A4 & A5).
  assert (Bv : below (nvars m0) xv) by (rewrite A1; apply below_seq; simpl; lia).
  assert (Lv : length xv = n) by (rewrite A1; apply seq_length).
  destruct (hybrid_mic h None None None None) as [c|] eqn:Ec; [|discriminate].
  destruct (add_mic c xv None NewBinary VBin m0) as [[m2 sv] gv] eqn:E2.
  destruct (hybrid_fine h n eq_refl Enu Wm Va st c xv None m0 m2 sv gv Ec E2 A3 Bv Lv)
    as (T1 & T2 & T3 & H2 & T4 & T5 & T6).
  { cbn. auto. }
  fold ms in T1, T2, T3, T5, T6. fold K in T1, T2, T3, T5, T6.
  destruct (add_relu_output solve meth N x_lo x_up xv VBin m2) as [[m3 rr]|] eqn:E3; [|discriminate].
  destruct (add_state_error n x_lo x_up false xeq None xv VBin m3) as [[[m4 s] al]|] eqn:E4; [|discriminate].
  rewrite (scalar_phi n) in E by auto.
  destruct (add_value_bounds lower upper (ret_a rr) (ret_b rr) lam (ret_z rr) (phi N xeq) s m4) as [m5|] eqn:E5;
    [|discriminate].
  assert (Bv2 : below (nvars m2) xv) by (apply (below_weaken _ _ _ Bv); lia).
  destruct (core solve Hsolve meth N h x_lo x_up xeq lam st lower upper Args Hns Enu xv m2 m3 rr m4 s al m5 H2 Bv2 Lv E3 E4 E5)
    as (V5 & H5 & F5 & P3 & Ls & Bb & Lb & Ba & La & Dn & blo & bup & ls & us & Er & Sd & C1 & C2 & C3 & C4 & C5 & C6 & Cp).
  fold n in Ls, La, Er, Sd, C3, C4, C6, Cp. fold M in Er, Sd, C3, C4, C6, Cp.
  destruct (all_some (map (Aisi_bounds axb) ms)) as [ab|] eqn:Eab; [|discriminate].
  set (gb := map gigammai_bounds ms) in *.
  set (sc := chunks n (length ms) sv) in *. set (gc := map (fun g : nat => [g]) gv) in *.
  destruct (mode_loop (fun md => add_gradient N (ret_beta rr) (fun A => mm n A (md_A md))) ms ab sc m5)
    as [[[m6 z1] co1]|] eqn:E6; [|discriminate].
  destruct (mode_loop (fun md => add_gradient N (ret_beta rr) (fun A => col (mv A (md_c md)))) ms gb gc m6)
    as [[[m7 z2] co2]|] eqn:E7; [|discriminate].
  destruct (mode_loop (fun md => add_sign n (concat al) (md_A md)) ms ab sc m7)
    as [[[m8 z3] co3]|] eqn:E8; [|discriminate].
  destruct (mode_loop (fun md => add_sign n (concat al) (col (md_c md))) ms gb gc m8)
    as [[[m9 z4] co4]|] eqn:E9; [|discriminate].
  assert (Lsv : length sv = (K * n)%nat) by (rewrite T1; apply seq_length).
  assert (Lgv : length gv = K) by (rewrite T2; apply seq_length).
  assert (Bsv : below (nvars m2) sv) by (rewrite T1; apply below_seq; lia).
  assert (Bgv : below (nvars m2) gv) by (rewrite T2; apply below_seq; lia).
  assert (Bsc : below (nvars m5) (concat sc)).
  { apply chunks_below. apply (below_weaken _ _ _ Bsv). lia. }
  assert (Cgc : concat gc = gv).
  { unfold gc. clear. induction gv as [|g l IH]; cbn; auto. f_equal. exact IH. }
  assert (Bgc : below (nvars m5) (concat gc)).
  { rewrite Cgc. apply (below_weaken _ _ _ Bgv). lia. }
  assert (Lab : length ab = length ms).
  { destruct (all_some_map _ _ _ ([], []) (mkMode [] [] [] [] [] [] []) Eab) as [Q _]. exact Q. }
  assert (Lgb : length gb = length ms) by (unfold gb; apply map_length).
  assert (Lsc : length sc = length ms) by apply chunks_length.
  assert (Lgc : length gc = length ms) by (unfold gc; rewrite map_length; exact Lgv).
  assert (OkA : forall i md, nth_error ms i = Some md ->
     okA md (fst (nth i ab ([], []))) (snd (nth i ab ([], []))) (nth i sc [])).
  { intros i md Hi. split; [eapply mode_of; eauto|]. split.
    - destruct (all_some_map _ _ _ ([], []) md Eab) as [_ Ha]. specialize (Ha i (lt_K _ _ Hi)).
      rewrite (nth_error_nth _ _ md Hi) in Ha. destruct (nth i ab ([], [])) as [lo up] eqn:Enth. cbn [fst snd]. assert (Ha2 := eq_trans Ha (f_equal Some Enth)).
      destruct (Aisi_valid h n eq_refl Wm axb Hax md lo up (mode_of _ _ Hi) Ha2) as [[Q1 Q2] _]. eapply vle_trans; eauto.
    - apply chunks_nth_length; auto. eapply lt_K; eauto. }
  assert (Okg : forall i md, nth_error ms i = Some md ->
     okg md (fst (nth i gb ([], []))) (snd (nth i gb ([], []))) (nth i gc [])).
  { intros i md Hi. split; [eapply mode_of; eauto|].
    destruct (good_g 0 i md Hi) as [_ [Q1 Q2]]. split; [eapply vle_trans; eauto|].
    unfold gc. rewrite (nth_indep _ [] [0%nat]) by (rewrite map_length, Lgv; eapply lt_K; eauto).
    rewrite (map_nth (fun g : nat => [g])). reflexivity. }
  destruct (mode_loop_spec st (list (list bool)) _ (ret_beta rr) okA (fun p sg => map sg (ret_beta rr) = flat p)
    (fun p md lo up w => pattern_shape (hidden N) p /\ length w = n /\ in_box lo up (mv (md_A md) w))
    (fun p md w => concat (tangents (hidden N) p (mv (md_A md) w)))
    (fun p md w => nth 0 (jvp N p (mv (md_A md) w)) 0) (add1_spec (ret_beta rr) Lb) ms ab sc m5 m6 z1 co1 E6 H5 Bsc Bb Lab Lsc OkA)
    as (G6 & Lc6 & K6).
  assert (V6 : (nvars m5 <= nvars m6)%nat) by apply G6. assert (H6 : history st m6) by apply G6.
  destruct (mode_loop_spec st (list (list bool)) _ (ret_beta rr) okg (fun p sg => map sg (ret_beta rr) = flat p)
    (fun p md lo up w => pattern_shape (hidden N) p /\ length w = 1%nat /\ in_box lo up (vscale (nth 0 w 0) (md_c md)))
    (fun p md w => concat (tangents (hidden N) p (vscale (nth 0 w 0) (md_c md))))
    (fun p md w => nth 0 (jvp N p (vscale (nth 0 w 0) (md_c md))) 0) (add2_spec (ret_beta rr) Lb) ms gb gc m6 m7 z2 co2 E7 H6
    (below_weaken _ _ _ Bgc V6) (below_weaken _ _ _ Bb V6) Lgb Lgc Okg) as (G7 & Lc7 & K7).
  assert (V7 : (nvars m6 <= nvars m7)%nat) by apply G7. assert (H7 : history st m7) by apply G7.
  assert (V57 : (nvars m5 <= nvars m7)%nat) by lia.
  destruct (mode_loop_spec st (list bool) _ (concat al) okA (fun p sg => map sg (concat al) = map bit p)
    (fun p md lo up w => length p = n /\ length w = n /\ in_box lo up (mv (md_A md) w))
    (fun p md w => vmul (map bit p) (mv (md_A md) w))
    (fun p md w => 2 * vsum (vmul (map bit p) (mv (md_A md) w))) (add3_spec (concat al) La) ms ab sc m7 m8 z3 co3 E8 H7
    (below_weaken _ _ _ Bsc V57) (below_weaken _ _ _ Ba V57) Lab Lsc OkA) as (G8 & Lc8 & K8).
  assert (V8 : (nvars m7 <= nvars m8)%nat) by apply G8. assert (H8 : history st m8) by apply G8.
  assert (V58 : (nvars m5 <= nvars m8)%nat) by lia.
  destruct (mode_loop_spec st (list bool) _ (concat al) okg (fun p sg => map sg (concat al) = map bit p)
    (fun p md lo up w => length p = n /\ length w = 1%nat /\ in_box lo up (mv (col (md_c md)) w))
    (fun p md w => vmul (map bit p) (mv (col (md_c md)) w))
    (fun p md w => 2 * vsum (vmul (map bit p) (mv (col (md_c md)) w))) (add4_spec (concat al) La) ms gb gc m8 m9 z4 co4 E9 H8
    (below_weaken _ _ _ Bgc V58) (below_weaken _ _ _ Ba V58) Lgb Lgc Okg) as (G9 & Lc9 & K9).
  assert (V9 : (nvars m8 <= nvars m9)%nat) by apply G9. assert (H9 : history st m9) by apply G9.
  assert (Eco : co4 = co3).
  { rewrite (mode_loop_const _ (repeat 2 n) (fun md lo up v m m' z co => add_sign_co n (concat al) (md_A md) lo up v m m' z co) _ _ _ _ _ _ _ E8).
    rewrite (mode_loop_const _ (repeat 2 n) (fun md lo up v m m' z co => add_sign_co n (concat al) (col (md_c md)) lo up v m m' z co) _ _ _ _ _ _ _ E9).
    reflexivity. }
  subst co4.
  assert (Lz1 := Forall2_len _ _ _ Lc6). assert (Lz2 := Forall2_len _ _ _ Lc7).
  assert (Lz3 := Forall2_len _ _ _ Lc8). assert (Lz4 := Forall2_len _ _ _ Lc9).
  set (cs := map (fun md => vscale lam (vneg (colsum n (md_A md)))) ms) in *.
  set (cg := map (fun md => (- vsum (md_c md)) * lam) ms) in *.
  assert (Lcol : forall md, In md ms -> length (vscale lam (vneg (colsum n (md_A md)))) = n).
  { intros md Hm. rewrite Forall_forall in Wm. destruct (Wm md Hm) as ((_ & FA) & _).
    rewrite vscale_length, vneg_length. apply colsum_length. exact FA. }
  assert (Lcs : length (concat cs) = length sv).
  { rewrite Lsv. unfold cs, K. clear -Lcol. induction ms as [|md l IH]; auto. cbn [map concat length].
    rewrite app_length, Lcol by (left; auto). rewrite IH; [lia|]. intros md' H. apply Lcol. right; auto. }
  assert (G69 : grows st m5 m9 (z1 ++ z2 ++ z3 ++ z4)).
  { eapply grows_app; [exact G6|]. eapply grows_app; [exact G7|]. eapply grows_app; [exact G8|exact G9]. }
  assert (Fr : fresh 0 (nvars m9) (concat (z1 ++ z2 ++ z3 ++ z4) ++ (sv ++ gv ++ ret_z rr ++ s))).
  { eapply fresh_weaken; [eapply fresh_app'; [apply G69| | |]|lia|].
    - rewrite app_assoc. eapply (fresh_app 0 (nvars m2)); [|exact F5|lia|lia|lia].
      eapply (fresh_app 0 (nvars m0 + K * n) (nvars m0 + K * n)).
      + rewrite T1. eapply fresh_weaken; [apply fresh_seq; reflexivity|lia|lia].
      + rewrite T2. apply fresh_seq. lia.
      + lia.
      + lia.
      + lia.
    - lia.
    - lia.
    - lia. }
  destruct (setObjective_step VBin st
     (co1 ++ co2 ++ map (vscale lam) co3 ++ map (vscale lam) co3 ++
        [concat cs; cg; vscale eps (ret_a rr); repeat (eps * lam) n])
     (z1 ++ z2 ++ z3 ++ z4 ++ [sv; gv; ret_z rr; s]) (eps * ret_b rr - eps * phi N xeq) true m9 H9)
    as (m10 & E10 & O1 & O2 & O3 & O4 & O5).
  { apply Forall2_app; [exact Lc6|]. apply Forall2_app; [exact Lc7|].
    assert (Sc : forall l z, Forall2 (fun (c : vec) (z : list nat) => length c = length z) l z ->
       Forall2 (fun (c : vec) (z : list nat) => length c = length z) (map (vscale lam) l) z).
    { induction 1; cbn; constructor; auto. rewrite vscale_length. auto. }
    apply Forall2_app; [apply Sc; exact Lc8|]. apply Forall2_app; [apply Sc; exact Lc9|].
    constructor; [exact Lcs|]. constructor; [unfold cg; rewrite map_length, Lgv; reflexivity|].
    constructor; [rewrite vscale_length; exact P3|].
    constructor; [rewrite repeat_length; auto|constructor]. }
  { apply fresh_below in Fr. rewrite !concat_app in *. rewrite <- !app_assoc in Fr.
    cbn [concat]. rewrite app_nil_r. exact Fr. }
  { destruct Fr as [Fr _]. rewrite !concat_app in *. rewrite <- !app_assoc in Fr.
    cbn [concat]. rewrite app_nil_r. exact Fr. }
  rewrite E10 in E. apply Some_inj in E. subst d. unfold forced_program. cbn [hd_mip hd_x hd_beta hd_gamma].
  assert (Down : forall sg, gfeas m10 sg -> feas VBin m9 sg /\ feas VBin m5 sg /\ feas VBin m2 sg).
  { intros sg G. apply feas_bin in G. apply O4 in G.
    assert (X5 : feas VBin m5 sg) by (apply G69; auto). assert (X2 := Dn _ X5). auto. }
  (* all products at once *)
  set (Cst := fun (k : nat) (x : vec) (pats : list (list bool)) (sgs : list bool) (sg : assignment) =>
     (map sg sv = slack_x K (one_hot K k) x /\ map sg gv = one_hot K k) /\
     map sg (ret_beta rr) = flat pats /\ map sg (concat al) = map bit sgs).
  assert (LC : forall k x pats sgs, local m5 (Cst k x pats sgs)).
  { intros k x pats sgs s1 s2 Ag ((Q1 & Q2) & Q3 & Q4).
    assert (B1 : below (nvars m5) sv) by (apply (below_weaken _ _ _ Bsv); lia).
    assert (B2 : below (nvars m5) gv) by (apply (below_weaken _ _ _ Bgv); lia).
    split; [split|split].
    - rewrite <- Q1. symmetry. apply (map_agree (nvars m5)); auto.
    - rewrite <- Q2. symmetry. apply (map_agree (nvars m5)); auto.
    - rewrite <- Q3. symmetry. apply (map_agree (nvars m5)); auto.
    - rewrite <- Q4. symmetry. apply (map_agree (nvars m5)); auto. }
  assert (WXv : forall k (x : vec) (sg : assignment), length x = n -> map sg sv = slack_x K (one_hot K k) x ->
     map (map sg) sc = WX k x).
  { intros k x sg Lx Q. apply chunks_vals; auto. intros i. rewrite vscale_length. exact Lx. }
  assert (WGv : forall k (sg : assignment), map sg gv = one_hot K k -> map (map sg) gc = WG k).
  { intros k sg Q. unfold gc, WG. rewrite <- Q, !map_map. reflexivity. }
  assert (Pin : forall k mdk (x : vec) pats sgs, nth_error ms k = Some mdk -> length x = n ->
     vle (mv (md_P mdk) x) (md_q mdk) -> pattern_shape (hidden N) pats -> length sgs = n ->
     exists v1 v2 v3 v4,
       pins m5 m9 (z1 ++ z2 ++ z3 ++ z4) (Cst k x pats sgs) (v1 ++ v2 ++ v3 ++ v4) /\
       length v1 = length z1 /\ length v2 = length z2 /\ length v3 = length z3 /\
       vsum (map2 dot co1 v1) = nth 0 (jvp N pats (mv (md_A mdk) x)) 0 /\
       vsum (map2 dot co2 v2) = nth 0 (jvp N pats (md_c mdk)) 0 /\
       vsum (map2 dot co3 v3) = 2 * vsum (vmul (map bit sgs) (mv (md_A mdk) x)) /\
       vsum (map2 dot co3 v4) = 2 * vsum (vmul (map bit sgs) (md_c mdk))).
  { intros k mdk x pats sgs Hk Lx I Sh Lsg.
    assert (HkK := lt_K _ _ Hk).
    assert (GA := good_A ab k x mdk Eab Lx Hk I). assert (GG := good_g k).
    destruct (K6 (Cst k x pats sgs) pats (WX k x) (LC k x pats sgs)) as [P6 R6].
    { intros sg ((Q1 & Q2) & Q3 & Q4). split; auto. }
    { apply WX_length. }
    { intros i md Hi. split; auto. }
    destruct (K7 (Cst k x pats sgs) pats (WG k)) as [P7 R7].
    { intros s1 s2 Ag. apply LC. intros i Hi. apply Ag. lia. }
    { intros sg ((Q1 & Q2) & Q3 & Q4). split; auto. }
    { apply WG_length. }
    { intros i md Hi. split; auto. }
    destruct (K8 (Cst k x pats sgs) sgs (WX k x)) as [P8 R8].
    { intros s1 s2 Ag. apply LC. intros i Hi. apply Ag. lia. }
    { intros sg ((Q1 & Q2) & Q3 & Q4). split; auto. }
    { apply WX_length. }
    { intros i md Hi. split; auto. }
    assert (Ecol : forall k0 i md, nth_error ms i = Some md ->
       mv (col (md_c md)) (nth i (WG k0) []) = vscale (nth 0 (nth i (WG k0) []) 0) (md_c md)).
    { intros k0 i md Hi. rewrite WG_nth by (eapply lt_K; eauto). apply mv_col. }
    destruct (K9 (Cst k x pats sgs) sgs (WG k)) as [P9 R9].
    { intros s1 s2 Ag. apply LC. intros i Hi. apply Ag. lia. }
    { intros sg ((Q1 & Q2) & Q3 & Q4). split; auto. }
    { apply WG_length. }
    { intros i md Hi. split; auto. rewrite Ecol by auto. apply GG. auto. }
    assert (Lvals : forall (f : mode_data -> vec -> vec) ws, length ws = length ms -> length (vals3 f ms ws) = length ms).
    { intros f. generalize ms. intros l. induction l as [|md l IH]; intros [|w ws] L; try discriminate; auto.
      cbn. f_equal. apply IH. injection L; auto. }
    assert (Lpin : forall m m' zss C vs, pins m m' zss C vs -> (exists sg, feas VBin m' sg /\ C sg) -> length vs = length zss).
    { intros m m' zss C vs [Q _] (sg & G & HC). rewrite <- (Q sg G HC). apply map_length. }
    cbv beta in R6, R7, R8, R9, P6, P7, P8, P9.
    set (v1 := vals3 (A := vec) (fun md w => concat (tangents (hidden N) pats (mv (md_A md) w))) ms (WX k x)) in *.
    set (v2 := vals3 (A := vec) (fun md w => concat (tangents (hidden N) pats (vscale (nth 0 w 0) (md_c md)))) ms (WG k)) in *.
    set (v3 := vals3 (A := vec) (fun md w => vmul (map bit sgs) (mv (md_A md) w)) ms (WX k x)) in *.
    set (v4 := vals3 (A := vec) (fun md w => vmul (map bit sgs) (mv (col (md_c md)) w)) ms (WG k)) in *.
    assert (Lms : forall A0 P0 (add : mode_data -> vec -> vec -> list nat -> mip -> option (mip * list nat * vec)) (a b : A0 * P0) l bs vs m m' zs cos,
       mode_loop add l bs vs m = Some (m', zs, cos) -> length zs = length l).
    { intros _ _ add _ _. induction l as [|md l IH]; intros bs vs m m' zs cos Q; cbn [mode_loop] in Q.
      - injection Q as _ <- _. reflexivity.
      - destruct bs as [|[lo up] bs]; [discriminate|]. destruct vs as [|v vs]; [discriminate|].
        destruct (add md lo up v m) as [[[ma z] co]|]; [|discriminate].
        destruct (mode_loop add l bs vs ma) as [[[mb zs'] cs']|] eqn:Q2; [|discriminate].
        apply Some_inj in Q. apply pair_equal_spec in Q. destruct Q as [Q _].
        apply pair_equal_spec in Q. destruct Q as [_ <-]. cbn. f_equal. eapply IH; eauto. }
    exists v1, v2, v3, v4. split.
    { eapply pins_app; [apply LC|exact G6| |exact P6|].
      { eapply grows_app; [exact G7|]. eapply grows_app; [exact G8|exact G9]. }
      eapply pins_app; [|exact G7| |exact P7|].
      { intros s1 s2 Ag. apply LC. intros i Hi. apply Ag. lia. }
      { eapply grows_app; [exact G8|exact G9]. }
      eapply pins_app; [|exact G8|exact G9|exact P8|exact P9].
      intros s1 s2 Ag. apply LC. intros i Hi. apply Ag. lia. }
    split; [rewrite (Lms nat nat _ (0,0)%nat (0,0)%nat _ _ _ _ _ _ _ E6); apply Lvals, WX_length|].
    split; [rewrite (Lms nat nat _ (0,0)%nat (0,0)%nat _ _ _ _ _ _ _ E7); apply Lvals, WG_length|].
    split; [rewrite (Lms nat nat _ (0,0)%nat (0,0)%nat _ _ _ _ _ _ _ E8); apply Lvals, WX_length|].
    fold v1 in R6. fold v2 in R7. fold v3 in R8. fold v4 in R9. rewrite R6, R7, R8, R9.
    assert (Exk : nth k (WX k x) [] = x).
    { rewrite WX_nth by auto. rewrite nth_one_hot, Nat.eqb_refl by auto. apply vscale_1. }
    assert (Egk : nth k (WG k) [] = [1]).
    { rewrite WG_nth by auto. rewrite nth_one_hot, Nat.eqb_refl by auto. reflexivity. }
    assert (Ex0 : forall i md, nth_error ms i = Some md -> i <> k -> mv (md_A md) (nth i (WX k x) []) = zeros n).
    { intros i md Hi Ne. rewrite WX_nth by (eapply lt_K; eauto). rewrite nth_one_hot by (eapply lt_K; eauto).
      apply Nat.eqb_neq in Ne. rewrite Ne, vscale_0, mv_zeros_r.
      destruct (mode_of _ _ Hi) as ((WA & _) & _). rewrite WA. auto. }
    assert (Eg0 : forall i md, nth_error ms i = Some md -> i <> k ->
       vscale (nth 0 (nth i (WG k) []) 0) (md_c md) = zeros n).
    { intros i md Hi Ne. rewrite WG_nth by (eapply lt_K; eauto). rewrite nth_one_hot by (eapply lt_K; eauto).
      apply Nat.eqb_neq in Ne. rewrite Ne. cbn [nth]. rewrite vscale_0.
      destruct (mode_of _ _ Hi) as (_ & _ & Wc & _). rewrite Wc. auto. }
    assert (Vz : forall (l : vec) j, vsum (vmul l (zeros j)) = 0).
    { induction l as [|t l IH]; intros [|j]; cbn; auto. fold (vmul l (zeros j)). unfold zeros in IH. 
      change (t * 0 + vsum (vmul l (repeat 0 j)) = 0). rewrite IH. ring. }
    split; [|split; [|split]].
    - rewrite (vals3_pick _ _ _ k mdk (WX_length _ _) Hk).
      + rewrite Exk. reflexivity.
      + intros i md Hi Ne. rewrite (Ex0 i md Hi Ne). eapply jvp_zeros; eauto.
    - rewrite (vals3_pick _ _ _ k mdk (WG_length _) Hk).
      + rewrite Egk. cbn [nth]. rewrite vscale_1. reflexivity.
      + intros i md Hi Ne. rewrite (Eg0 i md Hi Ne). eapply jvp_zeros; eauto.
    - rewrite (vals3_pick _ _ _ k mdk (WX_length _ _) Hk).
      + rewrite Exk. reflexivity.
      + intros i md Hi Ne. rewrite (Ex0 i md Hi Ne), Vz. ring.
    - rewrite (vals3_pick _ _ _ k mdk (WG_length _) Hk).
      + rewrite Ecol by auto. rewrite Egk. cbn [nth]. rewrite vscale_1. reflexivity.
      + intros i md Hi Ne. rewrite Ecol by auto. rewrite (Eg0 i md Hi Ne), Vz. ring. }
  assert (Sound : forall sg, gfeas m10 sg ->
     in_box x_lo x_up (map sg xv) /\ within lower upper (V N M lam xeq (map sg xv)) /\
     exists k v pats sgs, moves h k (map sg xv) v /\ selects N M xeq (map sg xv) pats sgs /\
       map sg (ret_beta rr) = flat pats /\ map sg gv = one_hot K k /\ map sg (concat al) = map bit sgs /\
       objective m10 sg = Vdot N M lam pats sgs v + eps * V N M lam xeq (map sg xv) /\
       forced_all blo bup (concat pats) /\ forced_all ls us sgs).
  { intros sg G. destruct (Down sg G) as (X9 & X5 & X2).
    destruct (Sd sg X5) as (Bx & Hw & EV & pats & sgs & Sel & Eb & Ea & Fo1 & Fo2).
    destruct (T5 sg X2) as (k & md & Hk & I & Eg & Es & _).
    split; auto. split; auto.
    exists k, (vadd (mv (md_A md) (map sg xv)) (md_c md)), pats, sgs.
    split; [exists md; auto|]. split; auto. split; auto. split; auto. split; auto.
    split; [|split; auto].
    set (x := map sg xv) in *.
    assert (Lx : length x = n) by (unfold x; rewrite map_length; auto).
    assert (Sh : pattern_shape (hidden N) pats).
    { eapply shape_of_consistent; [apply W| |exact (proj1 Sel)]. auto. }
    assert (Lsg : length sgs = n).
    { apply (f_equal (@length R)) in Ea. rewrite !map_length in *. congruence. }
    destruct (Pin k md x pats sgs Hk Lx I Sh Lsg) as (v1 & v2 & v3 & v4 & [Ps _] & Q1 & Q2 & Q3 & R1 & R2 & R3 & R4).
    assert (Ev : map (map sg) (z1 ++ z2 ++ z3 ++ z4) = v1 ++ v2 ++ v3 ++ v4).
    { apply Ps; auto. split; auto. }
    rewrite !map_app in Ev.
    apply app_split in Ev; [|rewrite map_length; auto]. destruct Ev as [Ev1 Ev].
    apply app_split in Ev; [|rewrite map_length; auto]. destruct Ev as [Ev2 Ev].
    apply app_split in Ev; [|rewrite map_length; auto]. destruct Ev as [Ev3 Ev4].
    rewrite O5. rewrite vsum_map2_app by exact Lz1. rewrite vsum_map2_app by exact Lz2.
    rewrite vsum_map2_app by (rewrite map_length; exact Lz3).
    rewrite vsum_map2_app by (rewrite map_length; exact Lz4).
    rewrite !objective_scaled.
    rewrite (objective_vals sg co1 z1 _ Ev1), (objective_vals sg co2 z2 _ Ev2),
      (objective_vals sg co3 z3 _ Ev3), (objective_vals sg co3 z4 _ Ev4), R1, R2, R3, R4.
    cbn [map2 vsum]. rewrite dot_repeat_l by (rewrite map_length; auto).
    rewrite dot_vscale_l.
    assert (HkK := lt_K _ _ Hk).
    destruct (mode_of _ _ Hk) as ((WA & FA) & _ & Wc & _).
    assert (D1 : dot (concat cs) (map sg sv) = - lam * dot (colsum n (md_A md)) x).
    { rewrite Es. unfold slack_x. fold (WX k x). unfold cs.
      rewrite (dot_concat_vals n); auto; [| |apply WX_length].
      - rewrite (vals3_pick _ _ _ k md (WX_length _ _) Hk).
        + rewrite WX_nth by auto. rewrite nth_one_hot, Nat.eqb_refl, vscale_1 by auto.
          rewrite dot_vscale_l, dot_vneg_l. ring.
        + intros i md' Hi Ne. rewrite WX_nth by (eapply lt_K; eauto). rewrite nth_one_hot by (eapply lt_K; eauto).
          apply Nat.eqb_neq in Ne. rewrite Ne, vscale_0. apply dot_zeros_r.
      - unfold WX. apply Forall_forall. intros w Hw'. apply in_map_iff in Hw'. destruct Hw' as (i & <- & _).
        rewrite vscale_length. auto. }
    assert (D2 : dot cg (map sg gv) = - vsum (md_c md) * lam).
    { rewrite Eg. unfold cg. rewrite dot_map_vals by apply one_hot_length. fold (WG k).
      rewrite (vals3_pick _ _ _ k md (WG_length _) Hk).
      - rewrite WG_nth by auto. cbn [nth]. rewrite nth_one_hot, Nat.eqb_refl by auto. ring.
      - intros i md' Hi Ne. rewrite WG_nth by (eapply lt_K; eauto). cbn [nth].
        rewrite nth_one_hot by (eapply lt_K; eauto). apply Nat.eqb_neq in Ne. rewrite Ne. ring. }
    rewrite D1, D2. unfold Vdot.
    assert (LA : length (mv (md_A md) x) = n) by (rewrite mv_length; exact WA).
    assert (Le : length (mv (md_A md) x) = length (md_c md)) by congruence.
    unfold M. rewrite mv_eye by (rewrite vadd_length; auto). fold M.
    rewrite jvp_add by exact Le. rewrite dot_vadd_r by exact Le.
    rewrite nth_vadd by (unfold jvp; rewrite !mv_length; reflexivity).
    rewrite <- (sign_sum sgs (md_c md)) by (unfold vec in *; congruence).
    assert (Si := sign_identity n (md_A md) x sgs FA Lx).
    rewrite <- Si by (unfold mat, vec in *; congruence).
    rewrite <- EV. ring. }
  split; auto. split; auto. split; auto.
  exists blo, bup, ls, us. split; [exact Er|].
  split.
  { intros sg G. destruct (Sound sg G) as (U1 & U2 & k & v & pats & sgs & U3 & U4 & U5 & U6 & U7 & U8 & U9 & U10).
    split; auto. split; auto. exists k, v, pats, sgs. auto 10. }
  split; auto. split; auto. split; auto. split; auto. split; auto. split; auto.
  intros x k v pats sgs Lx Mv Hw Sel At1 At2.
  assert (Bx : in_box x_lo x_up x) by exact (moves_box h n eq_refl Wm x_lo x_up Enu Va Hbox _ _ _ Lx Mv).
  destruct (A5 (fun _ => 0) x (init_feas _ _) Lx) as (s0 & Y0 & _ & Ex).
  assert (Mv' := Mv). destruct Mv' as (md & Hk & I & Evd).
  assert (HkK : (k < K)%nat) by (eapply lt_K; eauto).
  destruct (T6 s0 k md Y0 Hk) as (s2 & Y2 & Ag2 & Eg2 & Es2).
  { rewrite Ex. auto. }
  { discriminate. }
  rewrite Ex in Es2.
  assert (Ex2 : map s2 xv = x) by (rewrite <- Ex; symmetry; apply (map_agree (nvars m0)); auto).
  destruct (Cp s2 x pats sgs Y2 Ex2 Bx Hw Sel At1 At2) as (s5 & Y5 & Ag5 & Eb5 & Ea5).
  assert (Sh : pattern_shape (hidden N) pats).
  { eapply shape_of_consistent; [apply W| |exact (proj1 Sel)]. auto. }
  assert (Lsg : length sgs = n).
  { assert (Ea' := Ea5). apply (f_equal (@length R)) in Ea'. rewrite !map_length in Ea'. congruence. }
  assert (Eg5 : map s5 gv = one_hot K k) by (rewrite <- Eg2; symmetry; apply (map_agree (nvars m2)); auto).
  assert (Es5 : map s5 sv = slack_x K (one_hot K k) x) by (rewrite <- Es2; symmetry; apply (map_agree (nvars m2)); auto).
  destruct (Pin k md x pats sgs Hk Lx I Sh Lsg) as (v1 & v2 & v3 & v4 & [_ Pc] & _).
  destruct (Pc s5 Y5) as (s9 & Y9 & Ag9 & _).
  { split; auto. }
  assert (Ag29 : agree m2 s2 s9) by (eapply agree_trans; [|exact Ag5|exact Ag9]; lia).
  assert (Ex9 : map s9 xv = x) by (rewrite <- Ex2; symmetry; apply (map_agree (nvars m2)); auto).
  assert (Eg9 : map s9 gv = one_hot K k) by (rewrite <- Eg2; symmetry; apply (map_agree (nvars m2)); auto).
  assert (Eb9 : map s9 (ret_beta rr) = flat pats) by (rewrite <- Eb5; symmetry; apply (map_agree (nvars m5)); auto).
  assert (Ea9 : map s9 (concat al) = map bit sgs) by (rewrite <- Ea5; symmetry; apply (map_agree (nvars m5)); auto).
  assert (Y10 : gfeas m10 s9).
  { apply (proj1 (feas_bin _ _)). apply O4. exact Y9. }
  exists s9. split; auto. split; auto. split; auto. split; auto.
  destruct (Sound s9 Y10) as (_ & _ & k' & v' & pats' & sgs' & Mv' & Sel' & Eb' & Eg' & Ea' & Eo & _).
  rewrite Eo, Ex9.
  assert (pats' = pats) as ->.
  { apply (pattern_unique (hidden N)); auto; [|congruence].
    eapply shape_of_consistent; [apply W| |apply Sel']. rewrite map_length. auto. }
  assert (sgs' = sgs) as -> by (apply bits_inj; congruence).
  assert (k' = k) as ->.
  { destruct Mv' as (md' & Hk' & _). apply (one_hot_inj h); auto.
    - apply nth_error_Some. rewrite Hk'. discriminate.
    - exact (eq_trans (eq_sym Eg') Eg9). }
  destruct Mv' as (md' & Hk' & _ & ->). rewrite Hk in Hk'. injection Hk' as <-.
  rewrite Ex9, <- Evd. reflexivity.
Qed.
End Second.
