(** The two products of the continuous-time program: the gradient of the
    network times xdot, and the gradient of the 1-norm times xdot. *)

Require Import Reals List Lia Lra Bool Arith.
Require Import Verif.Vec Verif.VecFacts Verif.ModelMip Verif.SpecMip Verif.SpecCore
  Verif.ModelUtils Verif.SpecUtils Verif.ModelNet Verif.SpecNet Verif.SpecStep
  Verif.ModelPattern Verif.SpecPattern
  Verif.ModelGrad Verif.ModelLyapunov Verif.SpecLyapunov Verif.ModelContinuous Verif.SpecContinuous
  Verif.ProofUtils Verif.ProofMip Verif.ProofSat Verif.ProofConcat Verif.ProofTorch
  Verif.ProofBounds Verif.ProofNet Verif.ProofNetBounds Verif.ProofNetTotal Verif.ProofWarm
  Verif.ProofStep Verif.ProofNetStep Verif.ProofPattern Verif.ProofMaxBox Verif.ProofGrad Verif.ProofGradVec Verif.ProofLyapunov
  Verif.ProofLyapCert Verif.ProofContinuous Verif.ProofContinuous2.
Import ListNotations.
Open Scope R_scope.

Definition bounds_shape (N : network) (B : wzb) : Prop :=
  (length (hidden N) <= length (w_lo B))%nat /\ Forall2 vle (w_lo B) (w_up B) /\
  (forall i, (i < length (hidden N))%nat ->
     length (nth i (w_lo B) []) = nth i (widths_of (hidden N)) 0%nat).
Definition tangent_boxes (N : network) (B : wzb) (pats : list (list bool)) (d : vec) : Prop :=
  forall i, (i < length (hidden N))%nat ->
    in_box (nth i (w_lo B) []) (nth i (w_up B) []) (nth i (pre_tangents (hidden N) pats d) []).

Lemma grad_mic : forall n N B, net_wf n N -> out_features (last_layer N) = 1%nat ->
  bounds_shape N B ->
  exists c row, output_gradient_times_vector_w_bounds N B = Some c /\
    mic_ok c /\ nin c = n /\ nsl c = num_units (hidden N) /\ nbin c = num_units (hidden N) /\
    (input_lo c = None /\ input_up c = None /\ slack_lo c = None /\ slack_up c = None) /\
    Aout_slack c = Some [row] /\ length row = num_units (hidden N) /\
    forall d pats, length d = n -> pattern_shape (hidden N) pats -> tangent_boxes N B pats d ->
      length (concat (tangents (hidden N) pats d)) = num_units (hidden N) /\
      (forall s, length s = num_units (hidden N) ->
         (rows_sat c d s (flat pats) <-> s = concat (tangents (hidden N) pats d))) /\
      dot row (concat (tangents (hidden N) pats d)) = nth 0 (jvp N pats d) 0.
Proof.
  intros n N B [Hne [W Wl]] Hout (B1 & B2 & B3).
  assert (Hx : x_size N = n).
  { unfold x_size. destruct (hidden N) as [|[l a] hs]; [congruence|]. apply W. }
  unfold output_gradient_times_vector_w_bounds. rewrite Hx.
  set (M := num_units (hidden N)) in *.
  destruct (grad_layers_spec n M (hidden N) _ None 0 n (w_lo B) (w_up B) W)
    as (k & Ek & Wk & Sk); auto; try lia.
  rewrite Ek. destruct (rev (hidden N)) as [|[l a] t] eqn:ER.
  { exfalso. apply Hne. rewrite <- (rev_involutive (hidden N)), ER. auto. }
  assert (Wl' := Wl). destruct Wl' as [_ [[Lw Fw] _]].
  unfold out_features in Hout. destruct (weight (last_layer N)) as [|w [|]] eqn:Ew; try discriminate.
  inversion Fw as [|? ? Fw1 _]; subst.
  destruct (last_slice _ _ _ _ _ _ (repeat 0 (x_size N)) W (repeat_length _ _) ER) as [_ [Eo Le]]. fold M in Le.
  assert (Lrow : length (splice (M - out_features l) w (zeros M)) = M).
  { unfold splice. rewrite !app_length, firstn_length, skipn_length. unfold zeros, vec in *.
    rewrite repeat_length, Fw1, Eo. lia. }
  do 2 eexists. split; [reflexivity|]. split.
  { destruct Wk as (K1 & K2 & K3).
    split; [|split; [|split; [|split]]]; try reflexivity.
    - unfold mic_wf, num_out, num_ineq, num_eq. cbn.
      repeat match goal with |- _ /\ _ => split end; auto; try (repeat constructor; auto; fail).
    - intros r rs _. left. cbn. discriminate.
    - cbn. discriminate. }
  split; [reflexivity|]. split; [reflexivity|]. split; [reflexivity|].
  split; [cbn; tauto|]. split; [reflexivity|]. split; [exact Lrow|].
  intros y pats Ly S Hb.
  assert (Lf := flat_length _ _ S). fold M in Lf.
  destruct (tangents_shape _ _ _ _ _ W S Ly) as [T1 T2]. fold M in T1.
  split; auto. split.
  - intros s Ls. unfold rows_sat, sat_in, sat_eq.
    cbn [nin nsl nbin rhs_in rhs_eq Ain_input Ain_slack Ain_binary Aeq_input Aeq_slack Aeq_binary].
    assert (Ei : lhs (length (k_rhs k)) (Some (k_x k)) (Some (k_s k)) (Some (k_b k)) y s (flat pats)
              = klhs k y s (flat pats)) by reflexivity.
    rewrite Ei.
    assert (K : vle (klhs k y s (flat pats)) (k_rhs k) <-> s = concat (tangents (hidden N) pats y)).
    { rewrite (Sk y s (flat pats) pats); auto.
      - cbn [skipn]. fold M. rewrite firstn_all2 by lia. tauto.
      - cbn [skipn]. rewrite skipn_all2 by (fold M; lia). rewrite app_nil_r. auto. }
    rewrite K. intuition auto.
  - assert (Es := last_tangent_slice _ _ _ _ _ _ _ _ W S Ly ER). fold M in Es.
    assert (E := mv_splices (M - out_features l) (out_features l) M [w] (concat (tangents (hidden N) pats y))).
    rewrite Es in E. unfold jvp. rewrite Ew.
    assert (E' : mv (map (fun w0 => splice (M - out_features l) w0 (zeros M)) [w]) (concat (tangents (hidden N) pats y))
       = mv [w] (last_tangent (hidden N) pats y)).
    { apply E; auto; try lia. rewrite Eo. auto. }
    apply (f_equal (fun v => nth 0 v 0)) in E'. exact E'.
Qed.

Lemma grad_program : forall st n N B c xd beta m m' gs bi, net_wf n N ->
  out_features (last_layer N) = 1%nat -> bounds_shape N B ->
  output_gradient_times_vector_w_bounds N B = Some c ->
  add_mic c xd None (GivenBinary beta) VBin m = (m', gs, bi) ->
  history st m -> below (nvars m) xd -> length xd = n ->
  below (nvars m) beta -> length beta = num_units (hidden N) ->
  gs = seq (nvars m) (num_units (hidden N)) /\
  nvars m' = (nvars m + num_units (hidden N))%nat /\ history st m' /\
  (forall sg, feas VBin m' sg -> feas VBin m sg /\
     forall pats, map sg beta = flat pats -> pattern_shape (hidden N) pats ->
       tangent_boxes N B pats (map sg xd) ->
       map sg gs = concat (tangents (hidden N) pats (map sg xd))) /\
  (forall sg pats, feas VBin m sg -> map sg beta = flat pats -> pattern_shape (hidden N) pats ->
     tangent_boxes N B pats (map sg xd) ->
     exists sg', feas VBin m' sg' /\ agree m sg sg' /\
       map sg' gs = concat (tangents (hidden N) pats (map sg xd))).
Proof.
  intros st n N B c xd beta m m' gs bi W Ho Bs Ec Em Hi Bx Lx Bb Lb.
  destruct (grad_mic n N B W Ho Bs) as (c' & row & E & Ok & N1 & N2 & N3 & (U1 & U2 & U3 & U4) & _ & _ & K).
  rewrite Ec in E. apply Some_inj in E. subst c'.
  destruct (add_mic_given _ _ _ _ _ _ _ _ _ Em Ok (history_wf _ _ Hi) Bx)
    as (Q1 & Q2 & Q3 & Q4 & Q5); auto; try congruence.
  { exact I. }
  subst bi. rewrite N2 in Q1, Q3.
  split; auto. split; auto. split.
  { apply (history_mic st c xd None (GivenBinary beta) VBin m m' gs beta Hi); [| | | |exact Em].
    - apply (history_allk st); auto.
    - constructor.
    - apply (history_allk st); auto.
    - intros _. repeat match goal with |- _ /\ _ => split end; auto. discriminate. }
  split.
  - intros sg G. apply feas_bin in G. apply Q5 in G. destruct G as (G & R & _).
    split; [apply feas_bin; auto|]. intros pats Eb S T.
    destruct (K (map sg xd) pats ltac:(rewrite map_length; auto) S T) as (_ & K1 & _).
    rewrite Eb in R. apply K1; auto. rewrite map_length, Q1, seq_length. auto.
  - intros sg pats G Eb S T.
    destruct (K (map sg xd) pats ltac:(rewrite map_length; auto) S T) as (K0 & K1 & _).
    set (v := concat (tangents (hidden N) pats (map sg xd))) in *.
    exists (override sg (nvars m) v).
    assert (A : agree m sg (override sg (nvars m) v)).
    { intros i Hi'. symmetry. apply override_old; auto. }
    assert (Ev : map (override sg (nvars m) v) gs = v).
    { rewrite Q1, <- K0. apply override_new. }
    split; [|split; auto].
    apply feas_bin. apply Q5.
    rewrite Ev, (override_map_old _ _ _ _ Bx), (override_map_old _ _ _ _ Bb), Eb, U1, U2, U3, U4.
    split; [|split; [apply K1; auto|repeat split; exact I]].
    apply (proj1 (feas_bin _ _)). exact (feas_local VBin st m Hi sg _ A G).
Qed.

(** The rows of the 1-norm: t = alpha * (R xdot), and R xdot is within its bounds. *)
Lemma dl1_spec : forall st n xd, length xd = n ->
  forall M lb ub ts als m m', dl1_loop M lb ub ts als xd m = Some m' ->
  history st m -> below (nvars m) xd -> below (nvars m) ts -> below (nvars m) als ->
  Forall (fun r => length r = n) M -> length als = length M ->
  nvars m' = nvars m /\ history st m' /\ length lb = length M /\ length ub = length M /\
  length ts = length M /\ (forall sg, feas VBin m' sg -> feas VBin m sg) /\
  forall sg, bins (map sg als) ->
    (feas VBin m' sg <-> feas VBin m sg /\ in_box lb ub (mv M (map sg xd)) /\
       map sg ts = vmul (map sg als) (mv M (map sg xd))).
Proof.
  intros st n xd L M. induction M as [|r M IH]; intros lb ub ts als m m' E Hi Bx Bt Ba F La;
    cbn [dl1_loop] in E.
  - destruct lb, ub, ts; try discriminate. injection E as <-. destruct als; [|discriminate].
    split; auto. split; auto. split; auto. split; auto. split; auto. split; auto.
    intros sg _. split; [|tauto]. intros G. split; auto. split; [split; constructor|reflexivity].
  - destruct lb as [|l lb]; [discriminate|]. destruct ub as [|u ub]; [discriminate|].
    destruct ts as [|t ts]; [discriminate|]. destruct als as [|al als]; [discriminate|].
    destruct (replace_binary_continuous_product l u) as [rw|] eqn:Er; [|discriminate].
    inversion F as [|? ? Lr F']; subst. inversion Bt as [|? ? Bt1 Bt2]; subst.
    inversion Ba as [|? ? Ba1 Ba2]; subst.
    assert (Hrw : length (rw_x rw) = 4%nat /\ length (rw_y rw) = 4%nat /\ length (rw_b rw) = 4%nat /\
       length (rw_rhs rw) = 4%nat).
    { unfold replace_binary_continuous_product in Er. destruct (Rleb l u); [|discriminate].
      apply Some_inj in Er. subst rw. cbn. auto. }
    destruct Hrw as (R1 & R2 & R3 & R4).
    set (m1 := addMConstr [outer (rw_x rw) r; col (rw_y rw); col (rw_b rw)]
                 [xd; [t]; [al]] SLe (rw_rhs rw) m) in *.
    assert (V1 : nvars m1 = nvars m) by apply nvars_addMConstr.
    assert (Wf : blocks_wf (length (rw_rhs rw)) (combine [outer (rw_x rw) r; col (rw_y rw); col (rw_b rw)]
                 [xd; [t]; [al]])).
    { rewrite R4. repeat constructor; cbn [fst snd]; unfold outer, col; rewrite ?map_length; auto;
        apply Forall_forall; intros y Hy; apply in_map_iff in Hy; destruct Hy as (q & <- & _); auto.
      unfold vscale. rewrite map_length. auto. }
    assert (H1 : history st m1).
    { apply h_mconstr; auto. apply (history_allk st); auto. cbn [concat app].
      apply Forall_app. split; [exact Bx|]. constructor; [exact Bt1|constructor; [exact Ba1|constructor]]. }
    destruct (IH lb ub ts als m1 m' E H1) as (I1 & I2 & I3 & I4 & I5 & I0 & I6); rewrite ?V1; auto.
    split; [congruence|]. split; auto. split; [cbn; congruence|]. split; [cbn; congruence|].
    split; [cbn; congruence|]. split.
    { intros sg G. apply I0 in G. rewrite feas_bin in *. unfold m1 in G.
      rewrite gfeas_addMConstr in G; auto; [tauto|discriminate]. }
    intros sg Bb. cbn [map] in Bb. inversion Bb as [|? ? Bb1 Bb2]; subst.
    rewrite (I6 sg Bb2). rewrite !feas_bin. unfold m1.
    rewrite gfeas_addMConstr; auto; [|discriminate].
    assert (Es : sense_ok SLe (bsum (length (rw_rhs rw)) (combine [outer (rw_x rw) r; col (rw_y rw); col (rw_b rw)]
                 [xd; [t]; [al]]) sg) (rw_rhs rw)
       <-> sat4 rw (dot r (map sg xd)) (sg t) (sg al)).
    { unfold sense_ok, sat4. cbn [combine bsum map]. rewrite mv_outer, !mv_col, R4.
      rewrite (vadd_zeros_r 4 (vscale (sg al) (rw_b rw))) by (unfold vscale; rewrite map_length; auto).
      rewrite vadd_assoc. reflexivity. }
    rewrite Es, (product_exact l u rw _ _ _ Er Bb1).
    cbn [mv map]. unfold vmul. cbn [map2]. fold vmul. fold (mv M (map sg xd)).
    rewrite cons_eq_iff.
    unfold in_box. rewrite !vle_cons. tauto.
Qed.

(** 2 sum t_i - (sum of the rows of R) xdot, when t_i = alpha_i r_i xdot. *)
Lemma colsum_length : forall n M, Forall (fun r => length r = n) M -> length (colsum n M) = n.
Proof.
  intros n M F. induction F as [|r M Hr F IH]; [apply repeat_length|].
  unfold colsum. cbn [fold_right]. fold (colsum n M). rewrite vadd_length; congruence.
Qed.

Lemma sign_identity : forall n M d sgs, Forall (fun r => length r = n) M -> length d = n ->
  length sgs = length M ->
  2 * vsum (vmul (map bit sgs) (mv M d)) - dot (colsum n M) d = dot (map sign_of sgs) (mv M d).
Proof.
  intros n M d sgs F. revert sgs. induction F as [|r M Hr F IH]; intros sgs Ld Ls.
  - destruct sgs; [|discriminate]. cbn. unfold colsum. cbn [fold_right]. rewrite dot_zeros_l. ring.
  - destruct sgs as [|b sgs]; [discriminate|]. cbn [map mv dot vmul map2 vsum].
    unfold colsum. cbn [fold_right]. fold (colsum n M).
    assert (Lc := colsum_length n M F).
    rewrite dot_vadd_l by (unfold vec in *; congruence).
    cbn [length] in Ls. specialize (IH sgs Ld ltac:(lia)).
    unfold vmul, mv in *. cbn [map map2 vsum fold_right dot] in *.
    rewrite <- IH. destruct b; unfold bit, sign_of; ring.
Qed.
