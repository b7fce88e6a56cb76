(** Strengthening cuts (C15) — lemmas. *)

Require Import Reals List Bool Arith Lra Lia Psatz.
Require Import Verif.Vec Verif.VecFacts Verif.ModelMip Verif.SpecMip
  Verif.ModelUtils Verif.ModelNet Verif.SpecCore Verif.SpecUtils Verif.SpecNet
  Verif.ModelPattern Verif.SpecPattern Verif.ModelStrengthen Verif.SpecStrengthen
  Verif.ProofUtils Verif.ProofMaxBox Verif.ProofMip Verif.ProofConcat Verif.ProofBounds
  Verif.ProofNet Verif.ProofNetBounds Verif.ProofNetTotal Verif.ProofWarm Verif.ProofPattern.
Import ListNotations.
Open Scope R_scope.

(** ** One cut *)

Lemma cut_loop_length : forall c w i lo up ind, length lo = length w -> length up = length w ->
  length (cut_x (cut_loop c i w lo up ind)) = length w.
Proof.
  induction w as [|a w IH]; intros i lo up ind L1 L2; destruct lo, up; try discriminate; auto.
  cbn [cut_loop]. destruct (ind i); cbn [cut_x length]; rewrite IH; simpl in *; lia.
Qed.

(** At beta = 1 and beta = 0. *)
Lemma cut_loop_sound : forall c w i lo up ind x, 0 <= c < 1 -> in_box lo up x ->
  length w = length x ->
  let r := cut_loop c i w lo up ind in
  dot w x <= dot (cut_x r) x + cut_b r + cut_k r /\
  c * dot w x <= dot (cut_x r) x + cut_k r.
Proof.
  intros c w. induction w as [|a w IH]; intros i lo up ind x Hc [B1 B2] L;
    destruct x as [|v x]; try discriminate.
  - inversion B1; subst. inversion B2; subst. simpl. lra.
  - inversion B1 as [|l ? lo' ? Hl B1']; subst. inversion B2 as [|? u ? up' Hu B2']; subst.
    destruct (IH (S i) lo' up' ind x Hc ltac:(split; auto) ltac:(simpl in L; lia)) as [I1 I2].
    cbn [cut_loop]. set (r := cut_loop c (S i) w lo' up' ind) in *.
    assert (K1 : 0 <= a -> 0 <= a * (v - l) /\ 0 <= a * (u - v)) by (intros; split; nra).
    assert (K2 : a <= 0 -> 0 <= - a * (v - l) /\ 0 <= - a * (u - v)) by (intros; split; nra).
    destruct (ind i); cbn [cut_x cut_b cut_k dot];
      destruct (Rleb 0 a) eqn:E; [apply Rleb_true in E|apply Rleb_false in E|
                                  apply Rleb_true in E|apply Rleb_false in E].
    + destruct (K1 E). split; [nra|].
      assert (0 <= (1 - c) * (a * (v - l))) by (apply Rmult_le_pos; lra). nra.
    + destruct (K2 ltac:(lra)). split; [nra|].
      assert (0 <= (1 - c) * (- a * (u - v))) by (apply Rmult_le_pos; lra). nra.
    + destruct (K1 E). split; [|nra].
      assert (0 <= (1 - c) * (a * (u - v))) by (apply Rmult_le_pos; lra). nra.
    + destruct (K2 ltac:(lra)). split; [|nra].
      assert (0 <= (1 - c) * (- a * (v - l))) by (apply Rmult_le_pos; lra). nra.
Qed.

Lemma w_indices_inv : forall c w b lo up ind k, strengthen_w_indices c w b lo up ind = Some k ->
  0 <= c < 1 /\ length lo = length w /\ length up = length w /\
  k = mkCut (cut_x (cut_loop c 0 w lo up ind)) (b * (1 - c) + cut_b (cut_loop c 0 w lo up ind))
            (b * c + cut_k (cut_loop c 0 w lo up ind)).
Proof.
  intros c w b lo up ind k H. unfold strengthen_w_indices in H.
  destruct (Rleb 0 c && Rltb c 1 && Nat.eqb (length lo) (length w)
      && Nat.eqb (length up) (length lo))%bool eqn:E; [|discriminate].
  rewrite !andb_true_iff, Rleb_true, Rltb_true, !Nat.eqb_eq in E.
  injection H as <-. repeat apply conj; try lra; try reflexivity; intuition congruence.
Qed.
Lemma w_indices_total : forall c w b lo up ind, length lo = length w -> length up = length w ->
  ((exists k, strengthen_w_indices c w b lo up ind = Some k) <-> 0 <= c < 1).
Proof.
  intros c w b lo up ind L1 L2. split.
  - intros [k H]. apply w_indices_inv in H. tauto.
  - intros [H1 H2]. unfold strengthen_w_indices.
    apply Rleb_true in H1. apply Rltb_true in H2.
    rewrite H1, H2, L1, L2, Nat.eqb_refl. simpl. eauto.
Qed.

Lemma cut_sound : forall c w b lo up ind k, strengthen_w_indices c w b lo up ind = Some k ->
  forall x y be, unit_reached c w b lo up x y be -> cut_holds k x y be.
Proof.
  intros c w b lo up ind k H x y be [B [Hy Hb]]. apply w_indices_inv in H.
  destruct H as (Hc & L1 & L2 & ->).
  assert (L : length w = length x).
  { destruct B as [B _]. apply vle_length in B. congruence. }
  destruct (cut_loop_sound c w 0 lo up ind x Hc B L) as [S1 S2].
  unfold cut_holds. cbn [cut_x cut_b cut_k].
  set (r := cut_loop c 0 w lo up ind) in *.
  destruct Hb as [[-> Hz]|[-> Hz]].
  - rewrite leaky_nonneg in Hy by auto. subst y. lra.
  - rewrite leaky_nonpos in Hy by auto. subst y. lra.
Qed.

(** The chosen index set gives the smallest right-hand side. *)
Lemma cut_loop_best : forall c w i lo up ind1 ind2 x be, c < 1 ->
  length lo = length w -> length up = length w -> length x = length w ->
  (forall j, (j < length w)%nat ->
     ind1 (i + j)%nat =
     ((Rleb 0 (nth j w 0) && Rleb (nth j x 0) ((1 - be) * nth j lo 0 + be * nth j up 0)) ||
      (Rltb (nth j w 0) 0 && Rltb ((1 - be) * nth j up 0 + be * nth j lo 0) (nth j x 0)))%bool) ->
  cut_rhs (cut_loop c i w lo up ind1) x be <= cut_rhs (cut_loop c i w lo up ind2) x be.
Proof.
  intros c w. induction w as [|a w IH]; intros i lo up ind1 ind2 x be Hc L1 L2 L3 H;
    destruct lo as [|l lo], up as [|u up], x as [|v x]; try discriminate.
  - simpl. lra.
  - specialize (IH (S i) lo up ind1 ind2 x be Hc ltac:(simpl in *; lia) ltac:(simpl in *; lia)
                   ltac:(simpl in *; lia)).
    assert (H' : forall j, (j < length w)%nat ->
     ind1 (S i + j)%nat =
     ((Rleb 0 (nth j w 0) && Rleb (nth j x 0) ((1 - be) * nth j lo 0 + be * nth j up 0)) ||
      (Rltb (nth j w 0) 0 && Rltb ((1 - be) * nth j up 0 + be * nth j lo 0) (nth j x 0)))%bool).
    { intros j Hj. replace (S i + j)%nat with (i + S j)%nat by lia.
      apply (H (S j)). simpl. lia. }
    specialize (IH H'). assert (H0 := H 0%nat ltac:(simpl; lia)).
    replace (i + 0)%nat with i in H0 by lia. cbn [nth] in H0.
    unfold cut_rhs in *. cbn [cut_loop].
    set (r1 := cut_loop c (S i) w lo up ind1) in *. set (r2 := cut_loop c (S i) w lo up ind2) in *.
    assert (K : (if ind1 i then a * v - (1 - c) * (1 - be) * a * (if Rleb 0 a then l else u)
                 else c * a * v + (1 - c) * be * a * (if Rleb 0 a then u else l))
              <= (if ind2 i then a * v - (1 - c) * (1 - be) * a * (if Rleb 0 a then l else u)
                 else c * a * v + (1 - c) * be * a * (if Rleb 0 a then u else l))).
    { rewrite H0. clear - Hc.
      destruct (Rleb 0 a) eqn:E; [apply Rleb_true in E|apply Rleb_false in E]; cbn [andb orb].
      - assert (Rltb a 0 = false) by (apply Rltb_false; lra). rewrite H. cbn [andb]. rewrite orb_false_r.
        destruct (Rleb v ((1 - be) * l + be * u)) eqn:E2;
          [apply Rleb_true in E2|apply Rleb_false in E2]; destruct (ind2 i); try lra.
        + assert (0 <= (1 - c) * (a * ((1 - be) * l + be * u - v)))
            by (apply Rmult_le_pos; [lra|apply Rmult_le_pos; lra]). lra.
        + assert (0 <= (1 - c) * (a * (v - ((1 - be) * l + be * u))))
            by (apply Rmult_le_pos; [lra|apply Rmult_le_pos; lra]). lra.
      - assert (Rltb a 0 = true) by (apply Rltb_true; lra). rewrite H. cbn [andb].
        destruct (Rltb ((1 - be) * u + be * l) v) eqn:E2;
          [apply Rltb_true in E2|apply Rltb_false in E2]; destruct (ind2 i); try lra.
        + assert (0 <= (1 - c) * (- a * (v - ((1 - be) * u + be * l))))
            by (apply Rmult_le_pos; [lra|apply Rmult_le_pos; lra]). lra.
        + assert (0 <= (1 - c) * (- a * ((1 - be) * u + be * l - v)))
            by (apply Rmult_le_pos; [lra|apply Rmult_le_pos; lra]). lra. }
    destruct (ind1 i), (ind2 i); cbn [cut_x cut_b cut_k dot]; lra.
Qed.
Lemma best_cut : forall c w b lo up xhat be k k' ind, length xhat = length w ->
  strengthen_w_indices c w b lo up (find_index_set w lo up xhat be) = Some k ->
  strengthen_w_indices c w b lo up ind = Some k' ->
  forall y, cut_holds k xhat y be -> cut_holds k' xhat y be.
Proof.
  intros c w b lo up xhat be k k' ind L H1 H2 y K. apply w_indices_inv in H1. apply w_indices_inv in H2.
  destruct H1 as (Hc & L1 & L2 & ->). destruct H2 as (_ & _ & _ & ->).
  unfold cut_holds in *. cbn [cut_x cut_b cut_k] in *.
  assert (Q := cut_loop_best c w 0 lo up (find_index_set w lo up xhat be) ind xhat be
                 ltac:(lra) L1 L2 L).
  unfold cut_rhs in Q.
  assert (dot (cut_x (cut_loop c 0 w lo up (find_index_set w lo up xhat be))) xhat +
      cut_b (cut_loop c 0 w lo up (find_index_set w lo up xhat be)) * be +
      cut_k (cut_loop c 0 w lo up (find_index_set w lo up xhat be)) <=
      dot (cut_x (cut_loop c 0 w lo up ind)) xhat + cut_b (cut_loop c 0 w lo up ind) * be +
      cut_k (cut_loop c 0 w lo up ind)).
  { apply Q. intros j Hj. unfold find_index_set. cbn [plus].
    apply Nat.ltb_lt in Hj. rewrite Hj. reflexivity. }
  lra.
Qed.

(** ** Lists of cuts *)

Lemma given_pts_cuts : forall c w b lo up pts ks, strengthen_given_pts c w b lo up pts = Some ks ->
  forall k, In k ks -> exists xhat yhat be ind, In (xhat, yhat, be) pts /\
    strengthen_w_indices c w b lo up ind = Some k /\ ~ cut_holds k xhat yhat be.
Proof.
  induction pts as [|[[xh yh] be] pts IH]; intros ks H k Hk; cbn [strengthen_given_pts] in H.
  - injection H as <-. destruct Hk.
  - destruct (strengthen_w_indices c w b lo up (find_index_set w lo up xh be)) as [k0|] eqn:E;
      [|discriminate].
    destruct (strengthen_given_pts c w b lo up pts) as [ks0|]; [|discriminate].
    assert (G : In k ks0 -> exists xhat yhat be' ind, In (xhat, yhat, be') ((xh, yh, be) :: pts) /\
              strengthen_w_indices c w b lo up ind = Some k /\ ~ cut_holds k xhat yhat be').
    { intros K. destruct (IH _ eq_refl _ K) as (a1 & a2 & a3 & a4 & A1 & A2 & A3).
      exists a1, a2, a3, a4. simpl. auto. }
    injection H as <-.
    destruct (Rltb (cut_rhs k0 xh be) yh) eqn:E2; auto.
    destruct Hk as [<-|Hk]; auto.
    apply Rltb_true in E2. do 4 eexists. split; [left; reflexivity|]. split; eauto.
    unfold cut_holds. unfold cut_rhs in E2. lra.
Qed.

Lemma given_pts_complete : forall c w b lo up pts ks,
  strengthen_given_pts c w b lo up pts = Some ks ->
  forall xhat yhat be, In (xhat, yhat, be) pts -> length xhat = length w ->
  Forall (fun k => cut_holds k xhat yhat be) ks ->
  forall ind k, strengthen_w_indices c w b lo up ind = Some k -> cut_holds k xhat yhat be.
Proof.
  induction pts as [|[[xh yh] be] pts IH]; intros ks H xhat yhat be' Hin L F ind k Hk;
    cbn [strengthen_given_pts] in H.
  - destruct Hin.
  - destruct (strengthen_w_indices c w b lo up (find_index_set w lo up xh be)) as [k0|] eqn:E;
      [|discriminate].
    destruct (strengthen_given_pts c w b lo up pts) as [ks0|] eqn:E0; [|discriminate].
    injection H as <-.
    assert (F0 : Forall (fun k => cut_holds k xhat yhat be') ks0).
    { destruct (Rltb _ _); auto. inversion F; auto. }
    destruct Hin as [Hin|Hin].
    + injection Hin as <- <- <-. apply (best_cut c w b lo up xh be k0 k ind L E Hk).
      destruct (Rltb (cut_rhs k0 xh be) yh) eqn:E2.
      * inversion F; auto.
      * apply Rltb_false in E2. unfold cut_holds. unfold cut_rhs in E2. lra.
    + eapply IH; eauto.
Qed.

Definition made (c : R) (w : vec) (b : R) (lo up : vec) (k : cut) : Prop :=
  exists ind, strengthen_w_indices c w b lo up ind = Some k.
Lemma all_some_in : forall {A} (l : list (option A)) r x, all_some l = Some r -> In x r ->
  In (Some x) l.
Proof.
  induction l as [|[a|] l IH]; intros r x H K; simpl in *; try discriminate.
  - injection H as <-. destruct K.
  - destruct (all_some l) as [r'|]; [|discriminate]. injection H as <-.
    destruct K as [->|K]; auto. right. eapply IH; eauto.
Qed.
Lemma step_made : forall c w b lo up ex xh be ks ks', 
  selective_step c w b lo up ex xh be ks = Some ks' ->
  (forall ks0, ks = Some ks0 -> Forall (made c w b lo up) ks0) ->
  Forall (made c w b lo up) ks'.
Proof.
  intros c w b lo up ex xh be ks ks' H F. unfold selective_step in H.
  destruct ks as [ks|]; [|discriminate]. specialize (F _ eq_refl).
  destruct (strengthen_w_indices c w b lo up (find_index_set w lo up xh be)) as [k|] eqn:E; [|discriminate].
  injection H as <-. destruct (Rltb _ _); auto.
  apply Forall_app. split; auto. constructor; auto. exists (find_index_set w lo up xh be). auto.
Qed.
Lemma relu_mip_cuts : forall c w b lo up ilo iup sel ks,
  strengthen_relu_mip c w b lo up ilo iup sel = Some ks -> Forall (made c w b lo up) ks.
Proof.
  intros c w b lo up ilo iup sel ks H. unfold strengthen_relu_mip in H.
  destruct (negb _); [discriminate|]. destruct sel; cbn [negb] in H.
  - destruct (linear_input_vertices lo up w b ilo iup) as [vs|]; [|discriminate].
    set (f := fun ks0 xhat => _) in H.
    assert (G : forall vs k0, (forall ks0, k0 = Some ks0 -> Forall (made c w b lo up) ks0) ->
              forall r, fold_left f vs k0 = Some r -> Forall (made c w b lo up) r).
    { clear. induction vs as [|x vs IH]; intros k0 H0 r Hr; simpl in Hr; auto.
      eapply IH; [|exact Hr]. intros ks0 E. unfold f in E. destruct k0 as [k0|]; [|discriminate].
      destruct (beta_range c w b _ x) as [blo bup].
      eapply step_made; [exact E|]. intros ks1 E1. eapply step_made; [exact E1|]. auto. }
    eapply G; [|exact H]. intros ks0 E. injection E as <-. constructor.
  - apply Forall_forall. intros k Hk. apply (all_some_in _ _ _ H) in Hk.
    apply in_map_iff in Hk. destruct Hk as [s [E _]]. exists (mem s). auto.
Qed.

(** ** The block of rows *)

Lemma dot_splice2' : forall p off v w M S, length S = M -> (p + length v <= off)%nat ->
  (off + length w <= M)%nat ->
  dot (splice p v (splice off w (zeros M))) S
  = dot v (slice p (length v) S) + dot w (slice off (length w) S).
Proof.
  intros p off v w M S L H1 H2. assert (L' : length (splice off w (zeros M)) = M)
    by (rewrite splice_length; rewrite zeros_length; lia).
  rewrite dot_splice by (unfold vec in *; lia).
  assert (E : slice p (length v) (splice off w (zeros M)) = zeros (length v)).
  { unfold slice, splice. rewrite skipn_app, firstn_app, skipn_length, firstn_length, zeros_length.
    replace (length v - (Nat.min off M - p))%nat with 0%nat by lia. cbn [firstn]. rewrite app_nil_r.
    rewrite skipn_firstn_comm, firstn_firstn. replace (Nat.min (length v) (off - p)) with (length v) by lia.
    apply slice_zeros. lia. }
  rewrite E, dot_zeros_l, dot_splice_zeros by (auto; lia). ring.
Qed.

Lemma Forall2_at : forall {A B} (P : A -> B -> Prop) l r da db, Forall2 P l r ->
  forall j, (j < length l)%nat -> P (nth j l da) (nth j r db).
Proof.
  induction 1; intros j Hj; simpl in *; [lia|]. destruct j; auto. apply IHForall2. lia.
Qed.

Definition at_unit (c : R) (v y be : R) : Prop :=
  y = leaky c v /\ ((be = 1 /\ 0 <= v) \/ (be = 0 /\ v <= 0)).
Lemma slice1 : forall u (S : vec), (u < length S)%nat -> slice u 1 S = [nth u S 0].
Proof.
  intros u S H. unfold slice. rewrite (skipn_cons_nth S u) by auto. reflexivity.
Qed.

Lemma cut_row_ok : forall nx M prev u k x S B,
  length x = nx -> length S = M -> length B = M -> (u < M)%nat ->
  match prev with None => length (cut_x k) = nx | Some p => (p + length (cut_x k) <= u)%nat end ->
  kwf nx M (cut_row nx M prev u k) /\
  (vle (klhs (cut_row nx M prev u k) x S B) (k_rhs (cut_row nx M prev u k)) <->
   cut_holds k (match prev with None => x | Some p => slice p (length (cut_x k)) S end)
             (nth u S 0) (nth u B 0)).
Proof.
  intros nx M prev u k x S B Lx LS LB Hu P.
  assert (Ls : length (splice u [1] (zeros M)) = M).
  { rewrite splice_length; rewrite zeros_length; simpl; lia. }
  split.
  - unfold kwf, cut_row. cbn [k_x k_s k_b k_rhs length]. repeat split; constructor; auto.
    + destruct prev; [apply zeros_length|rewrite vneg_length; auto].
    + destruct prev; auto. rewrite splice_length; rewrite ?vneg_length; unfold vec in *; lia.
    + apply unit_row_length.
  - unfold cut_row, klhs. cbn [k_x k_s k_b k_rhs mv map].
    match goal with |- vle (vadd (vadd [?a] [?b]) [?c]) _ <-> _ =>
      change (vadd (vadd [a] [b]) [c]) with [a + b + c] end.
    rewrite vle_cons, vle_nil. rewrite dot_unit_row by lia. unfold cut_holds.
    destruct prev as [p|].
    + rewrite dot_zeros_l, dot_splice2' by (rewrite ?vneg_length; simpl; lia).
      rewrite vneg_length, dot_vneg_l. cbn [length]. rewrite slice1 by (unfold vec in *; lia).
      cbn [dot]. split; [intros [H _]|intros H; split; auto]; lra.
    + rewrite dot_splice_zeros by (simpl; lia). rewrite dot_vneg_l. cbn [length].
      rewrite slice1 by (unfold vec in *; lia). cbn [dot].
      split; [intros [H _]|intros H; split; auto]; lra.
Qed.

Lemma units_sound : forall nx M prev c lin lo up x S B z n,
  length x = nx -> length S = M -> length B = M -> in_box lo up z -> length z = n ->
  z = match prev with None => x | Some p => slice p n S end ->
  forall W b u outs acts, wfm (length b) n W ->
  match prev with None => n = nx | Some p => (p + n <= u)%nat end ->
  (u + length W <= M)%nat ->
  (forall j, (j < length W)%nat ->
     at_unit c (dot (nth j W []) z + nth j b 0) (nth (u + j) S 0) (nth (u + j) B 0)) ->
  forall k, units_at_point nx M prev u c W b lin lo up outs acts = Some k ->
  kwf nx M k /\ vle (klhs k x S B) (k_rhs k).
Proof.
  intros nx M prev c lin lo up x S B z n Lx LS LB Bz Lz Ez.
  induction W as [|w W IH]; intros b u outs acts [Wl Wf] P Hu At k H.
  - cbn [units_at_point] in H. injection H as <-. split.
    + unfold kwf. cbn. repeat split; constructor.
    + unfold klhs. cbn. apply vle_nil. exact I.
  - destruct b as [|bj b]; [discriminate|]. inversion Wf as [|? ? Lw Wf']; subst.
    cbn [units_at_point] in H. destruct outs as [|y outs], acts as [|be acts]; try discriminate.
    destruct (strengthen_w_indices c w bj lo up (find_index_set w lo up lin be)) as [k0|] eqn:E; [|discriminate].
    destruct (units_at_point (length x) (length S) prev (Datatypes.S u) c W b lin lo up outs acts)
      as [rest|] eqn:E2; [|discriminate].
    assert (K : kwf (length x) (length S) rest /\ vle (klhs rest x S B) (k_rhs rest)).
    { apply (IH b (Datatypes.S u) outs acts); [split; auto| | | |exact E2].
      destruct prev; auto.
      simpl in Hu. lia.
      intros j Hj. specialize (At (Datatypes.S j) ltac:(simpl; lia)). cbn [nth] in At.
      replace (Datatypes.S u + j)%nat with (u + Datatypes.S j)%nat by lia. exact At. }
    destruct K as [K1 K2].
    injection H as <-. destruct (Rltb _ _); auto.
    assert (A0 := At 0%nat ltac:(simpl; lia)). cbn [nth] in A0. rewrite Nat.add_0_r in A0.
    assert (Lk : length (cut_x k0) = length w).
    { apply w_indices_inv in E. destruct E as (_ & E1 & E3 & ->). cbn [cut_x].
      apply cut_loop_length; auto. }
    assert (Lw' : length w = length z) by exact Lw.
    destruct (cut_row_ok (length x) (length S) prev u k0 x S B) as [R1 R2]; auto.
    { simpl in Hu; lia. }
    { destruct prev; rewrite Lk; congruence. }
    split; [apply kwf_app; auto|].
    rewrite (klhs_app (length x) (length S)) by auto. unfold bapp. cbn [k_rhs].
    apply vle_app_iff; [apply (klhs_length (length x) (length S)); auto|]. split; auto.
    apply R2. rewrite Lk, Lw', <- Ez.
    eapply cut_sound; [exact E|]. destruct A0 as [A1 A2]. split; auto.
Qed.

Lemma leaky_slope : forall a v, leaky (slope_of a) v = act_fun a v.
Proof. destruct a; intros; simpl; auto. apply leaky_0. Qed.

Definition sign_of (be v : R) : Prop := (be = 1 /\ 0 <= v) \/ (be = 0 /\ v <= 0).

Lemma layers_sound : forall nx M x S B lins acts los ups,
  length x = nx -> length S = M -> length B = M ->
  forall hs n out prev off cnt z, hidden_wf n hs out -> length z = n ->
  (off + num_units hs = M)%nat ->
  match prev with None => n = nx | Some p => (p + n <= off)%nat end ->
  z = match prev with None => x | Some p => slice p n S end ->
  skipn off S = concat (post_acts hs z) ->
  Forall2 sign_of (skipn off B) (concat (pre_acts hs z)) ->
  in_box (skipn cnt los) (skipn cnt ups) (z ++ concat (post_acts hs z)) ->
  forall k, layers_at_point nx M prev off cnt hs lins acts los ups = Some k ->
  kwf nx M k /\ vle (klhs k x S B) (k_rhs k).
Proof.
  intros nx M x S B lins acts los ups Lx LS LB. induction hs as [|[l a] hs IH];
    intros n out prev off cnt z W Lz Ho P Ez ES EB Bx k H.
  - cbn [layers_at_point] in H. injection H as <-. split.
    + unfold kwf. cbn. repeat split; constructor.
    + unfold klhs. cbn. apply vle_nil. exact I.
  - cbn [hidden_wf] in W. destruct W as [W1 W2]. assert (W1' := W1). destruct W1' as (Fi & Wm & Lb).
    cbn [layers_at_point] in H. rewrite Fi in H. cbn [num_units] in Ho.
    cbn [post_acts pre_acts concat] in *.
    assert (Lp := lin_eval_length n l z W1 Lz).
    set (pre := lin_eval l z) in *. set (z' := map (act_fun a) pre) in *.
    assert (Lz' : length z' = out_features l) by (unfold z'; rewrite map_length; auto).
    destruct (units_at_point nx M prev off (slope_of a) (weight l) (bias_of l)
               (slice cnt n lins) (slice cnt n los) (slice cnt n ups)
               (skipn (cnt + n) lins) (skipn off acts)) as [p|] eqn:E1; [|discriminate].
    destruct (layers_at_point nx M (Some off) (off + out_features l) (cnt + n) hs lins acts los ups)
      as [q|] eqn:E2; [|discriminate].
    injection H as <-.
    assert (Bx' : in_box (slice cnt n los) (slice cnt n ups) z /\
                  in_box (skipn (cnt + n) los) (skipn (cnt + n) ups) (z' ++ concat (post_acts hs z'))).
    { destruct Bx as [B1 B2]. rewrite <- !(skipn_skipn' n cnt). unfold slice.
      rewrite <- (firstn_skipn n (skipn cnt los)) in B1.
      rewrite <- (firstn_skipn n (skipn cnt ups)) in B2.
      assert (Q1 := vle_length _ _ B1). assert (Q2 := vle_length _ _ B2).
      rewrite firstn_skipn in Q1, Q2. rewrite app_length in Q1, Q2.
      apply vle_app_iff in B1; [|rewrite firstn_length; lia].
      apply vle_app_iff in B2; [|rewrite firstn_length; lia].
      unfold in_box. tauto. }
    destruct Bx' as [Bz Br].
    assert (ES' : skipn (off + out_features l) S = concat (post_acts hs z')).
    { rewrite <- skipn_skipn', ES, skipn_app, skipn_all2 by lia. rewrite Lz', Nat.sub_diag. reflexivity. }
    assert (Ez' : slice off (out_features l) S = z').
    { unfold slice. rewrite ES, firstn_app, Lz', Nat.sub_diag. cbn [firstn]. rewrite app_nil_r.
      apply firstn_all2. lia. }
    assert (EB1 : Forall2 sign_of (slice off (out_features l) B) pre /\
                  Forall2 sign_of (skipn (off + out_features l) B) (concat (pre_acts hs z'))).
    { unfold slice. rewrite <- skipn_skipn'.
      rewrite <- (firstn_skipn (out_features l) (skipn off B)) in EB at 1.
      apply Forall2_app_inv_r in EB. destruct EB as (b1 & b2 & F1 & F2 & E).
      assert (Q := Forall2_len _ _ _ F1).
      assert (Lq : length (firstn (out_features l) (skipn off B)) = out_features l).
      { rewrite firstn_length, skipn_length. lia. }
      apply app_eq_iff in E; [|congruence]. destruct E as [-> ->]. auto. }
    destruct EB1 as [EB1 EB2].
    destruct (units_sound nx M prev (slope_of a) (slice cnt n lins) (slice cnt n los) (slice cnt n ups)
                x S B z n Lx LS LB Bz Lz Ez (weight l) (bias_of l) off
                (skipn (cnt + n) lins) (skipn off acts)) with (k := p) as [K1 K2]; auto.
    { rewrite (bias_length n); auto. }
    { unfold out_features in *. lia. }
    { intros j Hj. unfold at_unit.
      assert (Epre : nth j pre 0 = dot (nth j (weight l) []) z + nth j (bias_of l) 0).
      { unfold pre. rewrite <- (pre_bias n l z W1 Lz). rewrite nth_vadd.
        - f_equal. rewrite nth_mv by auto. reflexivity.
        - rewrite mv_length, (bias_length n); auto. }
      rewrite <- Epre, leaky_slope. split.
      - assert (nth j z' 0 = act_fun a (nth j pre 0)).
        { unfold z'. rewrite nth_indep with (d' := act_fun a 0) by (rewrite map_length; unfold out_features in *; lia).
          apply map_nth. }
        rewrite <- H, <- Ez'. unfold slice. rewrite nth_firstn by (unfold out_features in *; lia).
        rewrite nth_skipn. reflexivity.
      - assert (Q := Forall2_at _ _ _ 0 0 EB1 j). cbn in Q.
        unfold slice in Q. rewrite nth_firstn, nth_skipn in Q by (unfold out_features in *; lia).
        apply Q. rewrite firstn_length, skipn_length. unfold out_features in *. lia. }
    destruct (IH (out_features l) out (Some off) (off + out_features l)%nat (cnt + n)%nat z' W2 Lz')
      with (k := q) as [Q1 Q2]; auto; try lia.
    split; [apply kwf_app; auto|].
    rewrite (klhs_app nx M) by auto. unfold bapp. cbn [k_rhs].
    apply vle_app_iff; [apply (klhs_length nx M); auto|]. auto.
Qed.

(** ** Nothing is missed at the point *)

Lemma some_inj : forall {A} (a b : A), Some a = Some b -> a = b.
Proof. intros A a b H. injection H; auto. Qed.
Lemma units_complete : forall nx M prev c lin lo up x S B n,
  length x = nx -> length S = M -> length B = M -> length lin = n ->
  lin = match prev with None => x | Some p => slice p n S end ->
  forall W b u outs acts, wfm (length b) n W ->
  match prev with None => n = nx | Some p => (p + n <= u)%nat end ->
  (u + length W <= M)%nat ->
  (forall j, (j < length W)%nat -> nth j outs 0 = nth (u + j) S 0) ->
  (forall j, (j < length W)%nat -> nth j acts 0 = nth (u + j) B 0) ->
  forall k, units_at_point nx M prev u c W b lin lo up outs acts = Some k ->
  kwf nx M k /\ (vle (klhs k x S B) (k_rhs k) ->
    forall j ind k', (j < length W)%nat ->
      strengthen_w_indices c (nth j W []) (nth j b 0) lo up ind = Some k' ->
      cut_holds k' lin (nth (u + j) S 0 - / 10 ^ 12) (nth (u + j) B 0)).
Proof.
  intros nx M prev c lin lo up x S B n Lx LS LB Ll El.
  induction W as [|w W IH]; intros b u outs acts [Wl Wf] P Hu HO HA k H.
  - cbn [units_at_point] in H. injection H as <-. split.
    + unfold kwf. cbn. repeat split; constructor.
    + intros _ j ind k' Hj. simpl in Hj. lia.
  - destruct b as [|bj b]; [discriminate|]. inversion Wf as [|? ? Lw Wf'].
    cbn [units_at_point] in H. destruct outs as [|y outs], acts as [|be acts]; try discriminate.
    destruct (strengthen_w_indices c w bj lo up (find_index_set w lo up lin be)) as [k0|] eqn:E; [|discriminate].
    destruct (units_at_point nx M prev (Datatypes.S u) c W b lin lo up outs acts)
      as [rest|] eqn:E2; [|discriminate].
    destruct (IH b (Datatypes.S u) outs acts) with (k := rest) as [K1 K2]; auto.
    { split; auto. }
    { destruct prev; auto. }
    { simpl in Hu. lia. }
    { intros j Hj. specialize (HO (Datatypes.S j) ltac:(simpl; lia)). cbn [nth] in HO. rewrite HO.
      f_equal. lia. }
    { intros j Hj. specialize (HA (Datatypes.S j) ltac:(simpl; lia)). cbn [nth] in HA. rewrite HA.
      f_equal. lia. }
    assert (O0 := HO 0%nat ltac:(simpl; lia)). assert (A0 := HA 0%nat ltac:(simpl; lia)).
    cbn [nth] in O0, A0. rewrite Nat.add_0_r in O0, A0.
    assert (Lk : length (cut_x k0) = length w).
    { apply w_indices_inv in E. destruct E as (_ & E1 & E3 & ->). cbn [cut_x].
      apply cut_loop_length; auto. }
    destruct (cut_row_ok nx M prev u k0 x S B) as [R1 R2]; auto.
    { simpl in Hu; lia. }
    { destruct prev; rewrite Lk; congruence. }
    assert (Ez : match prev with None => x | Some p => slice p (length (cut_x k0)) S end = lin).
    { rewrite El. destruct prev; auto. rewrite Lk. congruence. }
    assert (R3 : vle (klhs (cut_row nx M prev u k0) x S B) (k_rhs (cut_row nx M prev u k0)) ->
                 cut_holds k0 lin (nth u S 0) (nth u B 0)).
    { intros Q. rewrite <- Ez. destruct prev; apply R2; exact Q. }
    assert (Eps : 0 < / 10 ^ 12) by (apply Rinv_0_lt_compat, pow_lt; lra).
    assert (Fin : cut_holds k0 lin (nth u S 0 - / 10 ^ 12) (nth u B 0) ->
      (forall j ind k', (j < length W)%nat ->
        strengthen_w_indices c (nth j W []) (nth j b 0) lo up ind = Some k' ->
        cut_holds k' lin (nth (Datatypes.S u + j) S 0 - / 10 ^ 12) (nth (Datatypes.S u + j) B 0)) ->
      forall j ind k', (j < length (w :: W))%nat ->
        strengthen_w_indices c (nth j (w :: W) []) (nth j (bj :: b) 0) lo up ind = Some k' ->
        cut_holds k' lin (nth (u + j) S 0 - / 10 ^ 12) (nth (u + j) B 0)).
    { intros C0 CR j ind k' Hj Ek. destruct j as [|j].
      - cbn [nth] in Ek. rewrite Nat.add_0_r. rewrite A0 in E.
        apply (best_cut c w bj lo up lin (nth u B 0) k0 k' ind); auto. congruence.
      - cbn [nth] in Ek. replace (u + Datatypes.S j)%nat with (Datatypes.S u + j)%nat by lia.
        eapply CR; eauto. simpl in Hj. lia. }
    apply some_inj in H. rewrite <- H. clear H. destruct (Rltb (cut_rhs k0 lin be + / 10 ^ 12) y) eqn:EL.
    + split; [apply kwf_app; auto|]. intros HV.
      rewrite (klhs_app nx M) in HV by auto. unfold bapp in HV. cbn [k_rhs] in HV.
      apply vle_app_iff in HV; [|apply (klhs_length nx M); auto]. destruct HV as [V1 V2].
      apply Fin; [|apply K2; exact V2]. apply R3 in V1. unfold cut_holds in *. lra.
    + split; auto. intros HV. apply Fin; [|apply K2; exact HV].
      apply Rltb_false in EL. rewrite A0, O0 in EL. unfold cut_rhs in EL. unfold cut_holds. lra.
Qed.

Lemma layers_complete : forall nx M x S B lins los ups,
  length x = nx -> length S = M -> length B = M -> length lins = (nx + M)%nat ->
  lins = x ++ S ->
  forall hs n out prev off cnt, hidden_wf n hs out ->
  (off + num_units hs = M)%nat -> (cnt + n = nx + off)%nat ->
  match prev with None => n = nx /\ off = 0%nat | Some p => (p + n = off)%nat end ->
  forall k, layers_at_point nx M prev off cnt hs lins B los ups = Some k ->
  kwf nx M k /\ (vle (klhs k x S B) (k_rhs k) ->
    all_cuts (/ 10 ^ 12) hs (skipn cnt lins) (skipn off B) (skipn cnt los) (skipn cnt ups)).
Proof.
  intros nx M x S B lins los ups Lx LS LB Ll El. induction hs as [|[l a] hs IH];
    intros n out prev off cnt W Ho Hc P k H.
  - cbn [layers_at_point] in H. injection H as <-. split.
    + unfold kwf. cbn. repeat split; constructor.
    + intros _. exact I.
  - cbn [hidden_wf] in W. destruct W as [W1 W2]. assert (W1' := W1). destruct W1' as (Fi & Wm & Lb).
    cbn [layers_at_point] in H. rewrite Fi in H. cbn [num_units] in Ho.
    destruct (units_at_point nx M prev off (slope_of a) (weight l) (bias_of l)
               (slice cnt n lins) (slice cnt n los) (slice cnt n ups)
               (skipn (cnt + n) lins) (skipn off B)) as [p|] eqn:E1; [|discriminate].
    destruct (layers_at_point nx M (Some off) (off + out_features l) (cnt + n) hs lins B los ups)
      as [q|] eqn:E2; [|discriminate].
    injection H as <-.
    assert (ES : skipn (cnt + n) lins = skipn off S).
    { rewrite Hc, El, skipn_app, skipn_all2 by lia. cbn [app]. f_equal. lia. }
    assert (Lsl : length (slice cnt n lins) = n) by (apply slice_length; lia).
    destruct (units_complete nx M prev (slope_of a) (slice cnt n lins) (slice cnt n los) (slice cnt n ups)
                x S B n Lx LS LB Lsl) with (W := weight l) (b := bias_of l) (u := off)
                (outs := skipn (cnt + n) lins) (acts := skipn off B) (k := p) as [K1 K2]; auto.
    { unfold slice. rewrite El. destruct prev as [p0|].
      - rewrite skipn_app, skipn_all2 by lia. cbn [app]. f_equal. f_equal. lia.
      - assert (cnt = 0%nat) by lia. subst cnt. cbn [skipn].
        rewrite firstn_app. replace (n - length x)%nat with 0%nat by lia. cbn [firstn].
        rewrite app_nil_r. apply firstn_all2. lia. }
    { rewrite (bias_length n); auto. }
    { destruct prev; lia. }
    { unfold out_features in *. lia. }
    { intros j Hj. rewrite ES, nth_skipn. reflexivity. }
    { intros j Hj. rewrite nth_skipn. reflexivity. }
    destruct (IH (out_features l) out (Some off) (off + out_features l)%nat (cnt + n)%nat W2)
      with (k := q) as [Q1 Q2]; auto; try lia.
    split; [apply kwf_app; auto|]. intros HV.
    rewrite (klhs_app nx M) in HV by auto. unfold bapp in HV. cbn [k_rhs] in HV.
    apply vle_app_iff in HV; [|apply (klhs_length nx M); auto]. destruct HV as [V1 V2].
    cbn [all_cuts]. rewrite Fi, !skipn_skipn'. split.
    + intros j ind k Hj Ek. rewrite ES, !nth_skipn.
      eapply (K2 V1); [exact Hj|exact Ek].
    + rewrite <- (Nat.add_comm off) in *. apply Q2. exact V2.
Qed.

Lemma nths_forall2 : forall (P : R -> R -> Prop) (l r : vec), length l = length r ->
  (forall j, (j < length l)%nat -> P (nth j l 0) (nth j r 0)) -> Forall2 P l r.
Proof.
  induction l as [|a l IH]; destruct r as [|c r]; intros L H; try discriminate; constructor.
  - apply (H 0%nat). simpl. lia.
  - apply IH; [simpl in L; lia|]. intros j Hj. apply (H (Datatypes.S j)). simpl. lia.
Qed.

Section Program.
Variable solve : mip -> gresult.
Hypothesis OK : solver_ok solve.

Lemma cuts_hold : forall n meth N x_lo x_up c B out lins acts k,
  net_wf n N -> no_slope_one (hidden N) -> length x_lo = n -> length x_up = n ->
  output_constraint solve meth N x_lo x_up = Some (c, B, out) ->
  strengthen_mip_at_point N lins acts (x_lo ++ b_post_lo B) (x_up ++ b_post_up B) = Some (Some k) ->
  kwf n (num_units (hidden N)) k /\
  forall x s b, bins b -> mic_sat c x s b -> blk_holds k x s b.
Proof.
  intros n meth N x_lo x_up c B [lo up] lins acts k W O L1 L2 H K.
  destruct (network_bounds solve OK n _ _ _ _ _ _ _ _ W L1 L2 H) as [Sd _].
  unfold output_constraint in H.
  destruct (vleb x_lo x_up) eqn:Ev; [|discriminate]. cbn [negb] in H.
  destruct (compute_layer_bound solve meth N x_lo x_up) as [B'|] eqn:E1; [|discriminate].
  destruct (compute_network_output_bounds solve meth N (b_pre_lo B') (b_pre_up B') x_lo x_up)
    as [out'|] eqn:E2; [|discriminate].
  destruct (output_constraint_given_bounds N (b_pre_lo B') (b_pre_up B') x_lo x_up)
    as [c'|] eqn:E3; [|discriminate].
  injection H as <- <- ->.
  destruct (layer_bound_spec solve OK n _ _ _ _ _ W L1 L2 E1) as (z1 & z2 & I1 & I2 & _).
  destruct (given_bounds_prop n N _ _ _ _ W O L1 L2 I1 I2) as (c0 & Ec & [_ Enc] & M).
  rewrite E3 in Ec. injection Ec as <-.
  unfold strengthen_mip_at_point in K.
  destruct (layers_at_point (x_size N) (num_units (hidden N)) None 0 0 (hidden N) lins acts
              (x_lo ++ b_post_lo B') (x_up ++ b_post_up B')) as [k'|] eqn:E4; [|discriminate].
  assert (k' = k) by (destruct (k_rhs k'); congruence). subst k'. clear K.
  assert (W' := W). destruct W' as (Hh & Wh & Wl).
  assert (Xs : x_size N = n).
  { unfold x_size. destruct (hidden N) as [|[l a] hs]; [congruence|]. apply Wh. }
  rewrite Xs in E4.
  assert (G : forall x, in_box x_lo x_up x ->
            forall b, length b = num_units (hidden N) -> bins b ->
            (forall i, (i < num_units (hidden N))%nat ->
             (nth i b 0 = 1 -> 0 <= nth i (concat (pre_acts (hidden N) x)) 0) /\
             (nth i b 0 = 0 -> nth i (concat (pre_acts (hidden N) x)) 0 <= 0)) ->
            kwf n (num_units (hidden N)) k /\
            vle (klhs k x (concat (post_acts (hidden N) x)) b) (k_rhs k)).
  { intros x Bx b Lb Hb Hs.
    assert (Lx : length x = n) by (apply in_box_lengths in Bx; lia).
    destruct (Sd x Bx) as (A1 & A2 & _).
    destruct (num_units_pre _ _ _ _ Wh Lx) as [Q1 Q2].
    apply (layers_sound n (num_units (hidden N)) x (concat (post_acts (hidden N) x)) b lins acts
             (x_lo ++ b_post_lo B') (x_up ++ b_post_up B') Lx Q2 Lb (hidden N) n
             (in_features (last_layer N)) None 0%nat 0%nat x Wh Lx); auto.
    - apply nths_forall2; [cbn [skipn]; congruence|]. cbn [skipn]. intros j Hj. unfold sign_of.
      unfold bins in Hb. rewrite Forall_forall in Hb.
      destruct (Hb (nth j b 0)) as [E|E]; [apply nth_In; auto| |].
      + right. split; auto. apply (Hs j); auto. lia.
      + left. split; auto. apply (Hs j); auto. lia.
    - cbn [skipn]. destruct Bx as [X1 X2], A2 as [Y1 Y2].
      split; apply vle_app; auto. }
  split.
  - apply vleb_spec in Ev.
    assert (Bx : in_box x_lo x_up x_lo) by (split; auto; apply vle_refl).
    assert (Lx : length x_lo = n) by auto.
    destruct (num_units_pre _ _ _ _ Wh Lx) as [Q1 Q2].
    apply (G x_lo Bx (map (fun v => if Rleb 0 v then 1 else 0) (concat (pre_acts (hidden N) x_lo)))).
    + rewrite map_length; auto.
    + apply Forall_map. apply Forall_forall. intros v _. destruct (Rleb 0 v); unfold is_bin; auto.
    + intros i Hi. set (f := fun v : R => if Rleb 0 v then 1 else 0).
      rewrite nth_indep with (d' := f 0) by (rewrite map_length; unfold vec in *; lia).
      rewrite map_nth. unfold f.
      destruct (Rleb 0 _) eqn:E; [apply Rleb_true in E|apply Rleb_false in E]; split; intros; lra.
  - intros x s b Hb Hs. destruct (M x s b Hb Hs) as (-> & Lb & Sg).
    destruct (Enc x _ b Hb Hs) as [[Bx _] _]. apply (G x Bx b Lb Hb Sg).
Qed.

Lemma program_kept : forall n meth N x_lo x_up c B out xv sv bv sol m m',
  net_wf n N -> no_slope_one (hidden N) -> length x_lo = n -> length x_up = n ->
  output_constraint solve meth N x_lo x_up = Some (c, B, out) ->
  length xv = n -> length sv = num_units (hidden N) -> length bv = num_units (hidden N) ->
  strengthen_relu_mip_at_solution N xv sv bv x_lo x_up (b_post_lo B) (b_post_up B) sol m = Some m' ->
  (forall sg, gfeas m' sg -> gfeas m sg) /\
  (forall sg, bins (map sg bv) -> mic_sat c (map sg xv) (map sg sv) (map sg bv) ->
     (gfeas m' sg <-> gfeas m sg)).
Proof.
  intros n meth N x_lo x_up c B out xv sv bv sol m m' W O L1 L2 H Lx Ls Lb K.
  unfold strengthen_relu_mip_at_solution in K.
  destruct (strengthen_mip_at_point N (map sol xv ++ map sol sv) (map sol bv)
              (x_lo ++ b_post_lo B) (x_up ++ b_post_up B)) as [[k|]|] eqn:E; [| |discriminate].
  2: { injection K as <-. tauto. }
  injection K as <-.
  destruct (cuts_hold n meth N x_lo x_up c B out _ _ k W O L1 L2 H E) as [(F1 & F2 & F3) Hd].
  assert (Wf : blocks_wf (length (k_rhs k)) (combine [k_x k; k_s k; k_b k] [xv; sv; bv])).
  { cbn [combine]. repeat constructor; cbn [fst snd]; try apply F1; try apply F2; try apply F3;
      [rewrite Lx; apply F1|rewrite Ls; apply F2|rewrite Lb; apply F3]. }
  assert (G : forall sg, gfeas (addMConstr [k_x k; k_s k; k_b k] [xv; sv; bv] SLe (k_rhs k) m) sg <->
              gfeas m sg /\ blk_holds k (map sg xv) (map sg sv) (map sg bv)).
  { intros sg. rewrite gfeas_addMConstr by (auto; discriminate).
    unfold blk_holds. cbn [combine bsum sense_ok].
    replace (vadd (mv (k_x k) (map sg xv)) (vadd (mv (k_s k) (map sg sv))
              (vadd (mv (k_b k) (map sg bv)) (zeros (length (k_rhs k))))))
      with (vadd (vadd (mv (k_x k) (map sg xv)) (mv (k_s k) (map sg sv))) (mv (k_b k) (map sg bv))).
    - tauto.
    - rewrite vadd_zeros_r by (rewrite mv_length; apply F3).
      symmetry. apply vadd_assoc3. }
  split.
  - intros sg Hs. apply G in Hs. tauto.
  - intros sg Hb Hs. rewrite G. specialize (Hd _ _ _ Hb Hs). tauto.
Qed.
End Program.

(** ** The computation succeeds *)

Lemma units_total : forall nx M prev c lin lo up n W b u outs acts, 0 <= c < 1 ->
  wfm (length b) n W -> length lo = n -> length up = n ->
  (length W <= length outs)%nat -> (length W <= length acts)%nat ->
  exists k, units_at_point nx M prev u c W b lin lo up outs acts = Some k.
Proof.
  intros nx M prev c lin lo up n W. induction W as [|w W IH]; intros b u outs acts Hc [Lw F] L1 L2 L3 L4.
  - eexists. reflexivity.
  - destruct b as [|bj b]; [discriminate|]. destruct outs as [|y outs]; [simpl in L3; lia|].
    destruct acts as [|be acts]; [simpl in L4; lia|]. inversion F as [|? ? Fw F']; subst.
    cbn [units_at_point].
    destruct (proj2 (w_indices_total c w bj lo up (find_index_set w lo up lin be) ltac:(congruence) ltac:(congruence)) Hc)
      as [k ->].
    destruct (IH b (Datatypes.S u) outs acts Hc) as [r ->]; auto.
    + split; auto.
    + simpl in L3. lia.
    + simpl in L4. lia.
    + eexists. reflexivity.
Qed.
Lemma slope_unit : forall hs la, cut_slopes hs -> In la hs -> 0 <= slope_of (snd la) < 1.
Proof.
  intros hs la H I. unfold cut_slopes in H. rewrite Forall_forall in H. specialize (H _ I).
  destruct (snd la); simpl; auto. lra.
Qed.
Lemma layers_total : forall nx M lins acts los ups hs n out prev off cnt,
  cut_slopes hs -> hidden_wf n hs out ->
  (off + num_units hs <= length acts)%nat ->
  (cnt + n + num_units hs <= length lins)%nat ->
  (cnt + n + num_units hs <= length los)%nat -> (cnt + n + num_units hs <= length ups)%nat ->
  exists k, layers_at_point nx M prev off cnt hs lins acts los ups = Some k.
Proof.
  intros nx M lins acts los ups. induction hs as [|[l a] hs IH];
    intros n out prev off cnt C W H1 H2 H3 H4; [eexists; reflexivity|].
  cbn [hidden_wf] in W. destruct W as [W1 W2]. cbn [num_units layers_at_point] in *.
  destruct W1 as (Fi & Wm & Lb). rewrite Fi.
  destruct (units_total nx M prev (slope_of a) (slice cnt n lins) (slice cnt n los) (slice cnt n ups) n
              (weight l) (bias_of l) off (skipn (cnt + n) lins) (skipn off acts)) as [k ->].
  - apply (slope_unit ((l, a) :: hs) (l, a)); simpl; auto.
  - rewrite (bias_length n); [auto|]. split; auto.
  - apply slice_length. lia.
  - apply slice_length. lia.
  - rewrite skipn_length. unfold out_features in *. lia.
  - rewrite skipn_length. unfold out_features in *. lia.
  - destruct (IH (out_features l) out (Some off) (off + out_features l)%nat (cnt + n)%nat) as [q ->];
      auto; try lia.
    + inversion C; auto.
    + eexists. reflexivity.
Qed.
Lemma strengthen_total : forall n N lins acts los ups, net_wf n N -> cut_slopes (hidden N) ->
  length lins = (n + num_units (hidden N))%nat -> length acts = num_units (hidden N) ->
  length los = (n + num_units (hidden N))%nat -> length ups = (n + num_units (hidden N))%nat ->
  strengthen_mip_at_point N lins acts los ups <> None.
Proof.
  intros n N lins acts los ups (Hh & Wh & Wl) C L1 L2 L3 L4. unfold strengthen_mip_at_point.
  destruct (layers_total (x_size N) (num_units (hidden N)) lins acts los ups (hidden N) n _ None 0 0 C Wh)
    as [k ->]; try lia. destruct (k_rhs k); discriminate.
Qed.

Lemma strengthen_complete : forall n N x S acts los ups r, net_wf n N ->
  length x = n -> length S = num_units (hidden N) -> length acts = num_units (hidden N) ->
  strengthen_mip_at_point N (x ++ S) acts los ups = Some r ->
  (forall k, r = Some k -> blk_holds k x S acts) ->
  all_cuts (/ 10 ^ 12) (hidden N) (x ++ S) acts los ups.
Proof.
  intros n N x S acts los ups r (Hh & Wh & Wl) L1 L2 L3 E H. unfold strengthen_mip_at_point in E.
  assert (Xs : x_size N = n).
  { unfold x_size. destruct (hidden N) as [|[l a] hs]; [contradiction Hh; auto|].
    cbn [hidden_wf] in Wh. destruct Wh as [(Fi & _) _]. exact Fi. }
  rewrite Xs in E.
  destruct (layers_at_point n (num_units (hidden N)) None 0 0 (hidden N) (x ++ S) acts los ups)
    as [k|] eqn:EL; [|discriminate].
  destruct (layers_complete n (num_units (hidden N)) x S acts (x ++ S) los ups L1 L2 L3) with
    (hs := hidden N) (n := n) (out := in_features (last_layer N)) (prev := @None nat) (off := 0%nat) (cnt := 0%nat) (k := k) as [K1 K2]; auto.
  { rewrite app_length. lia. }
  cbn [skipn] in K2. apply K2. destruct (k_rhs k) eqn:Er.
  - assert (Lk := klhs_length n (num_units (hidden N)) k x S acts K1). 
    rewrite Er in Lk. destruct (klhs k x S acts); [apply vle_nil; exact I|discriminate].
  - injection E as <-. rewrite <- Er. exact (H k eq_refl).
Qed.

(** ** A concrete network: 2 inputs, two hidden layers of 2 units. *)
Definition net2 : network :=
  mkNet [(mkLin 2 [[1; -1]; [2; 1]] (Some [1; -1]), Relu);
         (mkLin 2 [[1; 1]; [-1; 0]] None, Leaky (1/2))]
        (mkLin 2 [[1; -2]] (Some [3])).
Lemma net2_wf : net_wf 2 net2.
Proof.
  unfold net_wf, net2. cbn [hidden last_layer hidden_wf lin_wf in_features weight bias].
  split; [discriminate|]. unfold lin_wf, wfm, out_features. cbn. repeat split; repeat constructor.
Qed.
Lemma net2_slopes : no_slope_one (hidden net2) /\ cut_slopes (hidden net2) /\ slopes_nonneg (hidden net2).
Proof.
  unfold no_slope_one, cut_slopes, slopes_nonneg, net2. cbn [hidden].
  split; [|split].
  - constructor; [discriminate|]. constructor; [|constructor]. cbn [snd]. intros E. injection E as E. lra.
  - constructor; [exact I|]. constructor; [|constructor]. cbn [snd]. lra.
  - constructor; [cbn; lra|]. constructor; [|constructor]. cbn. lra.
Qed.

(** Interval arithmetic never asks the solver and always succeeds. *)
Section IA_total.
Variable solve : mip -> gresult.
Hypothesis OK : solver_ok solve.
Lemma ia_loop_total : forall n x_lo x_up hs prev in_lo in_up acc k out,
  hidden_wf n prev k -> hidden_wf k hs out -> length x_lo = n -> length x_up = n ->
  vle x_lo x_up ->
  acc_inv n IA x_lo x_up prev in_lo in_up acc ->
  layer_bounds_loop solve IA x_lo x_up prev hs in_lo in_up acc <> None.
Proof.
  intros n x_lo x_up hs. induction hs as [|[l a] hs IH];
    intros prev in_lo in_up acc k out W1 W2 L1 L2 Bx Iv; [discriminate|].
  cbn [layer_bounds_loop].
  destruct W2 as [Wl W2].
  assert (Iv' := Iv). destruct Iv' as (I1 & I2 & I3 & I4).
  assert (B0 : in_box x_lo x_up x_lo) by (split; [apply vle_refl|auto]).
  destruct (I3 _ B0) as (B1 & B2 & B3).
  assert (LE := hidden_eval_length _ _ _ _ W1 L1).
  destruct (in_box_lengths _ _ _ B3) as [E1 E2].
  destruct (layer_input_bounds solve IA prev l in_lo in_up (b_pre_lo acc) (b_pre_up acc)
                x_lo x_up) as [[lo up]|] eqn:E.
  2: { exfalso. revert E. unfold layer_input_bounds. destruct Wl as (If & Wl').
       apply range_total; [eapply bias_length; split; eauto|congruence|congruence]. }
  destruct (propagate_act_layer a lo up) as [plo pup] eqn:Ep.
  assert (W1' : hidden_wf n (prev ++ [(l, a)]) (out_features l)).
  { apply hidden_wf_app. exists k. split; auto. simpl. auto. }
  eapply IH; eauto.
  eapply layer_step_inv; eauto.
Qed.
Lemma ia_total : forall n N x_lo x_up, net_wf n N ->
  length x_lo = n -> length x_up = n -> vle x_lo x_up ->
  exists c B out, output_constraint solve IA N x_lo x_up = Some (c, B, out).
Proof.
  intros n N x_lo x_up W L1 L2 Ev. unfold output_constraint.
  assert (Ev' := Ev). apply vleb_spec in Ev'. rewrite Ev'. cbn [negb].
  assert (W' := W). destruct W' as (Hh & Wh & Wl).
  assert (T : compute_layer_bound solve IA N x_lo x_up <> None).
  { apply (ia_loop_total n) with (k := n) (out := in_features (last_layer N)); auto.
    - reflexivity.
    - split; auto. split; auto. split.
      + intros x Bx. split; [split; constructor|]. split; [split; constructor|]. auto.
      + simpl. intros; lia. }
  destruct (compute_layer_bound solve IA N x_lo x_up) as [B|] eqn:E1; [|congruence].
  destruct (layer_bound_spec solve OK n _ _ _ _ _ W L1 L2 E1) as (z1 & z2 & I1 & I2 & I3 & _).
  destruct (encoding_given_bounds n N (b_pre_lo B) (b_pre_up B) x_lo x_up W L1 L2 I1 I2) as (c & Ec & _).
  rewrite Ec.
  assert (R := output_IA_total n N _ _ W I1 I2).
  destruct (compute_network_output_bounds solve IA N (b_pre_lo B) (b_pre_up B) x_lo x_up) as [o|] eqn:E2; [eauto|].
  exfalso. apply R. exact E2.
Qed.
End IA_total.
Lemma net2_case : solver_ok (fun _ => GOther) /\ net_wf 2 net2 /\ no_slope_one (hidden net2) /\
  exists c B out, output_constraint (fun _ => GOther) IA net2 [-1; 0] [1; 2] = Some (c, B, out).
Proof.
  split; [exact no_solver_ok|]. split; [exact net2_wf|]. split; [apply net2_slopes|].
  apply (ia_total _ no_solver_ok 2); try reflexivity; [exact net2_wf|].
  rewrite !vle_cons, vle_nil. lra.
Qed.
(** A cut that cuts: y = relu (x1 - x2) on the unit square, at the point
    (1/2, 1/2) with y = 1/2, beta = 1/2. *)
Lemma cut_case : exists k, strengthen_w_indices 0 [1; -1] 0 [0; 0] [1; 1]
    (find_index_set [1; -1] [0; 0] [1; 1] [1/2; 1/2] (1/2)) = Some k /\
  unit_reached 0 [1; -1] 0 [0; 0] [1; 1] [1; 1/2] (1/2) 1 /\
  ~ cut_holds k [1/2; 1/2] 1 (1/2).
Proof.
  destruct (proj2 (w_indices_total 0 [1; -1] 0 [0; 0] [1; 1]
    (find_index_set [1; -1] [0; 0] [1; 1] [1/2; 1/2] (1/2)) eq_refl eq_refl) ltac:(lra)) as [k Ek].
  exists k. split; auto. split.
  - split; [split; rewrite !vle_cons, vle_nil; lra|]. cbn [dot].
    split; [|left; split; lra]. rewrite leaky_nonneg by lra. lra.
  - intros H. apply w_indices_inv in Ek. destruct Ek as (_ & _ & _ & ->).
    assert (Q := cut_loop_best 0 [1; -1] 0 [0; 0] [1; 1] (find_index_set [1; -1] [0; 0] [1; 1] [1/2; 1/2] (1/2))
      (fun _ => true) [1/2; 1/2] (1/2) ltac:(lra) eq_refl eq_refl eq_refl).
    assert (Q' : cut_rhs (cut_loop 0 0 [1; -1] [0; 0] [1; 1] (find_index_set [1; -1] [0; 0] [1; 1] [1/2; 1/2] (1/2))) [1/2; 1/2] (1/2)
       <= cut_rhs (cut_loop 0 0 [1; -1] [0; 0] [1; 1] (fun _ => true)) [1/2; 1/2] (1/2)).
    { apply Q. intros j Hj. unfold find_index_set. cbn [plus].
      apply Nat.ltb_lt in Hj. rewrite Hj. reflexivity. }
    clear Q. unfold cut_holds in H. cbn [cut_x cut_b cut_k] in H.
    set (r := cut_loop 0 0 [1; -1] [0; 0] [1; 1] (find_index_set [1; -1] [0; 0] [1; 1] [1/2; 1/2] (1/2))) in *.
    unfold cut_rhs in Q'. cbn [cut_loop] in Q'.
    destruct (Rleb 0 1) eqn:E1; [|apply Rleb_false in E1; lra].
    destruct (Rleb 0 (-1)) eqn:E2; [apply Rleb_true in E2; lra|].
    cbn [cut_x cut_b cut_k dot] in Q'. lra.
Qed.
