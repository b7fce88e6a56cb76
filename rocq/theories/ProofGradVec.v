(** The gradient-times-vector encoding (C19) — lemmas. *)

Require Import Reals List Bool Arith Lra Lia.
Require Import Verif.Vec Verif.VecFacts Verif.ModelMip Verif.SpecMip
  Verif.ModelUtils Verif.ModelNet Verif.SpecCore Verif.SpecUtils Verif.SpecNet
  Verif.ModelPattern Verif.SpecPattern
  Verif.ProofUtils Verif.ProofMaxBox Verif.ProofMip Verif.ProofConcat Verif.ProofBounds
  Verif.ProofGrad Verif.ProofNet Verif.ProofNetBounds Verif.ProofPattern.
Import ListNotations.
Open Scope R_scope.

(** ** One unit *)

Definition gsat1 (r : nrows) (z : vec) (y be : R) : Prop := vle (nlhs r z y be) (n_rhs r).

Lemma grad_unit_spec : forall w a lo up, lo <= up ->
  exists r, grad_unit w a lo up = Some r /\ nwf (length w) r /\
    forall z y (f : bool), length z = length w -> lo <= dot w z <= up ->
      (gsat1 r z y (if f then 1 else 0) <-> y = (if f then 1 else slope_of a) * dot w z).
Proof.
  intros w a lo up H. unfold grad_unit.
  assert (G : forall rw, length (rw_x rw) = 4%nat -> length (rw_y rw) = 4%nat ->
            length (rw_b rw) = 4%nat -> length (rw_rhs rw) = 4%nat ->
            nwf (length w) (mkN (outer (rw_x rw) w) (rw_y rw) (rw_b rw) (rw_rhs rw))).
  { intros rw L1 L2 L3 L4. unfold nwf, wfm. cbn [n_x n_y n_b n_rhs].
    split; [|split; congruence]. unfold outer. rewrite map_length. split; [congruence|].
    apply Forall_forall. intros v Hv. apply in_map_iff in Hv. destruct Hv as [k [<- _]].
    apply vscale_length. }
  destruct a as [|c].
  - destruct (product_prop lo up) as [_ P]. destruct (P H) as [rw [E S]]. rewrite E.
    eexists. split; [reflexivity|]. split.
    { apply G; unfold replace_binary_continuous_product in E; destruct (Rleb lo up);
        try discriminate; injection E as <-; reflexivity. }
    intros z y f L B. unfold gsat1, nlhs. cbn [n_x n_y n_b n_rhs]. rewrite mv_outer.
    fold (sat4 rw (dot w z) y (if f then 1 else 0)). rewrite S.
    2:{ destruct f; [right|left]; auto. }
    simpl slope_of. destruct f; intuition.
  - destruct (leaky_grad_prop lo up c) as [_ P]. destruct (P H) as [rw [E S]]. rewrite E.
    eexists. split; [reflexivity|]. split.
    { apply G; unfold leaky_relu_gradient_times_x in E; destruct (Rleb lo up);
        try discriminate; destruct (Rltb c 1); injection E as <-; reflexivity. }
    intros z y f L B. unfold gsat1, nlhs. cbn [n_x n_y n_b n_rhs]. rewrite mv_outer.
    fold (sat4 rw (dot w z) y (if f then 1 else 0)).
    destruct (S (dot w z) y 0) as [S1 _]. destruct (S1 B) as [S2 S3].
    simpl slope_of. destruct f; [rewrite S2|rewrite S3]; intuition lra.
Qed.

(** ** A layer *)

Lemma grad_units_spec : forall nc n a W j lo up, (j + length W = n)%nat ->
  Forall (fun w => length w = nc) W -> vle lo up -> length lo = length W ->
  exists r, grad_units n j a W lo up = Some r /\ lwf nc n r /\
    forall zc zn pat be, length zc = nc -> length zn = n -> length be = n ->
      skipn j be = map (fun f : bool => if f then 1 else 0) pat -> length pat = length W ->
      in_box lo up (mv W zc) ->
      (vle (llhs r zc zn be) (l_rhs r) <->
       skipn j zn = scale_by (slope_of a) pat (mv W zc)).
Proof.
  intros nc n a W. induction W as [|w W IH]; intros j lo up Hj F V L;
    inversion V as [|l u lo' up' Hlu V']; subst; try discriminate; cbn [length] in *.
  - exists (mkL [] [] [] []). split; auto. split; [split; [|split]; split; constructor|].
    intros zc zn pat be Lc Ln Lb Eb Lp B. destruct pat; [|discriminate].
    unfold llhs, scale_by. cbn. rewrite skipn_all2 by lia. split; auto.
  - inversion F; subst.
    destruct (grad_unit_spec w a l u Hlu) as [r [E [Wr Sr]]].
    destruct (IH (S j) lo' up') as [rs [E2 [Wrs Srs]]]; auto; try lia.
    replace (S j + length W)%nat with (j + S (length W))%nat in * by lia.
    cbn [grad_units]. rewrite E, E2. eexists. split; [reflexivity|].
    apply (place_wf _ (j + S (length W)) j) in Wr.
    split; [apply lwf_app; auto|].
    intros zc zn pat be Lc Ln Lb Eb Lp [B1 B2].
    rewrite (llhs_app (length w) (j + S (length W))) by auto. unfold lapp. cbn [l_rhs].
    rewrite vle_app_iff by (eapply llhs_length; eauto).
    destruct pat as [|f pat]; [discriminate|].
    rewrite (skipn_cons_nth be j) in Eb by lia. cbn [map] in Eb. apply cons_eq_iff in Eb.
    destruct Eb as [Eb1 Eb2]. cbn [mv map] in B1, B2. inversion B1; subst. inversion B2; subst.
    rewrite (Srs zc zn pat be); auto; [|split; auto].
    rewrite (skipn_cons_nth zn j) by lia. rewrite place_lhs by (auto; lia).
    unfold scale_by. cbn [mv map map2]. rewrite cons_eq_iff.
    change (l_rhs (place (j + S (length W)) j r)) with (n_rhs r).
    fold (gsat1 r zc (nth j zn 0) (nth j be 0)). rewrite Eb1, Sr; auto. tauto.
Qed.

(** ** Bounds of the products *)

Lemma wz_row_sound : forall w lo up z, in_box lo up z -> length w = length z ->
  fst (wz_row w lo up) <= dot w z <= snd (wz_row w lo up).
Proof.
  induction w as [|a w IH]; intros lo up z [B1 B2] L.
  - simpl. lra.
  - destruct z as [|v z]; [discriminate|]. inversion B1; subst. inversion B2; subst.
    simpl in L. specialize (IH l l' z ltac:(split; auto) ltac:(lia)).
    cbn [wz_row dot]. destruct (wz_row w l l') as [s t]. cbn [fst snd] in IH.
    destruct (Rltb 0 a) eqn:E; [apply Rltb_true in E|apply Rltb_false in E]; cbn [fst snd]; nra.
Qed.
Lemma wz_bounds_sound : forall n l lo up z, wfm (out_features l) n (weight l) ->
  in_box lo up z -> length z = n ->
  in_box (fst (wz_bounds l lo up)) (snd (wz_bounds l lo up)) (mv (weight l) z).
Proof.
  intros n l lo up z [_ F] B L. unfold wz_bounds. cbn [fst snd].
  induction F as [|w W Hw F IH]; [split; constructor|].
  cbn [map mv]. destruct IH. assert (H1 := wz_row_sound w lo up z B ltac:(congruence)).
  split; constructor; try lra; auto.
Qed.
Lemma wz_bounds_len : forall l lo up,
  length (fst (wz_bounds l lo up)) = out_features l /\
  length (snd (wz_bounds l lo up)) = out_features l.
Proof. intros. unfold wz_bounds. cbn [fst snd]. rewrite !map_length. auto. Qed.
Lemma wz_bounds_le : forall n l lo up, wfm (out_features l) n (weight l) -> vle lo up ->
  length lo = n -> vle (fst (wz_bounds l lo up)) (snd (wz_bounds l lo up)).
Proof.
  intros n l lo up W V L.
  destruct (wz_bounds_sound n l lo up lo W) as [B1 B2]; auto.
  { split; auto. apply vle_refl. }
  apply vle_nth. apply vle_nth in B1. apply vle_nth in B2.
  destruct B1 as [L1 B1], B2 as [L2 B2]. split; [congruence|].
  intros i Hi. specialize (B1 i Hi). specialize (B2 i ltac:(congruence)). lra.
Qed.

Lemma z_bounds_sound : forall a lo up v pat, vle lo up -> 0 <= slope_of a ->
  exists lo' up', z_bounds a lo up = Some (lo', up') /\ vle lo' up' /\
    length lo' = length lo /\
    (in_box lo up v -> length pat = length v -> in_box lo' up' (scale_by (slope_of a) pat v)).
Proof.
  intros a lo up v pat V Ha. unfold scale_by.
  assert (G : forall f1 f2, (forall l u, l <= u -> f1 l <= f2 u) ->
     (forall l u x (b : bool), l <= x <= u ->
        f1 l <= (if b then 1 else slope_of a) * x <= f2 u) ->
     vle (map f1 lo) (map f2 up) /\ length (map f1 lo) = length lo /\
     (in_box lo up v -> length pat = length v ->
      in_box (map f1 lo) (map f2 up)
        (map2 (fun (b : bool) x => (if b then 1 else slope_of a) * x) pat v))).
  { intros f1 f2 G1 G2. split; [|split; [apply map_length|]].
    - induction V; constructor; auto.
    - intros [B1 B2]. revert v pat B1 B2. induction V as [|l u lo up Hlu V IH];
        intros v pat B1 B2 L; inversion B1; subst; inversion B2; subst; destruct pat;
        try discriminate; cbn [map map2].
      + split; constructor.
      + match goal with H : Forall2 Rle lo ?t, H0 : Forall2 Rle ?t up |- _ =>
          destruct (IH _ pat H H0 ltac:(simpl in L; lia)) as [I1 I2] end.
        assert (K := G2 l u y b ltac:(lra)). split; constructor; auto; lra. }
  destruct a as [|c]; cbn [z_bounds slope_of] in *.
  - do 2 eexists. split; [reflexivity|]. apply (G (Rmin 0) (Rmax 0)).
    + intros l u H. destruct (Rmin_case' 0 l) as [[-> ?]|[-> ?]], (Rmax_case' 0 u) as [[-> ?]|[-> ?]]; lra.
    + intros l u x b H. destruct (Rmin_case' 0 l) as [[-> ?]|[-> ?]], (Rmax_case' 0 u) as [[-> ?]|[-> ?]];
        destruct b; lra.
  - destruct (Rleb 0 c) eqn:E; [|apply Rleb_false in E; lra].
    do 2 eexists. split; [reflexivity|]. apply (G (fun v => Rmin v (c * v)) (fun v => Rmax v (c * v))).
    + intros l u H. destruct (Rmin_case' l (c * l)) as [[-> ?]|[-> ?]], (Rmax_case' u (c * u)) as [[-> ?]|[-> ?]]; nra.
    + intros l u x b H. destruct (Rmin_case' l (c * l)) as [[-> ?]|[-> ?]], (Rmax_case' u (c * u)) as [[-> ?]|[-> ?]];
        destruct b; nra.
Qed.

Lemma boxes_cons : forall l los u ups v vs, in_box l u v -> boxes los ups vs ->
  boxes (l :: los) (u :: ups) (v :: vs).
Proof.
  intros l los u ups v vs H [L1 [L2 K]]. split; [simpl; lia|]. split; [simpl; lia|].
  intros [|i] Hi; simpl in *; auto. apply K. lia.
Qed.
Lemma boxes_one : forall l u v, in_box l u v -> boxes [l] [u] [v].
Proof.
  intros. split; auto. split; auto. intros [|i] Hi; simpl in *; auto. lia.
Qed.

(** The products of the last linear layer, as a list of values. *)
Definition last_tangent (hs : list (linear * act)) (pats : list (list bool)) (y : vec) : vec :=
  last (tangents hs pats y) y.

Lemma wz_loop_spec : forall hs n out last lo up, hidden_wf n hs out -> lin_wf out last ->
  slopes_nonneg hs -> vle lo up -> length lo = n ->
  exists B, wz_loop hs last lo up = Some B /\
    length (w_lo B) = S (length hs) /\ length (w_up B) = S (length hs) /\
    Forall2 vle (w_lo B) (w_up B) /\
    (forall i, (i < length hs)%nat ->
       length (nth i (w_lo B) []) = nth i (widths_of hs) 0%nat) /\
    (forall y pats, in_box lo up y -> pattern_shape hs pats ->
       boxes (w_zlo B) (w_zup B) (y :: tangents hs pats y) /\
       boxes (w_lo B) (w_up B)
         (pre_tangents hs pats y ++ [mv (weight last) (last_tangent hs pats y)])).
Proof.
  induction hs as [|[l a] hs IH]; intros n out last lo up W Wl Hs V L.
  - simpl in W. subst out. cbn [wz_loop].
    assert (V1 := wz_bounds_le n last lo up (proj1 (proj2 Wl)) V L).
    assert (S1 := fun z => wz_bounds_sound n last lo up z (proj1 (proj2 Wl))).
    destruct (wz_bounds last lo up) as [p q]. cbn [fst snd] in *.
    eexists. split; [reflexivity|]. cbn [w_lo w_up w_zlo w_zup length]. split; auto. split; auto.
    split; [repeat constructor; auto|]. split; [simpl; lia|].
    intros y pats B S. inversion S; subst. cbn.
    split; apply boxes_one; auto. apply S1; auto.
    destruct B as [B _]. apply vle_length in B. congruence.
  - destruct W as [W1 W2]. inversion Hs; subst. cbn [snd] in *. cbn [wz_loop].
    assert (V1 := wz_bounds_le _ l lo up (proj1 (proj2 W1)) V eq_refl).
    assert (S1 := fun z => wz_bounds_sound _ l lo up z (proj1 (proj2 W1))).
    assert (L1 := wz_bounds_len l lo up).
    destruct (wz_bounds l lo up) as [p q]. cbn [fst snd] in *. destruct L1 as [L1 L2].
    destruct (z_bounds_sound a p q p [] V1 H1) as (lo' & up' & E & V2 & L3 & _).
    rewrite E.
    destruct (IH (out_features l) out last lo' up' W2 Wl H2 V2 ltac:(congruence))
      as (B & EB & B1 & B2 & B3 & B4 & B5). rewrite EB.
    eexists. split; [reflexivity|]. cbn [w_lo w_up w_zlo w_zup length].
    split; [simpl; lia|]. split; [simpl; lia|]. split; [constructor; auto|].
    split; [intros [|i] Hi; simpl; auto; apply B4; simpl in *; lia|].
    intros y pats By S. inversion S as [|? pat ? pats' Sp S']; subst. cbn [fst] in Sp.
    rewrite tangents_cons. unfold last_tangent. rewrite tangents_cons, last_cons.
    cbn [pre_tangents].
    assert (Ly : length y = length lo) by (destruct By as [By _]; apply vle_length in By; congruence).
    assert (Bv := S1 y By Ly).
    destruct (z_bounds_sound a p q (mv (weight l) y) pat V1 H1) as (lo2 & up2 & E2 & _ & _ & K).
    rewrite E in E2. injection E2 as <- <-.
    assert (Lp : length pat = length (mv (weight l) y)).
    { rewrite mv_length. exact Sp. }
    specialize (K Bv Lp).
    destruct (B5 _ _ K S') as [K1 K2].
    split; [apply boxes_cons; auto|].
    cbn [app]. apply boxes_cons; auto.
Qed.

(** ** The whole network *)

Lemma grad_layers_spec : forall nx M hs out prev off nc lo up,
  hidden_wf nc hs out -> (off + num_units hs <= M)%nat ->
  match prev with None => nc = nx | Some p => (p + nc <= off)%nat end ->
  (length hs <= length lo)%nat -> Forall2 vle lo up ->
  (forall i, (i < length hs)%nat -> length (nth i lo []) = nth i (widths_of hs) 0%nat) ->
  exists k, grad_layers nx M prev off hs lo up = Some k /\ kwf nx M k /\
    forall x S B pats, length x = nx -> length S = M -> length B = M ->
      pattern_shape hs pats -> skipn off B = flat pats ++ skipn (off + num_units hs) B ->
      let z := match prev with None => x | Some p => slice p nc S end in
      (forall i, (i < length hs)%nat ->
         in_box (nth i lo []) (nth i up []) (nth i (pre_tangents hs pats z) [])) ->
      (vle (klhs k x S B) (k_rhs k) <->
       firstn (num_units hs) (skipn off S) = concat (tangents hs pats z)).
Proof.
  intros nx M hs out. induction hs as [|[l a] hs IH]; intros prev off nc lo up W HM Hp Hl V Lw.
  - exists (mkBlk [] [] [] []). split; auto. split; [split; [|split]; split; constructor|].
    intros. inversion H2; subst. cbn. split; auto. intros _. constructor.
  - destruct W as [[W1 [W2 W3]] W4]. cbn [num_units length] in *.
    destruct V as [|p q lo up Vp V]; [simpl in Hl; lia|]. cbn [length] in Hl.
    set (n := out_features l) in *.
    assert (Lp := Lw 0%nat ltac:(lia)). cbn [nth widths_of map fst] in Lp.
    destruct (grad_units_spec nc n a (weight l) 0 p q) as (r & E & Wr & Sr); auto.
    { apply W2. }
    destruct (IH (Some off) (off + n)%nat n lo up W4) as (k & E2 & Wk & Sk); auto; try lia.
    { intros i Hi. apply (Lw (Datatypes.S i)). lia. }
    cbn [grad_layers]. fold n. rewrite E, E2. eexists. split; [reflexivity|].
    assert (K1 : kwf nx M (write_rows nx M prev off r)) by (eapply write_rows_wf; eauto; lia).
    split; [apply kwf_app; auto|].
    intros x S B pats Lx LS LB Sh EB.
    set (z := match prev with None => x | Some p0 => slice p0 nc S end). intros Hb.
    destruct pats as [|pat pats']; [inversion Sh|]. unfold pattern_shape in Sh.
    apply F2_cons in Sh. destruct Sh as [Sp S']. cbn [fst] in Sp. fold n in Sp.
    rewrite (klhs_app nx M) by auto. unfold bapp. cbn [k_rhs].
    rewrite vle_app_iff by (eapply klhs_length; eauto).
    rewrite (write_rows_lhs nx M prev off nc n r) by (auto; lia).
    change (k_rhs (write_rows nx M prev off r)) with (l_rhs r).
    match goal with |- context [llhs r ?t _ _] => change t with z end.
    assert (Lz : length z = nc).
    { unfold z. destruct prev; [apply slice_length; lia|lia]. }
    assert (Ln : length (slice off n S) = n) by (apply slice_length; lia).
    assert (Lb : length (slice off n B) = n) by (apply slice_length; lia).
    unfold flat in EB. cbn [concat] in EB. rewrite map_app in EB.
    fold (flat pats') in EB. rewrite <- app_assoc in EB.
    assert (EB1 : slice off n B = map (fun f : bool => if f then 1 else 0) pat).
    { unfold slice. rewrite EB. apply firstn_all'. rewrite map_length. auto. }
    assert (EB2 : skipn (off + n) B = flat pats' ++ skipn (off + n + num_units hs) B).
    { rewrite <- skipn_skipn'. rewrite EB at 1. rewrite skipn_all' by (rewrite map_length; auto).
      rewrite Nat.add_assoc. auto. }
    assert (H0 := Hb 0%nat ltac:(lia)). cbn [nth pre_tangents] in H0.
    rewrite (Sr z (slice off n S) pat (slice off n B)); auto.
    cbn [skipn]. rewrite tangents_cons. cbn [concat].
    assert (Lt : length (scale_by (slope_of a) pat (mv (weight l) z)) = n).
    { rewrite scale_length; rewrite mv_length; auto. }
    assert (Ef : firstn (n + num_units hs) (skipn off S)
                 = slice off n S ++ firstn (num_units hs) (skipn (off + n) S)).
    { unfold slice. rewrite <- (skipn_skipn' n off S).
      rewrite <- (firstn_skipn n (skipn off S)) at 1.
      rewrite firstn_app.
      assert (L0 : length (firstn n (skipn off S)) = n)
        by (rewrite firstn_length, skipn_length; lia).
      rewrite L0. rewrite firstn_all2 by lia.
      replace (n + num_units hs - n)%nat with (num_units hs) by lia. auto. }
    rewrite Ef, app_eq_iff by congruence.
    split.
    + intros [A1 A2]. split; auto.
      assert (Hb' : forall i, (i < length hs)%nat ->
         in_box (nth i lo []) (nth i up []) (nth i (pre_tangents hs pats' (slice off n S)) [])).
      { intros i Hi. rewrite A1. apply (Hb (Datatypes.S i)). lia. }
      apply (Sk x S B pats' Lx LS LB S' EB2 Hb') in A2. rewrite A2, A1. auto.
    + intros [A1 A2]. split; auto.
      assert (Hb' : forall i, (i < length hs)%nat ->
         in_box (nth i lo []) (nth i up []) (nth i (pre_tangents hs pats' (slice off n S)) [])).
      { intros i Hi. rewrite A1. apply (Hb (Datatypes.S i)). lia. }
      apply (Sk x S B pats' Lx LS LB S' EB2 Hb'). rewrite A2, A1. auto.
Qed.

Lemma flat_length : forall hs pats, pattern_shape hs pats -> length (flat pats) = num_units hs.
Proof.
  intros hs pats S. unfold flat. rewrite map_length. induction S as [|[l a] pat hs pats H S IH]; auto.
  cbn [concat num_units]. rewrite app_length. cbn [fst] in H. lia.
Qed.
Lemma pre_tangents_length : forall hs pats y, pattern_shape hs pats ->
  length (pre_tangents hs pats y) = length hs.
Proof.
  intros hs pats y S. revert y. induction S as [|[l a] pat hs pats H S IH]; intros; auto.
  cbn [pre_tangents length]. rewrite IH. auto.
Qed.
Lemma tangents_shape : forall hs n out pats y, hidden_wf n hs out -> pattern_shape hs pats ->
  length y = n ->
  length (concat (tangents hs pats y)) = num_units hs /\
  length (last_tangent hs pats y) = out.
Proof.
  unfold last_tangent.
  induction hs as [|[l a] hs IH]; intros n out pats y W S L.
  - inversion S; subst. auto.
  - destruct W as [W1 W2]. inversion S as [|? pat ? pats' Sp S']; subst. cbn [fst] in Sp.
    rewrite tangents_cons, last_cons. cbn [concat num_units]. rewrite app_length.
    assert (Lt : length (scale_by (slope_of a) pat (mv (weight l) y)) = out_features l).
    { rewrite scale_length; rewrite mv_length; auto. }
    destruct (IH _ _ _ _ W2 S' Lt) as [I1 I2]. split; [lia|auto].
Qed.
Lemma tangents_app : forall h1 h2 p1 p2 y, length p1 = length h1 ->
  tangents (h1 ++ h2) (p1 ++ p2) y = tangents h1 p1 y ++ tangents h2 p2 (last_tangent h1 p1 y).
Proof.
  unfold last_tangent.
  induction h1 as [|[l a] h1 IH]; intros h2 p1 p2 y L; destruct p1; try discriminate; auto.
  cbn [app]. rewrite !tangents_cons, last_cons. cbn [app]. rewrite IH by (simpl in L; lia). auto.
Qed.
Lemma last_tangent_slice : forall hs n out l a t pats y, hidden_wf n hs out ->
  pattern_shape hs pats -> length y = n -> rev hs = (l, a) :: t ->
  slice (num_units hs - out_features l) (out_features l) (concat (tangents hs pats y))
  = last_tangent hs pats y.
Proof.
  intros hs n out l a t pats y W S L H. apply rev_last in H. subst hs.
  apply Forall2_app_inv_l in S. destruct S as [p1 [p2 [S1 [S2 ->]]]].
  assert (L1 := Forall2_len _ _ _ S1).
  inversion S2 as [|? pat ? pp Sp S3]; subst. inversion S3; subst. cbn [fst] in Sp.
  apply hidden_wf_app in W. destruct W as [k [W1 W2]].
  destruct (tangents_shape _ _ _ _ _ W1 S1 eq_refl) as [T1 T2].
  unfold last_tangent at 1. rewrite tangents_app by auto.
  rewrite num_units_app, concat_app. cbn [num_units].
  rewrite tangents_cons. cbn [tangents concat]. rewrite app_nil_r.
  set (v := scale_by (slope_of a) pat (mv (weight l) (last_tangent (rev t) p1 y))).
  rewrite last_last.
  unfold slice. rewrite skipn_all' by lia. apply firstn_all2. unfold v.
  rewrite scale_length; rewrite mv_length; [unfold out_features; auto|exact Sp].
Qed.

Lemma grad_vec_prop : forall n N lo up, net_wf n N -> slopes_nonneg (hidden N) ->
  length lo = n -> vle lo up ->
  exists c B, output_gradient_times_vector N lo up = Some (c, B) /\
    nin c = n /\ nsl c = num_units (hidden N) /\ nbin c = num_units (hidden N) /\
    forall y pats, in_box lo up y -> pattern_shape (hidden N) pats ->
      (forall s, mic_sat c y s (flat pats) <-> s = concat (tangents (hidden N) pats y)) /\
      output c y (concat (tangents (hidden N) pats y)) (flat pats) = jvp N pats y /\
      boxes (w_zlo B) (w_zup B) (y :: tangents (hidden N) pats y) /\
      boxes (w_lo B) (w_up B) (pre_tangents (hidden N) pats y ++ [jvp N pats y]).
Proof.
  intros n N lo up [Hne [W Wl]] Hs L V.
  assert (Hx : x_size N = n).
  { unfold x_size. destruct (hidden N) as [|[l a] hs]; [congruence|]. apply W. }
  unfold output_gradient_times_vector, output_gradient_times_vector_w_bounds,
    compute_Wz_bounds_IA.
  rewrite Hx. rewrite L, <- (vle_length _ _ V), L, Nat.eqb_refl. cbn [andb].
  destruct (wz_loop_spec (hidden N) n _ (last_layer N) lo up W Wl Hs V L)
    as (B & EB & B1 & B2 & B3 & B4 & B5). rewrite EB.
  set (M := num_units (hidden N)) in *.
  destruct (grad_layers_spec n M (hidden N) _ None 0 n (w_lo B) (w_up B) W)
    as (k & Ek & Wk & Sk); auto; try lia.
  rewrite Ek. destruct (rev (hidden N)) as [|[l a] t] eqn:ER.
  { exfalso. apply Hne. rewrite <- (rev_involutive (hidden N)), ER. auto. }
  do 2 eexists. split; [reflexivity|]. split; [reflexivity|]. split; [reflexivity|].
  split; [reflexivity|]. intros y pats By S.
  assert (Ly : length y = n) by (destruct By as [By _]; apply vle_length in By; congruence).
  assert (Lf := flat_length _ _ S). fold M in Lf.
  destruct (tangents_shape _ _ _ _ _ W S Ly) as [T1 T2]. fold M in T1.
  destruct (B5 y pats By S) as [X1 X2]. split; [|split; [|split]]; auto.
  - intros s. unfold mic_sat, rows_sat, sat_in, sat_eq, bounds_ok, lo_ok, up_ok.
    cbn [nin nsl nbin rhs_in rhs_eq Ain_input Ain_slack Ain_binary Aeq_input Aeq_slack Aeq_binary
         input_lo input_up slack_lo slack_up binary_lo binary_up].
    assert (Ei : lhs (length (k_rhs k)) (Some (k_x k)) (Some (k_s k)) (Some (k_b k)) y s (flat pats)
              = klhs k y s (flat pats)) by reflexivity.
    rewrite Ei.
    assert (Hb : forall i, (i < length (hidden N))%nat ->
       in_box (nth i (w_lo B) []) (nth i (w_up B) []) (nth i (pre_tangents (hidden N) pats y) [])).
    { intros i Hi. destruct X2 as [_ [_ X2]]. rewrite app_length, pre_tangents_length in X2 by auto.
      specialize (X2 i ltac:(simpl; lia)). rewrite app_nth1 in X2; auto.
      rewrite pre_tangents_length; auto. }
    assert (K : length s = M ->
       (vle (klhs k y s (flat pats)) (k_rhs k) <-> s = concat (tangents (hidden N) pats y))).
    { intros Ls. rewrite (Sk y s (flat pats) pats); auto.
      - cbn [skipn]. fold M. rewrite firstn_all2 by lia. tauto.
      - cbn [skipn]. rewrite skipn_all2 by (fold M; lia). rewrite app_nil_r. auto. }
    split.
    + intros [[_ [Ls [_ [Hi _]]]] _]. apply K; auto.
    + intros ->. split; [|tauto]. split; auto. split; auto. split; auto. split; [|auto].
      apply K; auto.
  - unfold output, num_out. cbn [olen Aout_input Aout_slack Aout_binary Cout].
    rewrite map_length. fold (out_features (last_layer N)). unfold lhs, term.
    assert (Es := last_tangent_slice _ _ _ _ _ _ _ _ W S Ly ER). fold M in Es.
    destruct (last_slice _ _ _ _ _ _ y W Ly ER) as [_ [Eo Le]]. fold M in Le.
    rewrite (mv_splices _ (out_features l)); auto; try lia.
    2:{ destruct Wl as [_ [[_ F] _]]. rewrite Eo. auto. }
    rewrite Es. unfold jvp. fold (last_tangent (hidden N) pats y).
    assert (Lm : length (mv (weight (last_layer N)) (last_tangent (hidden N) pats y))
                 = length (weight (last_layer N))) by apply mv_length.
    rewrite vadd_zeros_l by exact Lm. rewrite (vadd_zeros_r _ (mv _ _)) by exact Lm.
    rewrite (vadd_zeros_r _ (mv _ _)) by exact Lm. auto.
Qed.

Lemma grad_vec_rejects : forall N lo up, ~ slopes_nonneg (hidden N) ->
  output_gradient_times_vector N lo up = None.
Proof.
  intros N lo up H. unfold output_gradient_times_vector.
  destruct (_ && _)%bool; auto. unfold compute_Wz_bounds_IA.
  assert (K : forall hs lo up, ~ slopes_nonneg hs -> wz_loop hs (last_layer N) lo up = None).
  { induction hs as [|[l a] hs IH]; intros lo' up' Hn.
    - exfalso. apply Hn. constructor.
    - cbn [wz_loop]. destruct (wz_bounds l lo' up') as [p q].
      destruct (Rle_dec 0 (slope_of a)) as [Ha|Ha].
      + destruct (z_bounds a p q) as [[? ?]|]; auto. rewrite IH; auto.
        intros F. apply Hn. constructor; auto.
      + destruct a as [|c]; simpl in Ha; [lra|]. simpl.
        destruct (Rleb 0 c) eqn:E; auto. apply Rleb_true in E. lra. }
  rewrite K; auto.
Qed.
