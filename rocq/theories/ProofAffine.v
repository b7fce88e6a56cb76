Require Import Reals List Bool Arith Lra Lia.
Require Import Verif.Vec Verif.VecFacts Verif.ModelMip Verif.SpecMip Verif.SpecCore Verif.ModelNet Verif.SpecNet
  Verif.ModelUtils Verif.SpecUtils Verif.ModelLyapunov Verif.ModelROptions Verif.ModelAffine Verif.SpecAffine
  Verif.ProofUtils Verif.ProofMip Verif.ProofBounds Verif.ProofNet Verif.ProofNetBounds Verif.ProofNetStep Verif.ProofNetTotal
  Verif.ProofLyapunov Verif.ProofParams Verif.ProofMaxBox Verif.ProofROptions.
Import ListNotations.
Open Scope R_scope.

Lemma vz_l : forall n x, length x = n -> vadd (zeros n) x = x.
Proof. induction n; destruct x; cbn; intros; try discriminate; auto. unfold vadd in *. cbn. f_equal; [ring|]. apply IHn. lia. Qed.
(** ** Clamping *)
Lemma clamped_nth : forall X u i, length (cu_up X) = length (cu_lo X) -> length u = u_dim X -> (i < u_dim X)%nat ->
  nth i (u_clamped X u) 0 = Rmax (Rmin (nth i u 0) (nth i (cu_up X) 0)) (nth i (cu_lo X) 0).
Proof.
  intros [xl xu ul uu] u i L1 L2 Hi. unfold u_clamped, u_dim in *. cbn in *.
  revert uu u i L1 L2 Hi. induction ul as [|a ul IH]; intros [|b uu] [|c u] i L1 L2 Hi; cbn in *; try lia.
  destruct i; [reflexivity|]. apply IH; lia.
Qed.
Lemma clamped_box : forall X u, vle (cu_lo X) (cu_up X) -> length u = u_dim X ->
  in_box (cu_lo X) (cu_up X) (u_clamped X u).
Proof.
  intros [xl xu ul uu] u. unfold u_clamped, u_dim. cbn. intros V. revert u. induction V as [|a b ul uu H V IH]; intros [|c u] L; try discriminate.
  - split; constructor.
  - cbn in L. assert (L' : length u = length ul) by lia. destruct (IH u L') as [A B]. cbn.
    split; constructor; auto.
    + apply Rmax_r.
    + apply Rmax_lub; [apply Rmin_r|auto].
Qed.
Lemma clamped_id : forall X u, in_box (cu_lo X) (cu_up X) u -> u_clamped X u = u.
Proof.
  intros [xl xu ul uu] u. unfold u_clamped. cbn. intros [A B]. revert uu B. induction A as [|a c ul u H A IH]; intros uu B.
  - inversion B. reflexivity.
  - inversion B as [|? b ? uu' H' B' E1 E2]; subst. cbn. rewrite Rmin_left by lra. rewrite Rmax_left by lra. f_equal. apply IH. exact B'.
Qed.
Lemma box_of : forall xl xu ul uu X, new_box xl xu ul uu = Some X ->
  X = mkBox xl xu ul uu /\ length (cx_up X) = x_dim X /\ vle (cx_lo X) (cx_up X) /\
  length (cu_up X) = u_dim X /\ vle (cu_lo X) (cu_up X).
Proof.
  intros xl xu ul uu X H. unfold new_box in H.
  destruct (Nat.eqb (length xl) (length xu) && vleb xl xu && Nat.eqb (length ul) (length uu) && vleb ul uu)%bool eqn:E; [|discriminate].
  injection H as <-. rewrite !andb_true_iff in E. destruct E as [[[E1 E2] E3] E4].
  apply Nat.eqb_eq in E1, E3. apply vleb_spec in E2, E4. unfold x_dim, u_dim. cbn. auto.
Qed.
Lemma dynamics_prop : forall xl xu ul uu X f G x u, new_box xl xu ul uu = Some X -> length u = u_dim X ->
  exists w, in_box ul uu w /\
    (forall i, (i < length ul)%nat -> nth i w 0 = clamp (nth i ul 0) (nth i uu 0) (nth i u 0)) /\
    (in_box ul uu u -> w = u) /\
    ca_dynamics X f G x u = vadd (f x) (mv (G x) w).
Proof.
  intros xl xu ul uu X f G x u H L. destruct (box_of _ _ _ _ _ H) as [E [L1 [V1 [L2 V2]]]]. subst X. cbn in *. unfold u_dim in *. cbn in *.
  exists (u_clamped (mkBox xl xu ul uu) u). split; [|split; [|split]].
  - apply (clamped_box (mkBox xl xu ul uu)); auto.
  - intros i Hi. rewrite clamped_nth by (unfold u_dim; cbn; auto). cbn.
    assert (W : nth i ul 0 <= nth i uu 0).
    { clear - V2 Hi. revert i Hi. induction V2; intros i Hi; cbn in *; [lia|]. destruct i; auto. apply IHV2. lia. }
    unfold clamp. unfold Rmax, Rmin. repeat destruct Rle_dec; lra.
  - apply (clamped_id (mkBox xl xu ul uu)).
  - reflexivity.
Qed.

(** ** The linear system *)
Lemma has_shape_wfm : forall m n A, has_shape m n A = true -> wfm m n A.
Proof.
  intros m n A H. unfold has_shape in H. apply andb_true_iff in H. destruct H as [H1 H2]. apply Nat.eqb_eq in H1.
  split; [exact H1|]. rewrite forallb_forall in H2. apply Forall_forall. intros r Hr. apply Nat.eqb_eq. auto.
Qed.
Lemma concat_len : forall m n A, wfm m n A -> length (concat A) = (m * n)%nat.
Proof.
  intros m n A [<- H]. induction H as [|r A Hr H IH]; [reflexivity|]. cbn [concat length]. rewrite app_length, IH, Hr. cbn. lia.
Qed.
Lemma in_box_refl : forall v, in_box v v v.
Proof. intros. split; induction v; constructor; auto; lra. Qed.
Lemma sat_output_only : forall n Ai C x s b, mic_sat (output_only n Ai C) x s b <-> length x = n /\ s = [] /\ b = [].
Proof.
  intros. unfold mic_sat, rows_sat, sat_in, sat_eq, bounds_ok, lo_ok, up_ok, output_only. cbn.
  split.
  - intros [[A [B [D _]]] _]. destruct s; [|discriminate]. destruct b; [|discriminate]. auto.
  - intros [A [-> ->]]. cbn. tauto.
Qed.
Lemma linear_system_prop : forall xl xu ul uu X A B, new_box xl xu ul uu = Some X -> new_linear X A B = true ->
  exists r, lin_constraints X A B = Some r /\
    describes r (fun x => length x = x_dim X) (in_box xl xu) (lin_f A) (lin_G B) /\
    (forall i, (i < x_dim X)%nat ->
       (exists x, in_box xl xu x /\ nth i (lin_f A x) 0 = nth i (ca_f_lo r) 0) /\
       (exists x, in_box xl xu x /\ nth i (lin_f A x) 0 = nth i (ca_f_up r) 0)).
Proof.
  intros xl xu ul uu X A B H Sh. destruct (box_of _ _ _ _ _ H) as [E [L1 [V1 [L2 V2]]]].
  unfold new_linear in Sh. apply andb_true_iff in Sh. destruct Sh as [SA SB]. apply has_shape_wfm in SA, SB.
  assert (Wb : wfm (length (zeros (x_dim X))) (x_dim X) A) by (rewrite zeros_length; exact SA).
  destruct (range_prop (x_dim X) A (zeros (x_dim X)) (cx_lo X) (cx_up X) Wb eq_refl V1) as [lo [up [Er [In At]]]].
  assert (Z : forall x, vadd (mv A x) (zeros (x_dim X)) = mv A x).
  { intros x. apply vadd_zeros_r. unfold mv. rewrite map_length. apply SA. }
  unfold lin_constraints. rewrite Er. eexists. split; [reflexivity|]. subst X. cbn [cx_lo cx_up] in *. split; [split; [|split]|].
  - split.
    + intros x Hx. exists [], []. split; [constructor|]. apply sat_output_only. auto.
    + intros x s b _ Hs. apply sat_output_only in Hs. destruct Hs as [Lx [-> ->]]. split; [exact Lx|].
      unfold output, output_only, num_out, lhs, term, lin_f. cbn [Aout_input Aout_slack Aout_binary Cout olen ca_f].
      assert (Lm : length (mv A x) = length A) by (unfold mv; apply map_length).
      rewrite !(vadd_zeros_r (length A) (mv A x) Lm). reflexivity.
  - split.
    + intros x Hx. exists [], []. split; [constructor|]. apply sat_output_only. auto.
    + intros x s b _ Hs. apply sat_output_only in Hs. destruct Hs as [Lx [-> ->]]. split; [exact Lx|].
      unfold output, output_only, num_out, lhs, term, lin_G. cbn [Aout_input Aout_slack Aout_binary Cout olen ca_G].
      rewrite !(vz_l (length (concat B))); [reflexivity|reflexivity|apply zeros_length|apply zeros_length].
  - intros x Hx. split; [|apply in_box_refl]. change (in_box lo up (mv A x)). rewrite <- (Z x). apply In. exact Hx.
  - intros i Hi. cbn [ca_f_lo ca_f_up]. unfold lin_f. assert (Hi' : (i < length A)%nat) by (destruct SA as [-> _]; exact Hi).
    destruct (At i Hi') as [[x1 [B1 E1]] [x2 [B2 E2]]]. rewrite Z in E1, E2. split; [exists x1|exists x2]; auto.
Qed.

(** ** The second order construction *)
Section Second.
Variable X : ca_box.
Hypothesis Hev : even_dim X = true.
Lemma two_nq : x_dim X = (nq X + nq X)%nat.
Proof.
  unfold even_dim in Hev. apply Nat.eqb_eq in Hev. unfold nq. pose proof (Nat.div_mod (x_dim X) 2 ltac:(lia)). lia.
Qed.
Lemma top_rows : forall x, length x = x_dim X -> mv (hcat (zerom (nq X) (nq X)) (eye (nq X))) x = skipn (nq X) x.
Proof.
  intros x L. rewrite <- (firstn_skipn (nq X) x) at 1. pose proof two_nq as T.
  assert (L1 : length (firstn (nq X) x) = nq X) by (rewrite firstn_length; lia).
  assert (L2 : length (skipn (nq X) x) = nq X) by (rewrite skipn_length; lia).
  rewrite (mv_hcat _ _ _ _ (nq X)).
  - rewrite mv_zerom, mv_eye by exact L2. apply vz_l. exact L2.
  - unfold zerom, eye, eyek. rewrite repeat_length, map_length, seq_length. reflexivity.
  - destruct (wfm_zerom (nq X) (nq X)) as [_ F]. exact F.
  - exact L1.
Qed.
Lemma term_under : forall k m n A x, term (k + m) (under_zeros k n A) x = zeros k ++ term m A x.
Proof.
  intros k m n [A|] x; cbn [under_zeros term].
  - transitivity (mv (zerom k n) x ++ mv A x); [apply map_app|]. rewrite mv_zerom. reflexivity.
  - unfold zeros. apply repeat_app.
Qed.
Lemma rows_same : forall c Ai As Ab C x s b, mic_sat (with_out c Ai As Ab C) x s b <-> mic_sat c x s b.
Proof. intros. unfold mic_sat, rows_sat, sat_in, sat_eq, bounds_ok, with_out. cbn. tauto. Qed.
Lemma term_length : forall m n A x, owf m n A -> length (term m A x) = m.
Proof. intros m n [A|] x H; cbn [term]; [|apply zeros_length]. unfold mv. rewrite map_length. apply H. Qed.

Lemma with_zeros_output : forall c k Ai x s b t, length t = k ->
  num_out (with_out c Ai (under_zeros k (nsl c) (Aout_slack c)) (under_zeros k (nbin c) (Aout_binary c)) (under_zeros_vec k (Cout c)))
    = (k + num_out c)%nat ->
  term (k + num_out c) Ai x = t ++ term (num_out c) (Aout_input c) x ->
  output (with_out c Ai (under_zeros k (nsl c) (Aout_slack c)) (under_zeros k (nbin c) (Aout_binary c)) (under_zeros_vec k (Cout c))) x s b
    = t ++ output c x s b.
Proof.
  intros c k Ai x s b t Lt No Ht.
  unfold output, lhs. cbv zeta. rewrite No. cbn [with_out Aout_input Aout_slack Aout_binary Cout].
  rewrite Ht, !term_under.
  assert (Z : forall a : vec, length a = k -> vadd a (zeros k) = a) by (intros; apply vadd_zeros_r; auto).
  rewrite (vadd_app t) by (rewrite zeros_length; exact Lt). rewrite (Z t Lt).
  rewrite (vadd_app t) by (rewrite zeros_length; exact Lt). rewrite (Z t Lt).
  destruct (Cout c) as [C|]; cbn [under_zeros_vec].
  - rewrite (vadd_app t) by (rewrite zeros_length; exact Lt). rewrite (Z t Lt). reflexivity.
  - replace (zeros (k + num_out c)) with (zeros k ++ zeros (num_out c)) by (unfold zeros; symmetry; apply repeat_app).
    rewrite (vadd_app t) by (rewrite zeros_length; exact Lt). rewrite (Z t Lt). reflexivity.
Qed.

Lemma olen_none : forall {A} (l : option (list A)), olen l = match l with None => None | Some v => Some (length v) end.
Proof. intros A [l|]; reflexivity. Qed.
Lemma so_f_spec : forall ca D a, mic_wf ca -> nin ca = x_dim X -> num_out ca = nq X -> encodes ca D a ->
  exists cf, so_mic_f X ca = Some cf /\ encodes cf D (so_f X a).
Proof.
  intros ca D a W Ni No [En1 En2]. pose proof two_nq as T.
  set (top := hcat (zerom (nq X) (nq X)) (eye (nq X))).
  assert (Lt : length top = nq X).
  { unfold top, hcat, zerom, eye, eyek. rewrite map2_length, repeat_length, map_length, seq_length. apply Nat.min_id. }
  assert (E : exists Ai, so_mic_f X ca = Some (with_out ca (Some (top ++ Ai)) (under_zeros (nq X) (nsl ca) (Aout_slack ca))
                       (under_zeros (nq X) (nbin ca) (Aout_binary ca)) (under_zeros_vec (nq X) (Cout ca))) /\
              length Ai = nq X /\ forall x, mv Ai x = term (num_out ca) (Aout_input ca) x).
  { unfold so_mic_f, vstack. cbv zeta. fold top. destruct W as (W1 & _). destruct (Aout_input ca) as [A|].
    - rewrite Ni, T, Nat.eqb_refl. exists A. split; [reflexivity|]. cbn in W1. destruct W1 as [W1 _]. split; [congruence|reflexivity].
    - rewrite T, Nat.eqb_refl. exists (zerom (nq X) (nq X + nq X)). split; [reflexivity|]. split; [apply repeat_length|].
      intros x. rewrite mv_zerom, No. reflexivity. }
  destruct E as [Ai [-> [La Ha]]]. eexists. split; [reflexivity|]. split.
  - intros x Hx. destruct (En1 x Hx) as [s [b [Hb Hs]]]. exists s, b. split; [exact Hb|]. apply rows_same. exact Hs.
  - intros x s b Hb Hs. apply rows_same in Hs. destruct (En2 x s b Hb Hs) as [Dx Ex]. split; [exact Dx|].
    assert (Lx : length x = x_dim X) by (destruct Hs as [[Lx _] _]; congruence).
    rewrite (with_zeros_output ca (nq X) _ x s b (skipn (nq X) x)).
    + unfold so_f. rewrite Ex. reflexivity.
    + rewrite skipn_length, Lx, T. lia.
    + unfold num_out at 1. cbn [with_out Aout_input olen]. rewrite app_length, Lt, La, No. reflexivity.
    + cbn [term]. rewrite <- Ha. rewrite <- (top_rows x Lx). apply map_app.
Qed.
Lemma so_G_spec : forall cb D b, Aout_input cb = None -> num_out cb = (nq X * u_dim X)%nat ->
  encodes cb D (fun x => concat (b x)) ->
  exists cG, so_mic_G X cb = Some cG /\ encodes cG D (fun x => concat (so_G X b x)).
Proof.
  intros cb D b Na No [En1 En2]. unfold so_mic_G. cbv zeta. rewrite Na. eexists. split; [reflexivity|]. split.
  - intros x Hx. destruct (En1 x Hx) as [s [be [Hb Hs]]]. exists s, be. split; [exact Hb|]. apply rows_same. exact Hs.
  - intros x s be Hb Hs. apply rows_same in Hs. destruct (En2 x s be Hb Hs) as [Dx Ex]. split; [exact Dx|].
    rewrite (with_zeros_output cb (nq X * u_dim X) _ x s be (zeros (nq X * u_dim X))).
    + rewrite Ex. unfold so_G. rewrite concat_app. f_equal. unfold zerom. clear. induction (nq X) as [|k IH]; [reflexivity|].
      cbn [repeat concat Nat.mul]. rewrite <- IH. unfold zeros. apply repeat_app.
    + apply zeros_length.
    + unfold num_out in *. cbn [with_out Aout_input Aout_slack Aout_binary Cout olen] in *. rewrite Na in *. cbn [olen] in *.
      destruct (Aout_slack cb) as [M|]; cbn [under_zeros olen] in *; [unfold zerom; rewrite app_length, repeat_length; lia|].
      destruct (Aout_binary cb) as [M|]; cbn [under_zeros olen] in *; [unfold zerom; rewrite app_length, repeat_length; lia|].
      destruct (Cout cb) as [M|]; cbn [under_zeros_vec olen] in *; [rewrite app_length, zeros_length; lia|]. lia.
    + rewrite Na. cbn [term]. unfold zeros. apply repeat_app.
Qed.
Lemma so_G_raises : forall cb A, Aout_input cb = Some A -> nin cb = x_dim X -> (0 < nq X)%nat -> so_mic_G X cb = None.
Proof.
  intros cb A Ha Ni Hq. unfold so_mic_G, vstack. cbv zeta. rewrite Ha, Ni. pose proof two_nq.
  destruct (Nat.eqb_spec (nq X) (x_dim X)); [lia|reflexivity].
Qed.
Lemma second_prop : forall ca cb a_lo a_up b_lo b_up D a b, mic_wf ca -> nin ca = x_dim X -> num_out ca = nq X ->
  length (cx_up X) = x_dim X ->
  Aout_input cb = None -> num_out cb = (nq X * u_dim X)%nat ->
  encodes ca D a -> encodes cb D (fun x => concat (b x)) ->
  (forall x, in_box (cx_lo X) (cx_up X) x -> in_box a_lo a_up (a x) /\ in_box b_lo b_up (concat (b x))) ->
  exists r, so_constraints X ca cb a_lo a_up b_lo b_up = Some r /\
    describes r D (in_box (cx_lo X) (cx_up X)) (so_f X a) (so_G X b).
Proof.
  intros ca cb a_lo a_up b_lo b_up D a b Wa Ni No Lu Na Nb Ea Eb Bd.
  destruct (so_f_spec ca D a Wa Ni No Ea) as [cf [E1 E2]]. destruct (so_G_spec cb D b Na Nb Eb) as [cG [E3 E4]].
  unfold so_constraints. rewrite E1, E3. eexists. split; [reflexivity|]. split; [exact E2|]. split; [exact E4|].
  intros x Hx. destruct (Bd x Hx) as [B1 B2]. cbn [ca_f_lo ca_f_up ca_G_lo ca_G_up]. split.
  - unfold so_f. apply in_box_app; [|exact B1]. apply in_box_split. exact Hx.
  - unfold so_G. rewrite concat_app. apply in_box_app; [|exact B2].
    replace (concat (zerom (nq X) (u_dim X))) with (zeros (nq X * u_dim X)); [apply in_box_refl|].
    unfold zerom. clear. induction (nq X) as [|k IH]; [reflexivity|]. cbn [repeat concat Nat.mul]. rewrite <- IH. unfold zeros. apply repeat_app.
Qed.
(** The acceleration is a(x) + b(x) u, the velocity is the second half of the state. *)
Lemma second_dynamics : forall a b x u, length (a x) = nq X -> length (b x) = nq X -> length x = x_dim X ->
  ca_dynamics X (so_f X a) (so_G X b) x u = skipn (nq X) x ++ vadd (a x) (mv (b x) (u_clamped X u)).
Proof.
  intros a b x u La Lb Lx. unfold ca_dynamics, so_f, so_G. pose proof two_nq as T.
  set (w := u_clamped X u).
  assert (E : mv (zerom (nq X) (u_dim X) ++ b x) w = zeros (nq X) ++ mv (b x) w).
  { transitivity (mv (zerom (nq X) (u_dim X)) w ++ mv (b x) w); [apply map_app|]. rewrite mv_zerom. reflexivity. }
  rewrite E. assert (Ls : length (skipn (nq X) x) = nq X) by (rewrite skipn_length; lia).
  rewrite vadd_app by (rewrite zeros_length; exact Ls). f_equal. apply vadd_zeros_r. exact Ls.
Qed.
End Second.

(** ** Networks *)
Lemma relu_box : forall Y, relu_so_built Y ->
  even_dim (rs_box Y) = true /\ length (cx_up (rs_box Y)) = x_dim (rs_box Y) /\ vle (cx_lo (rs_box Y)) (cx_up (rs_box Y)) /\
  length (cu_up (rs_box Y)) = u_dim (rs_box Y) /\ vle (cu_lo (rs_box Y)) (cu_up (rs_box Y)) /\
  out_features (last_layer (rs_a Y)) = nq (rs_box Y) /\
  out_features (last_layer (rs_b Y)) = (nq (rs_box Y) * u_dim (rs_box Y))%nat.
Proof.
  intros Y (_ & _ & xl & xu & ul & uu & Na & Nb & meth & E). unfold new_relu_so in E.
  destruct (new_box xl xu ul uu) as [X|] eqn:EX; [|discriminate]. destruct (box_of _ _ _ _ _ EX) as [_ [L1 [V1 [L2 V2]]]].
  match type of E with (if ?t then _ else _) = _ => destruct t eqn:Et; [|discriminate] end.
  injection E as <-. cbn [rs_box rs_a rs_b]. rewrite !andb_true_iff in Et. destruct Et as [[[[E1 E2] E3] E4] E5].
  apply Nat.eqb_eq in E3, E5. rewrite Nat.mul_comm in E5. repeat split; auto.
Qed.
Lemma net_out_length : forall n N x, net_wf n N -> length x = n -> length (net_eval N x) = out_features (last_layer N).
Proof.
  intros n N x (_ & Wh & Wl) Lx. unfold net_eval. apply (lin_eval_length _ _ _ Wl).
  apply (hidden_eval_length _ _ _ _ Wh Lx).
Qed.
Lemma relu_prop : forall solve Y, solver_ok solve -> relu_so_built Y ->
  (solver_total solve -> rs_constraints solve Y <> None) /\
  forall r, rs_constraints solve Y = Some r ->
    describes r (in_box (cx_lo (rs_box Y)) (cx_up (rs_box Y))) (in_box (cx_lo (rs_box Y)) (cx_up (rs_box Y))) (rs_f Y) (rs_G Y).
Proof.
  intros solve Y Hs B. destruct (relu_box Y B) as [Ev [Lu [Vx [_ [_ [Oa Ob]]]]]]. destruct B as (Wa & Wb & _).
  set (X := rs_box Y) in *.
  assert (Go : forall ca Ba alo aup cb Bb blo bup, output_constraint solve (rs_meth Y) (rs_a Y) (cx_lo X) (cx_up X) = Some (ca, Ba, (alo, aup)) ->
     output_constraint solve (rs_meth Y) (rs_b Y) (cx_lo X) (cx_up X) = Some (cb, Bb, (blo, bup)) ->
     exists r, so_constraints X ca cb alo aup blo bup = Some r /\
       describes r (in_box (cx_lo X) (cx_up X)) (in_box (cx_lo X) (cx_up X)) (rs_f Y) (rs_G Y)).
  { intros ca Ba alo aup cb Bb blo bup Ea Eb.
    pose proof (output_constraint_mic solve Hs _ _ _ _ _ _ _ _ Wa eq_refl Lu Ea) as Ma.
    pose proof (output_constraint_mic solve Hs _ _ _ _ _ _ _ _ Wb eq_refl Lu Eb) as Mb.
    pose proof (network_encodes solve Hs _ _ _ _ _ _ _ _ Wa eq_refl Lu Ea) as Na.
    pose proof (network_encodes solve Hs _ _ _ _ _ _ _ _ Wb eq_refl Lu Eb) as Nb.
    destruct (network_bounds solve Hs _ _ _ _ _ _ _ _ _ Wa eq_refl Lu Ea) as [Ba' _].
    destruct (network_bounds solve Hs _ _ _ _ _ _ _ _ _ Wb eq_refl Lu Eb) as [Bb' _].
    assert (Lx : forall x, in_box (cx_lo X) (cx_up X) x -> length x = x_dim X).
    { intros x [H _]. symmetry. apply (Forall2_len _ _ _ H). }
    assert (Fa : forall x, in_box (cx_lo X) (cx_up X) x -> rs_fa Y x = net_eval (rs_a Y) x).
    { intros x Hx. apply (forward_eval _ _ _ Wa (Lx x Hx)). }
    assert (Fb : forall x, in_box (cx_lo X) (cx_up X) x -> concat (rs_fb Y x) = net_eval (rs_b Y) x).
    { intros x Hx. unfold rs_fb. fold X. rewrite (forward_eval _ _ _ Wb (Lx x Hx)). apply concat_chunks.
      rewrite (net_out_length _ _ _ Wb (Lx x Hx)). exact Ob. }
    apply (second_prop X Ev ca cb alo aup blo bup (in_box (cx_lo X) (cx_up X)) (rs_fa Y) (rs_fb Y)).
    - apply (nm_ok _ _ _ _ _ Ma).
    - apply (nm_nin _ _ _ _ _ Ma).
    - rewrite (nm_out _ _ _ _ _ Ma). exact Oa.
    - exact Lu.
    - apply (nm_aout _ _ _ _ _ Mb).
    - rewrite (nm_out _ _ _ _ _ Mb). exact Ob.
    - destruct Na as [N1 N2]. split; [exact N1|]. intros x s b Hb Hm. destruct (N2 x s b Hb Hm) as [Dx Ex]. split; [exact Dx|].
      rewrite Ex. symmetry. auto.
    - destruct Nb as [N1 N2]. split; [exact N1|]. intros x s b Hb Hm. destruct (N2 x s b Hb Hm) as [Dx Ex]. split; [exact Dx|].
      rewrite Ex. symmetry. auto.
    - intros x Hx. rewrite (Fa x Hx), (Fb x Hx). split; [apply (Ba' x Hx)|apply (Bb' x Hx)]. }
  unfold rs_constraints. fold X. cbv zeta. split.
  - intros Ht.
    destruct (output_constraint solve (rs_meth Y) (rs_a Y) (cx_lo X) (cx_up X)) as [[[ca Ba] [alo aup]]|] eqn:Ea.
    2: { exfalso. apply (proj1 (output_constraint_total solve Hs Ht _ _ _ _ _ Wa eq_refl Lu) Ea). exact Vx. }
    destruct (output_constraint solve (rs_meth Y) (rs_b Y) (cx_lo X) (cx_up X)) as [[[cb Bb] [blo bup]]|] eqn:Eb.
    2: { exfalso. apply (proj1 (output_constraint_total solve Hs Ht _ _ _ _ _ Wb eq_refl Lu) Eb). exact Vx. }
    destruct (Go _ _ _ _ _ _ _ _ eq_refl eq_refl) as [r [-> _]]. discriminate.
  - intros r E.
    destruct (output_constraint solve (rs_meth Y) (rs_a Y) (cx_lo X) (cx_up X)) as [[[ca Ba] [alo aup]]|] eqn:Ea; [|discriminate].
    destruct (output_constraint solve (rs_meth Y) (rs_b Y) (cx_lo X) (cx_up X)) as [[[cb Bb] [blo bup]]|] eqn:Eb; [|discriminate].
    destruct (Go _ _ _ _ _ _ _ _ eq_refl eq_refl) as [r' [E' D']]. rewrite E' in E. injection E as <-. exact D'.
Qed.
(** The solutions of the constraints give the dynamics. *)
Lemma describes_dynamics : forall X r D bx f G, describes r D bx f G ->
  (forall x, D x -> wfm (x_dim X) (u_dim X) (G x)) ->
  forall x u, D x ->
  (exists s b s' b', bins b /\ mic_sat (ca_f r) x s b /\ bins b' /\ mic_sat (ca_G r) x s' b') /\
  forall s b s' b', bins b -> mic_sat (ca_f r) x s b -> bins b' -> mic_sat (ca_G r) x s' b' ->
    ca_dynamics X f G x u = vadd (output (ca_f r) x s b) (mv (chunks (x_dim X) (u_dim X) (output (ca_G r) x s' b')) (u_clamped X u)).
Proof.
  intros X r D bx f G [[F1 F2] [[G1 G2] _]] W x u Dx. split.
  - destruct (F1 x Dx) as [s [b [H1 H2]]]. destruct (G1 x Dx) as [s' [b' [H3 H4]]]. exists s, b, s', b'. auto.
  - intros s b s' b' H1 H2 H3 H4. destruct (F2 x s b H1 H2) as [_ ->]. destruct (G2 x s' b' H3 H4) as [_ ->].
    unfold ca_dynamics. destruct (W x Dx) as [W1 W2]. rewrite <- W1. rewrite chunks_concat by exact W2. reflexivity.
Qed.
(** ** Training *)
Lemma x_dot_rows : forall nx nu fm gm xe ue batch i r, nth_error batch i = Some r ->
  nth_error (compute_x_dot nx nu fm gm xe ue batch) i =
  Some (vsub (vsub (vadd (fm (firstn nx r)) (mv (chunks nx nu (gm (firstn nx r))) (skipn nx r))) (fm xe)) (mv (chunks nx nu (gm xe)) ue)).
Proof. intros. unfold compute_x_dot. rewrite nth_error_map, H. reflexivity. Qed.
Lemma x_dot_equilibrium : forall nx nu fm gm xe ue, length xe = nx -> length (fm xe) = nx ->
  compute_x_dot nx nu fm gm xe ue [xe ++ ue] = [zeros nx].
Proof.
  intros nx nu fm gm xe ue Lx Lf. unfold compute_x_dot. cbn [map]. f_equal. rewrite firstn_all', skipn_all' by exact Lx.
  set (g := mv (chunks nx nu (gm xe)) ue). assert (Lg : length g = nx) by (unfold g, mv; rewrite map_length; apply chunks_length).
  clearbody g. revert Lf Lg. generalize (fm xe) as a. clear. intros a. revert g nx.
  induction a as [|p a IH]; intros [|q g] [|n] La Lg; try discriminate; [reflexivity|].
  cbn in La, Lg. specialize (IH g n ltac:(lia) ltac:(lia)). unfold vsub, vadd, zeros in *. cbn. f_equal; [ring|exact IH].
Qed.
Lemma vsub_vsub_vadd : forall a b c : vec, vsub (vsub a b) c = vsub a (vadd b c).
Proof.
  unfold vsub, vadd. induction a as [|x a IH]; intros [|y b] [|z c]; try reflexivity.
  cbn. f_equal; [ring|apply IH].
Qed.
Lemma x_dot_batch : forall nx nu fm gm xe ue (pairs : list (vec * vec)), Forall (fun p => length (fst p) = nx) pairs ->
  let rate x u := vadd (fm x) (mv (chunks nx nu (gm x)) u) in
  compute_x_dot nx nu fm gm xe ue (map (fun p => fst p ++ snd p) pairs) =
  map (fun p => vsub (rate (fst p) (snd p)) (rate xe ue)) pairs.
Proof.
  intros nx nu fm gm xe ue pairs H rate. unfold compute_x_dot. rewrite map_map. induction H as [|[x u] l Hx H IH]; [reflexivity|].
  cbn [map fst snd] in *. rewrite IH. f_equal. rewrite firstn_all', skipn_all' by exact Hx. apply vsub_vsub_vadd.
Qed.
Lemma relu_shapes : forall Y x, relu_so_built Y -> in_box (cx_lo (rs_box Y)) (cx_up (rs_box Y)) x ->
  length x = x_dim (rs_box Y) /\ length (rs_fa Y x) = nq (rs_box Y) /\ wfm (nq (rs_box Y)) (u_dim (rs_box Y)) (rs_fb Y x) /\
  wfm (x_dim (rs_box Y)) (u_dim (rs_box Y)) (rs_G Y x).
Proof.
  intros Y x B Hx. destruct (relu_box Y B) as [Ev [Lu [Vx [_ [_ [Oa Ob]]]]]]. destruct B as (Wa & Wb & _).
  assert (Lx : length x = x_dim (rs_box Y)) by (destruct Hx as [H _]; symmetry; apply (Forall2_len _ _ _ H)).
  assert (La : length (rs_fa Y x) = nq (rs_box Y)).
  { unfold rs_fa. rewrite (forward_eval _ _ _ Wa Lx), (net_out_length _ _ _ Wa Lx). exact Oa. }
  assert (Lb : wfm (nq (rs_box Y)) (u_dim (rs_box Y)) (rs_fb Y x)).
  { unfold rs_fb. apply chunks_wf. rewrite (forward_eval _ _ _ Wb Lx), (net_out_length _ _ _ Wb Lx). exact Ob. }
  split; [exact Lx|]. split; [exact La|]. split; [exact Lb|].
  rewrite (two_nq _ Ev). unfold rs_G, so_G. apply wfm_app; [apply wfm_zerom|exact Lb].
Qed.
Lemma relu_dynamics : forall solve Y r, solver_ok solve -> relu_so_built Y -> rs_constraints solve Y = Some r ->
  forall x u, in_box (cx_lo (rs_box Y)) (cx_up (rs_box Y)) x ->
  (exists s b s' b', bins b /\ mic_sat (ca_f r) x s b /\ bins b' /\ mic_sat (ca_G r) x s' b') /\
  forall s b s' b', bins b -> mic_sat (ca_f r) x s b -> bins b' -> mic_sat (ca_G r) x s' b' ->
    vadd (output (ca_f r) x s b)
         (mv (chunks (x_dim (rs_box Y)) (u_dim (rs_box Y)) (output (ca_G r) x s' b')) (u_clamped (rs_box Y) u))
    = ca_dynamics (rs_box Y) (rs_f Y) (rs_G Y) x u /\
    ca_dynamics (rs_box Y) (rs_f Y) (rs_G Y) x u =
      skipn (nq (rs_box Y)) x ++ vadd (rs_fa Y x) (mv (rs_fb Y x) (u_clamped (rs_box Y) u)).
Proof.
  intros solve Y r Hs B E x u Hx. destruct (relu_prop solve Y Hs B) as [_ D]. specialize (D r E).
  destruct (describes_dynamics (rs_box Y) r _ _ _ _ D (fun x H => proj2 (proj2 (proj2 (relu_shapes Y x B H)))) x u Hx) as [P Q].
  split; [exact P|]. intros s b s' b' H1 H2 H3 H4. rewrite <- (Q s b s' b' H1 H2 H3 H4). split; [reflexivity|].
  destruct (relu_shapes Y x B Hx) as [Lx [La [[Lb _] _]]]. destruct (relu_box Y B) as [Ev _].
  apply (second_dynamics _ Ev); auto.
Qed.

(** ** Cases *)
Definition pend_box : ca_box := mkBox [-1; -1] [1; 1] [-2] [2].
Definition pend_a : network := mkNet [(mkLin 2 [[1; -1]] (Some [1/2]), Relu)] (mkLin 1 [[2]] (Some [0])).
Definition pend_b : network := mkNet [(mkLin 2 [[1; 0]] None, Leaky (1/2))] (mkLin 1 [[1]] (Some [1])).
Definition pend : relu_so := mkRso pend_box pend_a pend_b IA.
Lemma vleb_t : forall a b, vle a b -> vleb a b = true.
Proof. intros. apply vleb_spec. auto. Qed.
Lemma pend_box_case : new_box [-1; -1] [1; 1] [-2] [2] = Some pend_box.
Proof.
  unfold new_box. rewrite !vleb_t; [reflexivity| |]; repeat (apply Forall2_cons; [lra|]); apply Forall2_nil.
Qed.
Lemma pend_built : relu_so_built pend.
Proof.
  split; [|split].
  - split; [discriminate|]. cbn. unfold lin_wf, wfm. cbn. repeat split; repeat constructor.
  - split; [discriminate|]. cbn. unfold lin_wf, wfm. cbn. repeat split; repeat constructor.
  - exists [-1; -1], [1; 1], [-2], [2], pend_a, pend_b, IA. unfold new_relu_so. rewrite pend_box_case. reflexivity.
Qed.
Lemma linear_case : new_box [-1; -1] [1; 1] [-2] [2] = Some pend_box /\ new_linear pend_box [[0; 1]; [-1; 0]] [[0]; [1]] = true.
Proof. split; [exact pend_box_case|reflexivity]. Qed.
(** a(x) = v and b(x) = q, both linear. *)
Definition lin_a : mic := output_only 2 (Some [[0; 1]]) None.
Definition lin_b : mic := output_only 2 (Some [[1; 0]]) None.
Lemma lin_encodes : forall A, (length A = 1)%nat -> encodes (output_only 2 (Some A) None) (fun x => length x = 2%nat) (mv A).
Proof.
  intros A LA. split.
  - intros x Hx. exists [], []. split; [constructor|]. apply sat_output_only. auto.
  - intros x s b _ Hs. apply sat_output_only in Hs. destruct Hs as [Lx [-> ->]]. split; [exact Lx|].
    unfold output, output_only, num_out, lhs, term. cbn [Aout_input Aout_slack Aout_binary Cout olen].
    assert (Lm : length (mv A x) = length A) by (unfold mv; apply map_length).
    rewrite !(vadd_zeros_r (length A) (mv A x) Lm). reflexivity.
Qed.
Lemma second_refused : exists X ca cb a_lo a_up b_lo b_up D a b,
  new_box (cx_lo X) (cx_up X) (cu_lo X) (cu_up X) = Some X /\ even_dim X = true /\
  mic_wf ca /\ nin ca = x_dim X /\ num_out ca = nq X /\ mic_wf cb /\ nin cb = x_dim X /\ num_out cb = (nq X * u_dim X)%nat /\
  encodes ca D a /\ encodes cb D (fun x => concat (b x)) /\
  (forall x, in_box (cx_lo X) (cx_up X) x -> in_box a_lo a_up (a x) /\ in_box b_lo b_up (concat (b x))) /\
  so_constraints X ca cb a_lo a_up b_lo b_up = None.
Proof.
  exists pend_box, lin_a, lin_b, [-1], [1], [-1], [1], (fun x => length x = 2%nat), (mv [[0; 1]]), (fun x => [mv [[1; 0]] x]).
  split; [exact pend_box_case|]. split; [reflexivity|].
  split; [unfold mic_wf; cbn; unfold wfm; cbn; repeat split; repeat constructor|]. split; [reflexivity|]. split; [reflexivity|].
  split; [unfold mic_wf; cbn; unfold wfm; cbn; repeat split; repeat constructor|]. split; [reflexivity|]. split; [reflexivity|].
  split; [apply lin_encodes; reflexivity|]. split; [|split].
  - destruct (lin_encodes [[1; 0]] eq_refl) as [A B]. split; [exact A|]. intros x s b H1 H2. destruct (B x s b H1 H2) as [P Q]. split; [exact P|].
    cbn [concat]. rewrite app_nil_r. exact Q.
  - intros x [H1 H2]. inversion H1 as [|? q ? x' P1 H1' E1 E2]; subst. inversion H1' as [|? v ? x'' P2 H1'' E1 E2]; subst.
    inversion H1''; subst. inversion H2 as [|? ? ? ? P3 H2' E1 E2]; subst. inversion H2' as [|? ? ? ? P4 H2'' E1 E2]; subst.
    cbn. split; split; repeat (apply Forall2_cons; [lra|]); apply Forall2_nil.
  - reflexivity.
Qed.
