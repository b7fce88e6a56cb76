(** Values of the decoders of images; examples. *)

Require Import Reals List Bool Arith ZArith Lia Lra ZifyNat ZifyClasses.
Require Import Verif.Vec Verif.VecFacts Verif.ModelNet Verif.SpecNet Verif.ModelLyapunov Verif.ModelDynLearn Verif.SpecDynLearn
  Verif.ModelLatent
  Verif.SpecLatent Verif.ProofLatent Verif.ModelImage Verif.SpecImage Verif.ProofImage Verif.ProofImage2.
Import ListNotations.
Open Scope R_scope.
Ltac Zify.zify_post_hook ::= Z.to_euclidean_division_equations.

Lemma sum_n_ext : forall n f g, (forall k, (k < n)%nat -> f k = g k) -> sum_n n f = sum_n n g.
Proof. induction n; intros f g H; cbn [sum_n]; auto. rewrite (IHn f g), H by auto. auto. Qed.

Lemma half_even : forall i a : nat, (a < 2)%nat ->
  ((a <=? i)%nat && ((i - a) mod 2 =? 0)%nat)%bool = true <-> a = (i mod 2)%nat.
Proof. intros. rewrite andb_true_iff, Nat.leb_le, Nat.eqb_eq. lia. Qed.
Lemma half_test : forall i w a, (a < 2)%nat -> (i < 2 * w)%nat ->
  ((a <=? i)%nat && ((i - a) mod 2 =? 0)%nat && ((i - a) / 2 <? w)%nat)%bool = Nat.eqb a (i mod 2).
Proof.
  intros i w a Ha Hi. destruct (Nat.eqb_spec a (i mod 2)) as [E|E].
  - rewrite !andb_true_iff, Nat.leb_le, Nat.eqb_eq, Nat.ltb_lt. lia.
  - destruct (_ && _)%bool eqn:F; auto. rewrite !andb_true_iff, Nat.leb_le, Nat.eqb_eq in F. exfalso. lia.
Qed.
Lemma half_value : forall i a, a = (i mod 2)%nat -> ((i - a) / 2 = i / 2)%nat.
Proof. intros. lia. Qed.

Lemma sum2_pick : forall (f : nat -> R) k, (k < 2)%nat -> sum_n 2 (fun a => if Nat.eqb a k then f a else 0) = f k.
Proof. intros f k H. destruct k as [|[|]]; [| |lia]; cbn; ring. Qed.

Lemma convt2_value : forall cin cout K x y o i j, apply_layer (ConvT cin cout 2 2 K) x = Some y ->
  (i < 2 * t_w x)%nat -> (j < 2 * t_h x)%nat ->
  t_at y o i j = k_b K o + sum_n cin (fun c => k_w K c o (i mod 2)%nat (j mod 2)%nat * t_at x c (i / 2)%nat (j / 2)%nat).
Proof.
  intros cin cout K x y o i j E Hi Hj. cbn [apply_layer] in E.
  destruct (_ && _)%bool eqn:G in E; [|discriminate]. apply some_inj in E. subst y. cbn [t_at]. f_equal.
  apply sum_n_ext. intros c _.
  transitivity (sum_n 2 (fun a => if Nat.eqb a (i mod 2) then
     sum_n 2 (fun b => if Nat.eqb b (j mod 2) then k_w K c o a b * t_at x c (i / 2)%nat (j / 2)%nat else 0) else 0)).
  - apply sum_n_ext. intros a Ha.
    destruct (Nat.eqb_spec a (i mod 2)) as [Ea|Ea].
    + apply sum_n_ext. intros b Hb.
      pose proof (half_test i (t_w x) a Ha Hi) as Ta. pose proof (half_test j (t_h x) b Hb Hj) as Tb.
      rewrite <- !andb_assoc in *. rewrite !andb_assoc in Ta. 
      replace ((a <=? i)%nat && (((i - a) mod 2 =? 0)%nat && (((i - a) / 2 <? t_w x)%nat &&
        ((b <=? j)%nat && (((j - b) mod 2 =? 0)%nat && ((j - b) / 2 <? t_h x)%nat)))))%bool
        with (Nat.eqb a (i mod 2) && Nat.eqb b (j mod 2))%bool by (rewrite <- Ta, <- Tb, <- !andb_assoc; auto).
      rewrite (proj2 (Nat.eqb_eq a _) Ea). cbn [andb].
      destruct (Nat.eqb_spec b (j mod 2)) as [Eb|Eb]; auto.
      rewrite (half_value i a Ea), (half_value j b Eb). auto.
    + transitivity (sum_n 2 (fun _ => 0)); [|cbn; ring]. apply sum_n_ext. intros b Hb.
      pose proof (half_test i (t_w x) a Ha Hi) as Ta. rewrite (proj2 (Nat.eqb_neq a _) Ea) in Ta.
      rewrite Ta. cbn [andb]. auto.
  - rewrite (sum2_pick (fun a => sum_n 2 _)) by lia. rewrite (sum2_pick (fun b => _)) by lia. auto.
Qed.

Lemma view_at : forall w h v y i j, view 1 w h v = Some y -> t_at y 0%nat i j = nth (i * h + j) v 0.
Proof.
  unfold view. intros w h v y i j E. destruct (Nat.eqb _ _); [|discriminate]. apply some_inj in E. subst y. reflexivity.
Qed.

Lemma decode1_patch : forall D K1 K2 z y c i j, built_decoder D -> d_arch D = CnnD1 K1 K2 -> length z = d_z D ->
  decode D z = Some y -> inside y c i j ->
  t_at y c i j = patch K1 K2 c (i mod 4) (j mod 4) (nth (i / 4 * (d_h D / 4) + j / 4) (net_eval (d_net D) z) 0).
Proof.
  intros D K1 K2 z y c i j B HA L E (Hc & Hi & Hj).
  destruct (proj2 (decode_spec D z B L) y E) as ((_ & Y2 & Y3) & _). rewrite Y2, HA in Hi. rewrite Y3, HA in Hj.
  cbn [dec_round] in Hi, Hj. unfold round4 in Hi, Hj.
  destruct B as (dims & HD & S). destruct D as [n w h g A N]. unfold decoder_dims, decode in *.
  cbn [d_arch d_w d_h d_gray d_z d_net] in *. subst A. rewrite !dec1_size_eq in *. unfold outputs_of in HD.
  destruct (Z.ltb_spec (Z.of_nat (w / 4) * Z.of_nat (h / 4)) 0); [nia|]. apply some_inj in HD. subst dims.
  destruct (shaped_forward _ _ z S L) as (F & _). unfold cnn_decode in E. rewrite F in E.
  destruct (_ && _)%bool eqn:G in E; [|discriminate]. rewrite !Nat2Z.id in E.
  destruct (view 1 (w / 4) (h / 4) (net_eval N z)) as [x|] eqn:V; [|discriminate].
  destruct (flatten_view _ _ _ _ _ V) as ((X1 & X2 & X3) & _).
  unfold dec1_layers in E. cbn [decoder_layers] in E.
  destruct (apply_layer (ConvT 1 16 2 2 K1) x) as [u|] eqn:A1; [|discriminate].
  destruct (apply_layer (ConvT 16 (channels g) 2 2 K2) (trelu u)) as [q|] eqn:A2; [|discriminate].
  apply some_inj in E. subst y. cbn [tmap t_at]. unfold patch. f_equal.
  assert (U : t_w u = (2 * (w / 4))%nat /\ t_h u = (2 * (h / 4))%nat).
  { pose proof (apply_shape (ConvT 1 16 2 2 K1) x) as P. rewrite A1 in P. unfold shape_of in P. rewrite X1, X2, X3 in P.
    cbn [option_map layer_shape] in P. destruct (_ && _)%bool eqn:G2 in P; [|discriminate].
    rewrite !andb_true_iff, !Nat.ltb_lt in G2. apply some_inj in P. 
    assert (P2 : t_w u = ((w / 4 - 1) * 2 + 2)%nat) by (exact (f_equal (fun s => snd (fst s)) P)).
    assert (P3 : t_h u = ((h / 4 - 1) * 2 + 2)%nat) by (exact (f_equal snd P)). lia. }
  destruct U as (U2 & U3).
  rewrite (convt2_value _ _ _ _ _ c i j A2) by (cbn [trelu tmap t_w t_h]; lia). f_equal.
  apply sum_n_ext. intros o _.
  replace ((i mod 4) mod 2)%nat with (i mod 2)%nat by lia. replace ((j mod 4) mod 2)%nat with (j mod 2)%nat by lia.
  f_equal. unfold trelu, tmap, patch_hidden. cbn [t_at]. f_equal.
  rewrite (convt2_value _ _ _ _ _ o (i / 2) (j / 2) A1) by lia. f_equal.
  cbn [sum_n]. rewrite Rplus_0_l. rewrite (view_at _ _ _ _ _ _ V).
  replace ((i / 2) mod 2)%nat with (i mod 4 / 2)%nat by lia. replace ((j / 2) mod 2)%nat with (j mod 4 / 2)%nat by lia.
  replace (i / 2 / 2)%nat with (i / 4)%nat by lia. replace (j / 2 / 2)%nat with (j / 4)%nat by lia. auto.
Qed.

(** ** Cross entropy *)

Lemma average_pos : forall v, v <> [] -> Forall (fun t => 0 < t) v -> 0 < average v.
Proof.
  intros v N F. unfold average. apply Rdiv_lt_0_compat.
  - destruct F as [|a v Ha F]; [congruence|]. rewrite vsum_cons.
    assert (0 <= vsum v); [|lra]. clear N Ha. induction F; [cbn; lra|]. rewrite vsum_cons. lra.
  - destruct v; [congruence|]. apply lt_0_INR. cbn. lia.
Qed.
Lemma bval_all_pos : forall ps ys, Forall (fun p => 0 < p < 1) ps -> Forall (fun y => 0 <= y <= 1) ys ->
  Forall (fun t => 0 < t) (map2 bval ps ys).
Proof.
  induction ps as [|p ps IH]; intros ys P Y; destruct ys; cbn; auto. inversion P; subst. inversion Y; subst.
  constructor; auto. apply bval_pos; auto.
Qed.
Lemma concat_forall : forall A (P : A -> Prop) ls, Forall (Forall P) ls -> Forall P (concat ls).
Proof. induction 1; cbn; auto. apply Forall_app; auto. Qed.

Lemma decoded_loss : forall T D xs zs, built_decoder D -> t_bce T = true -> zs <> [] -> length xs = length zs ->
  (0 < d_w D)%nat -> (0 < d_h D)%nat -> (dec_min (d_arch D) <= d_w D)%nat -> (dec_min (d_arch D) <= d_h D)%nat ->
  (d_arch D = LinD \/ divisible (d_w D) (d_h D)) ->
  Forall (fun z => length z = d_z D) zs ->
  Forall (fun x => length (concat x) = (channels (d_gray D) * d_w D * d_h D)%nat /\
                   Forall (fun y => 0 <= y <= 1) (concat x)) xs ->
  exists u, reconstruction_loss T xs (map (dec_of D) zs) = Some u /\ 0 < u.
Proof.
  intros T D xs zs B Tb N L W0 H0 Hw Hh Dv FZ FX. unfold reconstruction_loss. rewrite Tb.
  set (n := (channels (d_gray D) * d_w D * d_h D)%nat) in *.
  assert (Q : Forall (fun l : list R => length l = n /\ Forall (fun p => 0 < p < 1) l) (map (@concat R) (map (dec_of D) zs))).
  { rewrite map_map. apply Forall_forall. intros l I. apply in_map_iff in I. destruct I as (z & <- & I).
    rewrite Forall_forall in FZ. specialize (FZ z I). unfold dec_of.
    destruct (decode_ok D z B FZ Hw Hh) as (u & U & (X1 & X2 & X3)).
    pose proof (decoded_pixels D z _ B FZ U) as P. rewrite U. change (concat (to_image (tmap sigmoid u))) with (flatten (tmap sigmoid u)).
    split; [|exact P]. rewrite flatten_length. cbn [tmap t_c t_w t_h]. rewrite X1, X2, X3. unfold n.
    destruct Dv as [->|(D1 & D2)]; [reflexivity|]. apply round4_eq in D1. apply round4_eq in D2.
    destruct (d_arch D); cbn [dec_round]; rewrite ?D1, ?D2; auto. }
  assert (LQ : length (concat (map (@concat R) (map (dec_of D) zs))) = (length zs * n)%nat).
  { rewrite (concat_length_const _ _ n); [now rewrite !map_length|].
    eapply Forall_impl; [|exact Q]. cbn. tauto. }
  assert (LX : length (concat (map (@concat R) xs)) = (length zs * n)%nat).
  { rewrite (concat_length_const _ _ n); [now rewrite !map_length, L|].
    apply Forall_map. eapply Forall_impl; [|exact FX]. cbn. tauto. }
  assert (PQ : Forall (fun p => 0 < p < 1) (concat (map (@concat R) (map (dec_of D) zs)))).
  { apply concat_forall. eapply Forall_impl; [|exact Q]. cbn. tauto. }
  assert (PX : Forall (fun y => 0 <= y <= 1) (concat (map (@concat R) xs))).
  { apply concat_forall. apply Forall_map. eapply Forall_impl; [|exact FX]. cbn. tauto. }
  unfold bce_loss. rewrite bces_val.
  - assert (ne : map2 bval (concat (map (@concat R) (map (dec_of D) zs))) (concat (map (@concat R) xs)) <> []).
    { intros E. apply (f_equal (@length R)) in E. rewrite map2_length_R in E by congruence. rewrite LQ in E. cbn in E.
      assert (0 < n)%nat by (unfold n; destruct (d_gray D); cbn [channels]; nia).
      destruct zs; [congruence|]. cbn in E. lia. }
    rewrite mean_some by exact ne. eexists. split; [reflexivity|]. apply average_pos; auto. apply bval_all_pos; auto.
  - congruence.
  - eapply Forall_impl; [|exact PQ]. cbn. intros. lra.
Qed.

(** ** Examples *)

Lemma repeat_length' : forall A (a : A) n, length (repeat a n) = n.
Proof. intros. apply repeat_length. Qed.
Lemma zero_lin_wf : forall i o, lin_wf i (zero_lin i o).
Proof.
  intros. unfold lin_wf, zero_lin, out_features. cbn [in_features weight bias]. rewrite !repeat_length. repeat split; auto.
  - now rewrite repeat_length.
  - apply Forall_forall. intros r I. apply repeat_spec in I. subst. apply repeat_length.
Qed.
Lemma zero_lin_out : forall i o, out_features (zero_lin i o) = o.
Proof. intros. unfold zero_lin, out_features. cbn [weight]. apply repeat_length. Qed.
Lemma zero_hidden_wf : forall hs i, hidden_wf i (zero_hidden i hs) (last hs i).
Proof.
  induction hs as [|o hs IH]; intros i; cbn [zero_hidden hidden_wf]; [reflexivity|]. split; [apply zero_lin_wf|].
  rewrite zero_lin_out. specialize (IH o). destruct hs; [exact IH|].
  replace (last (o :: n :: hs) i) with (last (n :: hs) o); auto. clear. revert n o i. induction hs; intros; cbn; auto.
  cbn in IHhs. apply (IHhs a).
Qed.
Lemma zero_widths : forall hs i o, widths (zero_net i hs o) = i :: hs ++ [o].
Proof.
  intros. unfold widths, zero_net. cbn [hidden last_layer]. rewrite zero_lin_out. cbn [zero_lin in_features].
  revert i. induction hs as [|a hs IH]; intros i; [reflexivity|]. cbn [zero_hidden map fst zero_lin in_features app].
  f_equal. rewrite <- IH. destruct hs; [reflexivity|]. 
  f_equal. f_equal. replace (last (a :: n :: hs) i) with (last (n :: hs) a); auto.
  clear. revert n a i. induction hs; intros; cbn; auto. cbn in IHhs. apply (IHhs a).
Qed.
Lemma zero_shaped : forall i hs o, shaped (i :: hs ++ [o]) (zero_net i hs o).
Proof.
  intros. split; [apply zero_widths|]. cbn [hd zero_net hidden last_layer]. repeat split.
  - revert i. induction hs; intros; cbn [zero_hidden]; constructor; auto.
  - apply zero_hidden_wf.
  - change (in_features (zero_lin (last hs i) o)) with (last hs i). apply zero_lin_wf.
  - change (in_features (zero_lin (last hs i) o)) with (last hs i). apply zero_lin_wf.
Qed.
Lemma built_lin : built_encoder enc_lin /\ built_decoder dec_lin.
Proof.
  split.
  - exists (fun _ _ _ => 0), [30; 500; 500; 4]%nat. split; [reflexivity|]. apply (zero_shaped 30 [500; 500]%nat 4).
  - exists [2; 500; 500; 30]%nat. split; [reflexivity|]. apply (zero_shaped 2 [500; 500]%nat 30).
Qed.
Lemma built_cnn1 : forall w h, (4 <= w)%nat -> (4 <= h)%nat -> built_encoder (enc_cnn1 w h) /\ built_decoder (dec_cnn1 w h).
Proof.
  intros w h Hw Hh. split.
  - exists (fun _ _ _ => 0), [4 * (w / 4) * (h / 4); 4]%nat. split; [|apply (zero_shaped _ [] 4)].
    unfold encoder_dims. cbn [enc_cnn1 e_arch e_w e_h e_gray e_z]. rewrite features_shape, enc1_shape by auto. reflexivity.
  - exists [2; (w / 4) * (h / 4)]%nat. split; [|apply (zero_shaped 2 [])].
    unfold decoder_dims, outputs_of. cbn [dec_cnn1 d_arch d_w d_h d_gray d_z]. rewrite !dec1_size_eq.
    destruct (Z.ltb_spec (Z.of_nat (w / 4) * Z.of_nat (h / 4)) 0); [nia|].
    rewrite <- Nat2Z.inj_mul, Nat2Z.id. reflexivity.
Qed.
Lemma built_cnn2 : forall w h, (33 <= w)%nat -> (33 <= h)%nat -> built_encoder (enc_cnn2 w h) /\ built_decoder (dec_cnn2 w h).
Proof.
  intros w h Hw Hh. split.
  - exists (fun _ _ _ => 0), [10 * ((w - 25) / 8) * ((h - 25) / 8); 500; 4]%nat. split; [|apply (zero_shaped _ [500%nat] 4)].
    unfold encoder_dims. cbn [enc_cnn2 e_arch e_w e_h e_gray e_z]. rewrite features_shape, enc2_shape by auto. reflexivity.
  - exists [2; 200; 1000; ((w - 28) / 4) * ((h - 28) / 4)]%nat. split; [|apply (zero_shaped 2 [200; 1000]%nat)].
    unfold decoder_dims, outputs_of. cbn [dec_cnn2 d_arch d_w d_h d_gray d_z].
    replace (dec2_size w) with (Z.of_nat ((w - 28) / 4)) by (unfold dec2_size; lia).
    replace (dec2_size h) with (Z.of_nat ((h - 28) / 4)) by (unfold dec2_size; lia).
    destruct (Z.ltb_spec (Z.of_nat ((w - 28) / 4) * Z.of_nat ((h - 28) / 4)) 0); [nia|].
    rewrite <- Nat2Z.inj_mul, Nat2Z.id. reflexivity.
Qed.
Lemma pair_cnn1 : forall w h, (4 <= w)%nat -> (4 <= h)%nat -> pair_of (enc_cnn1 w h) (dec_cnn1 w h).
Proof. intros w h Hw Hh. destruct (built_cnn1 w h Hw Hh). repeat split; auto. Qed.
Lemma pair_cnn2 : forall w h, (33 <= w)%nat -> (33 <= h)%nat -> pair_of (enc_cnn2 w h) (dec_cnn2 w h).
Proof. intros w h Hw Hh. destruct (built_cnn2 w h Hw Hh). repeat split; auto; cbn [dec_cnn2 d_arch d_w d_h dec_min]; lia. Qed.
Lemma pair_lin : pair_of enc_lin dec_lin.
Proof. destruct built_lin. repeat split; auto; cbn; lia. Qed.

(** A decoder of 6 x 6 images returns 4 x 4 images. *)
Lemma declared_size_refuted : ~ (forall D z y, built_decoder D -> length z = d_z D -> decode D z = Some y ->
  t_w y = d_w D /\ t_h y = d_h D).
Proof.
  intros H. destruct (built_cnn1 6 6) as (_ & B); [lia|lia|].
  destruct (decode_ok (dec_cnn1 6 6) [0; 0] B eq_refl) as (u & U & X); [cbn; lia|cbn; lia|].
  destruct (H _ [0; 0] _ B eq_refl U) as (A & _). destruct X as (_ & X & _). cbn [tmap t_w] in A. rewrite X in A.
  cbn in A. discriminate.
Qed.
(** Images of 33 x 33: the decoder returns 32 x 32 and the encoder raises. *)
Lemma loop_refuted : ~ (forall E D z, pair_of E D -> length z = d_z D ->
  exists y q, decode D z = Some y /\ encode E y = Some q).
Proof.
  intros H. assert (P : pair_of (enc_cnn2 33 33) (dec_cnn2 33 33)) by (apply pair_cnn2; lia).
  destruct (H _ _ [0; 0] P eq_refl) as (y & q & A & B).
  destruct P as (_ & BD & _).
  destruct (proj2 (decode_spec (dec_cnn2 33 33) [0; 0] BD eq_refl) y A) as ((Y1 & Y2 & Y3) & _).
  unfold encode in B. cbn [enc_cnn2 e_arch e_gray] in B. unfold cnn_encode in B.
  match type of B with match relu_layers ?ls _ with _ => _ end = _ => pose proof (relu_shape ls y) as T end.
  unfold shape_of at 2 in T. rewrite Y1, Y2, Y3 in T.
  cbn [dec_cnn2 d_arch d_gray d_w d_h dec_round] in T. rewrite enc2_none in T by (left; cbv; lia).
  rewrite (shape_none _ T) in B. discriminate.
Qed.

Lemma pair_fits_sized : forall E D, pair_of E D -> d_arch D = LinD \/ divisible (d_w D) (d_h D) ->
  coder_fits (d_z D) (if d_gray D then 1 else 3) (enc_of E) (dec_of D) /\
  forall z, length z = d_z D -> Forall (fun ch => length ch = (d_w D * d_h D)%nat) (dec_of D z).
Proof.
  intros E D P H. split; [apply (pair_fits E D P)|]. intros z L.
  destruct P as (BE & BD & Ez & Ew & Eh & Eg & Hw & Hh). destruct (decode_ok D z BD L Hw Hh) as (u & U & (X1 & X2 & X3)).
  unfold dec_of. rewrite U. unfold to_image. apply Forall_forall. intros ch I. apply in_map_iff in I.
  destruct I as (c & <- & _). rewrite channel_length. cbn [tmap t_w t_h]. rewrite X2, X3.
  destruct H as [->|(D1 & D2)]; [reflexivity|]. apply round4_eq in D1. apply round4_eq in D2.
  destruct (d_arch D); cbn [dec_round]; rewrite ?D1, ?D2; auto.
Qed.
Lemma flatten_spec : forall x, length (flatten x) = (t_c x * t_w x * t_h x)%nat /\
  (forall c i j, inside x c i j -> nth (flat_index x c i j) (flatten x) 0 = t_at x c i j) /\
  (forall n, (n < length (flatten x))%nat -> exists c i j, inside x c i j /\ n = flat_index x c i j) /\
  (forall c i j c' i' j', inside x c i j -> inside x c' i' j' ->
     flat_index x c i j = flat_index x c' i' j' -> c = c' /\ i = i' /\ j = j').
Proof.
  intros x. split; [apply flatten_length|]. split; [intros; now apply flatten_nth|]. split.
  - intros n L. rewrite flatten_length in L. now apply flat_index_onto.
  - intros. eapply flat_index_inj; eauto.
Qed.
