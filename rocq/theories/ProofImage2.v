(** What the encoders and decoders of images return. *)

Require Import Reals List Bool Arith ZArith Lia Lra ZifyNat ZifyClasses.
Require Import Verif.Vec Verif.VecFacts Verif.ModelNet Verif.SpecNet Verif.ModelLyapunov Verif.ModelDynLearn Verif.ModelLatent
  Verif.SpecLatent Verif.ProofLatent Verif.ModelImage Verif.SpecImage Verif.ProofImage.
Import ListNotations.
Open Scope R_scope.
Ltac Zify.zify_post_hook ::= Z.to_euclidean_division_equations.

Lemma some_inj : forall A (a b : A), Some a = Some b -> a = b.
Proof. congruence. Qed.

(** ** Encoders *)

Lemma encoder_dims_iff : forall E rand,
  encoder_dims E rand <> None <-> (enc_min (e_arch E) <= e_w E /\ enc_min (e_arch E) <= e_h E)%nat.
Proof.
  intros [z w h g A N] rand. unfold encoder_dims. cbn [e_arch e_w e_h e_gray e_z].
  destruct A as [|K1 K2|K1 K2 K3 K4]; cbn [enc_min].
  - split; [lia|discriminate].
  - rewrite features_shape. destruct (le_lt_dec 4 w) as [Hw|Hw], (le_lt_dec 4 h) as [Hh|Hh].
    1: rewrite enc1_shape by auto; cbn [option_map]; split; [auto|discriminate].
    all: rewrite enc1_none by auto; cbn [option_map]; split; [congruence|lia].
  - rewrite features_shape. destruct (le_lt_dec 33 w) as [Hw|Hw], (le_lt_dec 33 h) as [Hh|Hh].
    1: rewrite enc2_shape by auto; cbn [option_map]; split; [auto|discriminate].
    all: rewrite enc2_none by auto; cbn [option_map]; split; [congruence|lia].
Qed.

Lemma linear_encode_ok : forall dims N z x, shaped dims N -> length (flatten x) = hd O dims -> last dims O = (z * 2)%nat ->
  exists mu lv, linear_encode z N x = Some (mu, lv) /\ length mu = z /\ length lv = z /\ mu ++ lv = net_eval N (flatten x).
Proof.
  intros dims N z x S L Q. destruct (shaped_forward _ _ _ S L) as (F & G). unfold linear_encode. rewrite F.
  exists (firstn z (net_eval N (flatten x))), (skipn z (net_eval N (flatten x))). split; [auto|].
  rewrite firstn_length, skipn_length, G, Q. repeat split; try lia. apply firstn_skipn.
Qed.
Lemma cnn_encode_ok : forall ls c w h a b d rest N z x, layers_shape ls (c, w, h) = Some (a, b, d) ->
  shaped ((a * b * d)%nat :: rest) N -> last ((a * b * d)%nat :: rest) O = (z * 2)%nat -> has_shape c w h x ->
  exists mu lv, cnn_encode ls z N x = Some (mu, lv) /\ length mu = z /\ length lv = z.
Proof.
  intros ls c w h a b d rest N z x Hs S Q (X1 & X2 & X3).
  pose proof (relu_shape ls x) as P. unfold shape_of at 2 in P. rewrite X1, X2, X3, Hs in P.
  destruct (shape_some _ _ _ _ P) as (y & E & Y1 & Y2 & Y3). unfold cnn_encode. rewrite E.
  destruct (linear_encode_ok _ _ z y S) as (mu & lv & A & B & C & _); auto.
  - rewrite flatten_length, Y1, Y2, Y3. auto.
  - eauto.
Qed.

Lemma built_dims : forall E, built_encoder E ->
  (enc_min (e_arch E) <= e_w E)%nat /\ (enc_min (e_arch E) <= e_h E)%nat /\
  forall rand, exists dims, encoder_dims E rand = Some dims /\ shaped dims (e_net E).
Proof.
  intros E (rand & dims & D & S).
  destruct (proj1 (encoder_dims_iff E rand)) as (A & B); [congruence|]. repeat split; auto.
  intros rand'. exists dims. split; auto. rewrite <- D. unfold encoder_dims.
  destruct (e_arch E); auto; now rewrite !features_shape.
Qed.

Lemma encode_ok : forall E x, built_encoder E -> has_shape (channels (e_gray E)) (e_w E) (e_h E) x ->
  exists mu lv, encode E x = Some (mu, lv) /\ length mu = e_z E /\ length lv = e_z E.
Proof.
  intros E x B X. destruct (built_dims E B) as (Hw & Hh & D).
  destruct (D (fun _ _ _ => 0)) as (dims & HD & S). destruct E as [z w h g A N]. unfold encoder_dims, encode in *.
  cbn [e_arch e_w e_h e_gray e_z e_net] in *. destruct A as [|K1 K2|K1 K2 K3 K4]; cbn [enc_min] in *.
  - apply some_inj in HD; subst dims. destruct (linear_encode_ok _ _ z x S) as (mu & lv & P & Q & T & _).
    + rewrite flatten_length. destruct X as (-> & -> & ->). reflexivity.
    + reflexivity.
    + eauto.
  - rewrite features_shape, enc1_shape in HD by auto. cbn [option_map] in HD. apply some_inj in HD; subst dims.
    exact (cnn_encode_ok _ _ _ _ _ _ _ _ _ z x (enc1_shape _ K1 K2 w h Hw Hh) S eq_refl X).
  - rewrite features_shape, enc2_shape in HD by auto. cbn [option_map] in HD. apply some_inj in HD; subst dims.
    exact (cnn_encode_ok _ _ _ _ _ _ _ _ _ z x (enc2_shape _ K1 K2 K3 K4 w h Hw Hh) S eq_refl X).
Qed.
(** CNNEncoder1 accepts every image with the same quarters. *)
Lemma encode1_quarters : forall E K1 K2 x w h, built_encoder E -> e_arch E = CnnE1 K1 K2 ->
  has_shape (channels (e_gray E)) w h x -> (w / 4 = e_w E / 4)%nat -> (h / 4 = e_h E / 4)%nat ->
  exists mu lv, encode E x = Some (mu, lv) /\ length mu = e_z E /\ length lv = e_z E.
Proof.
  intros E K1 K2 x w' h' B HA X Qw Qh. destruct (built_dims E B) as (Hw & Hh & D).
  destruct (D (fun _ _ _ => 0)) as (dims & HD & S). destruct E as [z w h g A N]. unfold encoder_dims, encode in *.
  cbn [e_arch e_w e_h e_gray e_z e_net] in *. subst A. cbn [enc_min] in *.
  rewrite features_shape, enc1_shape in HD by auto. cbn [option_map] in HD. apply some_inj in HD; subst dims.
  rewrite <- Qw, <- Qh in S.
  refine (cnn_encode_ok _ _ _ _ _ _ _ _ _ z x (enc1_shape _ K1 K2 w' h' _ _) S eq_refl X); lia.
Qed.
Lemma linear_encoder_spec : forall E x, built_encoder E -> e_arch E = LinE ->
  has_shape (channels (e_gray E)) (e_w E) (e_h E) x ->
  exists mu lv, encode E x = Some (mu, lv) /\ length mu = e_z E /\ mu ++ lv = net_eval (e_net E) (flatten x).
Proof.
  intros E x B HA X. destruct (built_dims E B) as (_ & _ & D).
  destruct (D (fun _ _ _ => 0)) as (dims & HD & S). destruct E as [z w h g A N]. unfold encoder_dims, encode in *.
  cbn [e_arch e_w e_h e_gray e_z e_net] in *. subst A.
  apply some_inj in HD; subst dims. destruct (linear_encode_ok _ _ z x S) as (mu & lv & P & Q & T & U).
  - rewrite flatten_length. destruct X as (-> & -> & ->). reflexivity.
  - reflexivity.
  - exists mu, lv. auto.
Qed.

(** ** Decoders *)

Lemma cnn_decode_ok : forall ls a b N dims z c w h, shaped dims N -> length z = hd O dims ->
  (0 < a)%Z -> (0 < b)%Z -> last dims O = Z.to_nat (a * b) ->
  layers_shape ls (1%nat, Z.to_nat a, Z.to_nat b) = Some (c, w, h) ->
  exists y, cnn_decode ls a b N z = Some (tmap sigmoid y) /\ has_shape c w h y.
Proof.
  intros ls a b N dims z c w h S L Ha Hb Q P. destruct (shaped_forward _ _ _ S L) as (F & G).
  unfold cnn_decode. rewrite F, (proj2 (Z.ltb_lt 0 a)), (proj2 (Z.ltb_lt 0 b)) by auto. cbn [andb].
  destruct (view_ok 1 (Z.to_nat a) (Z.to_nat b) (net_eval N z)) as (y & V).
  { rewrite G, Q. rewrite Z2Nat.inj_mul by lia. lia. }
  rewrite V. destruct (flatten_view _ _ _ _ _ V) as ((Y1 & Y2 & Y3) & _).
  pose proof (decoder_shape ls y) as T. unfold shape_of at 2 in T. rewrite Y1, Y2, Y3, P in T.
  destruct (shape_some _ _ _ _ T) as (u & E & U). rewrite E. eauto.
Qed.

Lemma decode_ok : forall D z, built_decoder D -> length z = d_z D ->
  (dec_min (d_arch D) <= d_w D)%nat -> (dec_min (d_arch D) <= d_h D)%nat ->
  exists u, decode D z = Some (tmap sigmoid u) /\
    has_shape (channels (d_gray D)) (dec_round (d_arch D) (d_w D)) (dec_round (d_arch D) (d_h D)) u.
Proof.
  intros D z (dims & HD & S) L Hw Hh. destruct D as [n w h g A N]. unfold decoder_dims, decode in *.
  cbn [d_arch d_w d_h d_gray d_z d_net] in *. destruct A as [|K1 K2|K1 K2 K3]; cbn [dec_min dec_round] in *.
  - apply some_inj in HD; subst dims. destruct (shaped_forward _ _ z S L) as (F & G). cbn [last] in G. unfold linear_decode. rewrite F.
    destruct (view_ok (channels g) w h (net_eval N z) G) as (y & V). rewrite V.
    exists y. split; auto. apply (flatten_view _ _ _ _ _ V).
  - unfold outputs_of in HD. rewrite !dec1_size_eq in *.
    destruct (Z.ltb_spec (Z.of_nat (w / 4) * Z.of_nat (h / 4)) 0); [nia|]. apply some_inj in HD; subst dims.
    refine (cnn_decode_ok _ _ _ _ _ _ _ _ _ S L _ _ eq_refl _); try lia.
    rewrite !Nat2Z.id. apply dec1_shape; lia.
  - unfold outputs_of in HD. apply dec2_size_pos in Hw as Pw. apply dec2_size_pos in Hh as Ph.
    destruct (Z.ltb_spec (dec2_size w * dec2_size h) 0); [nia|]. apply some_inj in HD; subst dims.
    refine (cnn_decode_ok _ _ _ _ _ _ _ _ _ S L Pw Ph eq_refl _).
    rewrite <- (dec2_size_round w Hw), <- (dec2_size_round h Hh). apply dec2_shape; lia.
Qed.
(** Smaller images: the constructor or forward raises. *)
Lemma decode_small : forall D z, (d_w D < dec_min (d_arch D) \/ d_h D < dec_min (d_arch D))%nat -> decode D z = None.
Proof.
  intros D z H. destruct D as [n w h g A N]. unfold decode.
  cbn [d_arch d_w d_h d_gray d_z d_net] in *. destruct A as [|K1 K2|K1 K2 K3]; cbn [dec_min] in *; [lia| |];
    unfold cnn_decode; destruct (lin_forward N z); auto.
  - rewrite !dec1_size_eq.
    destruct (Z.ltb_spec 0 (Z.of_nat (w / 4))), (Z.ltb_spec 0 (Z.of_nat (h / 4))); cbn [andb]; auto. exfalso. lia.
  - destruct (Z.ltb_spec 0 (dec2_size w)), (Z.ltb_spec 0 (dec2_size h)); cbn [andb]; auto.
    exfalso. rewrite dec2_size_pos in *. lia.
Qed.

Lemma decode_spec : forall D z, built_decoder D -> length z = d_z D ->
  (decode D z <> None <-> (dec_min (d_arch D) <= d_w D /\ dec_min (d_arch D) <= d_h D)%nat) /\
  (forall y, decode D z = Some y ->
     has_shape (channels (d_gray D)) (dec_round (d_arch D) (d_w D)) (dec_round (d_arch D) (d_h D)) y /\
     forall c i j, 0 < t_at y c i j < 1).
Proof.
  intros D z B L. split.
  - destruct (le_lt_dec (dec_min (d_arch D)) (d_w D)) as [Hw|Hw], (le_lt_dec (dec_min (d_arch D)) (d_h D)) as [Hh|Hh].
    1: { destruct (decode_ok D z B L Hw Hh) as (u & -> & _). split; [auto|discriminate]. }
    all: rewrite decode_small by auto; split; [congruence|lia].
  - intros y E. destruct (le_lt_dec (dec_min (d_arch D)) (d_w D)) as [Hw|Hw], (le_lt_dec (dec_min (d_arch D)) (d_h D)) as [Hh|Hh].
    1: { destruct (decode_ok D z B L Hw Hh) as (u & U & X). rewrite U in E. injection E as <-.
         split; [exact X|]. intros. apply sigmoid_range. }
    all: rewrite decode_small in E by auto; discriminate.
Qed.

Lemma round4_eq : forall w, round4 w = w <-> (w mod 4 = 0)%nat.
Proof. intros. unfold round4. lia. Qed.
Lemma decode_size_iff : forall D z y, built_decoder D -> length z = d_z D -> d_arch D <> LinD -> decode D z = Some y ->
  ((t_w y = d_w D /\ t_h y = d_h D) <-> divisible (d_w D) (d_h D)).
Proof.
  intros D z y B L A E. destruct (proj2 (decode_spec D z B L) y E) as ((_ & -> & ->) & _).
  unfold divisible, dec_round. destruct (d_arch D); [congruence| |]; now rewrite !round4_eq.
Qed.
Lemma linear_decoder_spec : forall D z, built_decoder D -> d_arch D = LinD -> length z = d_z D ->
  exists y, decode D z = Some y /\ has_shape (channels (d_gray D)) (d_w D) (d_h D) y /\
    flatten y = map sigmoid (net_eval (d_net D) z).
Proof.
  intros D z (dims & HD & S) HA L. destruct D as [n w h g A N]. unfold decoder_dims, decode in *.
  cbn [d_arch d_w d_h d_gray d_z d_net] in *. subst A.
  apply some_inj in HD; subst dims. destruct (shaped_forward _ _ z S L) as (F & G). cbn [last] in G. unfold linear_decode. rewrite F.
  destruct (view_ok (channels g) w h (net_eval N z) G) as (y & V). rewrite V.
  destruct (flatten_view _ _ _ _ _ V) as (X & Y). exists (tmap sigmoid y). rewrite flatten_tmap, Y. auto.
Qed.

(** ** Pairs *)

Lemma pair_loop : forall E D z, pair_of E D -> length z = d_z D ->
  (d_arch D = LinD \/ divisible (d_w D) (d_h D) \/ exists K1 K2, e_arch E = CnnE1 K1 K2) ->
  exists y mu lv, decode D z = Some y /\ encode E y = Some (mu, lv) /\ length mu = d_z D /\ length lv = d_z D.
Proof.
  intros E D z (BE & BD & Ez & Ew & Eh & Eg & Hw & Hh) L H.
  destruct (decode_ok D z BD L Hw Hh) as (u & U & X).
  assert (Y : has_shape (channels (e_gray E)) (dec_round (d_arch D) (d_w D)) (dec_round (d_arch D) (d_h D)) (tmap sigmoid u))
    by (rewrite Eg; exact X).
  assert (K : exists mu lv, encode E (tmap sigmoid u) = Some (mu, lv) /\ length mu = e_z E /\ length lv = e_z E).
  { assert (C : (d_arch D = LinD \/ divisible (d_w D) (d_h D)) \/ exists K1 K2, e_arch E = CnnE1 K1 K2) by tauto.
    destruct C as [C|(K1 & K2 & C)].
    - apply encode_ok; auto. rewrite Ew, Eh. destruct C as [C|(C1 & C2)].
      + rewrite C in Y. exact Y.
      + apply round4_eq in C1. apply round4_eq in C2. destruct (d_arch D); cbn [dec_round] in Y; rewrite ?C1, ?C2 in Y; exact Y.
    - apply (encode1_quarters E K1 K2 _ _ _ BE C Y); rewrite ?Ew, ?Eh; destruct (d_arch D); cbn [dec_round]; unfold round4; lia. }
  destruct K as (mu & lv & K & K1 & K2). exists (tmap sigmoid u), mu, lv. rewrite <- Ez. auto.
Qed.

(** *** As the functions of the learner in latent space *)
Lemma to_image_length : forall x, length (to_image x) = t_c x.
Proof. intros. unfold to_image. now rewrite map_length, seq_length. Qed.
Lemma concat_to_image : forall x, concat (to_image x) = flatten x.
Proof. reflexivity. Qed.
Lemma of_to_image : forall x, let y := of_image (t_w x) (t_h x) (to_image x) in
  has_shape (t_c x) (t_w x) (t_h x) y /\ forall c i j, inside x c i j -> t_at y c i j = t_at x c i j.
Proof.
  intros x y. split.
  - unfold y. repeat split. apply to_image_length.
  - intros c i j (Hc & Hi & Hj). unfold y, of_image, to_image. cbn [t_at]. rewrite nth_map_seq by auto. apply channel_nth; auto.
Qed.
Lemma channels_twice : forall g, channels g = (2 * (if g then 1 else 3))%nat.
Proof. destruct g; auto. Qed.

Lemma pair_fits : forall E D, pair_of E D ->
  coder_fits (d_z D) (if d_gray D then 1 else 3) (enc_of E) (dec_of D).
Proof.
  intros E D (BE & BD & Ez & Ew & Eh & Eg & Hw & Hh). split.
  - intros x L. unfold enc_of. destruct (encode_ok E (of_image (e_w E) (e_h E) x) BE) as (mu & lv & -> & A & B).
    + repeat split. cbn. rewrite Eg, channels_twice. exact L.
    + cbn. rewrite <- Ez. auto.
  - intros z L. unfold dec_of. destruct (decode_ok D z BD L Hw Hh) as (u & -> & (X & _)).
    rewrite to_image_length. cbn. rewrite X. apply channels_twice.
Qed.

(** ** Cross entropy of decoded images *)

Lemma decoded_pixels : forall D z y, built_decoder D -> length z = d_z D -> decode D z = Some y ->
  Forall (fun p => 0 < p < 1) (flatten y).
Proof.
  intros D z y B L E. destruct (proj2 (decode_spec D z B L) y E) as (_ & P). apply Forall_forall.
  intros p I. unfold flatten in I. apply in_concat in I. destruct I as (l & Il & Ip).
  apply in_map_iff in Il. destruct Il as (c & <- & _). unfold channel in Ip. apply in_concat in Ip.
  destruct Ip as (r & Ir & Ip). apply in_map_iff in Ir. destruct Ir as (i & <- & _).
  apply in_map_iff in Ip. destruct Ip as (j & <- & _). apply P.
Qed.

Lemma bval_pos : forall p y, 0 < p < 1 -> 0 <= y <= 1 -> 0 < bval p y.
Proof.
  intros p y P Y. unfold bval.
  destruct (clamped_nonpos p) as (A & A'); [lra|]. destruct (clamped_nonpos (1 - p)) as (B & B'); [lra|].
  assert (clamped_log p < 0) by (destruct A as [A|A]; [auto|specialize (A' A); lra]).
  assert (clamped_log (1 - p) < 0) by (destruct B as [B|B]; [auto|specialize (B' B); lra]).
  destruct (Rle_lt_dec y 0); nra.
Qed.
