(** Property C77: encoders and decoders of images. *)

Require Import Reals List Arith ZArith Lia.
Require Import Verif.Vec Verif.ModelNet Verif.SpecNet Verif.ModelLatent Verif.SpecLatent Verif.ModelImage Verif.SpecImage
  Verif.ProofImage Verif.ProofImage2 Verif.ProofImage3 Verif.ProofImage4.
Import ListNotations.
Open Scope R_scope.

(** ** C77: shapes and values of images and codes *)

(** Flattening lists every entry of the image once, and viewing undoes it. *)
Theorem C77_flatten : forall x, length (flatten x) = (t_c x * t_w x * t_h x)%nat /\
  (forall c i j, inside x c i j -> nth (flat_index x c i j) (flatten x) 0 = t_at x c i j) /\
  (forall n, (n < length (flatten x))%nat -> exists c i j, inside x c i j /\ n = flat_index x c i j) /\
  (forall c i j c' i' j', inside x c i j -> inside x c' i' j' ->
     flat_index x c i j = flat_index x c' i' j' -> c = c' /\ i = i' /\ j = j').
Proof. exact flatten_spec. Qed.
Print Assumptions C77_flatten.

Theorem C77_view : forall c w h v y, view c w h v = Some y -> has_shape c w h y /\ flatten y = v.
Proof. exact flatten_view. Qed.
Print Assumptions C77_view.

(** The layers: inner products with windows of the image continued by zeros, the
    largest of four entries, and four copies. *)
Theorem C77_convolution : forall cin cout k stride pad K x y o i j,
  apply_layer (Conv cin cout k stride pad K) x = Some y ->
  t_at y o i j = k_b K o + sum_n cin (fun c => sum_n k (fun a => sum_n k (fun b => k_w K o c a b *
    extended x c (Z.of_nat (i * stride + a) - Z.of_nat pad) (Z.of_nat (j * stride + b) - Z.of_nat pad)))).
Proof. exact conv_value. Qed.
Print Assumptions C77_convolution.

Theorem C77_pool : forall x y c i j, apply_layer Pool x = Some y -> inside y c i j ->
  (forall a b, (a < 2)%nat -> (b < 2)%nat -> inside x c (2 * i + a) (2 * j + b) /\ t_at x c (2 * i + a) (2 * j + b) <= t_at y c i j) /\
  exists a b, (a < 2)%nat /\ (b < 2)%nat /\ t_at y c i j = t_at x c (2 * i + a)%nat (2 * j + b)%nat.
Proof. exact pool_value. Qed.
Print Assumptions C77_pool.

Theorem C77_upsample : forall x y c i j, apply_layer Up x = Some y -> inside x c i j ->
  forall a b, (a < 2)%nat -> (b < 2)%nat -> t_at y c (2 * i + a)%nat (2 * j + b)%nat = t_at x c i j.
Proof. exact up_value. Qed.
Print Assumptions C77_upsample.

(** Receptive fields: a feature of the first convolutional encoder depends on ten rows
    and columns of the image, one of the second on 33, and a pixel of the second decoder
    on the entries of its linear layer from (((i-4)/2-4)/2-4) to i/4. *)
Theorem C77_field_encoder1 : forall c K1 K2 x x' y y' o i j,
  relu_layers (enc1_layers c K1 K2) x = Some y -> relu_layers (enc1_layers c K1 K2) x' = Some y' -> inside y o i j ->
  agree_on x x' (4 * i - 3) (4 * i + 6) (4 * j - 3) (4 * j + 6) -> t_at y o i j = t_at y' o i j.
Proof. exact enc1_field. Qed.
Print Assumptions C77_field_encoder1.

Theorem C77_field_encoder2 : forall c K1 K2 K3 K4 x x' y y' o i j,
  relu_layers (enc2_layers c K1 K2 K3 K4) x = Some y -> relu_layers (enc2_layers c K1 K2 K3 K4) x' = Some y' -> inside y o i j ->
  agree_on x x' (8 * i) (8 * i + 32) (8 * j) (8 * j + 32) -> t_at y o i j = t_at y' o i j.
Proof. exact enc2_field. Qed.
Print Assumptions C77_field_encoder2.

Theorem C77_field_decoder2 : forall c K1 K2 K3 x x' y y' o i j,
  decoder_layers (dec2_layers c K1 K2 K3) x = Some y -> decoder_layers (dec2_layers c K1 K2 K3) x' = Some y' -> inside y o i j ->
  agree_on x x' (((i - 4) / 2 - 4) / 2 - 4) (i / 4) (((j - 4) / 2 - 4) / 2 - 4) (j / 4) -> t_at y o i j = t_at y' o i j.
Proof. exact dec2_field. Qed.
Print Assumptions C77_field_decoder2.

(** Encoders can be built exactly for images that are large enough, whatever the random
    image of the test convolution. *)
Theorem C77_encoder_sizes : forall E rand,
  encoder_dims E rand <> None <-> (enc_min (e_arch E) <= e_w E /\ enc_min (e_arch E) <= e_h E)%nat.
Proof. exact encoder_dims_iff. Qed.
Print Assumptions C77_encoder_sizes.

(** Every encoder returns a mean and a log variance of the latent dimension. *)
Theorem C77_encode : forall E x, built_encoder E -> has_shape (channels (e_gray E)) (e_w E) (e_h E) x ->
  exists mu lv, encode E x = Some (mu, lv) /\ length mu = e_z E /\ length lv = e_z E.
Proof. exact encode_ok. Qed.
Print Assumptions C77_encode.

(** The linear encoder and decoder are ReLU networks of the flattened image (the decoder
    followed by the logistic function). *)
Theorem C77_linear_encoder : forall E x, built_encoder E -> e_arch E = LinE ->
  has_shape (channels (e_gray E)) (e_w E) (e_h E) x ->
  exists mu lv, encode E x = Some (mu, lv) /\ length mu = e_z E /\ mu ++ lv = net_eval (e_net E) (flatten x).
Proof. exact linear_encoder_spec. Qed.
Print Assumptions C77_linear_encoder.

Theorem C77_linear_decoder : forall D z, built_decoder D -> d_arch D = LinD -> length z = d_z D ->
  exists y, decode D z = Some y /\ has_shape (channels (d_gray D)) (d_w D) (d_h D) y /\
    flatten y = map sigmoid (net_eval (d_net D) z).
Proof. exact linear_decoder_spec. Qed.
Print Assumptions C77_linear_decoder.

(** Decoders work exactly for images that are large enough; all pixels lie strictly
    between zero and one; the convolutional ones round the sizes down to multiples of
    four. *)
Theorem C77_decode : forall D z, built_decoder D -> length z = d_z D ->
  (decode D z <> None <-> (dec_min (d_arch D) <= d_w D /\ dec_min (d_arch D) <= d_h D)%nat) /\
  (forall y, decode D z = Some y ->
     has_shape (channels (d_gray D)) (dec_round (d_arch D) (d_w D)) (dec_round (d_arch D) (d_h D)) y /\
     forall c i j, 0 < t_at y c i j < 1).
Proof. exact decode_spec. Qed.
Print Assumptions C77_decode.

Theorem C77_decoded_size : forall D z y, built_decoder D -> length z = d_z D -> d_arch D <> LinD -> decode D z = Some y ->
  ((t_w y = d_w D /\ t_h y = d_h D) <-> divisible (d_w D) (d_h D)).
Proof. exact decode_size_iff. Qed.
Print Assumptions C77_decoded_size.

(** Refuted: "a decoder returns images of the declared size". *)
Theorem C77_declared_size_refuted : ~ (forall D z y, built_decoder D -> length z = d_z D -> decode D z = Some y ->
  t_w y = d_w D /\ t_h y = d_h D).
Proof. exact declared_size_refuted. Qed.
Print Assumptions C77_declared_size_refuted.

(** The first convolutional decoder: every patch of 4 x 4 pixels is a function of one
    entry of its linear layer, the same for all patches. *)
Theorem C77_patches : forall D K1 K2 z y c i j, built_decoder D -> d_arch D = CnnD1 K1 K2 -> length z = d_z D ->
  decode D z = Some y -> inside y c i j ->
  t_at y c i j = patch K1 K2 c (i mod 4) (j mod 4) (nth (i / 4 * (d_h D / 4) + j / 4) (net_eval (d_net D) z) 0).
Proof. exact decode1_patch. Qed.
Print Assumptions C77_patches.

(** Decoded images can be encoded again (as in rollouts through images): for the linear
    decoder, for sizes that are multiples of four, and for the first convolutional
    encoder. *)
Theorem C77_loop : forall E D z, pair_of E D -> length z = d_z D ->
  (d_arch D = LinD \/ divisible (d_w D) (d_h D) \/ exists K1 K2, e_arch E = CnnE1 K1 K2) ->
  exists y mu lv, decode D z = Some y /\ encode E y = Some (mu, lv) /\ length mu = d_z D /\ length lv = d_z D.
Proof. exact pair_loop. Qed.
Print Assumptions C77_loop.

(** Refuted: "an encoder accepts what the decoder for the same images returns". *)
Theorem C77_loop_refuted : ~ (forall E D z, pair_of E D -> length z = d_z D ->
  exists y q, decode D z = Some y /\ encode E y = Some q).
Proof. exact loop_refuted. Qed.
Print Assumptions C77_loop_refuted.

(** Such pairs are encoders and decoders in the sense of C75. *)
Theorem C77_fits : forall E D, pair_of E D -> d_arch D = LinD \/ divisible (d_w D) (d_h D) ->
  coder_fits (d_z D) (if d_gray D then 1 else 3) (enc_of E) (dec_of D) /\
  forall z, length z = d_z D -> Forall (fun ch => length ch = (d_w D * d_h D)%nat) (dec_of D z).
Proof. exact pair_fits_sized. Qed.
Print Assumptions C77_fits.

(** The cross entropy of decoded images never raises, and is positive. *)
Theorem C77_cross_entropy : forall T D xs zs, built_decoder D -> t_bce T = true -> zs <> [] -> length xs = length zs ->
  (0 < d_w D)%nat -> (0 < d_h D)%nat -> (dec_min (d_arch D) <= d_w D)%nat -> (dec_min (d_arch D) <= d_h D)%nat ->
  (d_arch D = LinD \/ divisible (d_w D) (d_h D)) ->
  Forall (fun z => length z = d_z D) zs ->
  Forall (fun x => length (concat x) = (channels (d_gray D) * d_w D * d_h D)%nat /\
                   Forall (fun y => 0 <= y <= 1) (concat x)) xs ->
  exists u, reconstruction_loss T xs (map (dec_of D) zs) = Some u /\ 0 < u.
Proof. exact decoded_loss. Qed.
Print Assumptions C77_cross_entropy.

Example C77_case : pair_of enc_lin dec_lin /\ pair_of (enc_cnn1 8 12) (dec_cnn1 8 12) /\
  pair_of (enc_cnn1 9 7) (dec_cnn1 9 7) /\ pair_of (enc_cnn2 36 40) (dec_cnn2 36 40) /\
  divisible 8 12 /\ divisible 36 40 /\ ~ divisible 9 7.
Proof.
  split; [exact pair_lin|]. split; [apply pair_cnn1; lia|]. split; [apply pair_cnn1; lia|].
  split; [apply pair_cnn2; lia|]. repeat split. intros (A & _). discriminate.
Qed.
