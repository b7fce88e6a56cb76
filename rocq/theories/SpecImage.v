(** What the encoders and decoders of images (ModelImage) are about. *)

Require Import Reals List Arith ZArith.
Require Import Verif.Vec Verif.ModelNet Verif.SpecNet Verif.ModelLatent Verif.ModelImage.
Import ListNotations.
Open Scope R_scope.

(** A ReLU network whose layers have the given widths (inputs first). *)
Definition widths (N : network) : list nat :=
  map (fun q => in_features (fst q)) (hidden N) ++ [in_features (last_layer N); out_features (last_layer N)].
Definition shaped (dims : list nat) (N : network) : Prop :=
  widths N = dims /\ Forall (fun q => snd q = Relu) (hidden N) /\
  hidden_wf (hd O dims) (hidden N) (in_features (last_layer N)) /\
  lin_wf (in_features (last_layer N)) (last_layer N).

(** Objects whose constructor has returned (training changes the parameters, not the
    shapes). *)
Definition built_encoder (E : encoder) : Prop :=
  exists rand dims, encoder_dims E rand = Some dims /\ shaped dims (e_net E).
Definition built_decoder (D : decoder) : Prop :=
  exists dims, decoder_dims D = Some dims /\ shaped dims (d_net D).

Definition has_shape (c w h : nat) (x : tensor) : Prop := t_c x = c /\ t_w x = w /\ t_h x = h.

(** The smallest images of the architectures. *)
Definition enc_min (A : enc_arch) : nat := match A with LinE => 0 | CnnE1 _ _ => 4 | CnnE2 _ _ _ _ => 33 end.
Definition dec_min (A : dec_arch) : nat := match A with LinD => 0 | CnnD1 _ _ => 4 | CnnD2 _ _ _ => 32 end.
(** The largest multiple of four. *)
Definition round4 (w : nat) : nat := (4 * (w / 4))%nat.
Definition dec_round (A : dec_arch) (w : nat) : nat := match A with LinD => w | _ => round4 w end.

(** Entry (i, j) of channel c in the flattened image. *)
Definition flat_index (x : tensor) (c i j : nat) : nat := (c * t_w x * t_h x + i * t_h x + j)%nat.
Definition inside (x : tensor) (c i j : nat) : Prop := (c < t_c x)%nat /\ (i < t_w x)%nat /\ (j < t_h x)%nat.

(** Encoder and decoder of the same images and latent states. *)
Definition pair_of (E : encoder) (D : decoder) : Prop :=
  built_encoder E /\ built_decoder D /\ e_z E = d_z D /\ e_w E = d_w D /\ e_h E = d_h D /\ e_gray E = d_gray D /\
  (dec_min (d_arch D) <= d_w D)%nat /\ (dec_min (d_arch D) <= d_h D)%nat.
Definition divisible (w h : nat) : Prop := (w mod 4 = 0 /\ h mod 4 = 0)%nat.

(** ** Examples: networks of zeros *)
Definition zero_lin (i o : nat) : linear := mkLin i (repeat (repeat 0 i) o) (Some (repeat 0 o)).
Fixpoint zero_hidden (i : nat) (hs : list nat) : list (linear * act) :=
  match hs with
  | [] => []
  | o :: hs' => (zero_lin i o, Relu) :: zero_hidden o hs'
  end.
Definition zero_net (i : nat) (hs : list nat) (o : nat) : network :=
  mkNet (zero_hidden i hs) (zero_lin (last hs i) o).
Definition zero_kernel : kernel := mkKernel (fun _ _ _ _ => 0) (fun _ => 0).

(** CNNDecoder1: the patch of 4 x 4 pixels computed from one entry [v] of the linear
    layer. *)
Definition patch_hidden (K1 : kernel) (o a b : nat) (v : R) : R := Rmax (k_b K1 o + k_w K1 0%nat o a b * v) 0.
Definition patch (K1 K2 : kernel) (c a b : nat) (v : R) : R :=
  sigmoid (k_b K2 c +
    sum_n 16 (fun o => k_w K2 o c (a mod 2) (b mod 2) * patch_hidden K1 o (a / 2) (b / 2) v)).

(** Objects for examples: grayscale, two latent coordinates. *)
Definition enc_lin : encoder := mkEncoder 2 5 3 true LinE (zero_net 30 [500; 500]%nat 4).
Definition dec_lin : decoder := mkDecoder 2 5 3 true LinD (zero_net 2 [500; 500]%nat 30).
Definition enc_cnn1 (w h : nat) : encoder :=
  mkEncoder 2 w h true (CnnE1 zero_kernel zero_kernel) (zero_net (4 * (w / 4) * (h / 4)) [] 4).
Definition dec_cnn1 (w h : nat) : decoder :=
  mkDecoder 2 w h true (CnnD1 zero_kernel zero_kernel) (zero_net 2 [] ((w / 4) * (h / 4))).
Definition enc_cnn2 (w h : nat) : encoder :=
  mkEncoder 2 w h true (CnnE2 zero_kernel zero_kernel zero_kernel zero_kernel)
    (zero_net (10 * ((w - 25) / 8) * ((h - 25) / 8)) [500%nat] 4).
Definition dec_cnn2 (w h : nat) : decoder :=
  mkDecoder 2 w h true (CnnD2 zero_kernel zero_kernel zero_kernel)
    (zero_net 2 [200; 1000]%nat (((w - 28) / 4) * ((h - 28) / 4))).

(** ** Which pixels matter *)

(** Two images of the same sizes that agree on the rows lo..hi and the columns lo'..hi'. *)
Definition agree_on (x x' : tensor) (lo hi lo' hi' : nat) : Prop :=
  has_shape (t_c x) (t_w x) (t_h x) x' /\
  forall c i j, inside x c i j -> (lo <= i <= hi)%nat -> (lo' <= j <= hi')%nat -> t_at x c i j = t_at x' c i j.

(** Zero outside the image. *)
Definition extended (x : tensor) (c : nat) (i j : Z) : R :=
  if (Z.leb 0 i && Z.ltb i (Z.of_nat (t_w x)) && Z.leb 0 j && Z.ltb j (Z.of_nat (t_h x)))%bool
  then t_at x c (Z.to_nat i) (Z.to_nat j) else 0.
