(** Model of /repo/neural_network_lyapunov/encoders.py: the encoders and decoders of
    images.  A tensor is one image of the batch (the layers treat the members of a batch
    apart): numbers of channels, rows ("width") and columns ("height") and its entries.
    [None] is an exception raised by torch. *)

Require Import Reals List Bool Arith ZArith.
Require Import Verif.Vec Verif.ModelNet Verif.ModelLyapunov Verif.ModelLatent.
Import ListNotations.
Open Scope R_scope.

Record tensor := mkTensor { t_c : nat; t_w : nat; t_h : nat; t_at : nat -> nat -> nat -> R }.

Fixpoint sum_n (n : nat) (f : nat -> R) : R :=
  match n with O => 0 | S m => sum_n m f + f m end.

(** The layers of torch.nn used by encoders.py: Conv2d, MaxPool2d(2, 2),
    ConvTranspose2d (padding 0) and Upsample(scale_factor=2). *)
Record kernel := mkKernel { k_w : nat -> nat -> nat -> nat -> R; k_b : nat -> R }.
Inductive ilayer :=
  | Conv (cin cout k stride pad : nat) (K : kernel)
  | Pool
  | ConvT (cin cout k stride : nat) (K : kernel)
  | Up.

Definition padded (pad : nat) (x : tensor) (c i j : nat) : R :=
  if (Nat.leb pad i && Nat.ltb (i - pad) (t_w x) && Nat.leb pad j && Nat.ltb (j - pad) (t_h x))%bool
  then t_at x c (i - pad) (j - pad) else 0.
Definition apply_layer (l : ilayer) (x : tensor) : option tensor :=
  match l with
  | Conv cin cout k stride pad K =>
      if (Nat.eqb (t_c x) cin && Nat.leb k (t_w x + 2 * pad) && Nat.leb k (t_h x + 2 * pad))%bool then
        Some (mkTensor cout ((t_w x + 2 * pad - k) / stride + 1) ((t_h x + 2 * pad - k) / stride + 1)
                (fun o i j => k_b K o +
                   sum_n cin (fun c => sum_n k (fun a => sum_n k (fun b =>
                     k_w K o c a b * padded pad x c (i * stride + a) (j * stride + b))))))
      else None
  | Pool =>
      if (Nat.leb 2 (t_w x) && Nat.leb 2 (t_h x))%bool then
        Some (mkTensor (t_c x) (t_w x / 2) (t_h x / 2)
                (fun c i j => Rmax (Rmax (t_at x c (2 * i) (2 * j)) (t_at x c (2 * i) (2 * j + 1)))
                                   (Rmax (t_at x c (2 * i + 1) (2 * j)) (t_at x c (2 * i + 1) (2 * j + 1)))))
      else None
  | ConvT cin cout k stride K =>
      if (Nat.eqb (t_c x) cin && Nat.ltb 0 (t_w x) && Nat.ltb 0 (t_h x))%bool then
        Some (mkTensor cout ((t_w x - 1) * stride + k) ((t_h x - 1) * stride + k)
                (fun o i j => k_b K o +
                   sum_n cin (fun c => sum_n k (fun a => sum_n k (fun b =>
                     if (Nat.leb a i && Nat.eqb ((i - a) mod stride) 0 && Nat.ltb ((i - a) / stride) (t_w x) &&
                         Nat.leb b j && Nat.eqb ((j - b) mod stride) 0 && Nat.ltb ((j - b) / stride) (t_h x))%bool
                     then k_w K c o a b * t_at x c ((i - a) / stride) ((j - b) / stride) else 0)))))
      else None
  | Up => Some (mkTensor (t_c x) (2 * t_w x) (2 * t_h x) (fun c i j => t_at x c (i / 2) (j / 2)))
  end.
Definition tmap (f : R -> R) (x : tensor) : tensor :=
  mkTensor (t_c x) (t_w x) (t_h x) (fun c i j => f (t_at x c i j)).
Definition trelu : tensor -> tensor := tmap (fun v => Rmax v 0).

(** torch.flatten(x, start_dim=1) and x.view. *)
Definition channel (x : tensor) (c : nat) : vec :=
  concat (map (fun i => map (fun j => t_at x c i j) (seq 0 (t_h x))) (seq 0 (t_w x))).
Definition flatten (x : tensor) : vec := concat (map (channel x) (seq 0 (t_c x))).
Definition view (c w h : nat) (v : vec) : option tensor :=
  if Nat.eqb (length v) (c * w * h)
  then Some (mkTensor c w h (fun k i j => nth (k * w * h + i * h + j) v 0)) else None.

(** The linear layers of an encoder or decoder, with ReLU between them; a wrong number of
    inputs raises. *)
Definition inputs (N : network) : nat :=
  match hidden N with (l, _) :: _ => in_features l | [] => in_features (last_layer N) end.
Definition lin_forward (N : network) (v : vec) : option vec :=
  if Nat.eqb (length v) (inputs N) then Some (forward N v) else None.

(** Encoder.__init__ and Decoder.__init__ — lines 22-25, 57-60. *)
Definition channels (grayscale : bool) : nat := if grayscale then 2 else 6.

(** layers_output_shape — lines 27-39 (without ReLU; it runs self.conv, not its
    argument, which are the same in both uses). *)
Fixpoint plain_layers (ls : list ilayer) (x : tensor) : option tensor :=
  match ls with
  | [] => Some x
  | l :: ls' => match apply_layer l x with Some y => plain_layers ls' y | None => None end
  end.
Definition layers_output_shape (ls : list ilayer) (c w h : nat) (rand : nat -> nat -> nat -> R) : option (nat * nat * nat) :=
  match plain_layers ls (mkTensor c w h rand) with
  | Some y => Some (t_c y, t_w y, t_h y)
  | None => None
  end.
(** The number of inputs of the first linear layer — lines 132-137, 207-212. *)
Definition conv_features (ls : list ilayer) (c w h : nat) (rand : nat -> nat -> nat -> R) : option nat :=
  match layers_output_shape ls c w h rand with
  | Some (a, b, d) => Some (a * b * d)%nat
  | None => None
  end.

(** The loop "x = self.relu(c_layer(x))". *)
Fixpoint relu_layers (ls : list ilayer) (x : tensor) : option tensor :=
  match ls with
  | [] => Some x
  | l :: ls' => match apply_layer l x with Some y => relu_layers ls' (trelu y) | None => None end
  end.
(** The layers of a decoder: no ReLU after the last. *)
Fixpoint decoder_layers (ls : list ilayer) (x : tensor) : option tensor :=
  match ls with
  | [] => Some x
  | [l] => apply_layer l x
  | l :: ls' => match apply_layer l x with Some y => decoder_layers ls' (trelu y) | None => None end
  end.

(** ** LinearEncoder1 and LinearDecoder1 — lines 63-114 *)
Definition linear_encode (z : nat) (N : network) (x : tensor) : option (vec * vec) :=
  match lin_forward N (flatten x) with
  | Some v => Some (firstn z v, skipn z v)
  | None => None
  end.
Definition linear_decode (c w h : nat) (N : network) (z : vec) : option tensor :=
  match lin_forward N z with
  | Some v => match view c w h v with Some y => Some (tmap sigmoid y) | None => None end
  | None => None
  end.

(** ** CNNEncoder1 and CNNEncoder2 — lines 117-153, 191-232 *)
Definition enc1_layers (c : nat) (K1 K2 : kernel) : list ilayer :=
  [Conv c 16 3 1 1 K1; Pool; Conv 16 4 3 1 1 K2; Pool].
Definition enc2_layers (c : nat) (K1 K2 K3 K4 : kernel) : list ilayer :=
  [Conv c 32 5 1 0 K1; Conv 32 32 5 2 0 K2; Conv 32 32 5 2 0 K3; Conv 32 10 5 2 0 K4].
Definition cnn_encode (ls : list ilayer) (z : nat) (N : network) (x : tensor) : option (vec * vec) :=
  match relu_layers ls x with
  | None => None
  | Some y => linear_encode z N y
  end.

(** ** CNNDecoder1 and CNNDecoder2 — lines 156-188, 235-290 *)
Definition dec1_layers (c : nat) (K1 K2 : kernel) : list ilayer := [ConvT 1 16 2 2 K1; ConvT 16 c 2 2 K2].
Definition dec2_layers (c : nat) (K1 K2 K3 : kernel) : list ilayer :=
  [ConvT 1 32 5 1 K1; Up; ConvT 32 32 5 1 K2; Up; ConvT 32 c 5 1 K3].
(** int(image_width / 4) *)
Definition dec1_size (w : nat) : Z := Z.quot (Z.of_nat w) 4.
(** lines 243-249: int() rounds towards zero. *)
Definition dec2_size (w : nat) : Z :=
  (Z.quot (Z.quot (Z.of_nat w - 4) 2 - 4) 2 - 4)%Z.
(** forward: x.view with a size that is not positive raises (two negative sizes have a
    positive product, so the constructor of the linear layer accepts them; a size zero
    raises in the convolution). *)
Definition cnn_decode (ls : list ilayer) (a b : Z) (N : network) (z : vec) : option tensor :=
  match lin_forward N z with
  | None => None
  | Some v =>
      if (Z.ltb 0 a && Z.ltb 0 b)%bool then
        match view 1 (Z.to_nat a) (Z.to_nat b) v with
        | Some y => match decoder_layers ls y with Some u => Some (tmap sigmoid u) | None => None end
        | None => None
        end
      else None
  end.

(** ** The classes: an object is its sizes, the parameters of its convolutions and its
    linear layers *)
Inductive enc_arch := LinE | CnnE1 (K1 K2 : kernel) | CnnE2 (K1 K2 K3 K4 : kernel).
Inductive dec_arch := LinD | CnnD1 (K1 K2 : kernel) | CnnD2 (K1 K2 K3 : kernel).
Record encoder := mkEncoder { e_z : nat; e_w : nat; e_h : nat; e_gray : bool; e_arch : enc_arch; e_net : network }.
Record decoder := mkDecoder { d_z : nat; d_w : nat; d_h : nat; d_gray : bool; d_arch : dec_arch; d_net : network }.

(** The widths of the linear layers computed by the constructors; [None]: the
    constructor raises (the test convolution of a small image, or a linear layer with a
    negative number of outputs). *)
Definition encoder_dims (E : encoder) (rand : nat -> nat -> nat -> R) : option (list nat) :=
  let c := channels (e_gray E) in
  match e_arch E with
  | LinE => Some [c * e_w E * e_h E; 500; 500; e_z E * 2]%nat
  | CnnE1 K1 K2 =>
      match conv_features (enc1_layers c K1 K2) c (e_w E) (e_h E) rand with
      | Some f => Some [f; e_z E * 2]%nat
      | None => None
      end
  | CnnE2 K1 K2 K3 K4 =>
      match conv_features (enc2_layers c K1 K2 K3 K4) c (e_w E) (e_h E) rand with
      | Some f => Some [f; 500; e_z E * 2]%nat
      | None => None
      end
  end.
Definition outputs_of (a b : Z) : option nat :=
  if Z.ltb (a * b) 0 then None else Some (Z.to_nat (a * b)).
Definition decoder_dims (D : decoder) : option (list nat) :=
  match d_arch D with
  | LinD => Some [d_z D; 500; 500; channels (d_gray D) * d_w D * d_h D]%nat
  | CnnD1 _ _ =>
      match outputs_of (dec1_size (d_w D)) (dec1_size (d_h D)) with
      | Some o => Some [d_z D; o]
      | None => None
      end
  | CnnD2 _ _ _ =>
      match outputs_of (dec2_size (d_w D)) (dec2_size (d_h D)) with
      | Some o => Some [d_z D; 200; 1000; o]%nat
      | None => None
      end
  end.

(** forward. *)
Definition encode (E : encoder) (x : tensor) : option (vec * vec) :=
  let c := channels (e_gray E) in
  match e_arch E with
  | LinE => linear_encode (e_z E) (e_net E) x
  | CnnE1 K1 K2 => cnn_encode (enc1_layers c K1 K2) (e_z E) (e_net E) x
  | CnnE2 K1 K2 K3 K4 => cnn_encode (enc2_layers c K1 K2 K3 K4) (e_z E) (e_net E) x
  end.
Definition decode (D : decoder) (z : vec) : option tensor :=
  let c := channels (d_gray D) in
  match d_arch D with
  | LinD => linear_decode c (d_w D) (d_h D) (d_net D) z
  | CnnD1 K1 K2 => cnn_decode (dec1_layers c K1 K2) (dec1_size (d_w D)) (dec1_size (d_h D)) (d_net D) z
  | CnnD2 K1 K2 K3 => cnn_decode (dec2_layers c K1 K2 K3) (dec2_size (d_w D)) (dec2_size (d_h D)) (d_net D) z
  end.

(** An image of ModelLatent as a tensor and back. *)
Definition to_image (x : tensor) : image := map (channel x) (seq 0 (t_c x)).
Definition of_image (w h : nat) (x : image) : tensor :=
  mkTensor (length x) w h (fun c i j => nth (i * h + j) (nth c x []) 0).
(** enc_forward and dec_forward as used by ModelLatent (an exception is an empty answer;
    the theorems show that there is none). *)
Definition enc_of (E : encoder) (x : image) : vec * vec :=
  match encode E (of_image (e_w E) (e_h E) x) with Some q => q | None => ([], []) end.
Definition dec_of (D : decoder) (z : vec) : image :=
  match decode D z with Some y => to_image y | None => [] end.
