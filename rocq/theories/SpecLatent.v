(** What the learner in latent space (ModelLatent) is about. *)

Require Import Reals List.
Require Import Verif.Vec Verif.SpecCore Verif.ModelNet Verif.ModelGrad Verif.ModelLyapunov Verif.SpecLyapunov
  Verif.ModelExamples Verif.ModelSystems Verif.ModelDynLearn Verif.SpecDynLearn Verif.ModelLatent.
Import ListNotations.
Open Scope R_scope.

(** Divergence of the normal distribution (mu, exp lv) from the standard normal
    distribution, coordinate by coordinate. *)
Definition kl_coordinate (m v : R) : R := (m ^ 2 + exp v - 1 - v) / 2.

(** Targets of a cross entropy that the clamped logarithms do not distort. *)
Definition fair_target (y : R) : Prop := y = 0 \/ y = 1 \/ exp (-99) <= y <= 1 - exp (-99).

(** Encoder and decoder fit: latent states of dimension n, images of 2 c channels. *)
Definition coder_fits (n c : nat) (enc : image -> vec * vec) (dec : vec -> image) : Prop :=
  (forall x, length x = (2 * c)%nat -> length (fst (enc x)) = n /\ length (snd (enc x)) = n) /\
  (forall z, length z = n -> length (dec z) = (2 * c)%nat).

(** A rollout through images: each pair of frames is encoded, moved by one step and
    decoded; the second half is the next frame. *)
Fixpoint frame_at (enc : image -> vec * vec) (dec : vec -> image) (L : learner) (T : lat_opt)
    (noise : nat -> vec) (c k : nat) (f0 f1 : image) : image * image :=
  match k with
  | O => (f0, f1)
  | S k' => let '(a, b) := frame_at enc dec L T noise c k' f0 f1 in
            (b, skipn c (dec (l_step L (latent enc T (noise k') (a ++ b)))))
  end.

(** ** Examples *)

(** Two latent coordinates, x' = relu(x) / 2, V(x) = |x1| / 2 + |x|_1. *)
Definition net_two : network :=
  mkNet [(mkLin 2 [[1; 0]; [0; 1]] (Some [0; 0]), Relu)] (mkLin 2 [[1/2; 0]; [0; 1/2]] (Some [0; 0])).
Definition learner_two : learner :=
  mkLearner net_abs2 IA (mkAuto net_two [-1; -1] [1; 1] IA (AGiven [0; 0] true))
    (mkDlOpt 1 (1/2) (1/4) 1 None 1 1 1 1 1 1 [-1; -1] [1; 1] true).
(** Two frames of one pixel. *)
Definition pixel (k : nat) (x : image) : R := nth 0 (nth k x []) 0.
Definition enc_two (x : image) : vec * vec := ([pixel 0 x; pixel 1 x], [0; 0]).
Definition dec_two (z : vec) : image := [[nth 0 z 0]; [nth 1 z 0]].
Definition lat_ex (var bce : bool) : lat_opt := mkLatOpt var bce 0 1 100 10 1 [-1; -1] [1; 1] None.
