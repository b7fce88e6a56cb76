(** Model of /repo/neural_network_lyapunov/dynamics_learning.py, class
    LatentSpaceDynamicsLearning: the system and the Lyapunov function live in the
    space of an encoder of images; and of SigmoidAnneal, utils.py:1205-1231.

    An image is a list of channels, a channel the list of its pixels.  The encoder and
    the decoder are functions of one image or one latent state (they treat the members
    of a batch apart).  The noise of torch.randn is an argument.  [None] is a raised
    exception or nan; all images of a batch have the same shape. *)

Require Import Reals List Bool Arith.
Require Import Verif.Vec Verif.ModelNet Verif.ModelLyapunov Verif.ModelSystems Verif.ModelDynLearn.
Import ListNotations.
Open Scope R_scope.

Definition image := list vec.

(** utils.SigmoidAnneal.__call__ — utils.py:1221-1231. *)
Definition sigmoid (x : R) : R := / (1 + exp (- x)).
Definition anneal (lo up : R) (center steps : Z) (step : nat) : R :=
  lo + (up - lo) * sigmoid ((INR step - IZR center) / IZR steps).

(** torch.nn.BCELoss for one entry: the prediction has to lie in [0, 1] and the
    logarithms are clamped at -100. *)
Definition clamped_log (p : R) : R := if Rlt_dec 0 p then Rmax (ln p) (-100) else -100.
Definition bce (p y : R) : option R :=
  if Rle_dec 0 p then
    if Rle_dec p 1 then Some (- (y * clamped_log p + (1 - y) * clamped_log (1 - p)))
    else None
  else None.
Definition bces (ps ys : vec) : option vec := all_some (map2 bce ps ys).
(** reduction 'mean' over all entries. *)
Definition bce_loss (ps ys : vec) : option R :=
  match bces ps ys with Some l => mean l | None => None end.

(** The options use_variational, use_bce, kl_weight_lo, kl_weight_up,
    kl_weight_center_step, kl_weight_steps_lo_to_up, decoded_equilibrium_loss_weight,
    z_lo_stable, z_up_stable and the member decoded_equilibrium. *)
Record lat_opt := mkLatOpt {
  t_var : bool; t_bce : bool;
  t_kl_lo : R; t_kl_up : R; t_kl_center : Z; t_kl_steps : Z;
  t_eq_weight : R; t_z_lo : vec; t_z_up : vec; t_eq : option image }.

Section Latent.
Variables (enc : image -> vec * vec) (dec : vec -> image).
Variable L : learner.
Variable T : lat_opt.

(** reparam — lines 706-716. *)
Definition reparam (eps mu lv : vec) : vec :=
  vadd (map2 Rmult eps (map (fun v => exp (/ 2 * v)) lv)) mu.

(** The latent state of an image — lines 731-736, 747-751. *)
Definition latent (eps : vec) (x : image) : vec :=
  let '(mu, lv) := enc x in if t_var T then reparam eps mu lv else mu.

(** vae_forward — lines 718-739: x_decoded, x_next_pred_decoded and z_next. *)
Definition vae_forward (eps : vec) (x : image) : image * image * vec :=
  let z := latent eps x in
  let z' := auto_step (l_sys L) z in
  (dec z, dec z', z').

(** lyapunov_loss_at_samples — lines 741-754. *)
Definition latent_sample_losses (noise : list vec) (xs : list image) : option (R * R * R) :=
  losses_at_samples L (t_z_lo T) (t_z_up T) (map2 latent noise xs).

(** kl_loss — lines 756-769. *)
Definition kl_one (mu lv : vec) : R :=
  - (/ 2) * vsum (map2 (fun m v => - m ^ 2 - exp v + v + 1) mu lv).
Definition kl_weight (n_iter : nat) : R :=
  anneal (t_kl_lo T) (t_kl_up T) (t_kl_center T) (t_kl_steps T) n_iter.
Definition kl_loss (n_iter : nat) (codes : list (vec * vec)) : option R :=
  match mean (map (fun c => kl_one (fst c) (snd c)) codes) with
  | None => None
  | Some l => Some (kl_weight n_iter * l)
  end.

(** reconstruction_loss — lines 771-782: without BCE only the entry 0 of the vector of
    losses of the batch is returned. *)
Definition reconstruction_loss (xs xs_decoded : list image) : option R :=
  if t_bce T then bce_loss (concat (map (@concat R) xs_decoded)) (concat (map (@concat R) xs))
  else match xs, xs_decoded with
       | x :: _, d :: _ => mean (squares (concat x) (concat d))
       | _, _ => None
       end.

(** The frames to predict — lines 790-793. *)
Definition target (x x_next : image) : image :=
  if Nat.ltb (length x_next) (length x) then skipn (length x_next) x ++ x_next else x_next.

Definition oplus (a b : option R) : option R :=
  match a, b with Some u, Some v => Some (u + v) | _, _ => None end.

(** dynamics_loss — lines 784-812. *)
Definition latent_dynamics_loss (noise : list vec) (n_iter : nat) (xs nexts : list image) : option R :=
  match l_xeq L with
  | None => None
  | Some xeq =>
      let outs := map2 vae_forward noise xs in
      let rec := oplus (reconstruction_loss xs (map (fun q => fst (fst q)) outs))
                       (reconstruction_loss (map2 target xs nexts) (map (fun q => snd (fst q)) outs)) in
      let kl := if t_var T then oplus rec (kl_loss n_iter (map enc xs)) else rec in
      match t_eq T with
      | None => kl
      | Some e =>
          oplus kl (match reconstruction_loss [e] [dec xeq] with
                    | None => None
                    | Some l => Some (t_eq_weight T * l)
                    end)
      end
  end.

(** lyapunov_value of z.squeeze() as called by rollout: with one latent dimension
    squeeze() leaves no dimension and the first layer raises. *)
Definition squeezed_value (xeq z : vec) : option R :=
  if Nat.eqb (length z) 1 then None
  else lyapunov_value (l_net L) (l_dim L) (o_R (l_opt L)) xeq (o_lam (l_opt L)) z.

(** One loop of rollout with decode_intermediate — lines 857-868: the next frames and
    latent states; [c] is num_channels. *)
Fixpoint frame_roll (c N : nat) (noise : nat -> vec) (f0 f1 : image) : list (image * vec) :=
  match N with
  | O => []
  | S N' =>
      let '(_, xn, zn) := vae_forward (noise O) (f0 ++ f1) in
      let f2 := skipn c xn in
      (f2, zn) :: frame_roll c N' (fun k => noise (S k)) f1 f2
  end.

(** rollout — lines 814-871: frames, Lyapunov values, latent states.  The two halves of
    x_init have to have the same number of channels (simplified: an image of one
    channel, whose two halves broadcast, raises as well), and so have the decoded
    frames. *)
Definition latent_rollout (x_init : image) (N : nat) (decode : bool) (noise : nat -> vec)
  : option (list image * vec * list vec) :=
  let c := (length x_init / 2)%nat in
  if negb (Nat.even (length x_init)) then None else
  match l_xeq L with
  | None => None
  | Some xeq =>
      let f0 := firstn c x_init in
      let f1 := skipn c x_init in
      let z0 := fst (enc x_init) in
      let '(frames, zs) :=
        if decode then
          let q := frame_roll c N noise f0 f1 in (map fst q, z0 :: map snd q)
        else
          let zs := roll L N z0 in (map (fun z => skipn c (dec z)) (tl zs), zs) in
      if forallb (fun f => Nat.eqb (length f) c) frames then
        match traverse (squeezed_value xeq) zs with
        | None => None
        | Some vs => Some (f0 :: f1 :: frames, vs, zs)
        end
      else None
  end.

(** rollout_loss — lines 873-893: nn.BCELoss takes the prediction first; here the
    expected rollout comes first. *)
Definition latent_rollout_loss (expected : list image) (decode : bool) (noise : nat -> vec) : option vec :=
  match expected with
  | e0 :: e1 :: _ =>
      match latent_rollout (e0 ++ e1) (length expected - 2) decode noise with
      | None => None
      | Some (frames, _, _) =>
          all_some (map2 (fun e p : image =>
              if t_bce T then bce_loss (concat e) (concat p)
              else mean (squares (concat e) (concat p))) expected frames)
      end
  | _ => None
  end.
End Latent.
