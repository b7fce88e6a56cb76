(** What the constraints of a system and of a closed loop have to say. *)

Require Import Reals List.
Require Import Verif.Vec Verif.ModelMip Verif.SpecMip Verif.SpecCore Verif.ModelNet Verif.SpecNet
  Verif.SpecStep Verif.ModelHybrid Verif.ModelSystems.
Import ListNotations.
Open Scope R_scope.

(** The constructor accepted the system; its network has n inputs. *)
Definition auto_built (n : nat) (A : auto_sys) : Prop :=
  net_wf n (au_net A) /\ length (au_lo A) = n /\
  new_auto (au_net A) (au_lo A) (au_up A) (au_meth A) (au_kind A) = Some A.
Definition ctl_built (C : ctl_sys) : Prop :=
  net_wf (x_size (ct_net C)) (ct_net C) /\
  new_ctl (ct_net C) (ct_xlo C) (ct_xup C) (ct_ulo C) (ct_uup C) (ct_kind C) = Some C.

(** [nq = nv] is needed for a position and a velocity of the same dimension; the
    indices of a residue system have to exist. *)
Definition ctl_usable (S : ctl_sys) : Prop :=
  match ct_kind S with
  | CSecond _ _ _ => ct_nq S = ct_nv S
  | CResidue _ _ _ idx => ct_nq S = ct_nv S /\ Forall (fun i => (i < ct_nx S)%nat) idx
  | _ => True
  end.

(** One step of an autonomous system from a state in its box. *)
Definition auto_next (A : auto_sys) (x x' : vec) : Prop :=
  in_box (au_lo A) (au_up A) x /\ x' = auto_step A x.

(** The part of the state that the system confines to its bounds: all of it, or
    only the coordinates that enter the network of a residue system. *)
Definition confined (C : ctl_sys) (x : vec) : Prop :=
  match ct_kind C with
  | CResidue _ _ _ idx =>
      Forall (fun i => nth i (ct_xlo C) 0 <= nth i x 0 <= nth i (ct_xup C) 0) idx
  | _ => in_box (ct_xlo C) (ct_xup C) x
  end.
(** One step of a system with an input. *)
Definition ctl_next (C : ctl_sys) (x u x' : vec) : Prop :=
  confined C x /\ in_box (ct_ulo C) (ct_uup C) u /\ ctl_step C x u = Some x'.

(** The constraints of a forward system describe the transitions [Tf]; points
    whose input is within the additional bounds are kept. *)
Definition forward_contract (st : bool) (f : fwd_sys) (Tf : vec -> vec -> vec -> Prop) : Prop :=
  forall vt m m' xv xn uv alo aup r, vt <> VCont -> history st m ->
    below (nvars m) xv -> below (nvars m) xn -> below (nvars m) uv ->
    length xv = f_nx f -> length xn = f_nx f -> length uv = f_nu f ->
    length alo = f_nu f -> length aup = f_nu f ->
    f_add f xv xn uv (Some alo) (Some aup) vt m = Some (m', r) ->
    step vt st m m'
      (fun sg => in_box alo aup (map sg uv) /\ Tf (map sg xv) (map sg uv) (map sg xn))
      (fun sg => Tf (map sg xv) (map sg uv) (map sg xn)).

(** Limits of one input that leave a value. *)
Definition limit_any (lo up : ext) : Prop :=
  match lo, up with
  | PInf, _ | _, NInf => False
  | Fin a, Fin b => a <= b
  | _, _ => True
  end.
(** Limits that can be encoded: both finite and ordered, or both absent. *)
Definition limit_ok (lo up : ext) : Prop :=
  match lo, up with
  | Fin a, Fin b => a <= b
  | NInf, PInf => True
  | _, _ => False
  end.
(** The value within the limits that is nearest to p. *)
Definition saturate (lo up : ext) (p : R) : R :=
  match lo, up with
  | Fin a, Fin b => clamp a b p
  | Fin a, _ => Rmax p a
  | _, Fin b => Rmin p b
  | _, _ => p
  end.
Fixpoint saturates (lower upper : list ext) (p : vec) : vec :=
  match lower, upper, p with
  | lo :: lower', up :: upper', a :: p' => saturate lo up a :: saturates lower' upper' p'
  | _, _, _ => []
  end.
Definition within_limits (lower upper : list ext) (u : vec) : Prop :=
  Forall2 ext_le_r lower u /\ Forall2 r_le_ext u upper.

(** The controller fits the forward system. *)
Definition controller_wf (nx nu : nat) (k : controller) : Prop :=
  match k with
  | CtlNet N => net_wf nx N /\ out_features (last_layer N) = nu
  | CtlLinear l => lin_wf nx l /\ out_features l = nu
  end.
Definition is_net (k : controller) : Prop :=
  match k with CtlNet _ => True | CtlLinear _ => False end.
(** The constraints of the forward system keep the state in its box. *)
Definition confines (f : fwd_sys) (Tf : vec -> vec -> vec -> Prop) : Prop :=
  forall x u x', length x = f_nx f -> length u = f_nu f -> Tf x u x' -> in_box (f_lo f) (f_up f) x.
Definition feedback_built (F : feedback) : Prop :=
  controller_wf (f_nx (fb_fwd F)) (f_nu (fb_fwd F)) (fb_ctl F) /\
  length (f_lo (fb_fwd F)) = f_nx (fb_fwd F) /\ length (f_up (fb_fwd F)) = f_nx (fb_fwd F) /\
  Forall2 limit_ok (fb_lower F) (fb_upper F) /\
  new_feedback (fb_fwd F) (fb_ctl F) (fb_xeq F) (fb_ueq F) (fb_lower F) (fb_upper F) (fb_meth F)
    = Some F.

(** The forward system accepts the constraints whenever the additional bounds
    contain an input in [U]. *)
Definition forward_total (U : vec -> Prop) (f : fwd_sys) : Prop :=
  forall vt m xv xn uv alo aup u, length xv = f_nx f -> length xn = f_nx f ->
    length uv = f_nu f -> length alo = f_nu f -> length aup = f_nu f ->
    in_box alo aup u -> U u -> f_add f xv xn uv (Some alo) (Some aup) vt m <> None.

(** One step of the closed loop from a state in the box. *)
Definition fb_next (F : feedback) (Tf : vec -> vec -> vec -> Prop) (x x' : vec) : Prop :=
  in_box (f_lo (fb_fwd F)) (f_up (fb_fwd F)) x /\
  exists u, compute_u F x = Some u /\ Tf x u x'.
