(** What the unicycle closed loop is meant to do. *)

Require Import Reals List.
Require Import Verif.Vec Verif.ModelMip Verif.SpecMip Verif.ModelNet Verif.SpecNet Verif.ModelSystems
  Verif.SpecSystems Verif.SpecCore Verif.ModelUniFeedback.
Import ListNotations.
Open Scope R_scope.

(** Built by the constructor, with limits that can be encoded and a matrix R_u of
    two columns. *)
Definition uni_built (U : uni_feedback) : Prop :=
  let F := uf_fb U in
  controller_wf (f_nx (fb_fwd F)) (f_nu (fb_fwd F)) (fb_ctl F) /\
  length (f_lo (fb_fwd F)) = f_nx (fb_fwd F) /\ length (f_up (fb_fwd F)) = f_nx (fb_fwd F) /\
  Forall2 limit_ok (fb_lower F) (fb_upper F) /\ wfm (length (uf_R U)) 2 (uf_R U) /\
  new_uni (fb_fwd F) (fb_ctl F) (fb_lower F) (fb_upper F) (fb_meth F) (uf_lambda U) (uf_R U) = Some U.

(** The command before saturation: phi(x) - phi(0), plus lambda |R p|_1 for the
    velocity, p the position. *)
Definition uni_command (U : uni_feedback) (px py th : R) : R * R :=
  let phi x i := nth i (controller_forward (fb_ctl (uf_fb U)) x) 0 in
  let l1 := fold_right Rplus 0 (map (fun r => Rabs (nth 0 r 0 * px + nth 1 r 0 * py)) (uf_R U)) in
  (phi [px; py; th] 0%nat - phi [0; 0; 0] 0%nat + uf_lambda U * l1,
   phi [px; py; th] 1%nat - phi [0; 0; 0] 1%nat).

(** One step of the closed loop from a state in the box. *)
Definition uni_next (U : uni_feedback) (Tf : vec -> vec -> vec -> Prop) (x x' : vec) : Prop :=
  in_box (f_lo (fb_fwd (uf_fb U))) (f_up (fb_fwd (uf_fb U))) x /\
  exists u, uni_u U x = Some u /\ Tf x u x'.

(** The velocity command is positive at every state close to the origin. *)
Definition uni_moves_near_origin (U : uni_feedback) : Prop :=
  exists d, 0 < d /\ forall px py th, Rabs px < d -> Rabs py < d -> Rabs th < d ->
    (px <> 0 \/ py <> 0) ->
    exists v w, uni_u U [px; py; th] = Some [v; w] /\ 0 < v.
