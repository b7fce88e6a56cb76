(** The search directions of LineSearchGD.step. *)

Require Import Reals List Lra Lia.
Require Import Verif.Vec Verif.VecFacts Verif.ModelOptim Verif.SpecOptim Verif.ProofOptim.
Import ListNotations.
Open Scope R_scope.

Lemma dot_neg_self : forall a, dot a (vscale (-1) a) <= 0.
Proof. induction a as [|x a IH]; [cbn; lra|]. cbn [vscale map dot]. change (map (Rmult (-1)) a) with (vscale (-1) a). nra. Qed.

Lemma plain_direction : forall decay dampening nesterov p g buf, length p = length g ->
  exists g' d, gd_direction decay 0 dampening nesterov p g buf = (g', d, buf) /\
  (forall i, nth i g' 0 = nth i g 0 + decay * nth i p 0) /\ (forall i, nth i d 0 = - nth i g' 0) /\
  length d = length g /\ dot g' d <= 0.
Proof.
  intros decay dampening nesterov p g buf L. unfold gd_direction. cbv zeta.
  destruct (Req_EM_T 0 0) as [_|n]; [|lra].
  assert (E : exists g' : vec, (if Req_EM_T decay 0 then g else vadd g (vscale decay p)) = g' /\
    (forall i, nth i g' 0 = nth i g 0 + decay * nth i p 0) /\ length g' = length g).
  { destruct (Req_EM_T decay 0) as [->|_]; eexists; split; try reflexivity; split; intros.
    - lra.
    - reflexivity.
    - rewrite nth_vadd by (rewrite vscale_length; auto). rewrite nth_vscale. reflexivity.
    - rewrite vadd_length; rewrite ?vscale_length; auto. }
  destruct E as (g' & E & H & Lg). set (g0 := if Req_EM_T decay 0 then _ else _). change (g0 = g') in E. rewrite E. exists g', (vscale (-1) g'). split; [reflexivity|]. split; [exact H|].
  split; [intros; rewrite nth_vscale; lra|]. split; [rewrite vscale_length; exact Lg|apply dot_neg_self].
Qed.

Definition blend (mu tau : R) (b g : vec) : vec := vadd (vscale mu b) (vscale (1 - tau) g).
Lemma buffer_step : forall mu tau nest gs g b, mu <> 0 ->
  gd_buffer mu tau nest (g :: gs) (Some b) = gd_buffer mu tau nest gs (Some (blend mu tau b g)).
Proof.
  intros. cbn [gd_buffer]. unfold gd_direction. destruct (Req_EM_T 0 0); [|lra].
  destruct (Req_EM_T mu 0); [contradiction|]. reflexivity.
Qed.
Lemma buffer_run : forall mu tau nest n gs b, mu <> 0 -> length b = n -> Forall (fun g => length g = n) gs ->
  exists c, gd_buffer mu tau nest gs (Some b) = Some c /\ length c = n /\
  forall i, nth i c 0 = mu ^ length gs * nth i b 0 + (1 - tau) * discounted mu i gs.
Proof.
  intros mu tau nest n gs. induction gs as [|g gs IH]; intros b M L F.
  - exists b. cbn. repeat split; auto. intros. lra.
  - rewrite buffer_step by auto. inversion F; subst.
    assert (Lb : length (blend mu tau b g) = length b).
    { unfold blend. rewrite vadd_length; rewrite ?vscale_length; auto. }
    destruct (IH (blend mu tau b g) M Lb H2) as (c & E & Lc & Hc).
    exists c. split; [exact E|]. split; [exact Lc|]. intros i. rewrite Hc. unfold blend.
    rewrite nth_vadd by (rewrite !vscale_length; auto). rewrite !nth_vscale. cbn [length pow discounted]. unfold vec. ring.
Qed.
Lemma momentum_buffer : forall mu tau nest n g gs, mu <> 0 -> Forall (fun g => length g = n) (g :: gs) ->
  exists b, gd_buffer mu tau nest (g :: gs) None = Some b /\ length b = n /\
  forall i, nth i b 0 = mu ^ length gs * nth i g 0 + (1 - tau) * discounted mu i gs.
Proof.
  intros mu tau nest n g gs M F. inversion F; subst. cbn [gd_buffer]. unfold gd_direction at 1.
  destruct (Req_EM_T 0 0); [|lra]. destruct (Req_EM_T mu 0); [contradiction|].
  apply (buffer_run mu tau nest (length g) gs g); auto.
Qed.
Lemma momentum_direction : forall mu tau nest n g gs last, mu <> 0 -> Forall (fun g => length g = n) (g :: gs ++ [last]) ->
  exists b d, gd_direction 0 mu tau nest [] last (gd_buffer mu tau nest (g :: gs) None) = (last, d, Some b) /\
  gd_buffer mu tau nest (g :: gs ++ [last]) None = Some b /\
  (forall i, nth i b 0 = mu ^ S (length gs) * nth i g 0 + (1 - tau) * discounted mu i (gs ++ [last])) /\
  forall i, nth i d 0 = if nest then - (nth i last 0 + mu * nth i b 0) else - nth i b 0.
Proof.
  intros mu tau nest n g gs last M F.
  assert (F1 : Forall (fun g => length g = n) (g :: gs)).
  { apply Forall_forall. intros x Hx. rewrite Forall_forall in F. apply F. destruct Hx; [left|right]; auto. apply in_or_app; auto. }
  assert (Ll : length last = n).
  { rewrite Forall_forall in F. apply F. right. apply in_or_app. right. left. reflexivity. }
  destruct (momentum_buffer mu tau nest n g gs M F1) as (b0 & E0 & L0 & _).
  destruct (momentum_buffer mu tau nest n g (gs ++ [last]) M F) as (b & E & L & Hb).
  assert (S : b = blend mu tau b0 last).
  { assert (X : forall l a, gd_buffer mu tau nest (l ++ [last]) a =
       match gd_buffer mu tau nest l a with Some c => Some (blend mu tau c last) | None => Some last end).
    { induction l as [|x l IH]; intros a.
      - cbn [app gd_buffer]. unfold gd_direction. destruct (Req_EM_T 0 0); [|lra]. destruct (Req_EM_T mu 0); [contradiction|].
        destruct a; reflexivity.
      - cbn [app gd_buffer]. destruct (gd_direction 0 mu tau nest [] x a) as [[? ?] c]. apply IH. }
    change (g :: gs ++ [last]) with ((g :: gs) ++ [last]) in E. rewrite X, E0 in E. congruence. }
  rewrite E0. unfold gd_direction. destruct (Req_EM_T 0 0); [|lra]. destruct (Req_EM_T mu 0); [contradiction|].
  exists b. eexists. fold (blend mu tau b0 last). rewrite <- S. split; [reflexivity|]. split; [exact E|].
  split.
  - intros i. rewrite Hb. rewrite app_length. cbn [length]. rewrite Nat.add_1_r. reflexivity.
  - intros i. destruct nest; rewrite nth_vscale.
    + rewrite nth_vadd by (rewrite vscale_length; congruence). rewrite nth_vscale. ring.
    + ring.
Qed.

Lemma momentum_case : gd_direction 0 (1 / 2) 0 true [] [4] (gd_buffer (1 / 2) 0 true [[2]; [0]] None) = ([4], [-1 * (4 + 1 / 2 * (1 / 2 * (1 / 2 * 2 + (1 - 0) * 0) + (1 - 0) * 4))], Some [1 / 2 * (1 / 2 * 2 + (1 - 0) * 0) + (1 - 0) * 4]).
Proof.
  cbn [gd_buffer]. unfold gd_direction. destruct (Req_EM_T 0 0); [|lra]. destruct (Req_EM_T (1 / 2) 0); [lra|]. reflexivity.
Qed.
