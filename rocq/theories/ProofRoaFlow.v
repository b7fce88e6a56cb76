(** Solutions that start below the smallest value on the boundary stay in the box. *)

Require Import Reals List Lia Lra Bool Arith Classical_Prop.
Require Import Verif.Vec Verif.VecFacts Verif.ModelMip Verif.SpecMip Verif.SpecCore
  Verif.SpecUtils Verif.ModelNet Verif.SpecNet Verif.ModelLyapunov Verif.SpecLyapunov
  Verif.ModelContinuous Verif.SpecContinuous Verif.SpecRoaFlow Verif.ProofContinuous5.
Import ListNotations.
Open Scope R_scope.

(** Induction along [0, b]. *)
Lemma real_induction : forall (P : R -> Prop) b, 
  (forall s, 0 <= s <= b -> (forall r, 0 <= r < s -> P r) -> P s) ->
  (forall s, 0 <= s < b -> (forall r, 0 <= r <= s -> P r) ->
     exists del, 0 < del /\ forall r, s < r < s + del -> r <= b -> P r) ->
  forall t, 0 <= t <= b -> P t.
Proof.
  intros P b Hs Ho t Ht.
  set (E := fun s => 0 <= s <= b /\ forall r, 0 <= r <= s -> P r).
  assert (E0 : E 0).
  { split; [lra|]. intros r Hr. apply Hs; [lra|]. intros q Hq. lra. }
  destruct (completeness E) as (m & U & L).
  { exists b. intros s [Hb _]. lra. }
  { exists 0. exact E0. }
  assert (M0 : 0 <= m) by (apply U, E0).
  assert (Mb : m <= b) by (apply L; intros s [Hb _]; lra).
  assert (Pl : forall r, 0 <= r < m -> P r).
  { intros r Hr. apply NNPP. intros Hn. assert (K : m <= r); [|lra].
    apply L. intros s [_ Es]. destruct (Rle_lt_dec s r) as [|Hl]; auto.
    exfalso. apply Hn, Es. lra. }
  assert (Pm : forall r, 0 <= r <= m -> P r).
  { intros r Hr. destruct (Req_dec r m) as [ -> |D]; [|apply Pl; lra].
    apply Hs; [lra|exact Pl]. }
  destruct (Rle_lt_dec t m) as [Hl|Hl]; [apply Pm; lra|exfalso].
  destruct (Ho m ltac:(lra) Pm) as (del & Hd & K).
  set (q := Rmin (m + del / 2) t).
  assert (Q1 : m < q) by (unfold q, Rmin; destruct Rle_dec; lra).
  assert (Q2 : q <= m + del / 2) by (unfold q; apply Rmin_l).
  assert (Q3 : q <= t) by (unfold q; apply Rmin_r).
  assert (Eq : E q).
  { split; [lra|]. intros r Hr. destruct (Rle_lt_dec r m); [apply Pm; lra|]. apply K; lra. }
  specialize (U q Eq). lra.
Qed.

(** Finitely many strict inequalities between continuous functions persist. *)
Lemma cont_above : forall b f c s, cont_on b f -> 0 <= s < b -> c < f s ->
  exists del, 0 < del /\ forall r, s < r < s + del -> r <= b -> c < f r.
Proof.
  intros b f c s C Hs H. destruct (C s ltac:(lra) (f s - c) ltac:(lra)) as (del & Hd & K).
  exists del. split; auto. intros r Hr Hb.
  assert (A : Rabs (r - s) < del) by (rewrite Rabs_right; lra).
  specialize (K r ltac:(lra) A). apply Rabs_def2 in K. lra.
Qed.
Lemma cont_limit : forall b f c s, cont_on b f -> 0 < s <= b -> (forall r, 0 <= r < s -> c < f r) -> c <= f s.
Proof.
  intros b f c s C Hs H. destruct (Rle_lt_dec c (f s)) as [|Hl]; auto. exfalso.
  destruct (C s ltac:(lra) (c - f s) ltac:(lra)) as (del & Hd & K).
  set (r := s - Rmin (del / 2) (s / 2)).
  assert (Rmin (del / 2) (s / 2) <= del / 2) by apply Rmin_l.
  assert (Rmin (del / 2) (s / 2) <= s / 2) by apply Rmin_r.
  assert (0 < Rmin (del / 2) (s / 2)) by (unfold Rmin; destruct Rle_dec; lra).
  assert (A : Rabs (r - s) < del) by (unfold r; rewrite Rabs_left; lra).
  specialize (K r ltac:(unfold r; lra) A). specialize (H r ltac:(unfold r; lra)). apply Rabs_def2 in K. lra.
Qed.
Lemma cont_neg : forall b f, cont_on b f -> cont_on b (fun s => - f s).
Proof.
  intros b f C. apply (cont_ext b (fun s => -1 * f s)); [intros; ring|apply cont_scale; auto].
Qed.
Lemma all_open : forall (P : nat -> R -> Prop) s b n,
  (forall i, (i < n)%nat -> exists del, 0 < del /\ forall r, s < r < s + del -> r <= b -> P i r) ->
  exists del, 0 < del /\ forall r, s < r < s + del -> r <= b -> forall i, (i < n)%nat -> P i r.
Proof.
  intros P s b n. induction n as [|n IH]; intros H.
  - exists 1. split; [lra|]. intros; lia.
  - destruct IH as (d1 & D1 & K1); [intros; apply H; lia|].
    destruct (H n ltac:(lia)) as (d2 & D2 & K2).
    exists (Rmin d1 d2). split; [apply Rmin_pos; auto|]. intros r Hr Hb i Hi.
    assert (Rmin d1 d2 <= d1) by apply Rmin_l. assert (Rmin d1 d2 <= d2) by apply Rmin_r.
    destruct (Nat.eq_dec i n) as [ -> |]; [apply K2|apply K1]; auto; try lra; lia.
Qed.

Section Stay.
Variable n : nat.
Variables lo up : vec.
Hypothesis Llo : length lo = n.
Hypothesis Lup : length up = n.
Variable T : vec -> vec -> Prop.
Variable Vf : vec -> R.
Variables eps rho : R.
Variable upper : option R.
Hypothesis He : 0 <= eps.
Hypothesis Hpos : forall x, in_box lo up x -> 0 <= Vf x.
Hypothesis Hbd : forall x, on_boundary lo up x -> rho <= Vf x.
Hypothesis Hdec : forall s x, flow lo up T s x ->
  (forall t, 0 <= t < s -> within None upper (Vf (x t))) ->
  forall t, 0 <= t <= s -> Vf (x t) <= exp (- eps * t) * Vf (x 0).
Hypothesis Hcont : forall b x, (forall t, length (x t) = n) -> (forall i, cont_on b (fun t => nth i (x t) 0)) ->
  cont_on b (fun t => Vf (x t)).

Lemma stays : forall b x, motion n lo up T b x -> in_box lo up (x 0) -> Vf (x 0) < rho ->
  (forall u, upper = Some u -> Vf (x 0) < u) ->
  forall t, 0 <= t <= b -> in_box lo up (x t) /\ Vf (x t) <= exp (- eps * t) * Vf (x 0).
Proof.
  intros b x [Ml Mc Md] B0 H0 U0.
  set (P := fun t => (forall i, (i < n)%nat -> nth i lo 0 < nth i (x t) 0 /\ nth i (x t) 0 < nth i up 0) /\
                     forall u, upper = Some u -> Vf (x t) < u).
  assert (PB : forall t, P t -> in_box lo up (x t)).
  { intros t [Pi _]. split; apply vle_nth; (split; [rewrite ?Ml; lia|]); intros i Hi;
      [specialize (Pi i ltac:(lia))|specialize (Pi i ltac:(rewrite Ml in Hi; lia))]; lra. }
  assert (Adv : forall s, 0 <= s <= b -> in_box lo up (x s) -> (forall r, 0 <= r < s -> P r) ->
     Vf (x s) <= exp (- eps * s) * Vf (x 0)).
  { intros s Hs Bs Pr.
    assert (Bx : forall r, 0 <= r <= s -> in_box lo up (x r)).
    { intros r Hr. destruct (Req_dec r s) as [ -> |]; auto. apply PB, Pr. lra. }
    assert (F : flow lo up T s x).
    { split; auto.
      - intros i r Hr e Hep. destruct (Mc i r ltac:(lra) e Hep) as (del & Hd & K).
        exists del. split; auto. intros q Hq. apply K. lra.
      - intros r Hr. destruct (Md r ltac:(lra) (Bx r ltac:(lra))) as (d & D1 & D2 & D3).
        exists d. rewrite Ml. auto. }
    apply (Hdec s x F); [|lra]. intros r Hr. destruct (Pr r Hr) as [_ Pu].
    split; [intros l K; discriminate K|]. intros u Eu. specialize (Pu u Eu). lra. }
  assert (Dn : forall s, 0 <= s -> exp (- eps * s) * Vf (x 0) <= Vf (x 0)).
  { intros s Hs. assert (exp (- eps * s) <= 1).
    { rewrite <- exp_0. assert (K : - eps * s <= 0) by nra. destruct K as [K|K]; [left; apply exp_increasing; auto|rewrite K; lra]. }
    specialize (Hpos _ B0). nra. }
  assert (Main : forall t, 0 <= t <= b -> P t).
  { apply real_induction.
    - intros s Hs Pr.
      assert (Bs : in_box lo up (x s)).
      { destruct (Req_dec s 0) as [ -> |Ns]; auto.
        split; apply vle_nth; (split; [rewrite ?Ml; lia|]); intros i Hi.
        - apply (cont_limit b (fun t => nth i (x t) 0)); [apply Mc|lra|].
          intros r Hr. destruct (Pr r Hr) as [Pi _]. apply Pi. lia.
        - rewrite Ml in Hi.
          assert (K : - nth i up 0 <= - nth i (x s) 0).
          { apply (cont_limit b (fun t => - nth i (x t) 0)); [apply cont_neg, Mc|lra|].
            intros r Hr. destruct (Pr r Hr) as [Pi _]. specialize (Pi i Hi). lra. }
          lra. }
      assert (K := Adv s Hs Bs Pr). assert (K2 := Dn s ltac:(lra)).
      split.
      + intros i Hi. destruct Bs as [S1 S2].
        assert (Q1 := proj2 (proj1 (vle_nth _ _) S1) i ltac:(lia)).
        assert (Q2 := proj2 (proj1 (vle_nth _ _) S2) i ltac:(rewrite Ml; lia)).
        assert (Nb : ~ on_boundary lo up (x s)).
        { intros Hb'. specialize (Hbd _ Hb'). lra. }
        split; [destruct Q1 as [|Q1]|destruct Q2 as [|Q2]]; auto; exfalso; apply Nb;
          (split; [split; auto|]); exists i; rewrite Ml; auto.
      + intros u Eu. specialize (U0 u Eu). lra.
    - intros s Hs Pr. destruct (Pr s ltac:(lra)) as [Pi Pu].
      destruct (all_open (fun i r => nth i lo 0 < nth i (x r) 0) s b n) as (d1 & D1 & K1).
      { intros i Hi. apply (cont_above b (fun t => nth i (x t) 0)); [apply Mc|lra|apply Pi; auto]. }
      destruct (all_open (fun i r => - nth i up 0 < - nth i (x r) 0) s b n) as (d2 & D2 & K2).
      { intros i Hi. apply (cont_above b (fun t => - nth i (x t) 0)); [apply cont_neg, Mc|lra|].
        specialize (Pi i Hi). lra. }
      assert (Ho : exists d3, 0 < d3 /\ forall r, s < r < s + d3 -> r <= b ->
                forall u, upper = Some u -> Vf (x r) < u).
      { destruct upper as [u|]; [|exists 1; split; [lra|intros; discriminate]].
        destruct (cont_above b (fun t => - Vf (x t)) (- u) s) as (d3 & D3 & K3).
        - apply cont_neg, Hcont; auto.
        - lra.
        - specialize (Pu u eq_refl). lra.
        - exists d3. split; auto. intros r Hr Hb u' Eu. injection Eu as <-. specialize (K3 r Hr Hb). lra. }
      destruct Ho as (d3 & D3 & K3).
      exists (Rmin d1 (Rmin d2 d3)). split; [repeat apply Rmin_pos; auto|].
      intros r Hr Hb.
      assert (X1 := Rmin_l d1 (Rmin d2 d3)). assert (X2 := Rmin_r d1 (Rmin d2 d3)).
      assert (X3 := Rmin_l d2 d3). assert (X4 := Rmin_r d2 d3).
      split; [|apply K3; lra]. intros i Hi. split; [apply K1; auto; lra|].
      assert (Z := K2 r ltac:(lra) Hb i Hi). lra. }
  intros t Ht. assert (Pt := PB t (Main t Ht)). split; auto. apply Adv; auto.
  intros r Hr. apply Main. lra.
Qed.
End Stay.
