(** Actions, targets and updates of the reinforcement learner. *)

Require Import Reals List Lia Lra Bool Arith.
Require Import Verif.Vec Verif.VecFacts Verif.ModelLatent Verif.ProofLatent Verif.ModelTd3 Verif.SpecTd3.
Import ListNotations.
Open Scope R_scope.

(** ** Actions *)
Lemma nth_map2R : forall (f : R -> R -> R) (a b : vec) i, (i < length a)%nat -> length a = length b ->
  nth i (map2 f a b) 0 = f (nth i a 0) (nth i b 0).
Proof. intros f a b i Hi E. rewrite (nth_map2 f a b i 0 0 0) by lia. reflexivity. Qed.
Lemma clip_entry : forall low high a i, length a = length low -> length low = length high -> (i < length low)%nat ->
  nth i (clip low high a) 0 = Rmax (Rmin (nth i a 0) (nth i high 0)) (nth i low 0).
Proof.
  intros low high a i La Lh Hi. unfold clip. rewrite nth_map2R; [|rewrite map2_length; lia|rewrite map2_length; lia].
  rewrite nth_map2R by lia. reflexivity.
Qed.
Lemma clip_length : forall low high a, length a = length low -> length low = length high -> length (clip low high a) = length low.
Proof. intros low high a La Lh. unfold clip. rewrite !map2_length. lia. Qed.
Lemma clip_in : forall low high a, box_ok low high -> length a = length low -> in_box low high (clip low high a).
Proof.
  intros low high a [Lh B] La. split; [apply clip_length; auto|]. intros i Hi. rewrite clip_entry by auto.
  specialize (B i Hi). unfold Rmax, Rmin. repeat destruct (Rle_dec _ _); lra.
Qed.
Lemma clip_id : forall low high a, length low = length high -> in_box low high a -> clip low high a = a.
Proof.
  intros low high a Lh [La B]. apply vec_ext; [rewrite clip_length; auto|]. intros i Hi.
  rewrite clip_length in Hi by auto. rewrite clip_entry by auto. specialize (B i Hi).
  unfold Rmax, Rmin. repeat destruct (Rle_dec _ _); lra.
Qed.
(** Clipping moves the action nearer to every action within the limits. *)
Lemma clip_near : forall low high a c i, length low = length high -> length a = length low -> in_box low high c ->
  (i < length low)%nat -> Rabs (nth i (clip low high a) 0 - nth i c 0) <= Rabs (nth i a 0 - nth i c 0).
Proof.
  intros low high a c i Lh La [Lc B] Hi. rewrite clip_entry by auto. specialize (B i Hi).
  unfold Rmax, Rmin. repeat destruct (Rle_dec _ _); unfold Rabs; repeat destruct (Rcase_abs _); lra.
Qed.

Lemma vadd_zeros_r : forall a n, length a = n -> vadd a (zeros n) = a.
Proof. induction a as [|x a IH]; intros n E; subst n; [reflexivity|]. cbn. f_equal; [ring|apply (IH (length a)); auto]. Qed.
Lemma vadd_zeros_l : forall a n, length a = n -> vadd (zeros n) a = a.
Proof. induction a as [|x a IH]; intros n E; subst n; [reflexivity|]. cbn. f_equal; [ring|apply (IH (length a)); auto]. Qed.

Lemma get_action_in : forall pi low high noise o, box_ok low high -> length (pi o) = length low -> length noise = length low ->
  in_box low high (get_action pi low high noise o).
Proof. intros. apply clip_in; auto. rewrite vadd_length; lia. Qed.
Lemma get_action_exact : forall pi low high o, length low = length high -> in_box low high (pi o) ->
  get_action pi low high (zeros (length low)) o = pi o.
Proof.
  intros pi low high o Lh B. unfold get_action. rewrite vadd_zeros_r by (destruct B; auto). apply clip_id; auto.
Qed.

(** ** The actor *)
Lemma mlp_sigmoid : forall act layers x, layers <> [] -> Forall (fun v => 0 < v < 1) (mlp act sigmoid layers x).
Proof.
  intros act layers. induction layers as [|[W b] rest IH]; intros x Ne; [congruence|].
  destruct rest as [|l2 rest].
  - cbn [mlp]. apply Forall_forall. intros v Hv. apply in_map_iff in Hv. destruct Hv as (w & <- & _). apply sigmoid_range.
  - cbn [mlp] in *. apply IH. congruence.
Qed.
Lemma actor_entry : forall pi low high oe ae o i, length low = length high -> length ae = length low ->
  length (pi o) = length low -> length (pi oe) = length low -> (i < length low)%nat ->
  nth i (actor pi low high oe ae o) 0
  = nth i ae 0 + (nth i (pi o) 0 - nth i (pi oe) 0) * (nth i high 0 - nth i low 0).
Proof.
  intros pi low high oe ae o i Lh La L1 L2 Hi. unfold actor, vmul.
  assert (Ls : length (vsub high low) = length low) by (rewrite vsub_length; lia).
  assert (Lm : forall x, length (pi x) = length low -> length (map2 Rmult (pi x) (vsub high low)) = length low)
    by (intros x Hx; rewrite map2_length; lia).
  assert (Lv : forall x, length (pi x) = length low -> length (vadd (map2 Rmult (pi x) (vsub high low)) low) = length low)
    by (intros x Hx; rewrite vadd_length; rewrite Lm; auto).
  assert (Q : forall x, length (pi x) = length low ->
    nth i (vadd (map2 Rmult (pi x) (vsub high low)) low) 0 = nth i (pi x) 0 * (nth i high 0 - nth i low 0) + nth i low 0).
  { intros x Hx. rewrite nth_vadd by (apply Lm; auto). rewrite nth_map2R by lia. rewrite nth_vsub by lia. reflexivity. }
  rewrite nth_vadd by (rewrite vsub_length; rewrite Lv by auto; [lia|rewrite Lv; auto]).
  rewrite nth_vsub by (rewrite !Lv; auto). rewrite !Q by auto. ring.
Qed.
Lemma actor_length : forall pi low high oe ae o, length low = length high -> length ae = length low ->
  length (pi o) = length low -> length (pi oe) = length low -> length (actor pi low high oe ae o) = length low.
Proof.
  intros pi low high oe ae o Lh La L1 L2. unfold actor, vmul, vadd, vsub. rewrite !map2_length. lia.
Qed.
Lemma actor_equilibrium : forall pi low high oe ae, length low = length high -> length ae = length low ->
  length (pi oe) = length low -> actor pi low high oe ae oe = ae.
Proof.
  intros pi low high oe ae Lh La L1. apply vec_ext; [rewrite actor_length; auto|]. intros i Hi.
  rewrite actor_length in Hi by auto. rewrite actor_entry by auto. ring.
Qed.
Lemma actor_spread : forall act layers low high oe ae o i, layers <> [] ->
  (forall x, length (mlp act sigmoid layers x) = length low) -> length low = length high -> length ae = length low ->
  (i < length low)%nat -> nth i low 0 < nth i high 0 ->
  Rabs (nth i (actor (mlp act sigmoid layers) low high oe ae o) 0 - nth i ae 0) < nth i high 0 - nth i low 0.
Proof.
  intros act layers low high oe ae o i Ne Ls Lh La Hi B. rewrite actor_entry by auto.
  assert (R1 : forall x, 0 < nth i (mlp act sigmoid layers x) 0 < 1).
  { intros x. assert (F := mlp_sigmoid act layers x Ne). rewrite Forall_forall in F. apply F. apply nth_In. rewrite Ls. auto. }
  assert (A := R1 o). assert (C := R1 oe). set (p := nth i (mlp act sigmoid layers o) 0) in *.
  set (q := nth i (mlp act sigmoid layers oe) 0) in *. set (w := nth i high 0 - nth i low 0) in *.
  assert (W : 0 < w) by (unfold w; lra). replace (nth i ae 0 + (p - q) * w - nth i ae 0) with ((p - q) * w) by ring.
  rewrite Rabs_mult, (Rabs_pos_eq w) by lra. assert (Rabs (p - q) < 1) by (apply Rabs_def1; lra). nra.
Qed.
Lemma sigmoid_ln4 : sigmoid (ln 4) = 4 / 5.
Proof. unfold sigmoid. rewrite exp_Ropp, exp_ln by lra. lra. Qed.

(** ** Targets *)
Lemma clamp_length : forall c e, length (clamp_noise c e) = length e.
Proof. intros. apply map_length. Qed.
Lemma clamp_bound : forall c e i, 0 <= c -> (i < length e)%nat -> Rabs (nth i (clamp_noise c e) 0) <= c.
Proof.
  intros c e i Hc Hi. unfold clamp_noise.
  rewrite (nth_indep _ 0 (Rmin (Rmax 0 (- c)) c)) by (rewrite map_length; auto).
  rewrite (map_nth (fun x => Rmin (Rmax x (- c)) c) e 0 i). set (x := nth i e 0).
  apply Rabs_le. unfold Rmax, Rmin. repeat destruct (Rle_dec _ _); lra.
Qed.
Lemma target_action : forall low high noise_clip pa eps, box_ok low high -> 0 <= noise_clip ->
  length pa = length low -> length eps = length low ->
  let a2 := clip low high (vadd pa (clamp_noise noise_clip eps)) in
  in_box low high a2 /\
  (in_box low high pa -> forall i, (i < length low)%nat -> Rabs (nth i a2 0 - nth i pa 0) <= noise_clip).
Proof.
  intros low high c pa eps B Hc Lp Le a2. unfold a2.
  assert (Lv : length (vadd pa (clamp_noise c eps)) = length low) by (rewrite vadd_length; rewrite ?clamp_length; lia).
  split; [apply clip_in; auto|]. intros Ip i Hi. destruct B as [Lh B].
  eapply Rle_trans; [apply clip_near; auto|].
  rewrite nth_vadd by (rewrite clamp_length; lia).
  replace (nth i pa 0 + nth i (clamp_noise c eps) 0 - nth i pa 0) with (nth i (clamp_noise c eps) 0) by ring.
  apply clamp_bound; auto. lia.
Qed.
Lemma backup_done : forall g c low high pi_t q1 q2 eps t, tr_done t = true -> backup g c low high pi_t q1 q2 eps t = tr_rew t.
Proof. intros g c low high pi_t q1 q2 eps t E. unfold backup. rewrite E. ring. Qed.
Lemma backup_going : forall g c low high pi_t q1 q2 eps t, tr_done t = false ->
  let a2 := clip low high (vadd (pi_t (tr_obs2 t)) (clamp_noise c eps)) in
  backup g c low high pi_t q1 q2 eps t = tr_rew t + g * Rmin (q1 (tr_obs2 t) a2) (q2 (tr_obs2 t) a2).
Proof. intros g c low high pi_t q1 q2 eps t E. unfold backup. rewrite E. cbv zeta. ring. Qed.
Lemma backup_bound : forall g c low high pi_t q1 q2 eps t B, 0 <= g < 1 ->
  Rabs (tr_rew t) <= B -> (forall o a, Rabs (q1 o a) <= B / (1 - g)) -> (forall o a, Rabs (q2 o a) <= B / (1 - g)) ->
  Rabs (backup g c low high pi_t q1 q2 eps t) <= B / (1 - g).
Proof.
  intros g c low high pi_t q1 q2 eps t B Hg Hr H1 H2. unfold backup.
  set (a2 := clip low high (vadd (pi_t (tr_obs2 t)) (clamp_noise c eps))). cbv zeta.
  specialize (H1 (tr_obs2 t) a2). specialize (H2 (tr_obs2 t) a2).
  set (m := Rmin (q1 (tr_obs2 t) a2) (q2 (tr_obs2 t) a2)).
  assert (Hm : Rabs m <= B / (1 - g)) by (unfold m, Rmin; destruct (Rle_dec _ _); auto).
  set (V := B / (1 - g)) in *. assert (EB : B = V * (1 - g)) by (unfold V; field; lra).
  assert (HB : 0 <= B) by (eapply Rle_trans; [apply Rabs_pos|exact Hr]).
  assert (HV : 0 <= V) by (eapply Rle_trans; [apply Rabs_pos|exact Hm]).
  apply Rabs_le. assert (A := Rle_abs m). assert (A' := Rle_abs (- m)). rewrite Rabs_Ropp in A'.
  assert (C := Rle_abs (tr_rew t)). assert (C' := Rle_abs (- tr_rew t)). rewrite Rabs_Ropp in C'.
  destruct (tr_done t); nra.
Qed.

Lemma vsum_sq_zero : forall l, Forall (fun x => 0 <= x) l -> vsum l = 0 -> Forall (fun x => x = 0) l.
Proof.
  intros l F. induction F as [|x l Hx F IH]; intros E; [constructor|]. cbn in E.
  assert (P := vsum_nonneg l F). constructor; [lra|]. apply IH. lra.
Qed.
Lemma average_nonneg : forall l, Forall (fun x => 0 <= x) l -> 0 <= average l.
Proof.
  intros l F. unfold average. destruct l as [|x l]; [cbn; unfold Rdiv; lra|]. apply Rmult_le_pos; [apply vsum_nonneg; auto|].
  apply Rlt_le, Rinv_0_lt_compat, lt_0_INR. cbn; lia.
Qed.
Lemma average_zero : forall l, Forall (fun x => 0 <= x) l -> (average l = 0 <-> Forall (fun x => x = 0) l).
Proof.
  intros l F. destruct l as [|x l].
  - split; intros _; [constructor|unfold average; cbn; unfold Rdiv; ring].
  - assert (N : INR (length (x :: l)) <> 0) by (apply not_0_INR; cbn; lia). split.
    + intros E. apply vsum_sq_zero; auto. unfold average in E.
      replace (vsum (x :: l)) with (vsum (x :: l) / INR (length (x :: l)) * INR (length (x :: l))) by (field; auto).
      rewrite E. ring.
    + intros Z. unfold average. assert (E : vsum (x :: l) = 0).
      { clear N F. induction Z as [|y l' Hy Z IH]; [reflexivity|]. cbn. cbn in IH. lra. }
      rewrite E. unfold Rdiv. ring.
Qed.
Lemma map2_forall : forall {A B C : Type} (f : A -> B -> C) (P : C -> Prop) a b,
  (forall x y, P (f x y)) -> Forall P (map2 f a b).
Proof.
  intros A B C f P a. induction a as [|x a IH]; intros [|y b] H; cbn; constructor; auto.
Qed.
Lemma sq_nonneg : forall x, 0 <= x ^ 2.
Proof. intros. rewrite <- Rsqr_pow2. apply Rle_0_sqr. Qed.
Lemma map2_zero : forall (f : transition -> R) (batch : list transition) (bs : vec), length bs = length batch ->
  (Forall (fun x => x = 0) (map2 (fun t b => (f t - b) ^ 2) batch bs) <-> map f batch = bs).
Proof.
  intros f batch. induction batch as [|t batch IH]; intros [|b bs] L; cbn [map2 map length] in *; try lia.
  - split; [reflexivity|constructor].
  - split.
    + intros F. inversion F as [|? ? H1 H2]; subst. f_equal; [|apply IH; auto].
      assert (f t - b = 0) by (apply Rsqr_0_uniq; rewrite Rsqr_pow2; auto). lra.
    + intros E. inversion E as [[E1 E2]]. constructor; [ring|]. rewrite E2. apply IH; auto.
Qed.
Lemma loss_q_zero : forall g c low high q1 q2 pi_t q1t q2t epss batch, length epss = length batch ->
  let bs := map2 (backup g c low high pi_t q1t q2t) epss batch in
  0 <= loss_q g c low high q1 q2 pi_t q1t q2t epss batch /\
  (loss_q g c low high q1 q2 pi_t q1t q2t epss batch = 0 <->
   map (fun t => q1 (tr_obs t) (tr_act t)) batch = bs /\ map (fun t => q2 (tr_obs t) (tr_act t)) batch = bs).
Proof.
  intros g c low high q1 q2 pi_t q1t q2t epss batch L bs. unfold loss_q. fold bs.
  assert (Lb : length bs = length batch) by (unfold bs; rewrite map2_length; lia).
  set (s1 := map2 (fun t b => (q1 (tr_obs t) (tr_act t) - b) ^ 2) batch bs).
  set (s2 := map2 (fun t b => (q2 (tr_obs t) (tr_act t) - b) ^ 2) batch bs). cbv zeta. fold s1 s2.
  assert (F1 : Forall (fun x => 0 <= x) s1) by (apply map2_forall; intros; apply sq_nonneg).
  assert (F2 : Forall (fun x => 0 <= x) s2) by (apply map2_forall; intros; apply sq_nonneg).
  assert (N1 := average_nonneg s1 F1). assert (N2 := average_nonneg s2 F2).
  rewrite <- (map2_zero (fun t => q1 (tr_obs t) (tr_act t)) batch bs Lb), <- (map2_zero (fun t => q2 (tr_obs t) (tr_act t)) batch bs Lb).
  fold s1 s2. rewrite <- (average_zero s1 F1), <- (average_zero s2 F2). split; [lra|]. split; [intros; split; lra|lra].
Qed.

(** ** Updates *)
Section Update.
Variable O : Type.
Variable adam : R -> O -> vec -> vec -> O * vec.
Variable Data : Type.
Variable dq : nets -> nets -> Data -> vec * vec.
Variable dpi : nets -> Data -> vec * vec.
Variable polyak pi_lr q_lr : R.
Variable policy_delay : nat.
Notation upd := (update O adam Data dq dpi polyak pi_lr q_lr policy_delay).
Notation book := (textbook O adam Data dq dpi polyak pi_lr q_lr policy_delay).

Fixpoint run_updates (u : learn O) (hist : list (Data * nat)) : option (learn O) :=
  match hist with
  | [] => Some u
  | (d, k) :: rest => match upd u d k with Some u' => run_updates u' rest | None => None end
  end.
Definition core_of (u : learn O) : core O := mkCore O (u_ac O u) (u_targ O u) (u_opi O u) (u_oq O u).
(** The gradients have the sizes of the parameters, and Adam keeps sizes. *)
Definition sizes_ok : Prop :=
  (forall a t d, length (fst (dq a t d)) = length (n_q1 a) /\ length (snd (dq a t d)) = length (n_q2 a)) /\
  (forall a d, length (fst (dpi a d)) = length (n_pi a)) .
Definition usable (u : learn O) : Prop := u_iter O u = [] /\ u_req O u 0%nat = true /\ u_req O u 1%nat = true.

Lemma q_step_core : forall u d, sizes_ok -> usable u ->
  let u1 := q_step O adam Data dq q_lr u d in
  usable u1 /\ u_targ O u1 = u_targ O u /\ u_opi O u1 = u_opi O u /\
  (let a := u_ac O u in
   let r := adam q_lr (u_oq O u) (n_q1 a ++ n_q2 a) (fst (dq a (u_targ O u) d) ++ snd (dq a (u_targ O u) d)) in
   u_oq O u1 = fst r /\
   u_ac O u1 = mkNets (n_pi a) (firstn (length (n_q1 a)) (snd r)) (skipn (length (n_q1 a)) (snd r))) /\
  u_gq O u1 = dq (u_ac O u) (u_targ O u) d.
Proof.
  intros u d (S1 & S2) (I & R0 & R1) u1. unfold u1, q_step, usable.
  destruct (S1 (u_ac O u) (u_targ O u) d) as [L1 L2].
  destruct (dq (u_ac O u) (u_targ O u) d) as [d1 d2] eqn:Ed. cbn [fst snd] in *. rewrite R0, R1.
  rewrite (vadd_zeros_l d1) by auto. rewrite (vadd_zeros_l d2) by auto.
  destruct (adam q_lr (u_oq O u) (n_q1 (u_ac O u) ++ n_q2 (u_ac O u)) (d1 ++ d2)) as [oq q].
  cbn. repeat split; auto.
Qed.
Lemma update_core : forall u d k, sizes_ok -> policy_delay <> 0%nat -> usable u ->
  exists u', upd u d k = Some u' /\ usable u' /\ core_of u' = book (core_of u) d k.
Proof.
  intros u d k S Hd Us. destruct (q_step_core u d S Us) as (Us1 & T1 & P1 & (Q1 & A1) & _).
  unfold update. set (u1 := q_step O adam Data dq q_lr u d) in *. cbv zeta.
  destruct (Nat.eqb policy_delay 0) eqn:E0; [apply Nat.eqb_eq in E0; lia|].
  replace (core_of u) with (mkCore O (u_ac O u) (u_targ O u) (u_opi O u) (u_oq O u)) by reflexivity.
  unfold textbook. cbn [c_ac c_targ c_opi c_oq n_pi n_q1 n_q2].
  destruct (dq (u_ac O u) (u_targ O u) d) as [d1 d2] eqn:Ed. cbn [fst snd] in *.
  destruct (adam q_lr (u_oq O u) (n_q1 (u_ac O u) ++ n_q2 (u_ac O u)) (d1 ++ d2)) as [oq q] eqn:Eq. cbn [fst snd] in *.
  cbv zeta. destruct (Nat.eqb (k mod policy_delay) 0) eqn:Em.
  - destruct Us1 as (I1 & R0 & R1).
    assert (Es : set_req O false u1 = mkLearn O (u_ac O u1) (u_targ O u1) (u_opi O u1) (u_oq O u1) [] (u_req O u1) (u_gpi O u1) (u_gq O u1)).
    { unfold set_req. rewrite I1. reflexivity. }
    rewrite Es. unfold pi_step. cbn [u_ac u_targ u_opi u_oq u_iter u_req u_gpi u_gq].
    destruct S as (S1 & S2). assert (Lp := S2 (u_ac O u1) d). rewrite A1, P1 in *.
    set (a1 := {| n_pi := n_pi (u_ac O u); n_q1 := firstn (length (n_q1 (u_ac O u))) q; n_q2 := skipn (length (n_q1 (u_ac O u))) q |}) in *.
    destruct (dpi a1 d) as [dp dd1]. cbn [fst snd] in *. rewrite (vadd_zeros_l dp) by auto.
    change (n_pi a1) with (n_pi (u_ac O u)). destruct (adam pi_lr (u_opi O u) (n_pi (u_ac O u)) dp) as [opi p].
    eexists. split; [reflexivity|]. unfold usable, core_of, set_req. cbn [u_ac u_targ u_opi u_oq u_iter u_req u_gpi u_gq].
    repeat split; auto. unfold average_nets, average_in. cbn [u_ac u_targ n_pi n_q1 n_q2]. rewrite T1, Q1. reflexivity.
  - exists u1. split; [reflexivity|]. split; [auto|]. unfold core_of. rewrite A1, T1, P1, Q1. reflexivity.
Qed.
Lemma start_usable : forall ac opi oq, usable (start_learning O ac opi oq).
Proof. intros. repeat split. Qed.
Lemma run_updates_core : forall hist u, sizes_ok -> policy_delay <> 0%nat -> usable u ->
  exists u', run_updates u hist = Some u' /\ usable u' /\
  core_of u' = fold_left (fun c h => book c (fst h) (snd h)) hist (core_of u).
Proof.
  induction hist as [|[d k] hist IH]; intros u S Hd Us.
  - exists u. repeat split; auto; apply Us.
  - destruct (update_core u d k S Hd Us) as (u1 & E1 & Us1 & C1). cbn [run_updates fold_left fst snd]. rewrite E1.
    destruct (IH u1 S Hd Us1) as (u' & E & U & C). exists u'. rewrite <- C1. auto.
Qed.
(** The flags are never cleared, and the gradient of the policy loss is left in the first critic. *)
Lemma never_frozen : forall hist ac opi oq u d, sizes_ok -> policy_delay <> 0%nat ->
  run_updates (start_learning O ac opi oq) hist = Some u ->
  let u1 := q_step O adam Data dq q_lr u d in
  u_req O (set_req O false u1) 0%nat = true /\ u_req O (set_req O false u1) 1%nat = true /\
  fst (u_gq O (pi_step O adam Data dpi pi_lr (set_req O false u1) d))
  = vadd (fst (dq (u_ac O u) (u_targ O u) d)) (snd (dpi (u_ac O u1) d)).
Proof.
  intros hist ac opi oq u d S Hd E u1.
  destruct (run_updates_core hist _ S Hd (start_usable ac opi oq)) as (u' & E' & Us & _).
  assert (u' = u) by congruence. subst u'. destruct (q_step_core u d S Us) as ((I1 & R0 & R1) & T1 & P1 & _ & G). fold u1 in I1, R0, R1, T1, P1, G.
  assert (Es : set_req O false u1 = mkLearn O (u_ac O u1) (u_targ O u1) (u_opi O u1) (u_oq O u1) [] (u_req O u1) (u_gpi O u1) (u_gq O u1)).
  { unfold set_req. rewrite I1. reflexivity. }
  rewrite Es. cbn [u_req]. split; [auto|]. split; [auto|].
  unfold pi_step. cbn [u_ac u_targ u_opi u_oq u_iter u_req u_gpi u_gq]. destruct (dpi (u_ac O u1) d) as [dp d1].
  rewrite R0. destruct (adam pi_lr (u_opi O u1) (n_pi (u_ac O u1)) (vadd (zeros (length (n_pi (u_ac O u1)))) dp)) as [o p].
  cbn [u_gq fst snd]. rewrite G. reflexivity.
Qed.
End Update.

(** ** Target networks *)
Lemma average_in_entry : forall rho p t i, length p = length t ->
  nth i (average_in rho p t) 0 = rho * nth i t 0 + (1 - rho) * nth i p 0.
Proof.
  intros rho p t i L. unfold average_in. rewrite nth_vadd by (rewrite !vscale_length; auto). rewrite !nth_vscale. reflexivity.
Qed.
Lemma average_in_length : forall rho p t, length p = length t -> length (average_in rho p t) = length t.
Proof. intros rho p t L. unfold average_in. rewrite vadd_length; rewrite !vscale_length; auto. Qed.
Lemma targets_bounded : forall rho ps t lo hi i, 0 <= rho <= 1 -> Forall (fun p => length p = length t) ps ->
  lo <= nth i t 0 <= hi -> Forall (fun p => lo <= nth i p 0 <= hi) ps ->
  lo <= nth i (fold_left (fun t p => average_in rho p t) ps t) 0 <= hi.
Proof.
  intros rho ps. induction ps as [|p ps IH]; intros t lo hi i Hr L Ht Hp; [auto|]. cbn [fold_left].
  inversion L as [|? ? L1 L2]; inversion Hp as [|? ? P1 P2]; subst. apply IH; auto.
  - rewrite average_in_length by auto. auto.
  - rewrite average_in_entry by auto. nra.
Qed.
Lemma targets_converge : forall rho p n t i, length p = length t ->
  nth i (fold_left (fun t p => average_in rho p t) (repeat p n) t) 0 - nth i p 0 = rho ^ n * (nth i t 0 - nth i p 0).
Proof.
  intros rho p n. induction n as [|n IH]; intros t i L; cbn [repeat fold_left pow]; [ring|].
  rewrite IH by (rewrite average_in_length; auto). rewrite average_in_entry by auto. ring.
Qed.
