(** What run_policy records, and when it comes to an end. *)

Require Import Reals List Lia Lra Arith Bool.
Require Import Verif.Vec Verif.VecFacts Verif.ModelRunPolicy Verif.SpecRunPolicy Verif.ModelPlants Verif.ModelQuadEnv.
Import ListNotations.
Open Scope R_scope.

Section Run.
Variable E : Type.
Variable reset : E -> E * vec.
Variable step : E -> vec -> E * vec * R * bool.
Variable policy : vec -> vec.
Variable limit : option nat.
Variable num : nat.
Notation follow := (follow E step policy).
Notation after := (after E step policy).
Notation history := (history E reset step policy limit).
Notation body := (rp_body E reset step policy limit).
Notation loop := (rp_loop E reset step policy limit num).

Lemma follow_length : forall k e o, length (follow k e o) = k.
Proof. induction k; intros; cbn; [auto|]. destruct (step e (policy o)) as [[[? ?] ?] ?]. cbn. rewrite IHk. auto. Qed.
Lemma follow_snoc : forall k e o, let (e1, o1) := after k e o in
  let '(e2, o2, r, d) := step e1 (policy o1) in
  follow (S k) e o = follow k e o ++ [(policy o1, o2, r, d)] /\ after (S k) e o = (e2, o2).
Proof.
  induction k; intros e o.
  - cbn. destruct (step e (policy o)) as [[[? ?] ?] ?]. auto.
  - specialize (IHk). cbn [SpecRunPolicy.after SpecRunPolicy.follow] in *. destruct (step e (policy o)) as [[[e1 o1] r1] d1].
    specialize (IHk e1 o1). destruct (after k e1 o1) as [e2 o2]. destruct (step e2 (policy o2)) as [[[e3 o3] r3] d3].
    destruct IHk as [I1 I2]. split; [|exact I2]. rewrite I1. reflexivity.
Qed.
Definition lines (eps : list (list entry)) : list (nat * R * nat) :=
  map (fun p => (fst p, vsum (map rew_of (snd p)), length (snd p))) (combine (seq 0 (length eps)) eps).
Lemma combine_snoc : forall A B (a : list A) (b : list B) x y, length a = length b -> combine (a ++ [x]) (b ++ [y]) = combine a b ++ [(x, y)].
Proof. induction a; intros [|] x y L; cbn in *; try lia; auto. f_equal. auto. Qed.
Lemma lines_snoc : forall eps f, lines (eps ++ [f]) = lines eps ++ [(length eps, vsum (map rew_of f), length f)].
Proof.
  intros. unfold lines. rewrite app_length. cbn [length]. rewrite Nat.add_1_r, seq_S. cbn [Nat.add].
  rewrite combine_snoc by apply seq_length. rewrite map_app. reflexivity.
Qed.
(** Complete episodes, and one under way. *)
Definition inv (e : E) (s : rp_state E) : Prop :=
  exists eps e1 e2 o2, history e eps e1 /\ reset e1 = (e2, o2) /\ length eps = rp_n _ s /\
    (rp_env _ s, rp_o _ s) = after (rp_len _ s) e2 o2 /\
    Forall (fun u => over_of u = false) (follow (rp_len _ s) e2 o2) /\
    (forall m, limit = Some m -> (0 < m)%nat -> (rp_len _ s < m)%nat) /\
    rp_ret _ s = vsum (map rew_of (follow (rp_len _ s) e2 o2)) /\
    rp_episodes _ s = map (map obs_of) eps ++ [map obs_of (follow (rp_len _ s) e2 o2)] /\
    rp_actions _ s = map (map act_of) eps ++ [map act_of (follow (rp_len _ s) e2 o2)] /\
    rp_printed _ s = lines eps.
Lemma append_last_snoc : forall l f v, append_last (l ++ [f]) v = l ++ [f ++ [v]].
Proof. intros. unfold append_last. rewrite removelast_last, last_last. reflexivity. Qed.
Lemma inv_step : forall e s, inv e s -> inv e (body s).
Proof.
  intros e [en o ret len n episodes actions printed] (eps & e1 & e2 & o2 & H & R & L & A & F & B & Rt & Ep & Ac & Pr).
  cbn [rp_env rp_o rp_ret rp_len rp_n rp_episodes rp_actions rp_printed] in *. unfold rp_body. cbn [rp_env rp_o rp_ret rp_len rp_n rp_episodes rp_actions rp_printed].
  assert (S := follow_snoc len e2 o2). rewrite <- A in S. destruct (step en (policy o)) as [[[e3 o3] r] d] eqn:Es. destruct S as [S1 S2].
  assert (Ls := follow_length (S len) e2 o2).
  rewrite Ep, Ac, !append_last_snoc.
  assert (Ob : map obs_of (follow len e2 o2) ++ [o3] = map obs_of (follow (S len) e2 o2)) by (rewrite S1, map_app; reflexivity).
  assert (Ax : map act_of (follow len e2 o2) ++ [policy o] = map act_of (follow (S len) e2 o2)) by (rewrite S1, map_app; reflexivity).
  assert (Rw : ret + r = vsum (map rew_of (follow (S len) e2 o2))) by (rewrite S1, map_app, vsum_app, Rt; cbn; ring).
  rewrite Ob, Ax, Rw. destruct (is_over limit d (S len)) eqn:Ov.
  - assert (C : complete limit (follow (S len) e2 o2)).
    { split.
      - exists (follow len e2 o2), (policy o, o3, r, d). split; [exact S1|]. split; [exact F|]. unfold is_over in Ov. apply orb_true_iff in Ov. destruct Ov as [D|D]; [left; exact D|].
        right. rewrite Ls. destruct limit as [m|]; [|discriminate]. apply Nat.eqb_eq in D. congruence.
      - intros m Em Pm. specialize (B m Em Pm). rewrite Ls. lia. }
    destruct (reset e3) as [e4 o4] eqn:R4. exists (eps ++ [follow (S len) e2 o2]), e3, e4, o4.
    cbn [rp_env rp_o rp_ret rp_len rp_n rp_episodes rp_actions rp_printed].
    split. { assert (Q : e3 = fst (after (S len) e2 o2)) by (rewrite S2; reflexivity). rewrite Q. eapply hist_next; eauto. }
    split; [exact R4|]. split; [rewrite app_length; cbn [length]; lia|]. split; [reflexivity|]. split; [constructor|].
    split; [intros; lia|]. split; [reflexivity|]. split; [rewrite map_app; reflexivity|]. split; [rewrite map_app; reflexivity|].
    rewrite lines_snoc, Pr, Ls, L. reflexivity.
  - unfold is_over in Ov. apply orb_false_iff in Ov. destruct Ov as [D1 D2]. exists eps, e1, e2, o2.
    cbn [rp_env rp_o rp_ret rp_len rp_n rp_episodes rp_actions rp_printed].
    split; [exact H|]. split; [exact R|]. split; [exact L|]. split; [rewrite S2; reflexivity|]. split.
    { rewrite S1. apply Forall_app. split; [exact F|]. constructor; [exact D1|constructor]. }
    split; [|auto]. intros m Em Pm. specialize (B m Em Pm). subst limit. apply Nat.eqb_neq in D2. lia.
Qed.
Lemma inv_init : forall e e0 o, reset e = (e0, o) -> inv e (mkRp E e0 o 0 0 0 [[]] [[]] []).
Proof.
  intros e e0 o R. exists [], e, e0, o. cbn. repeat (split; [auto; try constructor|]); auto.
Qed.
Lemma n_grows : forall s, (rp_n _ (body s) <= S (rp_n _ s))%nat /\ (rp_n _ (body s) <> rp_n _ s -> rp_len _ (body s) = 0%nat).
Proof.
  intros s. unfold rp_body. destruct (step _ _) as [[[? ?] ?] ?]. destruct (is_over _ _ _).
  - destruct (reset _). cbn. split; [lia|auto].
  - cbn. split; [lia|congruence].
Qed.
Lemma loop_inv : forall fuel e s s', inv e s -> (rp_n _ s <= num)%nat -> (rp_n _ s = num -> rp_len _ s = 0%nat) -> loop fuel s = Some s' ->
  inv e s' /\ rp_n _ s' = num /\ rp_len _ s' = 0%nat.
Proof.
  induction fuel as [|f IH]; intros e s s' I Le Z L; cbn [rp_loop] in L; [discriminate|].
  destruct (Nat.ltb (rp_n E s) num) eqn:Lt.
  - apply Nat.ltb_lt in Lt. destruct (n_grows s) as [G1 G2]. apply (IH e (body s) s'); auto; [apply inv_step; auto|lia|].
    intros Q. apply G2. lia.
  - apply Nat.ltb_ge in Lt. assert (s = s') by congruence. subst. split; [auto|]. assert (rp_n E s' = num) by lia. auto.
Qed.
Lemma recorded : forall fuel e s, (0 < num)%nat -> run_policy E reset step policy limit num fuel e = Some s ->
  exists eps e', history e eps e' /\ length eps = num /\
    rp_episodes _ s = map (map obs_of) eps ++ [[]] /\ rp_actions _ s = map (map act_of) eps ++ [[]] /\
    length (rp_printed _ s) = num /\
    forall i, (i < num)%nat -> nth i (rp_printed _ s) (0%nat, 0, 0%nat) = (i, vsum (map rew_of (nth i eps [])), length (nth i eps [])).
Proof.
  intros fuel e s Pos Ru. unfold run_policy in Ru. destruct (reset e) as [e0 o] eqn:R.
  destruct (loop_inv fuel e _ s (inv_init e e0 o R)) as (I & N & Z); auto; [cbn; lia|].
  destruct I as (eps & e1 & e2 & o2 & H & _ & L & _ & _ & _ & _ & Ep & Ac & Pr). rewrite Z in Ep, Ac.
  exists eps, e1. split; [auto|]. split; [congruence|]. split; [auto|]. split; [auto|].
  assert (Ll : length (lines eps) = length eps) by (unfold lines; rewrite map_length, combine_length, seq_length; lia).
  split; [rewrite Pr; congruence|]. intros i Hi. rewrite Pr. unfold lines.
  set (F := fun p : nat * list entry => (fst p, vsum (map rew_of (snd p)), length (snd p))).
  transitivity (nth i (map F (combine (seq 0 (length eps)) eps)) (F (0%nat, []))).
  { apply nth_indep. unfold F. fold (lines eps). lia. }
  rewrite (map_nth F), combine_nth by apply seq_length. unfold F. cbn [fst snd]. rewrite seq_nth by lia. reflexivity.
Qed.
(** With a length given the loop ends within that many iterations for each episode. *)
Lemma ends_aux : forall m k s, limit = Some m -> (0 < m)%nat -> (rp_len _ s < m)%nat -> (rp_n _ s <= num)%nat ->
  ((num - rp_n _ s) * m - rp_len _ s <= k)%nat -> exists s', loop (S k) s = Some s'.
Proof.
  intros m k. induction k as [|k IH]; intros s Em Pm Lm Le Q.
  - cbn [rp_loop]. destruct (Nat.ltb (rp_n E s) num) eqn:Lt; [|eexists; reflexivity]. apply Nat.ltb_lt in Lt. exfalso. nia.
  - change (loop (S (S k)) s) with (if Nat.ltb (rp_n E s) num then loop (S k) (body s) else Some s).
    destruct (Nat.ltb (rp_n E s) num) eqn:Lt; [|eexists; reflexivity]. apply Nat.ltb_lt in Lt. apply IH; auto.
    + unfold rp_body. destruct (step _ _) as [[[e3 o3] r] d]. destruct (is_over limit d (S (rp_len E s))) eqn:Ov; [destruct (reset e3); cbn; lia|]. cbn.
      unfold is_over in Ov. apply orb_false_iff in Ov. destruct Ov as [_ D]. rewrite Em in D. apply Nat.eqb_neq in D. lia.
    + destruct (n_grows s). lia.
    + unfold rp_body. destruct (step _ _) as [[[e3 o3] r] d]. destruct (is_over limit d (S (rp_len E s))); [destruct (reset e3)|]; cbn [rp_n rp_len]; nia.
Qed.
Lemma ends : forall m e, limit = Some m -> (0 < m)%nat -> exists s, run_policy E reset step policy limit num (S (num * m)) e = Some s.
Proof.
  intros m e Em Pm. unfold run_policy. destruct (reset e) as [e0 o]. apply (ends_aux m); auto; cbn; lia.
Qed.
(** Without one, and with an environment that never says it is over, it does not. *)
Lemma endless : limit = None \/ limit = Some 0%nat -> (0 < num)%nat -> (forall e a, snd (step e a) = false) ->
  forall fuel e, run_policy E reset step policy limit num fuel e = None.
Proof.
  intros Li Pos D fuel e. unfold run_policy. destruct (reset e) as [e0 o].
  assert (G : forall fuel s, rp_n _ s = 0%nat -> loop fuel s = None); [|apply G; reflexivity].
  clear fuel. induction fuel as [|f IH]; intros s Z; [reflexivity|]. cbn [rp_loop]. rewrite Z. destruct (Nat.ltb 0 num) eqn:Lt; [|apply Nat.ltb_ge in Lt; lia].
  apply IH. unfold rp_body. assert (Q := D (rp_env _ s) (policy (rp_o _ s))). destruct (step _ _) as [[[e3 o3] r] d]. cbn in Q. subst d.
  assert (Ov : is_over limit false (S (rp_len E s)) = false) by (unfold is_over; destruct Li as [->| ->]; reflexivity). rewrite Ov. exact Z.
Qed.
End Run.
(** The planar quadrotor. *)
Lemma quadrotor_endless : forall next_pose rand policy num fuel e, (0 < num)%nat ->
  run_policy env (env_reset rand) (env_step next_pose) policy None num fuel e = None.
Proof. intros. apply endless; auto. Qed.
(** With a length, its episodes have exactly that length. *)
Lemma quadrotor_lengths : forall next_pose rand policy m e eps e', (0 < m)%nat ->
  history env (env_reset rand) (env_step next_pose) policy (Some m) e eps e' -> Forall (fun f => length f = m) eps.
Proof.
  intros next_pose rand policy m e eps e' Pm H. induction H as [|eps e1 e2 o2 k H IH R C]; [constructor|].
  apply Forall_app. split; [exact IH|]. constructor; [|constructor]. destruct C as [(pre & t & Ef & _ & D) _].
  destruct D as [D|D]; [|congruence]. exfalso.
  assert (N : forall k e o, Forall (fun u => over_of u = false) (follow env (env_step next_pose) policy k e o)).
  { clear. induction k; intros; cbn; constructor; auto. }
  specialize (N k e2 o2). rewrite Ef in N. apply Forall_app in N. destruct N as [_ N]. inversion N; subst. congruence.
Qed.
Lemma quadrotor_case : exists s, run_policy env (env_reset (fun _ => repeat (/ 2) 6)) (env_step (fun x _ _ => x)) (fun _ => [1; 1]) (Some 2%nat) 3 7 (mkEnv (zeros 6) 0 0) = Some s.
Proof. destruct (ends env (env_reset (fun _ => repeat (/ 2) 6)) (env_step (fun x _ _ => x)) (fun _ => [1; 1]) (Some 2%nat) 3 2 (mkEnv (zeros 6) 0 0) eq_refl ltac:(lia)) as [s H]. exists s. exact H. Qed.
