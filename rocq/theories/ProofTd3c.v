(** The main loop of the reinforcement learner. *)

Require Import Reals List Lia Lra Bool Arith.
Require Import Verif.Vec Verif.VecFacts Verif.ModelTd3 Verif.SpecTd3 Verif.ProofTd3 Verif.ProofTd3b.
Import ListNotations.
Open Scope R_scope.

Section Loop.
Variable E : Type.
Variable reset : E -> E * vec.
Variable step : E -> vec -> E * vec * R * bool.
Variable L : Type.
Variable policy : L -> vec -> vec.
Variable gradient_step : L -> replay -> nat -> nat -> option L.
Variable low high : vec.
Variable noise : nat -> vec.
Variable sample : nat -> vec.
Variable start_steps update_after update_every max_ep_len : nat.
Notation loop := (train_loop E reset step L policy gradient_step low high noise sample start_steps update_after update_every max_ep_len).
Notation run := (run_steps E reset step L policy gradient_step low high noise sample start_steps update_after update_every max_ep_len).

(** The actions of a trace. *)
Definition acts_of (trace : list transition) (t : nat) : vec := tr_act (nth t trace (blank 0 0)).

Lemma env_at_ext : forall start f g t, (forall i, (i < t)%nat -> f i = g i) ->
  env_at E reset step max_ep_len start f t = env_at E reset step max_ep_len start g t.
Proof.
  intros start f g t. induction t as [|t IH]; intros H; [reflexivity|]. cbn [env_at].
  rewrite IH by (intros; apply H; lia). rewrite (H t) by lia. reflexivity.
Qed.
Lemma experience_ext : forall start f g t, (forall i, (i <= t)%nat -> f i = g i) ->
  experience E reset step max_ep_len start f t = experience E reset step max_ep_len start g t.
Proof.
  intros start f g t H. unfold experience. rewrite (env_at_ext start f g t) by (intros; apply H; lia). rewrite (H t) by lia. reflexivity.
Qed.
Lemma ends_ext : forall start f g t, (forall i, (i <= t)%nat -> f i = g i) ->
  ends E reset step max_ep_len start f t = ends E reset step max_ep_len start g t.
Proof.
  intros start f g t H. unfold ends. rewrite (env_at_ext start f g t) by (intros; apply H; lia). rewrite (H t) by lia. reflexivity.
Qed.
Lemma acts_app : forall tr x i, (i < length tr)%nat -> acts_of (tr ++ [x]) i = acts_of tr i.
Proof. intros tr x i H. unfold acts_of. rewrite app_nth1; auto. Qed.
Lemma acts_last : forall tr x, acts_of (tr ++ [x]) (length tr) = tr_act x.
Proof. intros tr x. unfold acts_of. rewrite app_nth2 by lia. rewrite Nat.sub_diag. reflexivity. Qed.

Definition invariant (start : E * vec) (buf : replay) (n : nat) (s : loop_state E L) : Prop :=
  let tr := lp_trace E L s in
  length tr = n /\
  stores buf tr = Some (lp_buf E L s) /\
  lp_steps E L s = schedule update_after update_every n /\
  env_at E reset step max_ep_len start (acts_of tr) n = (lp_env E L s, lp_obs E L s, lp_len E L s) /\
  lp_resets E L s = filter (ends E reset step max_ep_len start (acts_of tr)) (seq 0 n) /\
  (forall t, (t < n)%nat -> nth t tr (blank 0 0) = experience E reset step max_ep_len start (acts_of tr) t) /\
  (forall t, (t < n)%nat -> (t <= start_steps)%nat -> acts_of tr t = sample t) /\
  (forall t, (t < n)%nat -> (start_steps < t)%nat ->
     exists l, acts_of tr t = get_action (policy l) low high (noise t) (tr_obs (nth t tr (blank 0 0)))).

Lemma schedule_S : forall n, schedule update_after update_every (S n) = schedule update_after update_every n ++
  (if andb (Nat.leb update_after n) (Nat.eqb (n mod update_every) 0) then map (fun j => (n, j)) (seq 0 update_every) else []).
Proof.
  intros n. unfold schedule. rewrite seq_S, flat_map_app. cbn [flat_map plus]. rewrite app_nil_r. reflexivity.
Qed.
Lemma filter_ext_seq : forall f g n, (forall i, (i < n)%nat -> f i = g i) -> filter f (seq 0 n) = filter g (seq 0 n).
Proof.
  intros f g n H. induction n as [|n IH]; [reflexivity|]. rewrite seq_S, !filter_app, IH by (intros; apply H; lia). f_equal.
  cbn [filter plus]. rewrite H by lia. reflexivity.
Qed.

Lemma body_step : forall start buf n s s', invariant start buf n s ->
  body E reset step L policy gradient_step low high noise sample start_steps update_after update_every max_ep_len n s = Some s' ->
  invariant start buf (S n) s'.
Proof.
  intros start buf n s s' (I1 & I2 & I3 & I4 & I5 & I6 & I7 & I8). unfold body.
  set (a := if Nat.ltb start_steps n then get_action (policy (lp_learn E L s)) low high (noise n) (lp_obs E L s) else sample n).
  destruct (step (lp_env E L s) a) as [[[e1 o2] r] d0] eqn:Est. cbv zeta.
  set (hor := Nat.eqb (lp_len E L s + 1) max_ep_len).
  set (tr := mkTr (lp_obs E L s) a r o2 (if hor then false else d0)).
  destruct (store (lp_buf E L s) tr) as [buf'|] eqn:Esto; [|discriminate].
  assert (Ov : orb (if hor then false else d0) hor = orb d0 hor) by (destruct hor, d0; reflexivity).
  rewrite Ov. set (over := orb d0 hor).
  set (T := lp_trace E L s ++ [tr]).
  assert (A0 : forall i, (i < n)%nat -> acts_of T i = acts_of (lp_trace E L s) i) by (intros i Hi; apply acts_app; lia).
  assert (An : acts_of T n = a) by (unfold T; rewrite <- I1; apply acts_last).
  assert (En : env_at E reset step max_ep_len start (acts_of T) n = (lp_env E L s, lp_obs E L s, lp_len E L s)).
  { rewrite <- I4. apply env_at_ext. auto. }
  assert (G : forall e2 o ln l, (e2, o, ln) = (if over then (fst (reset e1), snd (reset e1), 0%nat) else (e1, o2, (lp_len E L s + 1)%nat)) ->
    invariant start buf (S n) (mkLoop E L e2 o ln buf' l T (schedule update_after update_every (S n))
      (if over then lp_resets E L s ++ [n] else lp_resets E L s))).
  { intros e2 o ln l Eo. unfold invariant. cbn [lp_env lp_obs lp_len lp_buf lp_learn lp_trace lp_steps lp_resets].
    split; [unfold T; rewrite app_length; cbn; lia|]. split; [unfold T; rewrite (stores_app _ _ _ _ I2); auto|].
    split; [reflexivity|].
    split; [cbn [env_at]; rewrite En, An, Est; fold hor; fold over; symmetry; exact Eo|].
    split.
    { rewrite seq_S, filter_app. cbn [filter plus].
      rewrite (filter_ext_seq _ (ends E reset step max_ep_len start (acts_of (lp_trace E L s)))) by (intros i Hi; apply ends_ext; intros; apply A0; lia).
      rewrite <- I5. unfold ends. rewrite En, An, Est. fold hor; fold over. destruct over; [reflexivity|rewrite app_nil_r; reflexivity]. }
    split.
    { intros t Ht. destruct (Nat.eq_dec t n) as [->|Nt].
      - unfold T at 1. rewrite <- I1 at 1. rewrite app_nth2 by lia. rewrite Nat.sub_diag. cbn [nth].
        unfold experience. rewrite En, An, Est. fold hor. unfold tr. destruct hor, d0; reflexivity.
      - unfold T at 1. rewrite app_nth1 by lia. rewrite I6 by lia. apply experience_ext. intros; symmetry; apply A0; lia. }
    split.
    { intros t Ht Hs. destruct (Nat.eq_dec t n) as [->|Nt]; [|rewrite A0 by lia; apply I7; lia].
      rewrite An. unfold a. apply Nat.ltb_ge in Hs. rewrite Hs. reflexivity. }
    intros t Ht Hs. destruct (Nat.eq_dec t n) as [->|Nt].
    - exists (lp_learn E L s). rewrite An. unfold a. assert (Hs' := Hs). apply Nat.ltb_lt in Hs'. rewrite Hs'.
      unfold T. rewrite <- I1 at 3. rewrite app_nth2 by lia. rewrite Nat.sub_diag. reflexivity.
    - destruct (I8 t ltac:(lia) Hs) as [l' Hl]. exists l'. rewrite A0 by lia. rewrite Hl. unfold T. rewrite app_nth1 by lia. reflexivity. }
  assert (Es := schedule_S n).
  assert (Pr : (let '(e2, o) := if over then reset e1 else (e1, o2) in (e2, o)) = (if over then (fst (reset e1), snd (reset e1)) else (e1, o2))).
  { destruct over; [destruct (reset e1); reflexivity|reflexivity]. }
  destruct (if over then reset e1 else (e1, o2)) as [e2 o] eqn:Eo. 
  assert (Eo' : (e2, o, if over then 0%nat else (lp_len E L s + 1)%nat)
                = (if over then (fst (reset e1), snd (reset e1), 0%nat) else (e1, o2, (lp_len E L s + 1)%nat))).
  { destruct over; congruence. }
  destruct (Nat.leb update_after n) eqn:Ua; cbn [andb] in Es.
  - destruct (Nat.eqb update_every 0); [discriminate|].
    destruct (Nat.eqb (n mod update_every) 0) eqn:Um.
    + destruct (updates L gradient_step (lp_learn E L s) buf' n (seq 0 update_every)) as [l|]; [|discriminate].
      intros Q. specialize (G e2 o _ l Eo'). rewrite Es, <- I3 in G.
      match goal with H : Some ?x = Some ?y |- _ => assert (QQ : x = y) by congruence end. rewrite <- QQ. exact G.
    + intros Q. specialize (G e2 o _ (lp_learn E L s) Eo'). rewrite Es, <- I3, app_nil_r in G.
      match goal with H : Some ?x = Some ?y |- _ => assert (QQ : x = y) by congruence end. rewrite <- QQ. exact G.
  - intros Q. specialize (G e2 o _ (lp_learn E L s) Eo'). rewrite Es, <- I3, app_nil_r in G.
    match goal with H : Some ?x = Some ?y |- _ => assert (QQ : x = y) by congruence end. rewrite <- QQ. exact G.
Qed.
Lemma loop_invariant : forall total e buf l s, loop total e buf l = Some s -> invariant (reset e) buf total s.
Proof.
  intros total e buf l. unfold train_loop. destruct (reset e) as [e0 o] eqn:Er.
  induction total as [|n IH]; intros s Q; cbn [run_steps] in Q.
  - match goal with H : Some ?x = Some ?y |- _ => assert (QQ : x = y) by congruence end. subst s.
    unfold invariant. cbn. repeat split; try reflexivity; intros; lia.
  - destruct (run n (mkLoop E L e0 o 0 buf l [] [] [])) as [s1|] eqn:E1; [|discriminate].
    apply (body_step (e0, o) buf n s1 s); auto.
Qed.
Lemma one_more_random : forall total e buf l s, loop total e buf l = Some s -> (start_steps < total)%nat ->
  forall t, (t < start_steps + 1)%nat -> tr_act (nth t (lp_trace E L s) (blank 0 0)) = sample t.
Proof.
  intros total e buf l s Q Ht t H. destruct (loop_invariant total e buf l s Q) as (_ & _ & _ & _ & _ & _ & I7 & _).
  apply I7; lia.
Qed.
(** With a buffer that has room, and updates that succeed, nothing raises. *)
Lemma updates_ok : forall js l b t, (forall l' j, In j js -> gradient_step l' b t j <> None) ->
  exists l', updates L gradient_step l b t js = Some l'.
Proof.
  induction js as [|j js IH]; intros l b t H; [exists l; reflexivity|]. cbn [updates].
  destruct (gradient_step l b t j) as [l1|] eqn:Eg; [|exfalso; apply (H l j); [left; auto|auto]].
  apply IH. intros l' j' Hj. apply H. right; auto.
Qed.
Lemma loop_ok : forall total e od ad size l, (0 < size)%nat -> (0 < update_every)%nat ->
  (forall l' b t j, rb_size b <> 0%nat -> gradient_step l' b t j <> None) ->
  exists s, loop total e (new_replay od ad size) l = Some s.
Proof.
  intros total e od ad size l Hs Hu Hg. unfold train_loop. destruct (reset e) as [e0 o] eqn:Er.
  induction total as [|n IH]; [eexists; reflexivity|]. destruct IH as [s Es]. cbn [run_steps]. rewrite Es.
  assert (I : invariant (reset e) (new_replay od ad size) n s) by (apply (loop_invariant n e _ l); unfold train_loop; rewrite Er; auto).
  destruct I as (I1 & I2 & _). unfold body.
  set (a := if Nat.ltb start_steps n then get_action (policy (lp_learn E L s)) low high (noise n) (lp_obs E L s) else sample n). destruct (step (lp_env E L s) a) as [[[e1 o2] r] d0]. cbv zeta.
  set (tr := {| tr_obs := lp_obs E L s; tr_act := a; tr_rew := r; tr_obs2 := o2; tr_done := if Nat.eqb (lp_len E L s + 1) max_ep_len then false else d0 |}).
  destruct (stores_hold od ad size Hs (lp_trace E L s ++ [tr])) as (slots & b & Eb & A & _ & _ & _ & Sz & _).
  rewrite (stores_app _ _ _ _ I2) in Eb. rewrite Eb.
  match goal with |- context [if ?c then reset e1 else (e1, o2)] => destruct (if c then reset e1 else (e1, o2)) as [e2 o'] end.
  destruct (Nat.leb update_after n); [|eexists; reflexivity].
  destruct (Nat.eqb update_every 0) eqn:E0; [apply Nat.eqb_eq in E0; lia|].
  destruct (Nat.eqb (n mod update_every) 0); [|eexists; reflexivity].
  destruct (updates_ok (seq 0 update_every) (lp_learn E L s) b n) as [l' El].
  { intros l' j _. apply Hg. rewrite Sz, app_length. cbn. lia. }
  rewrite El. eexists; reflexivity.
Qed.
(** Within an episode. *)
Lemma env_len : forall start acts t, (0 < max_ep_len)%nat ->
  (snd (env_at E reset step max_ep_len start acts t) < max_ep_len)%nat.
Proof.
  intros start acts t Hm. induction t as [|t IH]; [cbn; auto|]. cbn [env_at].
  destruct (env_at E reset step max_ep_len start acts t) as [[e o] len]. cbn [snd] in IH.
  destruct (step e (acts t)) as [[[e1 o2] r] d]. destruct (Nat.eqb (len + 1) max_ep_len) eqn:Eh.
  - rewrite orb_true_r. cbn. auto.
  - apply Nat.eqb_neq in Eh. destruct d; cbn; lia.
Qed.
(** The observation that follows is the next one, unless the episode ends. *)
Lemma env_chain : forall start acts t, ends E reset step max_ep_len start acts t = false ->
  tr_obs (experience E reset step max_ep_len start acts (S t)) = tr_obs2 (experience E reset step max_ep_len start acts t).
Proof.
  intros start acts t. unfold ends, experience. cbn [env_at].
  destruct (env_at E reset step max_ep_len start acts t) as [[e o] len].
  destruct (step e (acts t)) as [[[e1 o2] r] d]. intros H. rewrite H.
  destruct (step e1 (acts (S t))) as [[[e3 o3] r3] d3]. reflexivity.
Qed.
Lemma done_ends : forall start acts t, tr_done (experience E reset step max_ep_len start acts t) = true ->
  ends E reset step max_ep_len start acts t = true.
Proof.
  intros start acts t. unfold ends, experience. destruct (env_at E reset step max_ep_len start acts t) as [[e o] len].
  destruct (step e (acts t)) as [[[e1 o2] r] d]. cbn. destruct d; [reflexivity|cbn; discriminate].
Qed.
(** Among max_ep_len steps in a row one ends an episode. *)
Lemma len_grows : forall start acts t k, (forall i, (t <= i < t + k)%nat -> ends E reset step max_ep_len start acts i = false) ->
  snd (env_at E reset step max_ep_len start acts (t + k)) = (snd (env_at E reset step max_ep_len start acts t) + k)%nat.
Proof.
  intros start acts t k. induction k as [|k IH]; intros H; [rewrite !Nat.add_0_r; reflexivity|].
  assert (Hk := H (t + k)%nat ltac:(lia)). specialize (IH ltac:(intros; apply H; lia)).
  replace (t + S k)%nat with (S (t + k)) by lia. cbn [env_at]. unfold ends in Hk.
  destruct (env_at E reset step max_ep_len start acts (t + k)) as [[e o] len]. cbn [snd] in IH.
  destruct (step e (acts (t + k)%nat)) as [[[e1 o2] r] d]. rewrite Hk. cbn [snd]. lia.
Qed.
Lemma episodes_short : forall start acts t, (0 < max_ep_len)%nat ->
  exists i, (t <= i < t + max_ep_len)%nat /\ ends E reset step max_ep_len start acts i = true.
Proof.
  intros start acts t Hm.
  destruct (existsb (ends E reset step max_ep_len start acts) (seq t max_ep_len)) eqn:Ex.
  - apply existsb_exists in Ex. destruct Ex as (i & Ii & Hi). apply in_seq in Ii. exists i. auto.
  - exfalso. assert (H : forall i, (t <= i < t + max_ep_len)%nat -> ends E reset step max_ep_len start acts i = false).
    { intros i Hi. destruct (ends E reset step max_ep_len start acts i) eqn:Ei; [|reflexivity]. rewrite <- Ex. symmetry.
      apply existsb_exists. exists i. split; [apply in_seq; lia|auto]. }
    apply len_grows in H. assert (Q := env_len start acts (t + max_ep_len) Hm). lia.
Qed.
End Loop.

(** ** How many updates *)
Section Count.
Variable update_after update_every : nat.
Hypothesis every : (0 < update_every)%nat.
Definition up (n : nat) : nat := (update_every * ((n + (update_every - 1)) / update_every))%nat.
Lemma up_bounds : forall n, (n <= up n < n + update_every)%nat.
Proof.
  intros n. unfold up. assert (M := Nat.div_mod (n + (update_every - 1)) update_every ltac:(lia)).
  assert (B := Nat.mod_upper_bound (n + (update_every - 1)) update_every ltac:(lia)). lia.
Qed.
Lemma up_unique : forall n k, (n <= update_every * k < n + update_every)%nat -> up n = (update_every * k)%nat.
Proof.
  intros n k H. assert (B := up_bounds n). unfold up in *.
  set (q := ((n + (update_every - 1)) / update_every)%nat) in *. f_equal. nia.
Qed.
Lemma up_S : forall n, up (S n) = (up n + if Nat.eqb (n mod update_every) 0 then update_every else 0)%nat.
Proof.
  intros n. assert (M := Nat.div_mod n update_every ltac:(lia)).
  assert (B := Nat.mod_upper_bound n update_every ltac:(lia)).
  destruct (Nat.eqb (n mod update_every) 0) eqn:Em.
  - apply Nat.eqb_eq in Em. rewrite (up_unique n (n / update_every)) by lia.
    rewrite (up_unique (S n) (S (n / update_every))) by lia. lia.
  - apply Nat.eqb_neq in Em. rewrite (up_unique n (S (n / update_every))) by lia.
    rewrite (up_unique (S n) (S (n / update_every))) by lia. lia.
Qed.
Lemma up_mono : forall n m, (n <= m)%nat -> (up n <= up m)%nat.
Proof.
  intros n m H. induction H as [|m H IH]; [lia|]. rewrite up_S. lia.
Qed.
Lemma schedule_count : forall total, length (schedule update_after update_every total) = (up total - up update_after)%nat.
Proof.
  intros total. induction total as [|n IH].
  - cbn. assert (up 0 <= up update_after)%nat by (apply up_mono; lia). lia.
  - rewrite schedule_S, app_length, IH, up_S. destruct (Nat.leb update_after n) eqn:Ua; cbn [andb].
    + apply Nat.leb_le in Ua. assert (M := up_mono _ _ Ua).
      destruct (Nat.eqb (n mod update_every) 0); [rewrite map_length, seq_length; lia|cbn; lia].
    + apply Nat.leb_gt in Ua. assert (M := up_mono (S n) update_after ltac:(lia)). rewrite up_S in M. cbn [length].
      assert (M2 := up_mono n update_after ltac:(lia)). lia.
Qed.
(** One update per step of the environment, up to update_every. *)
Lemma ratio : forall total, (update_after <= total)%nat ->
  (total - update_after < length (schedule update_after update_every total) + update_every)%nat /\
  (length (schedule update_after update_every total) < total - update_after + update_every)%nat.
Proof.
  intros total H. rewrite schedule_count. assert (A := up_bounds total). assert (B := up_bounds update_after).
  assert (M := up_mono _ _ H). lia.
Qed.
End Count.
(** The steps on the policy. *)
Definition policy_steps (delay : nat) (l : list (nat * nat)) : list (nat * nat) :=
  filter (fun p => Nat.eqb (snd p mod delay) 0) l.
Lemma count_multiples : forall d n, (0 < d)%nat -> length (filter (fun j => Nat.eqb (j mod d) 0) (seq 0 n)) = ((n + (d - 1)) / d)%nat.
Proof.
  intros d n Hd. assert (H : forall m, (d * length (filter (fun j => Nat.eqb (j mod d) 0) (seq 0 m)) = up d m)%nat).
  { intros m. induction m as [|m IH].
    - unfold up. cbn [seq filter length]. rewrite Nat.div_small by lia. lia.
    - rewrite seq_S, filter_app, app_length, Nat.mul_add_distr_l, IH, up_S by lia. cbn [filter plus].
      destruct (Nat.eqb (m mod d) 0); cbn [length]; lia. }
  specialize (H n). unfold up in H. nia.
Qed.
Lemma filter_map_pair : forall t d l, length (filter (fun p : nat * nat => Nat.eqb (snd p mod d) 0) (map (fun j => (t, j)) l))
  = length (filter (fun j => Nat.eqb (j mod d) 0) l).
Proof.
  intros t d l. induction l as [|j l IH]; [reflexivity|]. cbn [map filter snd]. destruct (Nat.eqb (j mod d) 0); cbn [length]; lia.
Qed.
Lemma policy_count : forall update_after update_every delay total, (0 < delay)%nat ->
  (length (policy_steps delay (schedule update_after update_every total)) * update_every
   = length (schedule update_after update_every total) * ((update_every + (delay - 1)) / delay))%nat.
Proof.
  intros ua ue d total Hd. induction total as [|n IH]; [reflexivity|].
  rewrite schedule_S. unfold policy_steps in *. rewrite filter_app, !app_length, !Nat.mul_add_distr_r, IH. f_equal.
  destruct (andb (Nat.leb ua n) (Nat.eqb (n mod ue) 0)); [|reflexivity].
  rewrite filter_map_pair, count_multiples, map_length, seq_length by auto. lia.
Qed.
