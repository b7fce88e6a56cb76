(** The training loop: epochs, interrupts and crashes. *)

Require Import Reals List Bool Arith ZArith Lia.
Require Import Verif.Vec Verif.ModelDynTrain Verif.SpecDynTrain Verif.ProofDynTrain.
Import ListNotations.

Section S.
Context {w : world}.
Variable cfg : train_opt w.
Implicit Types (s t : tstate w) (p q r : w_P w) (b : w_B w).

Lemma saves_spec : forall e, (Z.ltb 0 (r_save_rate cfg) && Z.eqb (Z.of_nat e mod r_save_rate cfg) 0)%bool = true <->
  saves cfg e.
Proof.
  intros e. unfold saves. rewrite andb_true_iff, Z.ltb_lt, Z.eqb_eq. split; intros [A B]; split; auto.
  - apply Z.mod_divide; [lia|auto].
  - apply Z.mod_divide in B; [auto|lia].
Qed.

Lemma epoch_run : forall e n k s x t, s_iter s = n -> on_device cfg (r_device cfg) s ->
  run cfg k (epoch_ops cfg e n) s = (x, t) ->
  reached cfg n (w_loader w e) (s_par s) (s_par t) /\
  (s_file t = s_file s \/ unfinished cfg (s_file t) \/ holds cfg (r_device cfg) (s_par t) (s_file t)) /\
  (x = Completed ->
     iterations cfg n (w_loader w e) (s_par s) (s_par t) /\ s_iter t = (n + length (w_loader w e))%nat /\
     on_device cfg (r_device cfg) t /\ s_opt t = s_opt s /\
     (exists l, s_log t = s_log s ++ l /\ logged cfg n (n + length (w_loader w e)) l) /\
     (r_validate cfg = true -> w_validates w e (s_par t) = true) /\
     (saves cfg e -> r_path cfg = true /\ holds cfg (r_device cfg) (s_par t) (s_file t)) /\
     (~ saves cfg e -> s_file t = s_file s)).
Proof.
  intros e n k s x t Hn [D1 D2] E. unfold epoch_ops in E. rewrite run_app in E.
  destruct (run cfg k (batches_ops cfg n (w_loader w e)) s) as [x1 t1] eqn:E1.
  assert (Q1 := run_quiet cfg _ k s (batches_quiet cfg (w_loader w e) n)). rewrite E1 in Q1. cbn [snd] in Q1.
  destruct (batches_run cfg _ _ _ _ _ _ Hn E1) as [R1 C1].
  destruct x1; try (injection E as <- <-; split; [exact R1|split; [auto|discriminate]]).
  destruct (C1 eq_refl) as (I1 & N1 & O1 & Co1 & L1 & l1 & Hl1 & Ll1). specialize (L1 D1).
  rewrite run_app in E. set (k1 := (k - length (batches_ops cfg n (w_loader w e)))%nat) in *.
  (* validation *)
  destruct (run cfg k1 (if r_validate cfg then [OpValidate w e; OpLog w EValidation] else []) t1) as [x2 t2] eqn:E2.
  assert (V : s_par t2 = s_par t1 /\ s_file t2 = s_file t1 /\ s_iter t2 = s_iter t1 /\ s_lyap_dev t2 = s_lyap_dev t1 /\
              s_coder_dev t2 = s_coder_dev t1 /\ s_opt t2 = s_opt t1 /\
              (x2 = Completed -> (r_validate cfg = true -> w_validates w e (s_par t1) = true) /\
                 s_log t2 = s_log t1 ++ (if r_validate cfg then [EValidation (s_iter t1)] else []))).
  { destruct (r_validate cfg).
    - destruct k1 as [|k1]; [cbn in E2; injection E2 as <- <-; repeat split; auto; discriminate|].
      cbn [run exec] in E2. destruct (w_validates w e (s_par t1)) eqn:Ev;
        [|injection E2 as <- <-; repeat split; auto; discriminate].
      destruct k1 as [|k1]; cbn in E2; injection E2 as <- <-; repeat split; auto; discriminate.
    - cbn in E2. injection E2 as <- <-. rewrite app_nil_r. repeat split; auto; discriminate. }
  destruct V as (P2 & F2 & N2 & L2 & Co2 & O2 & V2).
  destruct x2; try (injection E as <- <-; rewrite P2, F2, Q1; split; [exact R1|split; [auto|discriminate]]).
  destruct (V2 eq_refl) as [Va Lg2].
  match type of E with run _ ?j _ _ = _ => set (k2 := j) in * end.
  assert (On2 : on_device cfg (r_device cfg) t2).
  { split; [congruence|]. intros Z. rewrite Co2, Co1. auto. }
  assert (Log2 : exists l, s_log t2 = s_log s ++ l /\ logged cfg n (n + length (w_loader w e)) l).
  { exists (l1 ++ (if r_validate cfg then [EValidation (s_iter t1)] else [])). rewrite Lg2, Hl1, app_assoc. split; [reflexivity|].
    eapply logged_app; [exact Ll1|]. destruct (r_validate cfg) eqn:Rv; [|constructor]. rewrite N1. apply lo_valid; [auto|constructor]. }
  destruct (Z.ltb 0 (r_save_rate cfg) && Z.eqb (Z.of_nat e mod r_save_rate cfg) 0)%bool eqn:Sv.
  - apply saves_spec in Sv.
    destruct k2 as [|k2]; [cbn in E; injection E as <- <-; rewrite P2, F2, Q1; split; [exact R1|split; [auto|discriminate]]|].
    cbn [run exec] in E. destruct (r_path cfg) eqn:Pa;
      [|injection E as <- <-; rewrite P2, F2, Q1; split; [exact R1|split; [auto|discriminate]]].
    destruct (save_run cfg k2 t2 x t _ On2 E) as (P3 & N3 & O3 & Lg3 & On3 & _ & F3 & C3).
    split; [rewrite P3, P2; exact R1|]. split; [rewrite P3; destruct F3 as [F3|[F3|F3]]; auto; left; congruence|].
    intros X. specialize (C3 X). rewrite P3, P2, N3, N2, O3, O2, Lg3.
    split; [exact I1|]. split; [exact N1|]. split; [exact On3|]. split; [exact O1|]. split; [exact Log2|].
    split; [exact Va|]. split; [|intros Z; contradiction]. intros _. split; [auto|]. rewrite P2 in C3. exact C3.
  - assert (Sv' : ~ saves cfg e) by (rewrite <- saves_spec; congruence).
    cbn in E. injection E as <- <-. rewrite P2, F2, Q1. split; [exact R1|]. split; [auto|]. intros _.
    rewrite N2, O2. split; [exact I1|]. split; [exact N1|]. split; [exact On2|]. split; [exact O1|]. split; [exact Log2|].
    split; [exact Va|]. split; [intros Z; contradiction|auto].
Qed.

Lemma epochs_run : forall left e n k s x t, s_iter s = n -> on_device cfg (r_device cfg) s ->
  run cfg k (epochs_ops cfg left e n) s = (x, t) ->
  reached cfg n (all_batches left e) (s_par s) (s_par t) /\
  (s_file t = s_file s \/ unfinished cfg (s_file t) \/
   exists q, reached cfg n (all_batches left e) (s_par s) q /\ holds cfg (r_device cfg) q (s_file t)) /\
  (x = Completed ->
     iterations cfg n (all_batches left e) (s_par s) (s_par t) /\ s_iter t = (n + length (all_batches (w:=w) left e))%nat /\
     on_device cfg (r_device cfg) t /\ s_opt t = s_opt s /\
     (exists l, s_log t = s_log s ++ l /\ logged cfg n (n + length (all_batches (w:=w) left e)) l)).
Proof.
  induction left as [|left IH]; intros e n k s x t Hn On E.
  - cbn in E. injection E as <- <-. cbn [all_batches length]. rewrite Nat.add_0_r. split; [constructor|]. split; [auto|].
    intros _. split; [constructor|]. split; [auto|]. split; [auto|]. split; [auto|]. exists []. rewrite app_nil_r. split; [auto|constructor].
  - cbn [epochs_ops all_batches] in *. rewrite run_app in E.
    destruct (run cfg k (epoch_ops cfg e n) s) as [x1 t1] eqn:E1.
    destruct (epoch_run e n k s x1 t1 Hn On E1) as (R1 & F1 & C1).
    assert (Fst : s_file t1 = s_file s \/ unfinished cfg (s_file t1) \/
      exists q, reached cfg n (w_loader w e ++ all_batches left (S e)) (s_par s) q /\ holds cfg (r_device cfg) q (s_file t1)).
    { destruct F1 as [F1|[F1|F1]]; auto. right. right. exists (s_par t1). split; [apply reached_more; exact R1|exact F1]. }
    destruct x1; try (injection E as <- <-; split; [apply reached_more; exact R1|split; [exact Fst|discriminate]]).
    destruct (C1 eq_refl) as (I1 & N1 & On1 & O1 & (l1 & Hl1 & Ll1) & _).
    destruct (IH (S e) _ _ t1 x t N1 On1 E) as (R2 & F2 & C2).
    assert (App : forall q, reached cfg (n + length (w_loader w e)) (all_batches left (S e)) (s_par t1) q ->
      reached cfg n (w_loader w e ++ all_batches left (S e)) (s_par s) q).
    { intros q Hq. eapply reached_app; eauto. }
    split; [apply App; exact R2|]. split.
    { destruct F2 as [F2|[F2|(q & Rq & Hq)]]; [rewrite F2; exact Fst|auto|]. right. right. exists q. split; [apply App|]; auto. }
    intros X. destruct (C2 X) as (I2 & N2 & On2 & O2 & l2 & Hl2 & Ll2). rewrite app_length, Nat.add_assoc.
    split; [eapply iterations_app; eauto|]. split; [exact N2|]. split; [exact On2|]. split; [congruence|].
    exists (l1 ++ l2). split; [rewrite Hl2, Hl1, app_assoc; reflexivity|]. eapply logged_app; eauto.
Qed.

Lemma final_run : forall k s x t, run cfg k (final_ops cfg) s = (x, t) ->
  s_par t = s_par s /\ s_iter t = s_iter s /\ s_opt t = s_opt s /\ s_log t = s_log s /\ x <> Raised /\
  (s_file t = s_file s \/ unfinished cfg (s_file t) \/ holds cfg (w_cpu w) (s_par s) (s_file t)) /\
  (x = Completed -> on_device cfg (w_cpu w) t /\ (r_path cfg = true -> holds cfg (w_cpu w) (s_par s) (s_file t)) /\
     (r_path cfg = false -> s_file t = s_file s)).
Proof.
  intros k s x t E. unfold final_ops in E.
  destruct k as [|k]; [cbn in E; injection E as <- <-; repeat split; auto; discriminate|]. cbn [run exec] in E.
  assert (On : on_device cfg (w_cpu w) (all_to cfg (w_cpu w) s)).
  { split; [reflexivity|]. cbn. intros ->. reflexivity. }
  destruct (r_path cfg).
  - destruct (save_run cfg k _ x t _ On E) as (P3 & N3 & O3 & Lg3 & On3 & Nr & F3 & C3). cbn in *.
    repeat split; auto; try (apply On3; auto); discriminate.
  - cbn in E. injection E as <- <-. repeat split; auto; try discriminate; try (apply On). 
Qed.
Lemma final_completes : forall s, exists t, run_all cfg (final_ops cfg) s = (Completed, t).
Proof.
  intros s. unfold run_all. destruct (run cfg (length (final_ops cfg)) (final_ops cfg) s) as [x t] eqn:E. exists t.
  assert (A := run_not_stopped cfg (final_ops cfg) _ s (le_n _)). rewrite E in A. cbn in A.
  destruct (final_run _ _ _ _ E) as (_ & _ & _ & _ & B & _). destruct x; congruence.
Qed.

Lemma started_spec : forall s, s_par (started cfg s) = s_par s /\ s_file (started cfg s) = s_file s /\
  s_log (started cfg s) = s_log s /\ on_device cfg (r_device cfg) (started cfg s) /\
  s_iter (started cfg s) = first_iteration s /\ s_opt (started cfg s) = true.
Proof.
  intros s. unfold started, first_iteration, on_device. cbn [s_opt all_to].
  destruct (s_opt s) eqn:Eo; cbn; rewrite ?Eo; repeat split; auto; intros ->; reflexivity.
Qed.

Definition batches : list (w_B w) := all_batches (r_epochs cfg) 0.

(** train, with an interrupt at any time *)
Lemma train_any : forall k s s' t, train cfg k s = (Some s', t) ->
  on_device cfg (w_cpu w) s' /\
  reached cfg (first_iteration s) batches (s_par s) (s_par s') /\
  (r_path cfg = true -> holds cfg (w_cpu w) (s_par s') (s_file s')).
Proof.
  intros k s s' t. unfold train. destruct (started_spec s) as (P0 & F0 & L0 & On0 & N0 & O0).
  destruct (run cfg k (loop_ops cfg s) (started cfg s)) as [x u] eqn:E. unfold loop_ops in E. rewrite N0 in E.
  destruct (epochs_run _ _ _ _ _ _ _ N0 On0 E) as (R & _ & _). rewrite P0 in R.
  destruct (final_completes u) as [v Ev]. unfold run_all in *. destruct (final_run _ _ _ _ Ev) as (P1 & _ & _ & _ & _ & _ & C).
  destruct (C eq_refl) as (On & Ho & _).
  destruct x; rewrite ?Ev; intros H; try discriminate; injection H as <- <-; rewrite P1; auto.
Qed.
Lemma train_complete : forall k s s' t, (length (loop_ops cfg s) <= k)%nat -> train cfg k s = (Some s', t) ->
  iterations cfg (first_iteration s) batches (s_par s) (s_par s') /\
  s_iter s' = (first_iteration s + length batches)%nat /\
  exists l, s_log s' = s_log s ++ l /\ logged cfg (first_iteration s) (s_iter s') l.
Proof.
  intros k s s' t Hk. unfold train. destruct (started_spec s) as (P0 & F0 & L0 & On0 & N0 & O0).
  assert (Ns := run_not_stopped cfg (loop_ops cfg s) k (started cfg s) Hk).
  destruct (run cfg k (loop_ops cfg s) (started cfg s)) as [x u] eqn:E. unfold loop_ops in E. rewrite N0 in E.
  destruct (epochs_run _ _ _ _ _ _ _ N0 On0 E) as (_ & _ & R). rewrite P0, L0 in R.
  destruct (final_completes u) as [v Ev]. unfold run_all in *. destruct (final_run _ _ _ _ Ev) as (P1 & N1 & _ & Lg & _).
  cbn in Ns. destruct x; rewrite ?Ev; intros H; try discriminate; [|congruence]. injection H as <- <-.
  destruct (R eq_refl) as (I & N & _ & _ & l & Hl & Ll). rewrite P1, N1, Lg. split; [exact I|]. split; [exact N|].
  exists l. split; [exact Hl|]. rewrite N. exact Ll.
Qed.

(** A crash at any time *)
Lemma crash_any : forall m s,
  let f := s_file (killed cfg m s) in
  f = s_file s \/ unfinished cfg f \/
  exists q d, reached cfg (first_iteration s) batches (s_par s) q /\ holds cfg d q f.
Proof.
  intros m s. unfold killed. destruct (started_spec s) as (P0 & F0 & L0 & On0 & N0 & O0). rewrite run_app.
  destruct (run cfg m (loop_ops cfg s) (started cfg s)) as [x u] eqn:E. unfold loop_ops in E. rewrite N0 in E.
  destruct (epochs_run _ _ _ _ _ _ _ N0 On0 E) as (R & F & _). rewrite P0, F0 in *.
  assert (Fu : s_file u = s_file s \/ unfinished cfg (s_file u) \/
    exists q d, reached cfg (first_iteration s) batches (s_par s) q /\ holds cfg d q (s_file u)).
  { destruct F as [F|[F|(q & A & B)]]; auto. right. right. exists q, (r_device cfg). split; auto. }
  destruct x; try exact Fu.
  match goal with |- context [run cfg ?j (final_ops cfg) u] => destruct (run cfg j (final_ops cfg) u) as [y v] eqn:Ev end.
  destruct (final_run _ _ _ _ Ev) as (P1 & _ & _ & _ & _ & Fv & _). cbn [snd].
  destruct Fv as [Fv|[Fv|Fv]]; [rewrite Fv; exact Fu|auto|]. right. right. exists (s_par u), (w_cpu w). split; auto.
Qed.

(** ** When training goes through *)
Hypothesis Gd : forall b p, w_gdyn w b p <> None.
Hypothesis Gl : forall b p, w_glyap w b p <> None.
Hypothesis Va : r_validate cfg = true -> forall e p, w_validates w e p = true.
Definition harmless (o : op w) : Prop := match o with
  | OpValidate _ _ => r_validate cfg = true | OpAssertPath _ => r_path cfg = true | _ => True end.
Lemma harmless_run : forall ops k s, Forall harmless ops -> fst (run cfg k ops s) <> Raised.
Proof.
  induction ops as [|o ops IH]; intros k s F; [discriminate|]. inversion F as [|? ? H F']; subst. cbn [run].
  destruct k as [|k]; [discriminate|].
  destruct (exec cfg o s) as [s'|] eqn:E; [apply IH; auto|]. exfalso.
  destruct o; cbn in E, H; try discriminate.
  - destruct (w_gdyn w b (s_par s)) eqn:Z; [discriminate|]. exact (Gd _ _ Z).
  - destruct (w_glyap w b (s_par s)) eqn:Z; [discriminate|]. exact (Gl _ _ Z).
  - rewrite Va in E by auto. discriminate.
  - rewrite H in E. discriminate.
Qed.
Lemma batches_harmless : forall bs n, Forall harmless (batches_ops cfg n bs).
Proof.
  induction bs as [|b bs IH]; intros n; cbn [batches_ops]; [constructor|]. apply Forall_app. split; [|apply IH].
  unfold batch_ops. destruct (lyap_due cfg n); cbn; repeat constructor.
Qed.
Lemma save_harmless : Forall harmless (save_ops cfg).
Proof. unfold save_ops. destruct (r_latent cfg); repeat constructor. Qed.
Hypothesis Pa : (forall e, (e < r_epochs cfg)%nat -> ~ saves cfg e) \/ r_path cfg = true.
Lemma epochs_harmless : forall left e n, (left + e = r_epochs cfg)%nat -> Forall harmless (epochs_ops cfg left e n).
Proof.
  induction left as [|left IH]; intros e n He; cbn [epochs_ops]; [constructor|]. apply Forall_app. split; [|apply IH; lia].
  unfold epoch_ops. apply Forall_app. split; [apply batches_harmless|]. apply Forall_app. split.
  - destruct (r_validate cfg) eqn:V; repeat constructor. cbn. auto.
  - destruct (Z.ltb 0 (r_save_rate cfg) && Z.eqb (Z.of_nat e mod r_save_rate cfg) 0)%bool eqn:Sv; [|constructor].
    apply saves_spec in Sv. constructor; [|apply save_harmless]. cbn. destruct Pa as [Pn|Py]; [|auto].
    exfalso. apply (Pn e); [lia|auto].
Qed.
Lemma train_total : forall k s, exists s', train cfg k s = (Some s', s').
Proof.
  intros k s. unfold train. assert (H := harmless_run (loop_ops cfg s) k (started cfg s) (epochs_harmless _ 0 _ (Nat.add_0_r _))).
  destruct (run cfg k (loop_ops cfg s) (started cfg s)) as [x u]. destruct (final_completes u) as [v Ev]. rewrite Ev.
  cbn in H. destruct x; try contradiction; exists v; reflexivity.
Qed.
End S.

(** The assertion on save_path *)
Section A.
Context {w : world}.
Variable cfg : train_opt w.
Lemma no_path : forall s, (forall b p, w_gdyn w b p <> None) -> (forall b p, w_glyap w b p <> None) ->
  (r_validate cfg = true -> forall e p, w_validates w e p = true) ->
  (0 < r_epochs cfg)%nat -> (0 < r_save_rate cfg)%Z -> r_path cfg = false ->
  forall k, (length (loop_ops cfg s) <= k)%nat ->
  exists t, train cfg k s = (None, t) /\ on_device cfg (r_device cfg) t /\
    iterations cfg (first_iteration s) (w_loader w 0) (s_par s) (s_par t).
Proof.
  intros s Gd Gl Va Ep Sr Np k Hk. unfold train, loop_ops in *.
  destruct (started_spec cfg s) as (P0 & F0 & L0 & On0 & N0 & O0). rewrite N0 in *.
  destruct (r_epochs cfg) as [|left]; [lia|]. cbn [epochs_ops] in *. rewrite app_length in Hk. rewrite run_app.
  unfold epoch_ops in *. rewrite !app_length in Hk.
  assert (S0 : (Z.ltb 0 (r_save_rate cfg) && Z.eqb (Z.of_nat 0 mod r_save_rate cfg) 0)%bool = true).
  { apply saves_spec. split; [auto|]. exists 0%Z. reflexivity. }
  rewrite S0 in *. cbn [length] in Hk.
  rewrite run_app. set (bo := batches_ops cfg (first_iteration s) (w_loader w 0)) in *.
  assert (H1 := harmless_run cfg Gd Gl Va bo k (started cfg s) (batches_harmless cfg _ _)).
  assert (H2 := run_not_stopped cfg bo k (started cfg s) ltac:(lia)).
  destruct (run cfg k bo (started cfg s)) as [x1 t1] eqn:E1. cbn in H1, H2. destruct x1; try contradiction.
  destruct (batches_run cfg _ _ _ _ _ _ N0 E1) as (_ & C). destruct (C eq_refl) as (I & N & _ & Co & L & _).
  rewrite P0 in I. rewrite run_app.
  set (vo := if r_validate cfg then [OpValidate w 0; OpLog w EValidation] else []) in *.
  assert (Fv : Forall (harmless cfg) vo).
  { unfold vo. destruct (r_validate cfg) eqn:V; repeat constructor. cbn. auto. }
  assert (H3 := harmless_run cfg Gd Gl Va vo (k - length bo) t1 Fv).
  assert (H4 := run_not_stopped cfg vo (k - length bo) t1 ltac:(lia)).
  destruct (run cfg (k - length bo) vo t1) as [x2 t2] eqn:E2. cbn in H3, H4. destruct x2; try contradiction.
  assert (K : exists j, (k - length bo - length vo)%nat = S j) by (exists (k - length bo - length vo - 1)%nat; lia).
  destruct K as [j ->]. cbn [run exec]. rewrite Np. exists t2. split; [reflexivity|].
  assert (V : s_par t2 = s_par t1 /\ s_lyap_dev t2 = s_lyap_dev t1 /\ s_coder_dev t2 = s_coder_dev t1).
  { unfold vo in E2. destruct (r_validate cfg); [|cbn in E2; injection E2 as <-; auto].
    destruct (k - length bo)%nat as [|[|j']]; cbn [run exec] in E2; try discriminate;
      destruct (w_validates w 0 (s_par t1)); try discriminate; injection E2 as <-; auto. }
  destruct V as (-> & V1 & V2). split; [|exact I]. destruct On0 as [On1 On2]. split; [rewrite V1; auto|].
  intros Z. rewrite V2, Co. auto.
Qed.
End A.
