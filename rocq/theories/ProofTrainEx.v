(** The certificate behind a successful verdict, and concrete runs of the training loops. *)

Require Import Reals List Bool Arith Lia Lra.
Require Import Verif.Vec Verif.VecFacts Verif.ModelMip Verif.SpecMip Verif.SpecCore Verif.ModelNet Verif.SpecNet
  Verif.SpecStep Verif.ModelLyapunov Verif.SpecLyapunov Verif.ModelExamples
  Verif.ProofBounds Verif.ProofLyapCert Verif.ProofLyapMore Verif.ProofExamples
  Verif.ModelTrain Verif.SpecTrain Verif.SpecTrainCert Verif.ProofTrain Verif.ProofTrainLoop.
Import ListNotations.
Open Scope R_scope.

Lemma optima_certify : forall solve, solver_ok solve -> forall meth n x_lo x_up xeq lam eps_pos eps_der et
    st add_system T N R0 r,
  lyap_args n N x_lo x_up R0 xeq -> system_contract n st add_system T ->
  reports_optima solve meth n x_lo x_up xeq lam eps_pos eps_der et add_system N R0 r ->
  (forall x, in_box x_lo x_up x ->
     eps_pos * error1 (R_of n R0) xeq x - V N (R_of n R0) lam xeq x <= pos_obj r) /\
  (forall x x', in_box x_lo x_up x -> in_box x_lo x_up x' -> T x x' ->
     violation et N (R_of n R0) lam eps_der xeq x x' <= der_obj r).
Proof.
  intros solve Hs meth n x_lo x_up xeq lam ep ed et st add T N R0 r A C (m & xv & d & E1 & S1 & E2 & S2).
  split.
  - destruct (positivity_program solve Hs meth N n x_lo x_up R0 xeq A lam ep m xv E1) as (P1 & _ & _ & P3 & P4).
    assert (H := Hs m). rewrite S1, P1 in H. destruct H as [_ Mx].
    intros x B. destruct (P4 x B) as (sg & G & Ex). specialize (Mx sg G). destruct (P3 sg G) as [_ Eo].
    rewrite Eo, Ex in Mx. exact Mx.
  - destruct (derivative_exact solve Hs meth N n x_lo x_up R0 xeq A lam st add T C ed et None None d E2)
      as (P1 & P2 & P3).
    assert (H := Hs (d_mip d)). rewrite S2, P1 in H. destruct H as [_ Mx].
    intros x x' B B' Tx. destruct (P3 x x' B B' Tx) as (sg & G & Ex & Ex').
    { split; intros l El; discriminate El. }
    specialize (Mx sg G). destruct (P2 sg G) as (_ & _ & _ & _ & Eo). rewrite Eo, Ex, Ex' in Mx. exact Mx.
Qed.

Lemma adversarial_certificate : forall solve, solver_ok solve -> forall meth n x_lo x_up xeq lam eps_pos eps_der et st
    (CtlT RV : Type) (R0 : RV -> option mat)
    (add_system : CtlT -> list nat -> list nat -> vtype -> mip -> option mip) (T : CtlT -> vec -> vec -> Prop)
    cfg sample_loss opt solver radius perturb pos_size der_size num_epochs pos_tol der_tol
    max_iterations (m : model network CtlT RV) pos der s',
  train_adversarial cfg sample_loss opt solver radius perturb pos_size der_size num_epochs pos_tol der_tol
    max_iterations m pos der = (true, s') ->
  let N := net (a_model s') in let c := ctl (a_model s') in let r := r_value (a_model s') in
  lyap_args n N x_lo x_up (R0 r) xeq -> system_contract n st (add_system c) (T c) ->
  (forall k, reports_optima solve meth n x_lo x_up xeq lam eps_pos eps_der et (add_system c) N (R0 r)
     (solver k N c r)) ->
  (forall x, in_box x_lo x_up x ->
     eps_pos * error1 (R_of n (R0 r)) xeq x - V N (R_of n (R0 r)) lam xeq x < pos_tol) /\
  (forall x x', in_box x_lo x_up x -> in_box x_lo x_up x' -> T c x x' ->
     violation et N (R_of n (R0 r)) lam eps_der xeq x x' < der_tol).
Proof.
  intros solve Hs meth n x_lo x_up xeq lam ep ed et st CtlT RV R0 add T cfg sl opt solver radius perturb
    ps ds ne pt dt mi m pos der s' E N c r A C H.
  destruct (adversarial_verdict cfg sl opt solver radius perturb ps ds ne pt dt mi m pos der s' E)
    as (k & _ & V1 & V2).
  destruct (optima_certify solve Hs meth n x_lo x_up xeq lam ep ed et st (add c) (T c) N (R0 r) _ A C (H k))
    as [H1 H2].
  split.
  - intros x B. eapply Rle_lt_trans; [exact (H1 x B)|exact V1].
  - intros x x' B B' Tx. eapply Rle_lt_trans; [exact (H2 x x' B B' Tx)|exact V2].
Qed.

Lemma train_verdict : forall (NetT CtlT RV : Type) cfg solver pos_tol der_tol step n
    (m : model NetT CtlT RV) po do m',
  train cfg solver pos_tol der_tol step n m = Some (true, po, do, m') ->
  exists k, po = pos_obj (report_of solver k m') /\ do = der_obj (report_of solver k m') /\
    po <= pos_tol /\ do <= der_tol.
Proof.
  intros NetT CtlT RV cfg solver pt dt step n m po do m' E.
  exact (train_loop_verdict cfg solver pt dt step (rcell m) n O None m po do m' E).
Qed.
Lemma train_certificate : forall solve, solver_ok solve -> forall meth n x_lo x_up xeq lam eps_pos eps_der et st
    (CtlT RV : Type) (R0 : RV -> option mat)
    (add_system : CtlT -> list nat -> list nat -> vtype -> mip -> option mip) (T : CtlT -> vec -> vec -> Prop)
    cfg solver pos_tol der_tol step max_iterations (m : model network CtlT RV) po do m',
  train cfg solver pos_tol der_tol step max_iterations m = Some (true, po, do, m') ->
  let N := net m' in let c := ctl m' in let r := r_value m' in
  lyap_args n N x_lo x_up (R0 r) xeq -> system_contract n st (add_system c) (T c) ->
  (forall k, reports_optima solve meth n x_lo x_up xeq lam eps_pos eps_der et (add_system c) N (R0 r)
     (solver k N c r)) ->
  (forall x, in_box x_lo x_up x ->
     eps_pos * error1 (R_of n (R0 r)) xeq x - V N (R_of n (R0 r)) lam xeq x <= pos_tol) /\
  (forall x x', in_box x_lo x_up x -> in_box x_lo x_up x' -> T c x x' ->
     violation et N (R_of n (R0 r)) lam eps_der xeq x x' <= der_tol).
Proof.
  intros solve Hs meth n x_lo x_up xeq lam ep ed et st CtlT RV R0 add T cfg solver pt dt step mi m po do m' E
    N c r A C H.
  destruct (train_verdict _ _ _ cfg solver pt dt step mi m po do m' E) as (k & E1 & E2 & V1 & V2).
  destruct (optima_certify solve Hs meth n x_lo x_up xeq lam ep ed et st (add c) (T c) N (R0 r) _ A C (H k))
    as [H1 H2].
  split.
  - intros x B. eapply Rle_trans; [exact (H1 x B)|]. rewrite E1 in V1. exact V1.
  - intros x x' B B' Tx. eapply Rle_trans; [exact (H2 x x' B B' Tx)|]. rewrite E2 in V2. exact V2.
Qed.

(** ** Concrete runs *)

(** |x| for the system x' = x/2: verified in the first iteration. *)
Definition cert_model : model network unit unit := mkModel net_abs tt O (fun _ => tt) 1.
Definition cert_solver (_ : nat) (_ : network) (_ _ : unit) : report := mkReport 0 [] 0 [].
Lemma certificate_case :
  train_adversarial (mkSetting false false true) (fun _ _ _ _ _ => (0, 0)) (fun _ _ m => (net m, tt, tt))
    cert_solver None (fun _ l => l) 5 5 3 (1/1000) (1/1000) 2 cert_model [] []
  = (true, mkAdv cert_model [] []) /\
  train (mkSetting false false true) cert_solver (1/1000) (1/1000) (fun _ m => (net m, tt, tt)) 2 cert_model
  = Some (true, 0, 0, cert_model) /\
  forall k, reports_optima ideal_solve IA 1 [-1] [1] [0] (1/2) (1/2) (1/2) ExpLower add1 net_abs None
    (cert_solver k net_abs tt tt).
Proof.
  split; [|split].
  - unfold train_adversarial. cbn [adversarial rcell cert_model].
    unfold solve_and_collect. cbn [a_model a_pos a_der cert_solver pos_adv der_adv pos_obj der_obj].
    unfold clustered. cbn [app]. unfold trim. cbn [Nat.ltb length Nat.leb].
    unfold Rltb. destruct (Rlt_dec 0 (1/1000)) as [_|K]; [auto|exfalso; lra].
  - unfold train. cbn [train_loop cert_solver pos_obj der_obj]. unfold Rleb.
    destruct (Rle_dec 0 (1/1000)) as [_|K]; [auto|exfalso; lra].
  - intros k. destruct positivity_case as (m & xv & E1 & S1).
    destruct (decrease_case ExpLower ltac:(discriminate)) as (d & E2 & S2).
    exists m, xv, d. auto.
Qed.

(** Descent with a bad optimiser: the initial model comes back. *)
Definition num (n r : R) : model R unit R := mkModel n tt O (fun _ => r) 1.
Definition loss_up (n : R) (_ : unit) (_ : R) : R * R := (Rabs n + 1, 0).
Lemma descent_case : (forall n c r, 0 <= fst (loss_up n c r) /\ 0 <= snd (loss_up n c r)) /\
  map net (trajectory (mkSetting false false false) (fun _ m => (net m + 1, tt, 0)) 0 2 0 (num 2 0)) = [2 + 1; 2 + 1 + 1] /\
  net (batch_descent (mkSetting false false false) loss_up (fun _ m => (net m + 1, tt, 0)) 0 2 0 (num 2 0)) = 2.
Proof.
  assert (P : forall n c r, 0 <= fst (loss_up n c r) /\ 0 <= snd (loss_up n c r)).
  { intros n c r. cbn. assert (H := Rabs_pos n). split; lra. }
  split; [exact P|]. split; [reflexivity|].
  destruct (batch_descent_ok (mkSetting false false false) (fun _ m => (net m + 1, tt, 0)) loss_up P 0 2 0 (num 2 0))
    as (H1 & _ & x & Hx & E & _).
  set (m' := batch_descent _ _ _ _ _ _ _) in *. rewrite E.
  unfold total, losses, loss_up in H1. cbn [fst snd] in H1. rewrite E in H1.
  assert (Hn : net x = 2 \/ net x = 2 + 1 \/ net x = 2 + 1 + 1).
  { destruct Hx as [ <- | [ <- | [ <- | [] ] ] ]; cbn; auto. }
  destruct Hn as [ -> | [ K | K ] ]; auto; exfalso; rewrite K in H1; cbn [net num] in H1;
    rewrite (Rabs_right 2) in H1 by lra; rewrite Rabs_right in H1 by lra; lra.
Qed.

(** Training on samples with a variable R: the network of the first epoch comes back
    with the R of the last. *)
Lemma on_samples_R : exists cfg (opt : nat -> model R unit R -> R * unit * R) test_loss n m m' x,
  fixed_R cfg = false /\ train_on_samples cfg opt test_loss n m = Some m' /\
  In x (trajectory cfg opt (rcell m) n 0 m) /\ test_of test_loss x < test_of test_loss m'.
Proof.
  exists (mkSetting false false false), (fun _ m => (net m, tt, r_value m + 1)), (fun _ _ r => r), 2%nat, (num 0 0).
  eexists. exists (opt_step (mkSetting false false false) 0 (0, tt, 0 + 1) (num 0 0)).
  split; [reflexivity|]. split.
  - unfold train_on_samples. cbn [sample_epochs]. unfold Rltb.
    set (b := Rlt_dec _ _). destruct b as [K|K]; [exfalso; cbn in K; lra|]. reflexivity.
  - split; [left; reflexivity|]. unfold test_of, r_value. cbn. lra.
Qed.
Lemma on_samples_case :
  exists m', train_on_samples (mkSetting false false true) (fun _ m => (net m + 1, tt, 0)) (fun n _ _ => Rabs (n - 1))
    2 (num 0 0) = Some m' /\ net m' = 0 + 1.
Proof.
  eexists. split.
  - unfold train_on_samples. cbn [sample_epochs]. unfold Rltb. set (b := Rlt_dec _ _).
    destruct b as [K|K]; [|reflexivity]. exfalso. unfold test_of in K. cbn in K.
    replace (0 + 1 + 1 - 1) with 1 in K by lra. replace (0 + 1 - 1) with 0 in K by lra.
    rewrite Rabs_R0 in K. rewrite (Rabs_right 1) in K by lra. lra.
  - reflexivity.
Qed.

(** The callback ends the search at an incumbent below the tolerance. *)
Lemma early_stop : exists threshold incumbents optimum tol, 0 <= threshold /\
  Forall (fun v => v <= optimum) incumbents /\
  optimize (Some threshold) incumbents optimum <= tol /\ tol < optimum.
Proof.
  exists 0, [1/2000000], 1, (1/1000000). split; [lra|]. split; [repeat constructor; lra|].
  cbn [optimize find]. unfold Rltb. destruct (Rlt_dec 0 (1/2000000)) as [_|K]; [|exfalso; lra]. split; lra.
Qed.

(** A pool of size 0 keeps everything. *)
Definition one_adv (_ : nat) (_ : R) (_ : unit) (_ : R) : report := mkReport 1 [[7]] 1 [[8]].
Lemma pool_zero : exists s',
  train_adversarial (mkSetting false false true) (fun _ _ _ _ _ => (1, 1)) (fun _ _ m => (net m, tt, 0))
    one_adv None (fun _ _ => []) 0 0 1 0 0 2 (num 0 0) [] [] = (false, s') /\
  a_pos s' = [[7]; [7]] /\ a_der s' = [[8]; [8]].
Proof.
  eexists. split.
  - unfold train_adversarial. cbn [adversarial]. unfold solve_and_collect at 1.
    cbn [one_adv pos_obj der_obj]. unfold Rltb at 1. destruct (Rlt_dec 1 0) as [K|_]; [exfalso; lra|]. cbn [andb].
    unfold solve_and_collect at 1. cbn [one_adv pos_obj der_obj]. unfold Rltb at 1.
    destruct (Rlt_dec 1 0) as [K|_]; [exfalso; lra|]. cbn [andb]. reflexivity.
  - split; reflexivity.
Qed.
Lemma pool_case : exists s',
  train_adversarial (mkSetting false false true) (fun _ _ _ _ _ => (1, 1)) (fun _ _ m => (net m, tt, 0))
    one_adv None (fun _ _ => []) 2 1 1 0 0 2 (num 0 0) [[1]; [2]] [[3]] = (false, s') /\
  a_pos s' = [[7]; [7]] /\ a_der s' = [[8]].
Proof.
  eexists. split.
  - unfold train_adversarial. cbn [adversarial]. unfold solve_and_collect at 1.
    cbn [one_adv pos_obj der_obj]. unfold Rltb at 1. destruct (Rlt_dec 1 0) as [K|_]; [exfalso; lra|]. cbn [andb].
    unfold solve_and_collect at 1. cbn [one_adv pos_obj der_obj]. unfold Rltb at 1.
    destruct (Rlt_dec 1 0) as [K|_]; [exfalso; lra|]. cbn [andb]. reflexivity.
  - split; reflexivity.
Qed.

(** The value buffers after any number of extensions. *)
Lemma buffer_history : forall (A : Type) max (news : list (list A)) old, (length old <= max)%nat ->
  Forall (fun new => (length new <= max)%nat) news ->
  let b := fold_left (fun o new => buffer_push max new o) news old in
  (length b <= max)%nat /\ exists dropped, dropped ++ b = old ++ concat news.
Proof.
  intros A max. induction news as [|new news IH]; intros old H F; cbn [fold_left concat].
  - split; auto. exists []. rewrite app_nil_r. auto.
  - destruct (IH (buffer_push max new old)) as [H1 (d & E)].
    + apply buffer_push_bound; auto. exact (Forall_inv F).
    + exact (Forall_inv_tail F).
    + split; auto. destruct (buffer_push_suffix max new old) as (d' & E'). exists (d' ++ d).
      rewrite <- app_assoc, E, app_assoc, E', app_assoc. auto.
Qed.
Lemma buffer_overflow : exists max (new old : list nat), (length old <= max)%nat /\
  (max < length (buffer_push max new old))%nat.
Proof. exists 1%nat, [1%nat; 2%nat], []. cbn. lia. Qed.
Lemma buffer_pair : forall (A B : Type) max (d D : list A) (l L : list B),
  length d = length l -> length D = length L ->
  length (buffer_push max d D) = length (buffer_push max l L) /\
  combine (buffer_push max d D) (buffer_push max l L) = buffer_push max (combine d l) (combine D L).
Proof. intros A B. exact (@buffer_push_aligned A B). Qed.

(** The variables of R: in the first iteration the optimiser acts on them, afterwards
    it writes to a tensor that nobody reads. *)
Lemma first_descent : forall (NetT CtlT RV : Type) cfg (opt : nat -> model NetT CtlT RV -> NetT * CtlT * RV) n t m,
  fixed_R cfg = false ->
  Forall2 (fun x x' => exists k, x' = opt_step cfg (rcell m) (opt k x) x /\ r_value x' = snd (opt k x))
    (removelast (m :: trajectory cfg opt (rcell m) n t m)) (trajectory cfg opt (rcell m) n t m).
Proof.
  intros NetT CtlT RV cfg opt n t m Hf. remember (rcell m) as oc eqn:Eo. revert t m Eo.
  induction n as [|n IH]; intros t m Eo; cbn [trajectory]; [constructor|]. cbv zeta.
  set (m1 := opt_step cfg oc (opt t m) m).
  assert (E1 : oc = rcell m1) by (unfold m1, opt_step; destruct (opt t m) as [[? ?] ?]; exact Eo).
  change (removelast (m :: m1 :: trajectory cfg opt oc n (S t) m1))
    with (m :: removelast (m1 :: trajectory cfg opt oc n (S t) m1)).
  constructor; [|apply IH; auto]. exists t. split; auto.
  unfold m1, opt_step, r_value. destruct (opt t m) as [[n1 c1] r1]. cbn [memory rcell snd]. rewrite Hf.
  unfold write. rewrite <- Eo, Nat.eqb_refl. auto.
Qed.
Lemma R_frozen_all : forall (NetT CtlT RV : Type) cfg sample_loss
    (opt : nat -> nat -> model NetT CtlT RV -> NetT * CtlT * RV) solver radius perturb pos_size der_size num_epochs
    m pos der j,
  fixed_R cfg = false -> (rcell m < next_cell m)%nat ->
  let start := adv_at cfg sample_loss opt solver radius perturb pos_size der_size num_epochs
                 (rcell m) (mkAdv m pos der) in
  let s := snd (solve_and_collect solver radius perturb pos_size der_size j (start j)) in
  (forall x, In x (trajectory cfg (opt j) (rcell m) num_epochs O (a_model s)) ->
     losses (sample_loss (a_pos s) (a_der s)) x <> (0, 0)) ->
  forall k, (j < k)%nat ->
  rcell (a_model (start k)) <> rcell m /\ r_value (a_model (start k)) = r_value (a_model (start (S j))).
Proof.
  intros NetT CtlT RV cfg sl opt solver radius perturb ps ds ne m pos der j Hf Hm start s Z k Hk.
  refine (R_frozen cfg sl opt solver radius perturb ps ds ne Hf m pos der j Hm _ Z k Hk).
  eapply Nat.lt_le_trans; [exact Hm|].
  exact (at_next cfg sl opt solver radius perturb ps ds ne (rcell m) (mkAdv m pos der) j).
Qed.

Definition down (_ _ : list vec) (_ : R) (_ : unit) (r : R) : R * R := (10 - r, 0).
Definition up (_ _ : nat) (m : model R unit R) : R * unit * R := (0, tt, r_value m + 1).
Lemma frozen_case : 
  let start := adv_at (mkSetting false false false) down up one_adv None (fun _ _ => []) 5 5 1 0
                 (mkAdv (num 0 0) [] []) in
  r_value (a_model (start 0%nat)) = 0 /\ r_value (a_model (start 1%nat)) = 0 + 1 /\
  r_value (a_model (start 2%nat)) = 0 + 1 /\
  snd (up 1 0 (a_model (start 1%nat))) = 0 + 1 + 1.
Proof.
  intros start. split; [reflexivity|].
  assert (E1 : r_value (a_model (start 1%nat)) = 0 + 1).
  { unfold start. cbn [adv_at]. unfold descend. cbn [a_model]. unfold batch_descent. cbn [epochs].
    set (m1 := opt_step _ _ _ _). assert (V1 : r_value m1 = 0 + 1) by reflexivity.
    unfold losses at 1, down at 1. rewrite V1.
    destruct (Req_EM_T (10 - (0 + 1)) 0) as [K|_]; [exfalso; lra|]. cbn [andb].
    unfold total, losses, down. cbn [fst snd].
    match goal with |- context [r_value ?a] => change (r_value a) with 0 end.
    unfold Rltb. destruct (Rlt_dec (10 - (0 + 1) + 0) (10 - 0 + 0)) as [_|K]; [|exfalso; lra].
    reflexivity. }
  split; [exact E1|]. split.
  - destruct (R_frozen_all R unit R (mkSetting false false false) down up one_adv None (fun _ _ => []) 5 5 1
      (num 0 0) [] [] 0 eq_refl (le_n 1)) with (k := 2%nat) as [_ K].
    + intros x [ <- | [] ]. unfold losses, down. intros E. apply (f_equal fst) in E. cbn in E. lra.
    + lia.
    + etransitivity; [exact K|]. exact E1.
  - unfold up. cbn [snd]. rewrite E1. auto.
Qed.
Lemma R_not_trained : exists sample_loss (opt : nat -> nat -> model R unit R -> R * unit * R) solver m k,
  let cfg := mkSetting false false false in
  let start := adv_at cfg sample_loss opt solver None (fun _ _ => []) 5 5 1 (rcell m) (mkAdv m [] []) in
  let s := snd (solve_and_collect solver None (fun _ _ => []) 5 5 k (start k)) in
  r_value (opt_step cfg (rcell m) (opt k O (a_model s)) (a_model s)) <> snd (opt k O (a_model s)).
Proof.
  exists down, up, one_adv, (num 0 0), 1%nat. cbv zeta. cbn [rcell num].
  destruct frozen_case as (_ & E1 & _ & E3).
  set (m1 := a_model (adv_at (mkSetting false false false) down up one_adv None (fun _ _ => []) 5 5 1 0
                 (mkAdv (num 0 0) [] []) 1)) in *.
  assert (D : rcell m1 <> O).
  { destruct (R_frozen_all R unit R (mkSetting false false false) down up one_adv None (fun _ _ => []) 5 5 1
      (num 0 0) [] [] 0 eq_refl (le_n 1)) with (k := 1%nat) as [K _]; [|lia|exact K].
    intros x [ <- | [] ]. unfold losses, down. intros E. apply (f_equal fst) in E. cbn in E. lra. }
  change (a_model (snd (solve_and_collect one_adv None (fun _ _ => []) 5 5 1
    (adv_at (mkSetting false false false) down up one_adv None (fun _ _ => []) 5 5 1 0
       (mkAdv (num 0 0) [] []) 1)))) with m1.
  rewrite E3. unfold opt_step, up, r_value. cbn [memory rcell fixed_R]. unfold write.
  destruct (Nat.eqb_spec (rcell m1) 0); [contradiction|]. unfold r_value in E1. rewrite E1. lra.
Qed.
