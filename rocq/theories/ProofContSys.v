(** The continuous-time plants: the constraints describe the derivative. *)

Require Import Reals List Lia Lra Bool Arith.
Require Import Verif.Vec Verif.VecFacts Verif.ModelMip Verif.SpecMip Verif.SpecCore
  Verif.ModelUtils Verif.SpecUtils Verif.ModelNet Verif.SpecNet Verif.SpecStep
  Verif.ProofUtils Verif.ProofMaxBox Verif.ProofGrad Verif.ProofMip Verif.ProofSat
  Verif.ProofConcat Verif.ProofBounds Verif.ProofNet Verif.ProofNetBounds Verif.ProofNetTotal
  Verif.ProofWarm Verif.ProofStep Verif.ProofNetStep Verif.ModelPattern Verif.ModelStrengthen
  Verif.ModelLyapunov Verif.SpecLyapunov Verif.ProofLyapunov Verif.ModelHybrid Verif.SpecHybrid
  Verif.ProofHybrid2 Verif.ModelSystems Verif.SpecSystems Verif.ProofMilp Verif.ProofRoa
  Verif.ModelExSystems Verif.SpecExSystems Verif.ProofSystems Verif.ProofSystems2
  Verif.ModelContSys Verif.SpecContSys Verif.ProofRelaxed.
Import ListNotations.
Open Scope R_scope.

(** ** The output replaced, rows appended *)

Lemma set_output_ok : forall c Ai As Ab C k, mic_ok c ->
  owf k (nin c) Ai -> owf k (nsl c) As -> owf k (nbin c) Ab -> olen_is k C ->
  num_out (set_output c Ai As Ab C) = k ->
  mic_ok (set_output c Ai As Ab C).
Proof.
  intros c Ai As Ab C k (O1 & O2 & O3 & O4 & O5) W1 W2 W3 W4 E.
  split; [|split; [|split; [|split]]]; auto.
  destruct O1 as (_ & _ & _ & _ & K). unfold mic_wf. rewrite E.
  cbn [set_output Aout_input Aout_slack Aout_binary Cout nin nsl nbin].
  repeat (split; [assumption|]). exact K.
Qed.

Lemma mv_app : forall A B x, mv (A ++ B) x = mv A x ++ mv B x.
Proof. intros. unfold mv. apply map_app. Qed.
Lemma mv_zerom : forall k n x, mv (zerom k n) x = zeros k.
Proof.
  intros. unfold mv, zerom, zeros. induction k; cbn [repeat map]; [reflexivity|].
  f_equal; [|exact IHk]. apply dot_zeros_l.
Qed.
Lemma vadd_app : forall a b c d : vec, length a = length c ->
  vadd (a ++ b) (c ++ d) = vadd a c ++ vadd b d.
Proof.
  unfold vadd. induction a as [|x a IH]; intros b [|y c] d L; cbn in *; try lia; auto.
  f_equal. apply IH. lia.
Qed.
Lemma vle_app : forall a b c d : vec, length a = length c ->
  vle (a ++ b) (c ++ d) <-> vle a c /\ vle b d.
Proof.
  unfold vle. intros a b c d L. split.
  - intros H. split.
    + revert c L H. induction a as [|x a IH]; intros [|y c] L H; cbn in *; try lia; constructor;
        inversion H; subst; auto.
    + revert c L H. induction a as [|x a IH]; intros [|y c] L H; cbn in *; try lia; auto.
      inversion H; subst. eauto.
  - intros [H1 H2]. apply Forall2_app; auto.
Qed.

Lemma add_rows_ok : forall A r c c', add_rows A r c = Some c' -> mic_ok c ->
  wfm (length r) (nin c) A -> 
  mic_ok c' /\ nin c' = nin c /\ nsl c' = nsl c /\ nbin c' = nbin c /\ num_out c' = num_out c /\
  input_lo c' = input_lo c /\ input_up c' = input_up c /\ slack_lo c' = slack_lo c /\
  slack_up c' = slack_up c /\
  (forall x s b, mic_sat c' x s b <-> mic_sat c x s b /\ vle (mv A x) r) /\
  (forall x s b, output c' x s b = output c x s b).
Proof.
  intros A r c c' E (W & O2 & O3 & O4 & O5) [WA1 WA2]. unfold add_rows in E.
  destruct (Ain_input c) as [Ai|] eqn:E1; [|discriminate].
  destruct (Ain_slack c) as [As|] eqn:E2; [|discriminate].
  destruct (Ain_binary c) as [Ab|] eqn:E3; [|discriminate].
  destruct (rhs_in c) as [b|] eqn:E4; [|discriminate].
  apply Some_inj in E. subst c'.
  destruct W as (K1 & K2 & K3 & K4 & K5 & K6 & K7 & K8 & K). rewrite E1, E2, E3 in *.
  unfold num_ineq in *. rewrite E4 in *. cbn [owf] in *.
  destruct K5 as [P1 P2], K6 as [P3 P4], K7 as [P5 P6].
  assert (Wz : forall k, wfm (length A) k (zerom (length A) k)).
  { intros k. split; [apply repeat_length|]. apply Forall_forall. intros v Hv.
    apply repeat_spec in Hv. subst. apply zeros_length. }
  assert (Lz : forall k x, length (mv (zerom (length A) k) x) = length A)
    by (intros; rewrite mv_zerom, zeros_length; auto).
  assert (Lm : length (b ++ r) = (length b + length r)%nat) by apply app_length.
  split; [split; [|split; [|split; [|split]]]|].
  - unfold mic_wf, num_ineq, num_out, num_eq in *.
    cbn [Aout_input Aout_slack Aout_binary Cout nin nsl nbin Ain_input Ain_slack Ain_binary rhs_in owf
           none_if Aeq_input Aeq_slack Aeq_binary rhs_eq input_lo input_up slack_lo slack_up binary_lo binary_up].
    rewrite Lm.
    repeat (split; [assumption|]).
    split; [split; [rewrite app_length; congruence|apply Forall_app; auto]|].
    split; [split; [rewrite app_length; unfold zerom; rewrite repeat_length; congruence|apply Forall_app; split; auto; apply Wz]|].
    split; [split; [rewrite app_length; unfold zerom; rewrite repeat_length; congruence|apply Forall_app; split; auto; apply Wz]|].
    split; [auto|]. exact K.
  - reflexivity.
  - reflexivity.
  - intros. left. cbn. discriminate.
  - exact O5.
  - cbn [nin nsl nbin input_lo input_up slack_lo slack_up].
    repeat (split; [reflexivity|]). split; [|reflexivity].
    intros x s bi. unfold mic_sat, rows_sat, sat_in, sat_eq, bounds_ok.
    cbn [nin nsl nbin input_lo input_up slack_lo slack_up binary_lo binary_up rhs_in Ain_input Ain_slack
           Ain_binary rhs_eq Aeq_input Aeq_slack Aeq_binary]. rewrite E1, E2, E3, E4.
    assert (T : vle (lhs (length (b ++ r)) (Some (Ai ++ A)) (Some (As ++ zerom (length A) (nsl c)))
                     (Some (Ab ++ zerom (length A) (nbin c))) x s bi) (b ++ r) <->
                vle (lhs (length b) (Some Ai) (Some As) (Some Ab) x s bi) b /\ vle (mv A x) r).
    { unfold lhs, term. rewrite !mv_app, !mv_zerom.
      assert (L1 : length (mv Ai x) = length b) by (rewrite mv_length; auto).
      assert (L2 : length (mv As s) = length b) by (rewrite mv_length; auto).
      assert (L3 : length (mv Ab bi) = length b) by (rewrite mv_length; auto).
      assert (L4 : length (vadd (mv Ai x) (mv As s)) = length b) by (rewrite vadd_length; congruence).
      rewrite vadd_app by congruence. rewrite vadd_app by congruence.
      rewrite vle_app by (rewrite vadd_length; congruence).
      assert (Z : vadd (mv A x) (zeros (length A)) = mv A x) by (apply vadd_zeros_r, mv_length).
      rewrite !Z.
      tauto. }
    rewrite T. tauto.
Qed.

(** ** One-hot rows *)

Lemma len6 : forall x : vec, length x = 6%nat ->
  exists a b c d e f, x = [a; b; c; d; e; f].
Proof.
  intros x L. do 6 (destruct x as [|? x]; [discriminate|]). destruct x; [|discriminate]. eauto 10.
Qed.
Lemma len2 : forall x : vec, length x = 2%nat -> exists a b, x = [a; b].
Proof. intros x L. do 2 (destruct x as [|? x]; [discriminate|]). destruct x; [|discriminate]. eauto. Qed.
Lemma len1 : forall x : vec, length x = 1%nat -> exists a, x = [a].
Proof. intros x L. destruct x as [|? x]; [discriminate|]. destruct x; [|discriminate]. eauto. Qed.
Lemma len3 : forall x : vec, length x = 3%nat -> exists a b c, x = [a; b; c].
Proof. intros x L. do 3 (destruct x as [|? x]; [discriminate|]). destruct x; [|discriminate]. eauto. Qed.

Ltac row := cbn [mv map dot entry seq Nat.eqb app]; unfold mv, dot, entry; cbn; try ring.

Lemma cp_built_facts : forall S, cp_built S ->
  length (cp_xlo S) = cp_nx (cp_kind_ S) /\ length (cp_xup S) = cp_nx (cp_kind_ S) /\
  length (cp_ulo S) = cp_nu (cp_kind_ S) /\ length (cp_uup S) = cp_nu (cp_kind_ S) /\
  out_features (last_layer (cp_net S)) = cp_nout (cp_kind_ S).
Proof.
  intros S (_ & _ & E). unfold new_cp in E.
  match type of E with (if ?b then _ else _) = _ => destruct b eqn:Eb; [|discriminate] end.
  rewrite !andb_true_iff, !Nat.eqb_eq in Eb. tauto.
Qed.

Lemma at_eq_length : forall S, cp_built S -> length (cp_at_eq S) = cp_nout (cp_kind_ S).
Proof.
  intros S B. destruct (cp_built_facts S B) as (_ & _ & _ & _ & Lo).
  destruct B as (W & Lu & _). unfold cp_at_eq. destruct (cp_kind_ S) as [|ueq] eqn:Ek; cbn [cp_nout] in *;
    rewrite (forward_eval 3 _ _ W), (net_eval_length 3); auto; cbn in *; try lia.
Qed.

Record cp_form (S : cp_sys) (ulo uup : vec) (c : mic) (b : vec * vec) : Prop := {
  cf_ok : mic_ok c;
  cf_nin : nin c = (cp_nx (cp_kind_ S) + cp_nu (cp_kind_ S))%nat;
  cf_out : num_out c = cp_nx (cp_kind_ S);
  cf_free : input_lo c = None /\ input_up c = None /\ slack_lo c = None /\ slack_up c = None;
  cf_complete : forall x u, in_box (cp_xlo S) (cp_xup S) x -> in_box ulo uup u ->
     exists s b, bins b /\ mic_sat c (x ++ u) s b;
  cf_sound : forall x u s b, length x = cp_nx (cp_kind_ S) -> length u = cp_nu (cp_kind_ S) ->
     bins b -> mic_sat c (x ++ u) s b ->
     in_box (cp_xlo S) (cp_xup S) x /\ in_box ulo uup u /\
     cp_step S x u = Some (output c (x ++ u) s b);
  cf_bounds : forall x u d, in_box (cp_xlo S) (cp_xup S) x -> in_box ulo uup u ->
     cp_step S x u = Some d -> in_box (fst b) (snd b) d;
  cf_relaxed : exists K, forall x u s b, length x = cp_nx (cp_kind_ S) -> length u = cp_nu (cp_kind_ S) ->
     relaxed b -> mic_sat c (x ++ u) s b -> vbound K (output c (x ++ u) s b)
}.

Section Solver.
Variable solve : mip -> gresult.
Hypothesis Hsolve : solver_ok solve.

Lemma pend_form : forall S ulo uup c B n b, cp_built S -> cp_kind_ S = CPend ->
  length ulo = 1%nat -> length uup = 1%nat -> cp_mic solve S ulo uup = Some (c, B, n, b) ->
  cp_form S ulo uup c b.
Proof.
  intros S ulo uup c B n b Bt Ek Lul Luu E.
  assert (Le := at_eq_length S Bt).
  destruct (cp_built_facts S Bt) as (L1 & L2 & L3 & L4 & Lo). destruct Bt as (W & Lu & _).
  unfold cp_mic in E. rewrite Ek in *. cbn [cp_nx cp_nu cp_nout] in *.
  destruct (output_constraint solve (cp_meth S) (cp_net S) (cp_xlo S ++ ulo) (cp_xup S ++ uup))
    as [[[c0 B0] [olo oup]]|] eqn:Eo; [|discriminate].
  assert (Ln1 : length (cp_xlo S ++ ulo) = 3%nat) by (rewrite app_length; unfold vec in *; lia).
  assert (Ln2 : length (cp_xup S ++ uup) = 3%nat) by (rewrite app_length; unfold vec in *; lia).
  assert (M := output_constraint_mic solve Hsolve 3 _ _ _ _ _ _ _ W Ln1 Ln2 Eo).
  destruct (network_bounds solve Hsolve 3 _ _ _ _ _ _ _ _ W Ln1 Ln2 Eo) as [Nb _].
  destruct (net_affine _ _ _ _ _ M) as (A & EA & WA & EC & LC & FA).
  destruct (nm_aout _ _ _ _ _ M) as [Ei Eb]. rewrite Ei, Eb, EA, EC in E. rewrite Lo in *.
  destruct (bias_of (last_layer (cp_net S))) as [|c1 [|]] eqn:EC1; cbn in LC; try discriminate.
  destruct (len1 _ Le) as [e Ee]. rewrite Ee in E. cbn [map app] in E.
  set (As := zerom 1 (nsl c0) ++ A) in *.
  apply Some_inj in E. apply pair_equal_spec in E. destruct E as [E <-].
  apply pair_equal_spec in E. destruct E as [E <-]. apply pair_equal_spec in E. destruct E as [E <-].
  assert (Ec : c = set_output c0 (Some [[0; 1; 0]; [0; 0; 0]]) (Some As) (Some (zerom 2 (nbin c0)))
    (Some [0; c1 - e])) by (symmetry; exact E). clear E.
  destruct WA as [WA1 WA2]. destruct A as [|a1 [|]]; try discriminate WA1.
  destruct M as [C1 C2 C3 C4 C5 C6 _ _ _ C13 C14 C15 C16].
  assert (Bx : forall x u, length x = 2%nat -> length u = 1%nat ->
    (in_box (cp_xlo S ++ ulo) (cp_xup S ++ uup) (x ++ u) <->
     in_box (cp_xlo S) (cp_xup S) x /\ in_box ulo uup u)).
  { intros x u Lx Lx'. apply in_box_app_iff; unfold vec in *; congruence. }
  constructor.
  - subst c. apply set_output_ok with (k := 2%nat); auto.
    + rewrite C2. split; [reflexivity|]. repeat constructor.
    + split; [unfold As; rewrite app_length, WA1; reflexivity|].
      unfold As. apply Forall_app. split; [repeat constructor; apply zeros_length|rewrite C3; exact WA2].
    + split; [reflexivity|]. repeat constructor; apply zeros_length.
    + reflexivity.
  - subst c. cbn. rewrite Ek. exact C2.
  - subst c. rewrite Ek. reflexivity.
  - subst c. exact C6.
  - intros x u Hx Hu. assert (Lx : length x = 2%nat) by (apply in_box_lengths in Hx; unfold vec in *; lia).
    assert (Lx' : length u = 1%nat) by (apply in_box_lengths in Hu; unfold vec in *; lia).
    destruct (C13 (x ++ u)) as (bi & Hb & Hm); [apply Bx; auto|].
    eexists. exists bi. split; [exact Hb|]. subst c. exact Hm.
  - intros x u s bi Lx Lx' Hb Hm. rewrite Ek in Lx, Lx'. cbn in Lx, Lx'.
    assert (Hm0 : mic_sat c0 (x ++ u) s bi) by (subst c; exact Hm).
    assert (Hs := C15 _ _ _ Hb Hm0). assert (Hbx := C14 _ _ _ Hm0). apply Bx in Hbx; auto.
    split; [apply Hbx|]. split; [apply Hbx|].
    destruct (len2 _ Lx) as (th & w & ->). destruct (len1 _ Lx') as (v & ->).
    unfold cp_step. rewrite Ek. f_equal.
    assert (Lxu : length ([th; w] ++ [v]) = 3%nat) by reflexivity.
    rewrite (forward_eval 3 _ _ W Lxu), <- (FA _ Lxu), <- Hs, Ee. subst c.
    assert (Em : mv [a1] s = [dot a1 s]) by reflexivity.
    rewrite Em. unfold output, lhs.
    assert (En : num_out (set_output c0 (Some [[0; 1; 0]; [0; 0; 0]]) (Some As)
       (Some (zerom 2 (nbin c0))) (Some [0; c1 - e])) = 2%nat) by reflexivity.
    rewrite En. cbn [set_output Aout_input Aout_slack Aout_binary Cout term].
    rewrite mv_zerom. unfold As. rewrite mv_app, mv_zerom, Em.
    cbn. f_equal; [ring|]. f_equal. ring.
  - intros x u d Hx Hu Hd.
    assert (Lx : length x = 2%nat) by (apply in_box_lengths in Hx; unfold vec in *; lia).
    assert (Lx' : length u = 1%nat) by (apply in_box_lengths in Hu; unfold vec in *; lia).
    destruct (Nb (x ++ u)) as (_ & _ & K); [apply Bx; auto|].
    destruct (len2 _ Lx) as (th & w & ->). destruct (len1 _ Lx') as (v & ->).
    unfold cp_step in Hd. rewrite Ek in Hd. apply Some_inj in Hd. subst d.
    assert (Lxu : length ([th; w] ++ [v]) = 3%nat) by reflexivity.
    rewrite (forward_eval 3 _ _ W Lxu), Ee.
    assert (Ln : length (net_eval (cp_net S) ([th; w] ++ [v])) = 1%nat)
      by (rewrite (net_eval_length 3); auto).
    destruct (len1 _ Ln) as [y Ey]. rewrite Ey in *.
    assert (Lk := in_box_lengths _ _ _ K). cbn in Lk. destruct Lk as [Lk1 Lk2].
    destruct (len1 olo) as [ol ->]; [unfold vec in *; lia|]. destruct (len1 oup) as [ou ->]; [unfold vec in *; lia|].
    destruct (len2 _ L1) as (l1 & l2 & El). destruct (len2 _ L2) as (u1 & u2 & Eu).
    rewrite El, Eu in Hx |- *. cbn [fst snd nth vsub map2].
    destruct Hx as [Hx1 Hx2], K as [K1 K2]. unfold vle in *.
    inversion Hx1 as [|? ? ? ? G1 G2]; subst. inversion G2; subst.
    inversion Hx2 as [|? ? ? ? G3 G4]; subst. inversion G4; subst.
    inversion K1; subst. inversion K2; subst.
    split; repeat (apply Forall2_cons || apply Forall2_nil); cbn; lra.
  - destruct (output_constraint_relaxed solve Hsolve 3 _ _ _ _ _ _ _ W Ln1 Ln2 Eo) as (K1 & P1 & Q1).
    destruct (output_bounded c K1 P1) as (K2 & P2 & Q2).
    exists K2. intros x u s bi Lx Lx' Hb Hm.
    assert (Hm0 : mic_sat c0 (x ++ u) s bi) by (subst c; exact Hm).
    destruct (Q1 _ _ _ Hb Hm0) as (V1 & V2 & V3). apply Q2; auto.
Qed.

Lemma cat3 : forall (a b : vec), length a = 3%nat -> skipn 3 (a ++ b) = b.
Proof. intros a b L. destruct (len3 _ L) as (? & ? & ? & ->). reflexivity. Qed.

Lemma quad_form : forall S ueq ulo uup c B n b, cp_built S -> cp_kind_ S = CQuad ueq ->
  length ulo = 2%nat -> length uup = 2%nat -> cp_mic solve S ulo uup = Some (c, B, n, b) ->
  cp_form S ulo uup c b.
Proof.
  intros S ueq ulo uup c B n b Bt Ek Lul Luu E.
  assert (Le := at_eq_length S Bt).
  destruct (cp_built_facts S Bt) as (L1 & L2 & L3 & L4 & Lo). destruct Bt as (W & Lu & _).
  unfold cp_mic in E. rewrite Ek in *. cbn [cp_nx cp_nu cp_nout] in *.
  destruct (len6 _ L1) as (l0 & l1 & l2 & l3 & l4 & l5 & El).
  destruct (len6 _ L2) as (h0 & h1 & h2 & h3 & h4 & h5 & Eh).
  rewrite El, Eh in E. cbn [part Nat.sub firstn skipn app vneg map] in E.
  destruct (output_constraint solve (cp_meth S) (cp_net S) (l2 :: ulo) (h2 :: uup))
    as [[[c0 B0] [olo oup]]|] eqn:Eo; [|discriminate].
  assert (Ln1 : length (l2 :: ulo) = 3%nat) by (cbn; unfold vec in *; lia).
  assert (Ln2 : length (h2 :: uup) = 3%nat) by (cbn; unfold vec in *; lia).
  assert (M := output_constraint_mic solve Hsolve 3 _ _ _ _ _ _ _ W Ln1 Ln2 Eo).
  destruct (network_bounds solve Hsolve 3 _ _ _ _ _ _ _ _ W Ln1 Ln2 Eo) as [Nb _].
  destruct (net_affine _ _ _ _ _ M) as (A & EA & WA & EC & LC & FA). rewrite Lo in *.
  destruct (nm_aout _ _ _ _ _ M) as [Ei Eb].
  destruct M as [C1 C2 C3 C4 C5 (C6 & C7 & C8 & C9) _ _ _ C13 C14 C15 C16].
  set (T := [entry 8 2 1; entry 8 6 1; entry 8 7 1]) in *.
  destruct (transform_input 8 T (zeros 3) c0) as [c1|] eqn:Et; [|discriminate].
  assert (WT : wfm (nin c0) 8 T) by (rewrite C2; split; [reflexivity|repeat constructor]).
  assert (Lz : length (zeros 3) = nin c0) by (rewrite C2; reflexivity).
  destruct (transform_ok _ _ _ _ _ Et C1 WT Lz C6 C7) as (D1 & D2 & D3 & D4 & D5 & D6 & D7 & D8 & D9).
  assert (Wc0 : mic_wf c0) by apply C1.
  destruct (transform_fields _ _ _ _ _ Et Wc0) as (_ & _ & F3 & _ & _ & _ & _ & F8 & F9 & _ & _ & F12 & _).
  rewrite Ei in F3. cbn in F3. rewrite EA in F8. rewrite Eb in F9. specialize (F12 Ei). rewrite EC in F12.
  rewrite F3, F8, F9, F12 in E.
  set (C := bias_of (last_layer (cp_net S))) in *.
  set (Ai := map (fun i => entry 8 i 1) [3; 4; 5]%nat ++ zerom 3 8) in *.
  set (As := zerom 3 (nsl c1) ++ A) in *.
  set (Cn := zeros 3 ++ vsub C (cp_at_eq S)) in *.
  set (c2 := set_output c1 (Some Ai) (Some As) None (Some Cn)) in *.
  set (Rw := map (fun i => entry 8 i 1) [0; 1]%nat ++ map (fun i => entry 8 i (-1)) [0; 1]%nat
             ++ map (fun i => entry 8 i 1) [3; 4; 5]%nat ++ map (fun i => entry 8 i (-1)) [3; 4; 5]%nat) in *.
  set (rw := [h0; h1; - l0; - l1; h3; h4; h5; - l3; - l4; - l5]).
  assert (E' : match add_rows Rw rw c2 with
     | None => None
     | Some c3 => Some (c3, B0, (l2 :: ulo, h2 :: uup),
         ([l3; l4; l5] ++ vsub olo (cp_at_eq S), [h3; h4; h5] ++ vsub oup (cp_at_eq S)))
     end = Some (c, B, n, b)) by exact E.
  destruct (add_rows Rw rw c2) as [c3|] eqn:Ea; [|discriminate].
  clear E. apply Some_inj in E'. apply pair_equal_spec in E'. destruct E' as [E' <-].
  apply pair_equal_spec in E'. destruct E' as [E' _]. apply pair_equal_spec in E'. destruct E' as [-> _].
  assert (O2 : num_out c2 = 6%nat) by reflexivity.
  assert (Ok2 : mic_ok c2).
  { apply set_output_ok with (k := 6%nat); auto.
    - rewrite D2. split; [reflexivity|repeat constructor].
    - destruct WA as [WA1 WA2]. split; [unfold As; rewrite app_length, WA1; reflexivity|].
      unfold As. apply Forall_app. split; [repeat constructor; apply zeros_length|]. rewrite D3, C3. exact WA2.
    - exact I.
    - change (length (zeros 3 ++ vsub C (cp_at_eq S)) = 6%nat). rewrite app_length, zeros_length, vsub_length by congruence. rewrite LC. reflexivity. }
  assert (WR : wfm (length rw) (nin c2) Rw)
    by (cbn [c2 set_output nin]; rewrite D2; split; [reflexivity|repeat constructor]).
  destruct (add_rows_ok _ _ _ _ Ea Ok2 WR) as (Ok3 & G1 & G2 & G3 & G4 & G5 & G6 & G7 & G8 & Sat & Out).
  assert (Ix : forall x u, length x = 6%nat -> length u = 2%nat ->
    vadd (mv T (x ++ u)) (zeros 3) = [nth 2 x 0] ++ u).
  { intros x u Lx Lx'. destruct (len6 _ Lx) as (? & ? & ? & ? & ? & ? & ->).
    destruct (len2 _ Lx') as (? & ? & ->). unfold T. cbn. repeat (f_equal; [ring|]). f_equal. ring. }
  assert (Rx : forall x u, length x = 6%nat -> length u = 2%nat ->
    (in_box (l2 :: ulo) (h2 :: uup) ([nth 2 x 0] ++ u) /\ vle (mv Rw (x ++ u)) rw <->
     in_box (cp_xlo S) (cp_xup S) x /\ in_box ulo uup u)).
  { intros x u Lx Lx'. rewrite El, Eh. destruct (len6 _ Lx) as (x0 & x1 & x2 & x3 & x4 & x5 & ->).
    destruct (len2 _ Lx') as (u0 & u1 & ->). cbn [nth app].
    unfold in_box, vle. 
    assert (Er : mv Rw ([x0; x1; x2; x3; x4; x5] ++ [u0; u1]) =
      [x0; x1; - x0; - x1; x3; x4; x5; - x3; - x4; - x5]).
    { unfold Rw. cbn. repeat (f_equal; [ring|]). f_equal. ring. }
    cbn [app] in Er. rewrite Er. unfold rw. rewrite !F2_cons.
    assert (Fn : Forall2 Rle [] []) by constructor.
    intuition lra. }
  constructor; rewrite ?Ek; cbn [cp_nx cp_nu].
  - exact Ok3.
  - rewrite G1. cbn. rewrite D2. reflexivity.
  - rewrite G4. exact O2.
  - rewrite G5, G6, G7, G8. cbn. rewrite D5, D6, D7, D8. auto.
  - intros x u Hx Hu.
    assert (Lx : length x = 6%nat) by (apply in_box_lengths in Hx; unfold vec in *; lia).
    assert (Lx' : length u = 2%nat) by (apply in_box_lengths in Hu; unfold vec in *; lia).
    destruct (proj2 (Rx x u Lx Lx') (conj Hx Hu)) as [K1 K2].
    destruct (C13 _ K1) as (bi & Hb & Hm).
    eexists. exists bi. split; [exact Hb|]. apply Sat. split; [|exact K2].
    cut (mic_sat c1 (x ++ u) (concat (post_acts (hidden (cp_net S)) ([nth 2 x 0] ++ u))) bi); [intros K; exact K|].
    apply (proj1 (transform_sat 8 T (zeros 3) c0 c1 (x ++ u) _ bi Et Wc0 WT Lz
             ltac:(rewrite app_length; unfold vec in *; lia) C6 C7)).
    rewrite Ix by auto. exact Hm.
  - intros x u s bi Lx Lx' Hb Hm. apply Sat in Hm. destruct Hm as [Hm Hr].
    assert (Hm1 : mic_sat c1 (x ++ u) s bi) by exact Hm.
    assert (Lxu : length (x ++ u) = 8%nat) by (rewrite app_length; unfold vec in *; lia).
    destruct (transform_sat 8 T (zeros 3) c0 c1 (x ++ u) s bi Et Wc0 WT Lz Lxu C6 C7) as [K1 _].
    apply K1 in Hm1. rewrite (Ix x u Lx Lx') in Hm1.
    assert (Hs := C15 _ _ _ Hb Hm1). assert (Hbx := C14 _ _ _ Hm1).
    destruct (proj1 (Rx x u Lx Lx') (conj Hbx Hr)) as [Q1 Q2].
    split; auto. split; auto. rewrite Out.
    unfold cp_step. rewrite Ek, Lx, Lx'. cbn [Nat.eqb andb]. f_equal.
    destruct (len6 _ Lx) as (x0 & x1 & x2 & x3 & x4 & x5 & Ex). 
    assert (Ep : part 2 3 x ++ u = [nth 2 x 0] ++ u) by (rewrite Ex; reflexivity).
    assert (Lp : length ([nth 2 x 0] ++ u) = 3%nat) by (cbn; unfold vec in *; lia).
    rewrite Ep, (forward_eval 3 _ _ W Lp), <- (FA _ Lp), <- Hs.
    unfold output, lhs. rewrite O2.
    cbn [c2 set_output Aout_input Aout_slack Aout_binary Cout term].
    unfold As, Ai. rewrite !mv_app, !mv_zerom.
    destruct WA as [WA1 WA2].
    assert (Lm : length (mv A s) = 3%nat) by (rewrite mv_length; auto).
    assert (Ed : mv (map (fun i => entry 8 i 1) [3; 4; 5]%nat) (x ++ u) = skipn 3 x).
    { rewrite Ex. destruct (len2 _ Lx') as (u0 & u1 & ->). cbn. repeat (f_equal; [ring|]). f_equal. ring. }
    rewrite Ed. unfold Cn.
    destruct (len3 _ Lm) as (y0 & y1 & y2 & ->). destruct (len3 _ LC) as (k0 & k1 & k2 & Ek2). rewrite Ek2.
    destruct (len3 _ Le) as (e0 & e1 & e2 & ->). rewrite Ex. cbn.
    repeat (f_equal; [ring|]). f_equal. ring.
  - intros x u d Hx Hu Hd.
    assert (Lx : length x = 6%nat) by (apply in_box_lengths in Hx; unfold vec in *; lia).
    assert (Lx' : length u = 2%nat) by (apply in_box_lengths in Hu; unfold vec in *; lia).
    destruct (proj2 (Rx x u Lx Lx') (conj Hx Hu)) as [K1 _].
    destruct (Nb _ K1) as (_ & _ & K).
    unfold cp_step in Hd. rewrite Ek, Lx, Lx' in Hd. cbn [Nat.eqb andb] in Hd. apply Some_inj in Hd. subst d.
    destruct (len6 _ Lx) as (x0 & x1 & x2 & x3 & x4 & x5 & Ex). 
    assert (Ep : part 2 3 x ++ u = [nth 2 x 0] ++ u) by (rewrite Ex; reflexivity).
    assert (Lp : length ([nth 2 x 0] ++ u) = 3%nat) by (cbn; unfold vec in *; lia).
    rewrite Ep, (forward_eval 3 _ _ W Lp). cbn [fst snd].
    assert (Ls : length (skipn 3 x) = 3%nat) by (rewrite Ex; reflexivity).
    apply in_box_app_iff; try (symmetry; exact Ls).
    split; [|apply vsub_box; exact K].
    rewrite El, Eh, Ex in Hx. rewrite Ex. cbn [skipn]. unfold in_box, vle in *. rewrite !F2_cons in *. tauto.
  - destruct (output_constraint_relaxed solve Hsolve 3 _ _ _ _ _ _ _ W Ln1 Ln2 Eo) as (K1 & P1 & Q1).
    destruct (box_bound (cp_xlo S ++ ulo) (cp_xup S ++ uup)) as (K3 & P3 & Q3).
    destruct (output_bounded c (Rmax K1 K3)) as (K2 & P2 & Q2).
    { eapply Rle_trans; [exact P1|apply Rmax_l]. }
    exists K2. intros x u s bi Lx Lx' Hb Hm.
    assert (Hm' := Hm). apply Sat in Hm'. destruct Hm' as [Hm' Hr].
    assert (Hm1 : mic_sat c1 (x ++ u) s bi) by exact Hm'.
    assert (Lxu : length (x ++ u) = 8%nat) by (rewrite app_length; unfold vec in *; lia).
    destruct (transform_sat 8 T (zeros 3) c0 c1 (x ++ u) s bi Et Wc0 WT Lz Lxu C6 C7) as [J1 _].
    apply J1 in Hm1. rewrite (Ix x u Lx Lx') in Hm1.
    assert (Hbx := C14 _ _ _ Hm1).
    destruct (proj1 (Rx x u Lx Lx') (conj Hbx Hr)) as [R1 R2].
    destruct (Q1 _ _ _ Hb Hm1) as (V1 & V2 & V3). apply Q2.
    + eapply vbound_mono; [apply Rmax_r|]. apply Q3. apply in_box_app_iff; auto;
        unfold vec in *; congruence.
    + eapply vbound_mono; [apply Rmax_l|]. auto.
    + eapply vbound_mono; [apply Rmax_l|]. auto.
Qed.

Lemma cp_mic_form : forall S ulo uup c B n b, cp_built S ->
  length ulo = cp_nu (cp_kind_ S) -> length uup = cp_nu (cp_kind_ S) ->
  cp_mic solve S ulo uup = Some (c, B, n, b) -> cp_form S ulo uup c b.
Proof.
  intros S ulo uup c B n b Bt Lu1 Lu2 E. destruct (cp_kind_ S) as [|ueq] eqn:Ek.
  - eapply pend_form; eauto.
  - eapply quad_form; eauto.
Qed.

End Solver.
