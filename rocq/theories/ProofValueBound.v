(** The program for the difference between a value function and a network. *)

Require Import Reals List Lia Lra Arith Bool.
Require Import Verif.Vec Verif.VecFacts Verif.ModelMip Verif.SpecMip Verif.SpecCore Verif.ModelNet Verif.SpecNet
  Verif.ProofNet Verif.ProofNetBounds Verif.ModelValueBound Verif.SpecValueBound.
Import ListNotations.
Open Scope R_scope.

(** ** Blocks *)
Lemma skipn_zeros : forall n k, skipn k (zeros n) = zeros (n - k).
Proof. induction n; intros [|k]; cbn; auto. Qed.
Lemma firstn_zeros : forall n k, (k <= n)%nat -> firstn k (zeros n) = zeros k.
Proof. induction n; intros [|k] H; cbn; auto; [lia|]. f_equal. apply IHn. lia. Qed.
Lemma splice_first : forall r w, splice 0 r (zeros w) = r ++ zeros (w - length r).
Proof. intros. unfold splice. cbn [firstn app Nat.add]. rewrite skipn_zeros. reflexivity. Qed.
Lemma splice_second : forall r a b, length r = b -> splice a r (zeros (a + b)) = zeros a ++ r.
Proof.
  intros r a b L. unfold splice. rewrite firstn_zeros by lia. rewrite skipn_zeros, L, Nat.sub_diag. cbn. rewrite app_nil_r. reflexivity.
Qed.
Lemma mv_first : forall A s z ns nz, length s = ns -> length z = nz -> Forall (fun r => length r = ns) A ->
  mv (in_columns (ns + nz) 0 A) (s ++ z) = mv A s.
Proof.
  intros A s z ns nz Ls Lz F. unfold in_columns, mv. rewrite map_map. apply map_ext_in. intros r Hr. rewrite Forall_forall in F.
  rewrite splice_first, dot_app by (rewrite F; auto). rewrite dot_zeros_l. ring.
Qed.
Lemma mv_second : forall A s z ns nz, length s = ns -> length z = nz -> Forall (fun r => length r = nz) A ->
  mv (in_columns (ns + nz) ns A) (s ++ z) = mv A z.
Proof.
  intros A s z ns nz Ls Lz F. unfold in_columns, mv. rewrite map_map. apply map_ext_in. intros r Hr. rewrite Forall_forall in F.
  rewrite splice_second by (apply F; auto). rewrite dot_app by (rewrite zeros_length; auto). rewrite dot_zeros_l. ring.
Qed.
Lemma quad_first : forall Q s z ns nz, length s = ns -> length z = nz -> wfm ns ns Q ->
  quad (in_columns (ns + nz) 0 Q ++ zerom nz (ns + nz)) (s ++ z) = quad Q s.
Proof.
  intros Q s z ns nz Ls Lz [L F]. unfold quad. rewrite mv_app, (mv_first Q s z ns nz) by auto. rewrite mv_zerom, dot_app by (rewrite mv_length; congruence).
  rewrite dot_zeros_r. ring.
Qed.
Lemma add_zeros : forall n (v : vec), length v = n -> vadd v (zeros n) = v.
Proof. intros n v <-. induction v as [|r v IH]; [reflexivity|]. unfold vadd, zeros in *. cbn [length repeat map2]. rewrite IH, Rplus_0_r. reflexivity. Qed.
Lemma in_columns_length : forall w o A, length (in_columns w o A) = length A.
Proof. intros. apply map_length. Qed.

Lemma app_inv_len : forall (s z s' z' : vec), s ++ z = s' ++ z' -> length z = length z' -> s = s'.
Proof.
  intros s z s' z' E L. assert (Ls : length s = length s') by (apply (f_equal (@length R)) in E; rewrite !app_length in E; lia).
  revert s' E Ls. induction s as [|r s IH]; intros [|r' s'] E Ls; cbn in *; try lia; auto. inversion E; subst. f_equal. apply IH; auto.
Qed.

(** ** What the encoding of a network looks like *)
Section Shape.
Variable solve : mip -> gresult.
Hypothesis Hok : solver_ok solve.
Lemma oc_shape : forall n meth N x_lo x_up c B out, net_wf n N -> length x_lo = n -> length x_up = n ->
  output_constraint solve meth N x_lo x_up = Some (c, B, out) ->
  exists W k P1 P2 P3 pin E1 E2 E3 peq, let M := num_units (hidden N) in
    c = mkMic n M M None (Some W) None (Some k) (Some P1) (Some P2) (Some P3) (Some pin) (Some E1) (Some E2) (Some E3) (Some peq)
          None None None None None None /\
    mic_wf c /\ length W = out_features (last_layer N) /\ length k = out_features (last_layer N) /\
    (n + n <= length pin)%nat /\ Nat.Even (length peq).
Proof.
  intros n meth N x_lo x_up c B out W L1 L2 H. unfold output_constraint in H.
  destruct (vleb x_lo x_up); [|discriminate]. cbn [negb] in H.
  destruct (compute_layer_bound solve meth N x_lo x_up) as [B'|] eqn:E1; [|discriminate].
  destruct (compute_network_output_bounds solve meth N (b_pre_lo B') (b_pre_up B') x_lo x_up) as [out'|] eqn:E2; [|discriminate].
  destruct (output_constraint_given_bounds N (b_pre_lo B') (b_pre_up B') x_lo x_up) as [c'|] eqn:E3; [|discriminate].
  assert (c' = c) by congruence. subst c'. clear H.
  destruct (layer_bound_spec solve Hok n _ _ _ _ _ W L1 L2 E1) as (_ & _ & I1 & I2 & _).
  destruct (encoding_given_bounds n N _ _ _ _ W L1 L2 I1 I2) as (c0 & Ec & [M1 _] & M2 & _).
  rewrite E3 in Ec. assert (c0 = c) by congruence. subst c0. clear Ec.
  unfold output_constraint_given_bounds in E3.
  destruct (write_layers (x_size N) (num_units (hidden N)) None 0 (hidden N) (b_pre_lo B') (b_pre_up B')) as [[bi be]|] eqn:Ew; [|discriminate].
  destruct (rev (hidden N)) as [|[l a] t]; [discriminate|].
  assert (Even : Nat.Even (length (k_rhs be))).
  { clear - Ew. revert Ew. generalize (x_size N) (num_units (hidden N)) (@None nat) 0%nat (b_pre_lo B') (b_pre_up B'). intros nx M prev off lo up. revert bi be prev off.
    induction (hidden N) as [|[l a] hs IH]; intros bi be prev off E; cbn [write_layers] in E.
    - inversion E; subst. exists 0%nat. reflexivity.
    - destruct (constraint_by_layer l a (slice off (out_features l) lo) (slice off (out_features l) up)) as [[[ri re] rg]|] eqn:El; [|discriminate].
      destruct (write_layers nx M (Some off) (off + out_features l) hs lo up) as [[bi' be']|] eqn:Ew; [|discriminate].
      inversion E; subst. unfold bapp, write_rows. cbn [k_rhs]. rewrite app_length. specialize (IH _ _ _ _ Ew).
      assert (Er : Nat.Even (length (l_rhs re))); [|destruct Er as [p ->], IH as [q ->]; exists (p + q)%nat; lia].
      clear - El. unfold constraint_by_layer in El. revert El.
      generalize (out_features l) at 1. generalize 0%nat. generalize (weight l) (bias_of l) (slice off (out_features l) lo) (slice off (out_features l) up).
      intros W. revert ri re rg. induction W as [|w W IH]; intros ri re rg b lo' up' j n E; destruct b as [|b0 b], lo' as [|l0 lo'], up' as [|u0 up']; cbn [layer_loop] in E; try discriminate.
      + inversion E; subst. exists 0%nat. reflexivity.
      + destruct (constraint_by_neuron w b0 a l0 u0) as [[[ni ne] nr]|] eqn:En; [|discriminate].
        destruct (layer_loop n (S j) a W b lo' up') as [[[si se] sg]|] eqn:Es; [|discriminate].
        inversion E; subst. unfold lapp, place. cbn [l_rhs]. rewrite app_length. specialize (IH _ _ _ _ _ _ _ _ Es).
        assert (Er : Nat.Even (length (n_rhs ne))); [|destruct Er as [p ->], IH as [q ->]; exists (p + q)%nat; lia].
        clear - En. unfold constraint_by_neuron in En.
        destruct (Rltb l0 0 && Rltb 0 u0)%bool.
        * destruct (match a with Relu => _ | Leaky _ => _ end); [|discriminate]. inversion En; subst. exists 0%nat. reflexivity.
        * destruct (if Rleb 0 l0 then _ else _) as [sl bv]. inversion En; subst. exists 1%nat. reflexivity. }
  assert (Q : x_size N = n).
  { destruct W as [Hne [W _]]. unfold x_size. destruct (hidden N) as [|[l' a'] hs]; [congruence|]. apply W. }
  rewrite Q in E3. destruct W as (_ & _ & Wl). destruct Wl as (_ & [Lw _] & Lb).
  match type of E3 with Some ?u = _ => assert (QQ : u = c) by congruence end. subst c.
  do 10 eexists. split; [reflexivity|]. split; [exact M1|]. split; [rewrite map_length; exact Lw|]. split.
  { unfold bias_of. destruct (bias (last_layer N)); [exact Lb|apply zeros_length]. }
  split; [|exact Even]. unfold bapp. cbn [k_rhs]. rewrite !app_length, vneg_length. lia.
Qed.
End Shape.

(** ** The program *)
Section Prog.
Variable T : traj_opt.
Variable N : network.
Variables x_lo x_up : vec.
Hypothesis WT : traj_wf T.
Hypothesis WN : net_wf (tj_x T) N.
Hypothesis Llo : length x_lo = tj_x T.
Hypothesis Lup : length x_up = tj_x T.
Variable model : network.
Variable P : eps_prog.
Hypothesis EP : epsilon_opt (mkBounds T N) model x_lo x_up = Some P.
Notation none := (fun _ : mip => GOther).
Lemma none_ok : solver_ok none.
Proof. intros m. exact I. Qed.

Lemma prog_split : exists M,
  (forall x y g, eps_feasible P x y g ->
     exists s z a b, y = s ++ z /\ g = a ++ b /\ length z = M /\ length b = M /\ plan T x s a /\ in_box x_lo x_up x /\
       eps_cost P x y g = plan_cost T x s a - eta N x) /\
  (forall x s a, in_box x_lo x_up x -> plan T x s a -> exists z b, length z = M /\ length b = M /\ eps_feasible P x (s ++ z) (a ++ b)).
Proof.
  unfold epsilon_opt in EP. cbn [mb_traj mb_net] in EP.
  destruct (output_constraint none IA N x_lo x_up) as [[[c B] out]|] eqn:Eo; [|discriminate].
  destruct (oc_shape none none_ok (tj_x T) IA N x_lo x_up c B out WN Llo Lup Eo) as (W & k & P1 & P2 & P3 & pin & E1 & E2 & E3 & peq & Ec & Wc & LW & Lk & _ & _).
  destruct (network_encodes none none_ok (tj_x T) IA N x_lo x_up c B out WN Llo Lup Eo) as [Cn Sn].
  set (M := num_units (hidden N)) in *. exists M.
  rewrite Ec in EP. cbn [nin nsl nbin Ain_input Ain_slack Ain_binary rhs_in Aeq_input Aeq_slack Aeq_binary rhs_eq Aout_slack Cout] in EP.
  destruct (negb (Nat.eqb (tj_x T) (tj_x T))); [discriminate|].
  destruct W as [|w [|]]; try discriminate. destruct k as [|k0 [|]]; try discriminate.
  assert (Sp : squeezed pin = Some pin) by (destruct pin as [|? [|]]; try reflexivity; discriminate).
  assert (Se : squeezed peq = Some peq).
  { rewrite Sp in EP. destruct peq as [|? [|]]; try reflexivity; discriminate. }
  rewrite Sp, Se in EP. match type of EP with Some ?u = Some ?v => assert (QQ : u = v) by congruence end. clear EP. subst P.
  rewrite Ec in Wc. unfold mic_wf, num_out, num_ineq, num_eq in Wc.
  cbn [owf olen olen_is none_if Aout_input Aout_slack Aout_binary Cout Ain_input Ain_slack Ain_binary rhs_in Aeq_input Aeq_slack Aeq_binary rhs_eq nin nsl nbin] in Wc.
  destruct Wc as (_ & [_ Fw] & _ & _ & [LP1 FP1] & [LP2 FP2] & [LP3 FP3] & _ & [LE1 FE1] & [LE2 FE2] & [LE3 FE3] & _).
  inversion Fw as [|? ? Lw _]; subst.
  destruct WT as ([L1 F1] & [L2 F2] & [L3 F3] & [G1 H1] & [G2 H2] & [G3 H3] & Q1 & Q2 & Q3 & q1 & q2 & q3).
  set (c := mkMic _ _ _ _ _ _ _ _ _ _ _ _ _ _ _ _ _ _ _ _ _) in *.
  set (nx := tj_x T) in *.
  match goal with |- context [eps_feasible ?u] => set (PP := u) end.
  assert (Lq1 : length (ep_q1 PP) = (tj_s T + M)%nat).
  { unfold PP. cbn [ep_q1]. rewrite splice_length; rewrite splice_first, app_length, zeros_length; [lia|]. rewrite vneg_length. lia. }
  assert (Lq2 : length (ep_q2 PP) = (tj_a T + M)%nat).
  { unfold PP. cbn [ep_q2]. rewrite splice_first, app_length, zeros_length. lia. }
  (* the rows, split *)
  assert (Rows : forall x s z a b, length x = nx -> length s = tj_s T -> length z = M -> length a = tj_a T -> length b = M ->
    (eps_feasible PP x (s ++ z) (a ++ b) <-> plan T x s a /\ in_box x_lo x_up x /\ bins b /\ mic_sat c x z b)).
  { intros x s z a b Lx Ls Lz La Lb. unfold eps_feasible. rewrite Lq1, Lq2, !app_length, Lz, Lb, Ls, La.
    unfold PP. cbn [ep_G0 ep_G1 ep_G2 ep_h ep_A0 ep_A1 ep_A2 ep_b ep_q0].
    rewrite !mv_app. rewrite !(mv_first _ s z (tj_s T) M), !(mv_first _ a b (tj_a T) M), !(mv_second _ s z (tj_s T) M), !(mv_second _ a b (tj_a T) M) by auto.
    rewrite !mv_zerom, mv_eye, mv_eyek, vscale_m1 by auto.
    assert (V1 : vadd (vadd (mv (tj_Ain1 T) x ++ mv P1 x ++ x ++ vneg x) (mv (tj_Ain2 T) s ++ mv P2 z ++ zeros (nx + nx))) (mv (tj_Ain3 T) a ++ mv P3 b ++ zeros (nx + nx)) =
      vadd (vadd (mv (tj_Ain1 T) x) (mv (tj_Ain2 T) s)) (mv (tj_Ain3 T) a) ++ vadd (vadd (mv P1 x) (mv P2 z)) (mv P3 b) ++ x ++ vneg x).
    { assert (A1 : length (mv (tj_Ain1 T) x) = length (mv (tj_Ain2 T) s)) by (rewrite !mv_length; congruence).
      assert (A2 : length (mv P1 x) = length (mv P2 z)) by (rewrite !mv_length; congruence).
      rewrite !vadd_app; auto; [| | ].
      - assert (LL : length (x ++ vneg x) = (nx + nx)%nat) by (rewrite app_length, vneg_length; lia). rewrite !(add_zeros _ _ LL). reflexivity.
      - rewrite vadd_length by auto. rewrite !mv_length. congruence.
      - rewrite vadd_length by auto. rewrite !mv_length. congruence. }
    rewrite V1. clear V1.
    assert (V2 : vadd (vadd (mv (tj_Aeq1 T) x ++ mv E1 x) (mv (tj_Aeq2 T) s ++ mv E2 z)) (mv (tj_Aeq3 T) a ++ mv E3 b) =
      vadd (vadd (mv (tj_Aeq1 T) x) (mv (tj_Aeq2 T) s)) (mv (tj_Aeq3 T) a) ++ vadd (vadd (mv E1 x) (mv E2 z)) (mv E3 b)).
    { assert (A1 : length (mv (tj_Aeq1 T) x) = length (mv (tj_Aeq2 T) s)) by (rewrite !mv_length; congruence).
      rewrite !vadd_app; auto. rewrite vadd_length by auto. rewrite !mv_length. congruence. }
    rewrite V2. clear V2.
    assert (K1 : length (vadd (vadd (mv (tj_Ain1 T) x) (mv (tj_Ain2 T) s)) (mv (tj_Ain3 T) a)) = length (tj_rhs_in T)).
    { rewrite !vadd_length; rewrite ?vadd_length; rewrite ?mv_length; congruence. }
    assert (K2 : length (vadd (vadd (mv P1 x) (mv P2 z)) (mv P3 b)) = length pin).
    { rewrite !vadd_length; rewrite ?vadd_length; rewrite ?mv_length; congruence. }
    assert (K3 : length (vadd (vadd (mv (tj_Aeq1 T) x) (mv (tj_Aeq2 T) s)) (mv (tj_Aeq3 T) a)) = length (tj_rhs_eq T)).
    { rewrite !vadd_length; rewrite ?vadd_length; rewrite ?mv_length; congruence. }
    rewrite !vle_app_iff by (auto; congruence). rewrite vle_vneg.
    assert (Bi : bins (a ++ b) <-> bins a /\ bins b) by (unfold bins; apply Forall_app). rewrite Bi. clear Bi.
    assert (Eq : forall u v u' v' : vec, length u = length u' -> (u ++ v = u' ++ v' <-> u = u' /\ v = v')).
    { intros u v u' v' L. split; [|intros [-> ->]; auto]. revert u' L. induction u as [|r u IH]; intros [|r' u'] L E; cbn in *; try lia; auto.
      inversion E; subst. destruct (IH u') as [-> ->]; auto. }
    rewrite Eq by exact K3.
    unfold plan, mic_sat, rows_sat, sat_in, sat_eq, bounds_ok, lo_ok, up_ok, in_box, lhs, term, c.
    cbn [nin nsl nbin rhs_in rhs_eq Ain_input Ain_slack Ain_binary Aeq_input Aeq_slack Aeq_binary input_lo input_up slack_lo slack_up binary_lo binary_up].
    fold nx. rewrite q1. tauto. }
  assert (Cost : forall x s z a b, length x = nx -> length s = tj_s T -> length z = M -> length a = tj_a T -> length b = M ->
    eps_cost PP x (s ++ z) (a ++ b) = plan_cost T x s a - nth 0 (output c x z b) 0).
  { intros x s z a b Lx Ls Lz La Lb. unfold eps_cost, plan_cost, PP. cbn [ep_Q0 ep_Q1 ep_Q2 ep_q0 ep_q1 ep_q2 ep_k].
    rewrite (quad_first (tj_Q2 T) s z (tj_s T) M), (quad_first (tj_Q3 T) a b (tj_a T) M) by auto.
    assert (D1 : dot (s ++ z) (splice (tj_s T) (vneg w) (splice 0 (tj_q2 T) (zeros (tj_s T + M)))) = dot s (tj_q2 T) - dot w z).
    { rewrite splice_first, q2. replace (tj_s T + M - tj_s T)%nat with M by lia. unfold splice.
      rewrite firstn_app, q2, Nat.sub_diag. cbn [firstn]. rewrite app_nil_r. rewrite <- q2 at 1. rewrite firstn_all.
      rewrite skipn_all2 by (rewrite app_length, zeros_length, vneg_length; lia). rewrite app_nil_r.
      rewrite dot_app by congruence. rewrite dot_vneg_r, (dot_comm z w). ring. }
    rewrite D1. rewrite splice_first, dot_app by congruence. rewrite dot_zeros_r.
    unfold output, num_out, lhs, term, c. cbn [olen Aout_input Aout_slack Aout_binary Cout length mv map vadd map2 zeros repeat nth]. ring. }
  split.
  - intros x y g F. assert (F' := F). destruct F' as (Lx & Ly & Lg & _). rewrite Lq1 in Ly. rewrite Lq2 in Lg. unfold PP in Lx. cbn [ep_q0] in Lx. rewrite q1 in Lx.
    exists (firstn (tj_s T) y), (skipn (tj_s T) y), (firstn (tj_a T) g), (skipn (tj_a T) g).
    assert (Ey := firstn_skipn (tj_s T) y). assert (Eg := firstn_skipn (tj_a T) g).
    assert (Z1 : length (firstn (tj_s T) y) = tj_s T) by (rewrite firstn_length; lia).
    assert (Z2 : length (skipn (tj_s T) y) = M) by (rewrite skipn_length; lia).
    assert (Z3 : length (firstn (tj_a T) g) = tj_a T) by (rewrite firstn_length; lia).
    assert (Z4 : length (skipn (tj_a T) g) = M) by (rewrite skipn_length; lia).
    split; [auto|]. split; [auto|]. split; [auto|]. split; [auto|].
    rewrite <- Ey, <- Eg in F. apply Rows in F; auto. destruct F as (F1' & F2' & F3' & F4').
    split; [auto|]. split; [auto|]. rewrite <- Ey at 1. rewrite <- Eg at 1. rewrite Cost by auto.
    unfold eta. destruct (Sn x _ _ F3' F4') as [_ ->]. reflexivity.
  - intros x s a Bx Pl. destruct (Cn x Bx) as (z & b & Hb & Hs). exists z, b.
    assert (Hs' := Hs). destruct Hs' as [(_ & Lz & Lb & _) _]. cbn [nsl nbin c] in Lz, Lb.
    split; [exact Lz|]. split; [exact Lb|]. assert (Pl' := Pl). destruct Pl' as (Lx & Ls & La & _).
    apply Rows; auto.
Qed.

(** The minimum for a fixed state is the optimal cost-to-go minus the value of the network. *)
Lemma eps_at_value : forall x v, in_box x_lo x_up x -> (eps_at P x (v - eta N x) <-> cost_to_go T x v).
Proof.
  destruct prog_split as (M & S & C). intros x v Bx. split.
  - intros [(y & g & F & E) Min]. destruct (S x y g F) as (s & z & a & b & -> & -> & Lz & Lb & Pl & _ & Cs).
    split; [exists s, a; split; [auto|lra]|]. intros s' a' Pl'. destruct (C x s' a' Bx Pl') as (z' & b' & Lz' & Lb' & F').
    specialize (Min _ _ F'). destruct (S _ _ _ F') as (s2 & z2 & a2 & b2 & Q1 & Q2 & Lz2 & Lb2 & Pl2 & _ & Cs2).
    assert (s' = s2) by (eapply app_inv_len; eauto; congruence). assert (a' = a2) by (eapply app_inv_len; eauto; congruence). subst. lra.
  - intros [(s & a & Pl & E) Min]. destruct (C x s a Bx Pl) as (z & b & Lz & Lb & F). split.
    + exists (s ++ z), (a ++ b). split; [auto|]. destruct (S _ _ _ F) as (s2 & z2 & a2 & b2 & Q1 & Q2 & Lz2 & Lb2 & Pl2 & _ & Cs2).
      assert (s = s2) by (eapply app_inv_len; eauto; congruence). assert (a = a2) by (eapply app_inv_len; eauto; congruence). subst. lra.
    + intros y g F'. destruct (S x y g F') as (s2 & z2 & a2 & b2 & _ & _ & _ & _ & Pl2 & _ & Cs2). specialize (Min _ _ Pl2). lra.
Qed.
(** The minimum over all states bounds the network by the cost-to-go, and no better bound holds. *)
Lemma eps_min_bound : forall m, eps_min P m ->
  (forall x v, in_box x_lo x_up x -> cost_to_go T x v -> eta N x <= v - m) /\
  exists x, in_box x_lo x_up x /\ cost_to_go T x (eta N x + m).
Proof.
  destruct prog_split as (M & S & C). intros m [(x & y & g & F & E) Min]. split.
  - intros x' v Bx V. apply (eps_at_value x' v Bx) in V. destruct V as [(y' & g' & F' & E') _]. specialize (Min _ _ _ F'). lra.
  - destruct (S x y g F) as (_ & _ & _ & _ & _ & _ & _ & _ & _ & Bx & _). exists x. split; [auto|]. apply eps_at_value; [auto|].
    replace (eta N x + m - eta N x) with m by ring. split; [exists y, g; auto|]. intros. apply Min. auto.
Qed.
End Prog.
