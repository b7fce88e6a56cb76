(** Lemmas about the encodings of ModelUtils. *)

Require Import Reals List Bool Lia Lra Arith.
Require Import Verif.Vec Verif.VecFacts Verif.ModelMip Verif.SpecMip
  Verif.ModelUtils Verif.SpecCore Verif.SpecUtils.
Import ListNotations.
Open Scope R_scope.

Lemma vle_nil : vle [] [] <-> True.
Proof. split; auto. intros; constructor. Qed.
Lemma vle_cons : forall a b x y, vle (a :: x) (b :: y) <-> a <= b /\ vle x y.
Proof.
  split; intros H.
  - inversion H; auto.
  - destruct H; constructor; auto.
Qed.

Lemma sat4_4 : forall a0 a1 a2 a3 c0 c1 c2 c3 d0 d1 d2 d3 r0 r1 r2 r3 x y b,
  sat4 (mkRows [a0;a1;a2;a3] [c0;c1;c2;c3] [d0;d1;d2;d3] [r0;r1;r2;r3]) x y b
  <-> (x*a0 + y*c0 + b*d0 <= r0 /\ x*a1 + y*c1 + b*d1 <= r1 /\
       x*a2 + y*c2 + b*d2 <= r2 /\ x*a3 + y*c3 + b*d3 <= r3).
Proof.
  intros. unfold sat4. cbn. rewrite !vle_cons, vle_nil. tauto.
Qed.

Lemma product_exact : forall lo up rw x s al,
  replace_binary_continuous_product lo up = Some rw ->
  is_bin al ->
  (sat4 rw x s al <-> (lo <= x <= up /\ s = al * x)).
Proof.
  unfold replace_binary_continuous_product. intros lo up rw x s al H Hb.
  rcases; [|discriminate]. inversion H; subst; clear H.
  rewrite sat4_4. destruct Hb; subst; lra.
Qed.

Lemma product_reject : forall lo up,
  replace_binary_continuous_product lo up = None <-> up < lo.
Proof.
  unfold replace_binary_continuous_product. intros.
  rcases; split; intros; try discriminate; auto; lra.
Qed.

Lemma relu_exact : forall lo up rw x y be,
  replace_relu lo up = Some rw -> is_bin be ->
  (sat4 rw x y be <->
   (lo <= x <= up /\ y = relu x /\ (be = 1 -> 0 <= x) /\ (be = 0 -> x <= 0))).
Proof.
  unfold replace_relu, relu. intros lo up rw x y be H Hb.
  rcases; simpl in H; try discriminate. inversion H; subst; clear H.
  rewrite sat4_4.
  destruct (Rmax_case' x 0) as [[E1 E2]|[E1 E2]]; rewrite E1;
    destruct Hb; subst; (split; [intros|intros [? [? [P Q]]];
      try specialize (P eq_refl); try specialize (Q eq_refl)]);
    repeat split; intros; try lra.
Qed.

Lemma relu_reject : forall lo up,
  replace_relu lo up = None <-> ~ (lo < 0 < up).
Proof.
  unfold replace_relu. intros.
  rcases; simpl; split; intros; try discriminate; auto; lra.
Qed.

Lemma leaky_nonneg : forall a x, 0 <= x -> leaky a x = x.
Proof. intros; unfold leaky; destruct (Rle_dec 0 x); lra. Qed.
Lemma leaky_nonpos : forall a x, x <= 0 -> leaky a x = a * x.
Proof.
  intros; unfold leaky; destruct (Rle_dec 0 x); auto.
  replace x with 0 by lra. ring.
Qed.
Lemma leaky_0 : forall x, leaky 0 x = relu x.
Proof.
  intros; unfold leaky, relu, Rmax.
  destruct (Rle_dec 0 x), (Rle_dec x 0); lra.
Qed.
Lemma leaky_1 : forall x, leaky 1 x = x.
Proof. intros; unfold leaky; destruct (Rle_dec 0 x); lra. Qed.

(** One step of cancellation by a non-zero factor. *)
Lemma mul_le_pos : forall k a b, 0 < k -> k * a <= k * b -> a <= b.
Proof. intros. apply Rmult_le_reg_l with k; auto. Qed.

Lemma leaky_exact : forall a lo up rw x y be,
  a <> 1 -> replace_leaky_relu a lo up = Some rw -> is_bin be ->
  (sat4 rw x y be <->
   (lo <= x <= up /\
    ((be = 1 /\ 0 <= x /\ y = x) \/ (be = 0 /\ x <= 0 /\ y = a * x)))).
Proof.
  unfold replace_leaky_relu. intros a lo up rw x y be Ha H Hb.
  destruct (Rltb lo 0) eqn:E1; destruct (Rltb 0 up) eqn:E2; simpl in H;
    try discriminate.
  apply Rltb_true in E1. apply Rltb_true in E2.
  destruct (Rleb a 1) eqn:E3; inversion H; subst; clear H.
  - apply Rleb_true in E3. assert (K : 0 < 1 - a) by lra.
    rewrite sat4_4. destruct Hb; subst.
    + split.
      * intros [H1 [H2 [H3 H4]]].
        assert (y = a * x) by lra. subst y.
        assert (x <= 0) by (apply (mul_le_pos (1 - a)); auto; lra).
        assert (lo <= x) by (apply (mul_le_pos (1 - a)); auto; lra).
        split; [lra|]. right. repeat split; auto.
      * intros [H1 [[H2 _]|[_ [H2 H3]]]]; [lra|]. subst y.
        assert (0 <= (1 - a) * (0 - x)) by (apply Rmult_le_pos; lra).
        assert (0 <= (1 - a) * (x - lo)) by (apply Rmult_le_pos; lra).
        repeat split; lra.
    + split.
      * intros [H1 [H2 [H3 H4]]].
        assert (y = x) by lra. subst y.
        assert (0 <= x) by (apply (mul_le_pos (1 - a)); auto; lra).
        assert (x <= up) by (apply (mul_le_pos (1 - a)); auto; lra).
        split; [lra|]. left. repeat split; auto.
      * intros [H1 [[_ [H2 H3]]|[H2 _]]]; [|lra]. subst y.
        assert (0 <= (1 - a) * x) by (apply Rmult_le_pos; lra).
        assert (0 <= (1 - a) * (up - x)) by (apply Rmult_le_pos; lra).
        repeat split; lra.
  - apply Rleb_false in E3. assert (K : 0 < a - 1) by lra.
    cbn. rewrite sat4_4. destruct Hb; subst.
    + split.
      * intros [H1 [H2 [H3 H4]]].
        assert (y = a * x) by lra. subst y.
        assert (x <= 0) by (apply (mul_le_pos (a - 1)); auto; lra).
        assert (lo <= x) by (apply (mul_le_pos (a - 1)); auto; lra).
        split; [lra|]. right. repeat split; auto.
      * intros [H1 [[H2 _]|[_ [H2 H3]]]]; [lra|]. subst y.
        assert (0 <= (a - 1) * (0 - x)) by (apply Rmult_le_pos; lra).
        assert (0 <= (a - 1) * (x - lo)) by (apply Rmult_le_pos; lra).
        repeat split; lra.
    + split.
      * intros [H1 [H2 [H3 H4]]].
        assert (y = x) by lra. subst y.
        assert (0 <= x) by (apply (mul_le_pos (a - 1)); auto; lra).
        assert (x <= up) by (apply (mul_le_pos (a - 1)); auto; lra).
        split; [lra|]. left. repeat split; auto.
      * intros [H1 [[_ [H2 H3]]|[H2 _]]]; [|lra]. subst y.
        assert (0 <= (a - 1) * x) by (apply Rmult_le_pos; lra).
        assert (0 <= (a - 1) * (up - x)) by (apply Rmult_le_pos; lra).
        repeat split; lra.
Qed.

(** At slope 1 the unit is the identity; the rows say y = x for both binary
    values (and nothing about the range). *)
Lemma leaky_exact_slope1 : forall lo up rw x y be,
  replace_leaky_relu 1 lo up = Some rw ->
  (sat4 rw x y be <-> y = x).
Proof.
  unfold replace_leaky_relu. intros lo up rw x y be H.
  destruct (Rltb lo 0) eqn:E1; destruct (Rltb 0 up) eqn:E2; simpl in H;
    try discriminate.
  destruct (Rleb 1 1) eqn:E3; [|apply Rleb_false in E3; lra].
  inversion H; subst; clear H. rewrite sat4_4. split; intros; lra.
Qed.

Lemma leaky_reject : forall a lo up,
  replace_leaky_relu a lo up = None <-> ~ (lo < 0 < up).
Proof.
  unfold replace_leaky_relu. intros.
  destruct (Rltb lo 0) eqn:E1; destruct (Rltb 0 up) eqn:E2; rcases; simpl;
    split; intros; try discriminate; auto; lra.
Qed.

Lemma leaky_grad_exact : forall lo up c rw x y al,
  leaky_relu_gradient_times_x lo up c = Some rw -> is_bin al ->
  lo <= x <= up ->
  (sat4 rw x y al <-> y = (if Req_EM_T al 1 then x else c * x)).
Proof.
  unfold leaky_relu_gradient_times_x. intros lo up c rw x y al H Hb Hx.
  destruct (Rleb lo up) eqn:E1; [|discriminate].
  destruct (Rltb c 1) eqn:E3; inversion H; subst; clear H;
    [apply Rltb_true in E3 | apply Rltb_false in E3; cbn];
    rewrite sat4_4; destruct Hb; subst; destruct (Req_EM_T _ 1); try lra;
    split; intros; try lra; subst y.
  - assert (0 <= (1 - c) * (x - lo)) by (apply Rmult_le_pos; lra).
    assert (0 <= (1 - c) * (up - x)) by (apply Rmult_le_pos; lra).
    repeat split; lra.
  - assert (0 <= (1 - c) * (x - lo)) by (apply Rmult_le_pos; lra).
    assert (0 <= (1 - c) * (up - x)) by (apply Rmult_le_pos; lra).
    repeat split; lra.
  - assert (0 <= (c - 1) * (x - lo)) by (apply Rmult_le_pos; lra).
    assert (0 <= (c - 1) * (up - x)) by (apply Rmult_le_pos; lra).
    repeat split; lra.
  - assert (0 <= (c - 1) * (x - lo)) by (apply Rmult_le_pos; lra).
    assert (0 <= (c - 1) * (up - x)) by (apply Rmult_le_pos; lra).
    repeat split; lra.
Qed.

(** Away from slope 1 the rows also force x into its range. *)
Lemma leaky_grad_range : forall lo up c rw x y al,
  c <> 1 -> leaky_relu_gradient_times_x lo up c = Some rw -> is_bin al ->
  sat4 rw x y al -> lo <= x <= up.
Proof.
  unfold leaky_relu_gradient_times_x. intros lo up c rw x y al Hc H Hb Hs.
  destruct (Rleb lo up) eqn:E1; [|discriminate].
  destruct (Rltb c 1) eqn:E3; inversion H; subst; clear H;
    [apply Rltb_true in E3 | apply Rltb_false in E3; cbn in Hs];
    rewrite sat4_4 in Hs; destruct Hs as [H1 [H2 [H3 H4]]];
    destruct Hb; subst.
  - assert (y = c * x) by lra; subst y.
    split; apply (mul_le_pos (1 - c)); lra.
  - assert (y = x) by lra; subst y.
    split; apply (mul_le_pos (1 - c)); lra.
  - assert (y = c * x) by lra; subst y.
    split; apply (mul_le_pos (c - 1)); lra.
  - assert (y = x) by lra; subst y.
    split; apply (mul_le_pos (c - 1)); lra.
Qed.

Lemma leaky_grad_reject : forall lo up c,
  leaky_relu_gradient_times_x lo up c = None <-> up < lo.
Proof.
  unfold leaky_relu_gradient_times_x. intros.
  destruct (Rleb lo up) eqn:E; rcases; split; intros; try discriminate; auto; lra.
Qed.

(** ** Absolute value *)

Lemma len1 : forall (x : vec), length x = 1%nat -> exists a, x = [a].
Proof. destruct x as [|a [|]]; simpl; intros; try discriminate; eauto. Qed.
Lemma len3 : forall (x : vec), length x = 3%nat -> exists a b c, x = [a; b; c].
Proof.
  destruct x as [|a [|b [|c [|]]]]; simpl; intros; try discriminate; eauto.
Qed.

Lemma F2_cons : forall {A B} (P : A -> B -> Prop) a b x y,
  Forall2 P (a :: x) (b :: y) <-> P a b /\ Forall2 P x y.
Proof.
  split; intros H.
  - inversion H; auto.
  - destruct H; constructor; auto.
Qed.
Lemma F2_nil : forall {A B} (P : A -> B -> Prop), Forall2 P [] [] <-> True.
Proof. split; auto. Qed.
Lemma Fa_cons : forall {A} (P : A -> Prop) a x,
  Forall P (a :: x) <-> P a /\ Forall P x.
Proof.
  split; intros H.
  - inversion H; auto.
  - destruct H; constructor; auto.
Qed.
Lemma Fa_nil : forall {A} (P : A -> Prop), Forall P [] <-> True.
Proof. split; auto. Qed.

Lemma cons_eq_iff : forall (a b : R) x y, a :: x = b :: y <-> a = b /\ x = y.
Proof.
  split; intros H.
  - inversion H; auto.
  - destruct H; subst; auto.
Qed.
Lemma nil_eq_iff : @nil R = [] <-> True.
Proof. split; auto. Qed.

Ltac mic_cbn :=
  cbn [rows_sat mic_sat nin nsl nbin sat_in sat_eq rhs_in rhs_eq Ain_input
       Ain_slack Ain_binary Aeq_input Aeq_slack Aeq_binary bounds_ok input_lo
       input_up slack_lo slack_up binary_lo binary_up Aout_input Aout_slack
       Aout_binary Cout output num_out olen lhs term lo_ok up_ok
       length mv map vadd vsub map2 dot zeros repeat ext_le_r r_le_ext fst snd].

Ltac rows_arith :=
  rewrite ?vle_cons, ?vle_nil, ?cons_eq_iff, ?nil_eq_iff, ?F2_cons, ?F2_nil.

Lemma Rabs_pos' : forall x, 0 <= x -> Rabs x = x.
Proof. intros; apply Rabs_pos_eq; auto. Qed.
Lemma Rabs_neg' : forall x, x <= 0 -> Rabs x = - x.
Proof. intros; apply Rabs_left1; auto. Qed.

Ltac abs_case :=
  match goal with
  | H : Some _ = Some _ |- _ => inversion H; subst; clear H
  end.

(** Walk down the chain of [if]s in [H] one branch at a time. *)
Ltac ifstep H :=
  match type of H with
  | (if ?b then _ else _) = _ =>
      let E := fresh "E" in destruct b eqn:E; cbn [andb negb] in E
  end.
Ltac bclean :=
  repeat match goal with
  | H : (_ && _)%bool = true |- _ => apply andb_prop in H; destruct H
  | H : (_ && _)%bool = false |- _ => apply andb_false_iff in H
  | H : (_ && true)%bool = _ |- _ => rewrite andb_true_r in H
  | H : (_ && false)%bool = _ |- _ => rewrite andb_false_r in H
  | H : negb _ = true |- _ => apply negb_true_iff in H
  | H : negb _ = false |- _ => apply negb_false_iff in H
  | H : Rltb _ _ = true |- _ => apply Rltb_true in H
  | H : Rltb _ _ = false |- _ => apply Rltb_false in H
  | H : Rleb _ _ = true |- _ => apply Rleb_true in H
  | H : Rleb _ _ = false |- _ => apply Rleb_false in H
  | H : Reqb _ _ = true |- _ => apply Reqb_true in H
  | H : Reqb _ _ = false |- _ => apply Reqb_false in H
  | H : true = false |- _ => discriminate H
  | H : _ \/ true = false |- _ => destruct H as [H|H]; [|discriminate H]
  | H : false = true |- _ => discriminate H
  | H : Some _ = Some _ |- _ => injection H; clear H; intros H
  | H : None = Some _ |- _ => discriminate H
  end.

(** The last branch of [abs_mic] is unreachable. *)
Lemma abs_cases : forall lo up bz c,
  abs_mic lo up bz = Some c -> lo <= up /\ nbin c <> 0%nat.
Proof.
  intros lo up bz c H.
  assert (L : lo <= up).
  { unfold abs_mic in H. destruct (Rleb lo up) eqn:E; [|discriminate H].
    apply Rleb_true; auto. }
  split; auto.
  unfold abs_mic in H. repeat ifstep H; try discriminate H; bclean;
    try (subst; simpl; discriminate).
  exfalso.
  destruct bz; bclean;
    repeat match goal with
    | H : _ \/ _ |- _ => destruct H; bclean
    end; try lra.
Qed.

Ltac abs_open H :=
  unfold abs_mic in H; repeat ifstep H; try discriminate H; bclean;
  try match goal with
      | X : nbin _ <> 0%nat |- _ => try (subst; simpl in X; congruence)
      end;
  subst.

Lemma abs_dims : forall lo up bz c,
  abs_mic lo up bz = Some c ->
  lo <= up /\ nin c = 1%nat /\ nsl c = 1%nat /\
  nbin c = (if bz then 3%nat else 1%nat) /\
  forall v w b, output c [v] [w] b = [w].
Proof.
  intros lo up bz c H. destruct (abs_cases lo up bz c H) as [L N]. split; auto.
  destruct bz; abs_open H; simpl; repeat split; auto;
    intros; unfold output, lhs; cbn; f_equal; ring.
Qed.

Ltac sign_cases v :=
  assert (v <= 0 \/ 0 <= v) as [V|V] by lra;
  [rewrite (Rabs_neg' v V) | rewrite (Rabs_pos' v V)].

Lemma abs_sound : forall lo up bz c x s b,
  abs_mic lo up bz = Some c -> bins b -> rows_sat c x s b ->
  exists v, x = [v] /\ lo <= v <= up /\ s = [Rabs v] /\
                      output c x s b = [Rabs v] /\ abs_sign bz v b.
Proof.
  intros lo up bz c x s b H Hb [Lx [Ls [Lb [Hin Heq]]]].
  destruct (abs_dims lo up bz c H) as [L [N1 [N2 [N3 Out]]]].
  rewrite N1 in Lx. rewrite N2 in Ls. rewrite N3 in Lb.
  assert (N0 : nbin c <> 0%nat) by (rewrite N3; destruct bz; discriminate).
  apply len1 in Lx. apply len1 in Ls. destruct Lx as [v Hv].
  destruct Ls as [w Hw]. subst x s. exists v. split; auto.
  cut (lo <= v <= up /\ w = Rabs v /\ abs_sign bz v b).
  { intros [A [B C]]. rewrite Out, <- B. auto. }
  clear Out N1 N2 N3.
  destruct bz.
  - apply len3 in Lb. destruct Lb as [b0 [b1 [b2 Hbb]]]. subst b.
    unfold bins in Hb. rewrite !Fa_cons in Hb.
    destruct Hb as [B0 [B1 [B2 _]]].
    unfold abs_sign, sat_in, sat_eq, lhs, term in *.
    unfold is_bin in *.
    abs_open H; cbn in Hin, Heq; rewrite ?vle_cons in Hin; rewrite ?cons_eq_iff in Heq;
      destruct B0; destruct B1; destruct B2; subst b0 b1 b2;
      try (exfalso; lra);
      sign_cases v;
      (split; [lra|split; [lra|]]);
      solve [ left; split; [reflexivity|lra]
            | right; left; split; [reflexivity|lra]
            | right; right; split; [reflexivity|lra] ].
  - apply len1 in Lb. destruct Lb as [b0 Hbb]. subst b.
    unfold bins in Hb. rewrite !Fa_cons in Hb.
    destruct Hb as [B0 _].
    unfold abs_sign, sat_in, sat_eq, lhs, term in *.
    unfold is_bin in *.
    abs_open H; cbn in Hin, Heq; rewrite ?vle_cons in Hin; rewrite ?cons_eq_iff in Heq;
      destruct B0; subst b0;
      try (exfalso; lra);
      sign_cases v;
      (split; [lra|split; [lra|]]);
      solve [ left; split; [reflexivity|lra]
            | right; split; [reflexivity|lra] ].
Qed.

Lemma is_bin_0 : is_bin 0. Proof. left; auto. Qed.
Lemma is_bin_1 : is_bin 1. Proof. right; auto. Qed.
Ltac bins_tac :=
  unfold bins;
  repeat first [apply Forall_nil | apply Forall_cons; [first [exact is_bin_0 | exact is_bin_1]|]].

(** Completeness: the binary that tells the sign is feasible, with all
    declared variable bounds. *)
Definition abs_witness (lo up : R) (bz : bool) (v : R) : vec :=
  if bz then (if Rlt_dec v 0 then [1; 0; 0]
              else if Rlt_dec 0 v then [0; 0; 1] else [0; 1; 0])
  else (if Rle_dec 0 lo then [1] else if Rle_dec up 0 then [0]
        else if Rle_dec 0 v then [1] else [0]).

Lemma abs_complete : forall lo up bz c v,
  abs_mic lo up bz = Some c -> lo <= v <= up ->
  bins (abs_witness lo up bz v) /\
  mic_sat c [v] [Rabs v] (abs_witness lo up bz v).
Proof.
  intros lo up bz c v H Hv.
  destruct (abs_dims lo up bz c H) as [L [N1 [N2 [N3 _]]]].
  assert (N0 : nbin c <> 0%nat) by (rewrite N3; destruct bz; discriminate).
  clear N1 N2 N3.
  unfold abs_witness.
  assert (Av : (v < 0 /\ Rabs v = - v) \/ (v = 0 /\ Rabs v = 0) \/ (0 < v /\ Rabs v = v)).
  { destruct (Rtotal_order v 0) as [V|[V|V]].
    - left; split; auto. apply Rabs_neg'; lra.
    - right; left; split; auto. subst. apply Rabs_R0.
    - right; right; split; auto. apply Rabs_pos'; lra. }
  destruct bz.
  - abs_open H;
      destruct Av as [[V1 V2]|[[V1 V2]|[V1 V2]]]; rewrite V2; try (exfalso; lra);
      repeat match goal with
      | |- context [Rlt_dec ?a ?b] => destruct (Rlt_dec a b)
      end; try (exfalso; lra);
      (split; [bins_tac|]);
      unfold mic_sat, rows_sat, sat_in, sat_eq, lhs, term, bounds_ok; cbn;
      rewrite ?vle_cons, ?cons_eq_iff, ?F2_cons, ?F2_nil, ?vle_nil; cbn;
      repeat apply conj; try exact I; try lra; reflexivity.
  - abs_open H;
      destruct Av as [[V1 V2]|[[V1 V2]|[V1 V2]]]; rewrite V2; try (exfalso; lra);
      repeat match goal with
      | |- context [Rle_dec ?a ?b] => destruct (Rle_dec a b)
      end; try (exfalso; lra);
      (split; [bins_tac|]);
      unfold mic_sat, rows_sat, sat_in, sat_eq, lhs, term, bounds_ok; cbn;
      rewrite ?vle_cons, ?cons_eq_iff, ?F2_cons, ?F2_nil, ?vle_nil; cbn;
      repeat apply conj; try exact I; try lra; reflexivity.
Qed.

Lemma abs_encodes : forall lo up bz c,
  abs_mic lo up bz = Some c ->
  encodes c (fun x => exists v, x = [v] /\ lo <= v <= up) (map Rabs).
Proof.
  intros lo up bz c H. split.
  - intros x [v [Hx Hv]]. subst.
    destruct (abs_complete lo up bz c v H Hv). eauto.
  - intros x s b Hb [Hr _].
    destruct (abs_sound lo up bz c x s b H Hb Hr) as [v [A [B [C [D _]]]]].
    subst. split; eauto.
Qed.

(** The declared variable bounds are implied by the rows. *)
Lemma abs_bounds_redundant : forall lo up bz c x s b,
  abs_mic lo up bz = Some c -> bins b -> rows_sat c x s b ->
  bounds_ok c x s b.
Proof.
  intros lo up bz c x s b H Hb Hr.
  destruct (abs_dims lo up bz c H) as [L [_ [_ [N3 _]]]].
  assert (N0 : nbin c <> 0%nat) by (rewrite N3; destruct bz; discriminate).
  clear N3.
  assert (Hs := Hr). apply (abs_sound lo up bz c x s b H Hb) in Hs.
  destruct Hs as [v [Hx [Hv [Hs [_ Hsg]]]]]. subst x s.
  destruct Hr as [_ [_ [Lb [Hin Heq]]]].
  unfold abs_sign, sat_in, sat_eq, bounds_ok, lhs, term in *.
  destruct bz; abs_open H; cbn in *; repeat apply conj; try exact I;
    repeat match goal with
    | H : _ \/ _ |- _ => destruct H
    | H : _ /\ _ |- _ => destruct H
    end; subst; rewrite ?vle_cons, ?cons_eq_iff in *; cbn in *;
    rewrite ?F2_cons, ?F2_nil; cbn; repeat apply conj; try exact I; try lra.
Qed.

Lemma abs_reject : forall lo up bz, abs_mic lo up bz = None <-> up < lo.
Proof.
  intros. split.
  - intros H. unfold abs_mic in H. ifstep H; bclean; auto.
    repeat ifstep H; discriminate H.
  - intros. unfold abs_mic. destruct (Rleb lo up) eqn:E; bclean; auto; lra.
Qed.
