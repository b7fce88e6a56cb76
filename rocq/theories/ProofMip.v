(** Characterisation of the program-building operations of ModelMip in terms
    of the set of feasible assignments. *)

Require Import Reals List Bool Lia Lra Arith.
Require Import Verif.Vec Verif.VecFacts Verif.ModelMip Verif.SpecMip
  Verif.SpecCore Verif.ProofUtils Verif.ProofMaxBox.
Import ListNotations.
Open Scope R_scope.

Lemma below_le : forall n n' l, (n <= n')%nat -> below n l -> below n' l.
Proof. intros. eapply Forall_impl; [|exact H0]. simpl; intros; lia. Qed.
Lemma below_app : forall n a b, below n (a ++ b) <-> below n a /\ below n b.
Proof. intros; apply Forall_app. Qed.
Lemma below_seq : forall n k, below (n + k) (seq n k).
Proof. intros. apply Forall_forall. intros v H. apply in_seq in H. lia. Qed.

(** ** Evaluation of rows *)

Lemma eval_combine : forall row vs sg,
  eval_terms (combine row vs) sg = dot row (map sg vs).
Proof.
  unfold eval_terms. induction row; destruct vs; simpl; intros; auto.
  rewrite IHrow. auto.
Qed.

Lemma eval_terms_agree : forall n t s1 s2,
  Forall (fun p => (snd p < n)%nat) t ->
  (forall i, (i < n)%nat -> s1 i = s2 i) -> eval_terms t s1 = eval_terms t s2.
Proof.
  unfold eval_terms. induction t; simpl; intros s1 s2 H E; auto.
  inversion H; subst. rewrite (IHt s1 s2); auto. rewrite E; auto.
Qed.

Lemma gfeas_agree : forall m s1 s2, wf_mip m -> agree m s1 s2 ->
  gfeas m s1 -> gfeas m s2.
Proof.
  intros m s1 s2 W A [G1 G2]. split.
  - intros i v Hv. rewrite <- A; auto. apply nth_error_Some. congruence.
  - unfold wf_mip in W. rewrite Forall_forall in *. intros g Hg.
    specialize (W g Hg). specialize (G2 g Hg). unfold row_ok in *.
    rewrite (eval_terms_agree (nvars m) _ s2 s1); auto.
    intros i Hi. symmetry. apply A; auto.
Qed.

Lemma agree_sym : forall m s1 s2, agree m s1 s2 -> agree m s2 s1.
Proof. unfold agree; intros; symmetry; auto. Qed.

Lemma map_agree : forall n (s1 s2 : assignment) l, below n l ->
  (forall i, (i < n)%nat -> s1 i = s2 i) -> map s1 l = map s2 l.
Proof.
  intros. apply map_ext_in. intros i Hi. apply H0.
  unfold below in H. rewrite Forall_forall in H. auto.
Qed.

(** ** addVars *)

Definition vars_ok (vt : vtype) (bnds : list (ext * ext)) (x : vec) : Prop :=
  Forall2 (fun b v => var_ok (new_gvar vt b) v) bnds x.

Lemma addVars_fields : forall bnds vt m m' ids, addVars bnds vt m = (m', ids) ->
  gvars m' = gvars m ++ map (new_gvar vt) bnds /\ grows m' = grows m /\
  ids = seq (nvars m) (length bnds) /\ nvars m' = (nvars m + length bnds)%nat.
Proof.
  intros bnds vt m m' ids H. unfold addVars in H.
  assert (L : length (gvars m ++ map (new_gvar vt) bnds)
              = (nvars m + length bnds)%nat)
    by (rewrite app_length, map_length; auto).
  destruct vt.
  - destruct (lb_rows (length (rhs_in_ m)) (length (r_ m)) bnds) as [c1 b1].
    destruct (ub_rows (length (rhs_in_ m) + length b1) (length (r_ m)) bnds) as [c2 b2].
    destruct (eq_rows (length (rhs_eq_ m)) (length (r_ m)) bnds) as [c3 b3].
    injection H as H1 H2. subst. auto.
  - injection H as H1 H2. subst. auto.
  - injection H as H1 H2. subst. auto.
Qed.

Lemma gvars_app_ok : forall (A B : list gvar) (sg : assignment),
  (forall i v, nth_error (A ++ B) i = Some v -> var_ok v (sg i)) <->
  (forall i v, nth_error A i = Some v -> var_ok v (sg i)) /\
  Forall2 var_ok B (map sg (seq (length A) (length B))).
Proof.
  intros A B sg. split.
  - intros H. split.
    + intros i v Hi. apply H. rewrite nth_error_app1; auto.
      apply nth_error_Some. congruence.
    + assert (K : forall k, forall i v, nth_error B i = Some v -> k = length A ->
                var_ok v (sg (k + i)%nat)).
      { intros k i v Hi Ek. subst k. apply H. rewrite nth_error_app2 by lia.
        replace (length A + i - length A)%nat with i by lia. auto. }
      specialize (K (length A)). revert K. clear H.
      generalize (length A). induction B as [|b B IH]; intros n K; simpl; constructor.
      * specialize (K 0%nat b eq_refl eq_refl). rewrite Nat.add_0_r in K. auto.
      * apply IH. intros i v Hi _. specialize (K (S i) v Hi eq_refl).
        replace (S n + i)%nat with (n + S i)%nat by lia. auto.
  - intros [H1 H2] i v Hi.
    destruct (lt_dec i (length A)) as [L|L].
    + rewrite nth_error_app1 in Hi by auto. auto.
    + rewrite nth_error_app2 in Hi by lia.
      assert (K : forall n j v, Forall2 var_ok B (map sg (seq n (length B))) ->
                  nth_error B j = Some v -> var_ok v (sg (n + j)%nat)).
      { clear. induction B as [|b B IH]; intros n j v F Hj; [destruct j; discriminate|].
        simpl in F. inversion F; subst. destruct j; simpl in Hj.
        - injection Hj as Hj. subst. rewrite Nat.add_0_r. auto.
        - replace (n + S j)%nat with (S n + j)%nat by lia. apply IH; auto. }
      specialize (K _ _ _ H2 Hi). replace (length A + (i - length A))%nat with i in K by lia.
      auto.
Qed.

Lemma Forall2_map_l : forall {A B C} (f : A -> B) (P : B -> C -> Prop) l x,
  Forall2 P (map f l) x <-> Forall2 (fun a c => P (f a) c) l x.
Proof.
  induction l; simpl; intros x; split; intros H; inversion H; subst; constructor; auto;
    apply IHl; auto.
Qed.

Lemma gfeas_addVars : forall bnds vt m m' ids sg,
  addVars bnds vt m = (m', ids) ->
  (gfeas m' sg <-> gfeas m sg /\ vars_ok vt bnds (map sg ids)).
Proof.
  intros bnds vt m m' ids sg H. apply addVars_fields in H.
  destruct H as [H1 [H2 [H3 _]]]. unfold gfeas. rewrite H1, H2, gvars_app_ok.
  rewrite map_length. subst ids. unfold vars_ok. fold (nvars m).
  rewrite Forall2_map_l. tauto.
Qed.

Lemma wf_addVars : forall bnds vt m m' ids, addVars bnds vt m = (m', ids) ->
  wf_mip m -> wf_mip m'.
Proof.
  intros bnds vt m m' ids H W. apply addVars_fields in H.
  destruct H as [H1 [H2 [H3 H4]]]. unfold wf_mip in *. rewrite H2, H4.
  eapply Forall_impl; [|exact W]. simpl. intros g Hg.
  eapply Forall_impl; [|exact Hg]. simpl. intros; lia.
Qed.

(** ** push_row / addLConstr / addMConstr *)

Lemma push_row_fields : forall t s r m,
  gvars (push_row t s r m) = gvars m /\
  grows (push_row t s r m) = grows m ++ [mkRow t s r] /\
  nvars (push_row t s r m) = nvars m.
Proof. intros. destruct s; auto. Qed.

Lemma gfeas_push_row : forall t s r m sg,
  gfeas (push_row t s r m) sg <-> gfeas m sg /\ row_ok sg (mkRow t s r).
Proof.
  intros. destruct (push_row_fields t s r m) as [H1 [H2 _]].
  unfold gfeas. rewrite H1, H2, Forall_app, Fa_cons, Fa_nil. tauto.
Qed.

Lemma wf_push_row : forall t s r m, wf_mip m ->
  Forall (fun p => (snd p < nvars m)%nat) t -> wf_mip (push_row t s r m).
Proof.
  intros t s r m W T. destruct (push_row_fields t s r m) as [H1 [H2 H3]].
  unfold wf_mip. rewrite H2, H3. apply Forall_app. split; auto.
Qed.

Lemma combine_below : forall (row : vec) vs n, below n vs ->
  Forall (fun p : R * nat => (snd p < n)%nat) (combine row vs).
Proof.
  induction row as [|a row IH]; destruct vs; simpl; intros k H; auto.
  inversion H; subst. constructor; auto.
Qed.

Definition sense_ok (s : sense) (a b : vec) : Prop :=
  match s with
  | SLe => vle a b
  | SEq => a = b
  | SGe => vle b a
  end.

Lemma gfeas_push_rows : forall A vs s b m sg, length A = length b ->
  (gfeas (push_rows A vs s b m) sg <->
   gfeas m sg /\ sense_ok s (mv A (map sg vs)) b).
Proof.
  induction A as [|row A IH]; destruct b as [|r b]; intros m sg L; try discriminate.
  - simpl. destruct s; simpl; rewrite ?vle_nil; tauto.
  - cbn [push_rows mv map]. rewrite IH by (simpl in L; lia).
    rewrite gfeas_push_row. unfold row_ok. cbn [row_terms row_sense row_rhs].
    rewrite eval_combine.
    destruct s; cbn [sense_ok]; rewrite ?vle_cons, ?cons_eq_iff; unfold mv;
      intuition lra.
Qed.

Lemma nvars_push_rows : forall A vs s b m, nvars (push_rows A vs s b m) = nvars m.
Proof.
  induction A as [|row A IH]; destruct b as [|r b]; intros m; simpl; auto.
  rewrite IH. apply push_row_fields.
Qed.
Lemma gvars_push_rows : forall A vs s b m, gvars (push_rows A vs s b m) = gvars m.
Proof.
  induction A as [|row A IH]; destruct b as [|r b]; intros m; simpl; auto.
  rewrite IH. apply push_row_fields.
Qed.

Lemma wf_push_rows : forall A vs s b m, wf_mip m -> below (nvars m) vs ->
  wf_mip (push_rows A vs s b m).
Proof.
  induction A as [|row A IH]; destruct b as [|r b]; intros m W B; simpl; auto.
  apply IH.
  - apply wf_push_row; auto. apply combine_below; auto.
  - destruct (push_row_fields (combine row vs) s r m) as [_ [_ E]]. rewrite E. auto.
Qed.

(** Blocks [A1 x1 + A2 x2 + ...]. *)
Fixpoint bsum (m : nat) (blocks : list (mat * list nat)) (sg : assignment) : vec :=
  match blocks with
  | [] => zeros m
  | (A, xs) :: rest => vadd (mv A (map sg xs)) (bsum m rest sg)
  end.
Definition blocks_wf (m : nat) (blocks : list (mat * list nat)) : Prop :=
  Forall (fun p => wfm m (length (snd p)) (fst p)) blocks.

Lemma hcats_length : forall m blocks, blocks <> [] -> blocks_wf m blocks ->
  length (hcats (map fst blocks)) = m.
Proof.
  intros m blocks Hn W. induction blocks as [|[A xs] rest IH]; [congruence|].
  inversion W; subst. destruct H1 as [L _]. simpl in L.
  destruct rest as [|p rest].
  - simpl. auto.
  - change (hcats (map fst ((A, xs) :: p :: rest)))
      with (hcat A (hcats (map fst (p :: rest)))).
    unfold hcat. rewrite map2_length. rewrite IH; auto; [lia|discriminate].
Qed.

Lemma bsum_length : forall m blocks sg, blocks_wf m blocks ->
  length (bsum m blocks sg) = m.
Proof.
  intros m blocks sg W. induction blocks as [|[A xs] rest IH].
  - apply zeros_length.
  - inversion W; subst. cbn [bsum]. destruct H1 as [L _]. simpl in L.
    rewrite vadd_length; rewrite mv_length; auto. rewrite IH; auto.
Qed.

Lemma mv_hcats : forall m blocks sg, blocks <> [] -> blocks_wf m blocks ->
  mv (hcats (map fst blocks)) (map sg (concat (map snd blocks)))
  = bsum m blocks sg.
Proof.
  intros m blocks sg Hn W. induction blocks as [|[A xs] rest IH]; [congruence|].
  inversion W; subst. destruct H1 as [L F]. simpl in L, F.
  destruct rest as [|p rest].
  - cbn. rewrite app_nil_r. rewrite vadd_zeros_r; auto. rewrite mv_length; auto.
  - change (hcats (map fst ((A, xs) :: p :: rest)))
      with (hcat A (hcats (map fst (p :: rest)))).
    change (bsum m ((A, xs) :: p :: rest) sg)
      with (vadd (mv A (map sg xs)) (bsum m (p :: rest) sg)).
    rewrite <- IH by (auto; discriminate).
    change (concat (map snd ((A, xs) :: p :: rest)))
      with (xs ++ concat (map snd (p :: rest))).
    rewrite map_app. apply (mv_hcat _ _ _ _ (length xs)).
    + rewrite (hcats_length m); auto. discriminate.
    + eapply Forall_impl; [|exact F]. simpl. auto.
    + apply map_length.
Qed.

Lemma gfeas_add_block : forall blocks s b m sg, blocks <> [] ->
  blocks_wf (length b) blocks ->
  (gfeas (add_block blocks s b m) sg <->
   gfeas m sg /\ sense_ok s (bsum (length b) blocks sg) b).
Proof.
  intros blocks s b m sg Hn W. unfold add_block, addMConstr.
  rewrite gfeas_push_rows by (apply hcats_length; auto).
  rewrite (mv_hcats (length b)) by auto. tauto.
Qed.

Lemma nvars_add_block : forall blocks s b m, nvars (add_block blocks s b m) = nvars m.
Proof. intros; apply nvars_push_rows. Qed.
Lemma gvars_add_block : forall blocks s b m, gvars (add_block blocks s b m) = gvars m.
Proof. intros; apply gvars_push_rows. Qed.
Lemma wf_add_block : forall blocks s b m, wf_mip m ->
  Forall (fun p => below (nvars m) (snd p)) blocks ->
  wf_mip (add_block blocks s b m).
Proof.
  intros. apply wf_push_rows; auto.
  induction H0; simpl; [constructor|]. apply below_app; auto.
Qed.

Lemma gfeas_addMConstr : forall As xs s b m sg, As <> [] ->
  length As = length xs -> blocks_wf (length b) (combine As xs) ->
  (gfeas (addMConstr As xs s b m) sg <->
   gfeas m sg /\ sense_ok s (bsum (length b) (combine As xs) sg) b).
Proof.
  intros As xs s b m sg Hn L W.
  assert (E : addMConstr As xs s b m = add_block (combine As xs) s b m).
  { unfold add_block. f_equal.
    - clear - L. revert xs L. induction As; destruct xs; simpl; intros; try discriminate; auto.
      f_equal; auto.
    - clear - L. revert xs L. induction As; destruct xs; simpl; intros; try discriminate; auto.
      f_equal; auto. }
  rewrite E. apply gfeas_add_block; auto.
  destruct As; [congruence|]. destruct xs; [discriminate|]. discriminate.
Qed.
Lemma nvars_addMConstr : forall As xs s b m, nvars (addMConstr As xs s b m) = nvars m.
Proof. intros; apply nvars_push_rows. Qed.
Lemma wf_addMConstr : forall As xs s b m, wf_mip m -> below (nvars m) (concat xs) ->
  wf_mip (addMConstr As xs s b m).
Proof. intros; apply wf_push_rows; auto. Qed.

Lemma addLConstr_inv : forall cs vs s r m m', addLConstr cs vs s r m = Some m' ->
  m' = push_row (combine (concat cs) (concat vs)) s r m /\
  length cs = length vs /\ forallb (known m) (concat vs) = true /\
  nodupb (concat vs) = true.
Proof.
  unfold addLConstr. intros cs vs s r m m' H.
  destruct (Nat.eqb (length cs) (length vs)) eqn:E; [|discriminate].
  cbn [negb] in H.
  destruct (forallb (known m) (concat vs)) eqn:F; [|discriminate].
  destruct (nodupb (concat vs)) eqn:G; [|discriminate].
  simpl in H. injection H as H. apply Nat.eqb_eq in E. auto.
Qed.

Lemma gfeas_addLConstr : forall cs vs s r m m' sg, addLConstr cs vs s r m = Some m' ->
  (gfeas m' sg <->
   gfeas m sg /\ sense_ok s [dot (concat cs) (map sg (concat vs))] [r]).
Proof.
  intros cs vs s r m m' sg H. apply addLConstr_inv in H. destruct H as [H _]. subst m'.
  rewrite gfeas_push_row. unfold row_ok. cbn [row_terms row_sense row_rhs].
  rewrite eval_combine. destruct s; cbn [sense_ok];
    rewrite ?vle_cons, ?vle_nil, ?cons_eq_iff, ?nil_eq_iff; intuition lra.
Qed.

(** ** set_var_bound *)

Lemma upd_var_length : forall i f l, length (upd_var i f l) = length l.
Proof.
  intros. unfold upd_var. destruct (nth_error l i) eqn:E; auto.
  assert (i < length l)%nat by (apply nth_error_Some; congruence).
  rewrite app_length, firstn_length. cbn [length]. rewrite skipn_length. lia.
Qed.

Lemma nth_error_upd : forall l i f j,
  nth_error (upd_var i f l) j =
  if Nat.eqb j i then option_map f (nth_error l j) else nth_error l j.
Proof.
  intros l i f j. unfold upd_var. destruct (nth_error l i) eqn:E.
  - assert (Li : (i < length l)%nat) by (apply nth_error_Some; congruence).
    destruct (Nat.eqb j i) eqn:Ej.
    + apply Nat.eqb_eq in Ej. subst j. rewrite E.
      rewrite nth_error_app2 by (rewrite firstn_length; lia).
      rewrite firstn_length. replace (i - Nat.min i (length l))%nat with 0%nat by lia.
      auto.
    + apply Nat.eqb_neq in Ej. destruct (lt_dec j i).
      * rewrite nth_error_app1 by (rewrite firstn_length; lia).
        rewrite <- (firstn_skipn i l) at 2.
        rewrite nth_error_app1 by (rewrite firstn_length; lia). auto.
      * rewrite nth_error_app2 by (rewrite firstn_length; lia).
        rewrite firstn_length. replace (Nat.min i (length l)) with i by lia.
        destruct (j - i)%nat as [|k] eqn:Ek; [lia|]. simpl.
        rewrite <- (firstn_skipn (S i) l) at 2.
        rewrite nth_error_app2 by (rewrite firstn_length; lia).
        rewrite firstn_length. replace (j - Nat.min (S i) (length l))%nat with k by lia.
        auto.
  - destruct (Nat.eqb j i) eqn:Ej; auto.
    apply Nat.eqb_eq in Ej. subst. rewrite E. auto.
Qed.

Definition o_le_r (o : option ext) (x : R) : Prop :=
  match o with None => True | Some l => ext_le_r l x end.
Definition r_le_o (x : R) (o : option ext) : Prop :=
  match o with None => True | Some u => r_le_ext x u end.

Lemma ext_ltb_le : forall a b x, ext_ltb a b = true -> ext_le_r b x -> ext_le_r a x.
Proof. destruct a, b; simpl; intros; try discriminate; try tauto. rcases; lra. Qed.
Lemma ext_ltb_ge : forall a b x, ext_ltb a b = false -> ext_le_r a x -> ext_le_r b x.
Proof. destruct a, b; simpl; intros; try discriminate; try tauto. rcases; lra. Qed.
Lemma ext_ltb_le' : forall a b x, ext_ltb a b = true -> r_le_ext x a -> r_le_ext x b.
Proof. destruct a, b; simpl; intros; try discriminate; try tauto. rcases; lra. Qed.
Lemma ext_ltb_ge' : forall a b x, ext_ltb a b = false -> r_le_ext x b -> r_le_ext x a.
Proof. destruct a, b; simpl; intros; try discriminate; try tauto. rcases; lra. Qed.

Lemma tighten_ok : forall v lo up x,
  var_ok (tighten v lo up) x <-> var_ok v x /\ o_le_r lo x /\ r_le_o x up.
Proof.
  intros v lo up x.
  assert (H1 : var_ok (match lo with
            | Some l => if ext_ltb (v_lb v) l then mkVar (v_bin v) l (v_ub v) else v
            | None => v end) x <-> var_ok v x /\ o_le_r lo x).
  { destruct lo as [l|]; simpl; [|tauto].
    destruct (ext_ltb (v_lb v) l) eqn:E; unfold var_ok; simpl.
    - split; intros; repeat split; try tauto. eapply ext_ltb_le; [exact E|tauto].
    - split; intros; repeat split; try tauto. eapply ext_ltb_ge; [exact E|tauto]. }
  unfold tighten.
  set (v1 := match lo with
            | Some l => if ext_ltb (v_lb v) l then mkVar (v_bin v) l (v_ub v) else v
            | None => v end) in *.
  destruct up as [u|]; simpl; [|tauto].
  destruct (ext_ltb u (v_ub v1)) eqn:E.
  - assert (H2 : var_ok {| v_bin := v_bin v1; v_lb := v_lb v1; v_ub := u |} x
                 <-> var_ok v1 x /\ r_le_ext x u).
    { unfold var_ok; simpl. split; intros; repeat split; try tauto.
      eapply ext_ltb_le'; [exact E|tauto]. }
    tauto.
  - assert (H2 : var_ok v1 x -> r_le_ext x u).
    { unfold var_ok. intros. eapply ext_ltb_ge'; [exact E|tauto]. }
    tauto.
Qed.

Definition gvars_ok (l : list gvar) (sg : assignment) : Prop :=
  forall i v, nth_error l i = Some v -> var_ok v (sg i).

Lemma upd_ok : forall l i lo up sg, (i < length l)%nat ->
  (gvars_ok (upd_var i (fun g => tighten g lo up) l) sg <->
   gvars_ok l sg /\ o_le_r lo (sg i) /\ r_le_o (sg i) up).
Proof.
  intros l i lo up sg Hi. unfold gvars_ok. split.
  - intros H. split.
    + intros j v Hj. specialize (H j). rewrite nth_error_upd, Hj in H.
      destruct (Nat.eqb j i) eqn:E; simpl in H.
      * specialize (H _ eq_refl). apply tighten_ok in H. tauto.
      * auto.
    + destruct (nth_error l i) as [v|] eqn:E.
      * specialize (H i). rewrite nth_error_upd, E, Nat.eqb_refl in H. simpl in H.
        specialize (H _ eq_refl). apply tighten_ok in H. tauto.
      * apply nth_error_None in E. lia.
  - intros [H1 H2] j v Hj. rewrite nth_error_upd in Hj.
    destruct (Nat.eqb j i) eqn:E; auto.
    apply Nat.eqb_eq in E. subst j.
    destruct (nth_error l i) as [w|] eqn:E; [|discriminate].
    simpl in Hj. injection Hj as Hj. subst v. apply tighten_ok. split; auto.
Qed.

Lemma set_bounds_length : forall vars k lo up gv,
  length (set_bounds_from k vars lo up gv) = length gv.
Proof.
  induction vars; simpl; intros; auto. rewrite IHvars. apply upd_var_length.
Qed.

(** Bounds from position [k] on. *)
Fixpoint lo_from (k : nat) (lo : option (list ext)) (x : vec) : Prop :=
  match x with
  | [] => True
  | v :: x' => o_le_r (onth k lo) v /\ lo_from (S k) lo x'
  end.
Fixpoint up_from (k : nat) (up : option (list ext)) (x : vec) : Prop :=
  match x with
  | [] => True
  | v :: x' => r_le_o v (onth k up) /\ up_from (S k) up x'
  end.

Lemma set_bounds_ok : forall vars k lo up gv sg, below (length gv) vars ->
  (gvars_ok (set_bounds_from k vars lo up gv) sg <->
   gvars_ok gv sg /\ lo_from k lo (map sg vars) /\ up_from k up (map sg vars)).
Proof.
  induction vars as [|v vars IH]; intros k lo up gv sg B; simpl; [tauto|].
  inversion B; subst.
  rewrite IH by (unfold below; rewrite upd_var_length; auto).
  rewrite upd_ok by auto. tauto.
Qed.

Lemma onth_skip : forall {A} k (l : list A) a rest, skipn k l = a :: rest ->
  nth_error l k = Some a /\ skipn (S k) l = rest.
Proof.
  induction k; intros l a rest H.
  - simpl in H. subst. auto.
  - destruct l as [|b l]; [discriminate|]. simpl in H. apply IHk in H. auto.
Qed.

Lemma lo_from_iff : forall x k (l : list ext), length (skipn k l) = length x ->
  (lo_from k (Some l) x <-> Forall2 ext_le_r (skipn k l) x).
Proof.
  induction x as [|v x IH]; intros k l L.
  - destruct (skipn k l); [|discriminate]. simpl. split; auto.
  - destruct (skipn k l) as [|a rest] eqn:E; [discriminate|].
    destruct (onth_skip _ _ _ _ E) as [E1 E2].
    cbn [lo_from onth]. rewrite E1, F2_cons. simpl o_le_r.
    rewrite IH by (rewrite E2; simpl in L; lia). rewrite E2. tauto.
Qed.
Lemma up_from_iff : forall x k (l : list ext), length (skipn k l) = length x ->
  (up_from k (Some l) x <-> Forall2 r_le_ext x (skipn k l)).
Proof.
  induction x as [|v x IH]; intros k l L.
  - destruct (skipn k l); [|discriminate]. simpl. split; auto.
  - destruct (skipn k l) as [|a rest] eqn:E; [discriminate|].
    destruct (onth_skip _ _ _ _ E) as [E1 E2].
    cbn [up_from onth]. rewrite E1, F2_cons. simpl r_le_o.
    rewrite IH by (rewrite E2; simpl in L; lia). rewrite E2. tauto.
Qed.
Lemma lo_from_none : forall x k, lo_from k None x.
Proof. induction x; simpl; auto. Qed.
Lemma up_from_none : forall x k, up_from k None x.
Proof. induction x; simpl; auto. Qed.

Lemma gfeas_set_var_bound : forall vars lo up m sg,
  below (nvars m) vars -> olen_is (length vars) lo -> olen_is (length vars) up ->
  (gfeas (set_var_bound vars lo up m) sg <->
   gfeas m sg /\ lo_ok lo (map sg vars) /\ up_ok up (map sg vars)).
Proof.
  intros vars lo up m sg B L1 L2.
  assert (E : gfeas (set_var_bound vars lo up m) sg <->
    gvars_ok (set_bounds_from 0 vars lo up (gvars m)) sg /\ Forall (row_ok sg) (grows m))
    by reflexivity.
  rewrite E. rewrite set_bounds_ok by auto.
  assert (F1 : lo_from 0 lo (map sg vars) <-> lo_ok lo (map sg vars)).
  { destruct lo as [l|]; simpl.
    - simpl in L1. rewrite lo_from_iff; [|rewrite map_length; auto]. simpl. tauto.
    - split; auto. intros; apply lo_from_none. }
  assert (F2 : up_from 0 up (map sg vars) <-> up_ok up (map sg vars)).
  { destruct up as [l|]; simpl.
    - simpl in L2. rewrite up_from_iff; [|rewrite map_length; auto]. simpl. tauto.
    - split; auto. intros; apply up_from_none. }
  rewrite F1, F2. unfold gfeas, gvars_ok. tauto.
Qed.

Lemma nvars_set_var_bound : forall vars lo up m,
  nvars (set_var_bound vars lo up m) = nvars m.
Proof. intros. unfold nvars, set_var_bound, with_gvars. simpl. apply set_bounds_length. Qed.
Lemma wf_set_var_bound : forall vars lo up m, wf_mip m -> wf_mip (set_var_bound vars lo up m).
Proof.
  intros. unfold wf_mip. rewrite nvars_set_var_bound. auto.
Qed.

(** ** Building assignments *)

Definition override (sg : assignment) (n : nat) (vals : vec) : assignment :=
  fun i => if Nat.ltb i n then sg i else nth (i - n) vals 0.

Lemma override_old : forall sg n vals i, (i < n)%nat -> override sg n vals i = sg i.
Proof. intros. unfold override. apply Nat.ltb_lt in H. rewrite H. auto. Qed.

Lemma override_new : forall sg n vals, map (override sg n vals) (seq n (length vals)) = vals.
Proof.
  intros. apply vec_ext; [rewrite map_length, seq_length; auto|].
  intros i Hi. rewrite map_length, seq_length in Hi.
  rewrite (nth_indep _ 0 (override sg n vals 0%nat)) by (rewrite map_length, seq_length; auto).
  rewrite map_nth. rewrite seq_nth by auto. unfold override.
  destruct (Nat.ltb (n + i) n) eqn:E; [apply Nat.ltb_lt in E; lia|].
  f_equal. lia.
Qed.

Lemma override_map_old : forall sg n vals l, below n l ->
  map (override sg n vals) l = map sg l.
Proof.
  intros. apply (map_agree n); auto. intros; apply override_old; auto.
Qed.

Lemma vars_ok_length : forall vt b x, vars_ok vt b x -> length x = length b.
Proof. intros vt b x H. induction H; simpl; auto. Qed.

Lemma addVars_extend : forall bnds vt m m' ids sg x,
  addVars bnds vt m = (m', ids) -> wf_mip m -> gfeas m sg -> vars_ok vt bnds x ->
  let sg' := override sg (nvars m) x in
  gfeas m' sg' /\ agree m sg sg' /\ map sg' ids = x.
Proof.
  intros bnds vt m m' ids sg x H W G V sg'.
  assert (A : agree m sg sg').
  { intros i Hi. symmetry. apply override_old. auto. }
  assert (M : map sg' ids = x).
  { destruct (addVars_fields _ _ _ _ _ H) as [_ [_ [E _]]]. subst ids.
    rewrite <- (vars_ok_length _ _ _ V). apply override_new. }
  split; auto. rewrite (gfeas_addVars _ _ _ _ _ _ H). rewrite M. split; auto.
  eapply gfeas_agree; eauto.
Qed.

Lemma agree_trans : forall m m' s1 s2 s3, (nvars m <= nvars m')%nat ->
  agree m s1 s2 -> agree m' s2 s3 -> agree m s1 s3.
Proof. unfold agree; intros. rewrite H0; auto. apply H1. lia. Qed.

Lemma vars_ok_free : forall n x, length x = n ->
  vars_ok VCont (repeat (NInf, PInf) n) x.
Proof.
  unfold vars_ok. induction n; destruct x; simpl; intros; try discriminate; constructor.
  - repeat split; simpl; auto. intros; discriminate.
  - apply IHn; lia.
Qed.
Lemma vars_ok_free_iff : forall n x, vars_ok VCont (repeat (NInf, PInf) n) x <-> length x = n.
Proof.
  split; intros H.
  - apply vars_ok_length in H. rewrite repeat_length in H. auto.
  - apply vars_ok_free; auto.
Qed.

(** Values allowed for a block of binary variables: integral for BINARY, in
    [0,1] for BINARYRELAX. *)
Definition bin_dom (vt : vtype) (b : vec) : Prop :=
  match vt with
  | VBin => bins b
  | _ => Forall (fun v => 0 <= v <= 1) b
  end.

Lemma vars_ok_bin : forall vt n x,
  vars_ok vt (repeat (Fin 0, Fin 1) n) x <-> length x = n /\ bin_dom vt x.
Proof.
  unfold vars_ok. intros vt n. induction n; intros x.
  - simpl. split.
    + intros H. inversion H; subst. split; auto. destruct vt; simpl; constructor.
    + intros [H _]. destruct x; [constructor|discriminate].
  - simpl repeat. destruct x as [|v x].
    + split; [intros H; inversion H|intros [H _]; discriminate].
    + rewrite F2_cons, IHn.
      assert (E : var_ok (new_gvar vt (Fin 0, Fin 1)) v <->
                  match vt with VBin => is_bin v | _ => 0 <= v <= 1 end).
      { destruct vt; unfold var_ok; simpl.
        - split; [intros; lra|intros; repeat split; try lra; discriminate].
        - split; [tauto|]. intros [E|E]; subst; repeat split; auto; try lra;
            intros; [apply is_bin_0|apply is_bin_1].
        - rewrite Rmax_left, Rmin_left by lra.
          split; [intros; lra|intros; repeat split; try lra; discriminate]. }
      rewrite E. simpl length. unfold bin_dom, bins.
      destruct vt; rewrite Fa_cons; intuition lia.
Qed.

Lemma bins_dom : forall vt b, bins b -> bin_dom vt b.
Proof.
  intros vt b H. destruct vt; simpl; auto; eapply Forall_impl; try exact H;
    intros v [E|E]; subst; lra.
Qed.

(** ** add_mixed_integer_linear_constraints *)

Lemma vadd_assoc : forall a b c, vadd (vadd a b) c = vadd a (vadd b c).
Proof.
  unfold vadd. induction a; destruct b, c; simpl; auto. f_equal; auto. ring.
Qed.
Lemma vadd_comm : forall a b, vadd a b = vadd b a.
Proof. unfold vadd. induction a; destruct b; simpl; auto. f_equal; auto. ring. Qed.

Lemma term_length : forall m n A x, owf m n A -> length (term m A x) = m.
Proof.
  intros m n A x H. destruct A as [M|]; simpl.
  - rewrite mv_length. apply H.
  - apply zeros_length.
Qed.

Lemma bsum_some : forall m n A xs rest sg, owf m n A ->
  length (bsum m rest sg) = m ->
  bsum m (some_pair A xs ++ rest) sg = vadd (term m A (map sg xs)) (bsum m rest sg).
Proof.
  intros m n A xs rest sg H L. destruct A as [M|]; simpl; auto.
  rewrite vadd_zeros_l; auto.
Qed.

Lemma some_pair_wf : forall m A xs, owf m (length xs) A -> blocks_wf m (some_pair A xs).
Proof. intros m A xs H. destruct A; simpl; repeat constructor; apply H. Qed.

Lemma bsum_lhs : forall m A1 A2 A3 x1 x2 x3 sg,
  owf m (length x1) A1 -> owf m (length x2) A2 -> owf m (length x3) A3 ->
  bsum m (some_pair A1 x1 ++ some_pair A2 x2 ++ some_pair A3 x3) sg
  = lhs m A1 A2 A3 (map sg x1) (map sg x2) (map sg x3).
Proof.
  intros m A1 A2 A3 x1 x2 x3 sg H1 H2 H3.
  assert (W3 := some_pair_wf _ _ _ H3). assert (W2 := some_pair_wf _ _ _ H2).
  assert (W23 : blocks_wf m (some_pair A2 x2 ++ some_pair A3 x3))
    by (apply Forall_app; auto).
  rewrite (bsum_some m (length x1)) by (auto; apply bsum_length; auto).
  rewrite (bsum_some m (length x2)) by (auto; apply bsum_length; auto).
  replace (some_pair A3 x3) with (some_pair A3 x3 ++ []) by apply app_nil_r.
  rewrite (bsum_some m (length x3)) by (auto; apply zeros_length).
  cbn [bsum].
  assert (L3 : length (term m A3 (map sg x3)) = m) by (eapply term_length; eauto).
  rewrite vadd_zeros_r by auto. unfold lhs. rewrite vadd_assoc. auto.
Qed.

Definition row_stage (rhs : option vec) (A1 A2 A3 : option mat)
           (x1 x2 x3 : list nat) (s : sense) (m : mip) : mip :=
  match rhs with
  | Some ((_ :: _) as r) =>
      add_block (some_pair A1 x1 ++ some_pair A2 x2 ++ some_pair A3 x3) s r m
  | _ => m
  end.

Definition rhs_len (rhs : option vec) : nat :=
  match rhs with None => 0%nat | Some r => length r end.

Lemma lhs_length : forall m A1 A2 A3 n1 n2 n3 x1 x2 x3,
  owf m n1 A1 -> owf m n2 A2 -> owf m n3 A3 ->
  length (lhs m A1 A2 A3 x1 x2 x3) = m.
Proof.
  intros. unfold lhs.
  assert (length (term m A1 x1) = m) by (eapply term_length; eauto).
  assert (length (term m A2 x2) = m) by (eapply term_length; eauto).
  assert (length (term m A3 x3) = m) by (eapply term_length; eauto).
  rewrite !vadd_length; rewrite ?vadd_length; lia.
Qed.

Lemma gfeas_row_stage : forall rhs A1 A2 A3 x1 x2 x3 s m sg,
  (forall r rs, rhs = Some (r :: rs) -> some_of3 A1 A2 A3) ->
  owf (rhs_len rhs) (length x1) A1 -> owf (rhs_len rhs) (length x2) A2 ->
  owf (rhs_len rhs) (length x3) A3 ->
  (gfeas (row_stage rhs A1 A2 A3 x1 x2 x3 s m) sg <->
   gfeas m sg /\
   match rhs with
   | None => True
   | Some r => sense_ok s (lhs (length r) A1 A2 A3 (map sg x1) (map sg x2) (map sg x3)) r
   end).
Proof.
  intros rhs A1 A2 A3 x1 x2 x3 s m sg N H1 H2 H3. unfold row_stage.
  destruct rhs as [[|a r]|]; [| |tauto].
  - assert (L := lhs_length 0 A1 A2 A3 _ _ _ (map sg x1) (map sg x2) (map sg x3) H1 H2 H3).
    simpl rhs_len in *. cbn [length] in *.
    destruct (lhs 0 A1 A2 A3 (map sg x1) (map sg x2) (map sg x3)); [|discriminate].
    destruct s; simpl; rewrite ?vle_nil; tauto.
  - rewrite gfeas_add_block.
    + rewrite bsum_lhs by auto. tauto.
    + specialize (N a r eq_refl). destruct N as [N|[N|N]];
        destruct A1, A2, A3; try congruence; discriminate.
    + unfold blocks_wf. rewrite !Forall_app.
      repeat split; apply some_pair_wf; auto.
Qed.

Lemma nvars_row_stage : forall rhs A1 A2 A3 x1 x2 x3 s m,
  nvars (row_stage rhs A1 A2 A3 x1 x2 x3 s m) = nvars m.
Proof.
  intros. unfold row_stage. destruct rhs as [[|]|]; auto. apply nvars_add_block.
Qed.
Lemma wf_row_stage : forall rhs A1 A2 A3 x1 x2 x3 s m, wf_mip m ->
  below (nvars m) x1 -> below (nvars m) x2 -> below (nvars m) x3 ->
  wf_mip (row_stage rhs A1 A2 A3 x1 x2 x3 s m).
Proof.
  intros. unfold row_stage. destruct rhs as [[|]|]; auto. apply wf_add_block; auto.
  rewrite !Forall_app. repeat split; destruct A1, A2, A3; simpl; auto.
Qed.

Definition out_stage (c : mic) (ov : option (list nat)) (x s b : list nat) (m : mip) : mip :=
  match ov with
  | None => m
  | Some out =>
      add_block ((eyek (length out) (-1), out)
                 :: some_pair (Aout_input c) x
                 ++ some_pair (Aout_slack c) s
                 ++ some_pair (Aout_binary c) b) SEq
        (match Cout c with
         | Some k => vneg k
         | None => zeros (length out)
         end) m
  end.

Lemma neg_add_eq : forall o l k : vec, length o = length l -> length k = length l ->
  (vadd (vneg o) l = vneg k <-> o = vadd l k).
Proof.
  unfold vadd, vneg. induction o; destruct l, k; simpl; intros; try discriminate; [tauto|].
  rewrite !cons_eq_iff, IHo by lia. intuition lra.
Qed.
Lemma vneg_zeros : forall n, vneg (zeros n) = zeros n.
Proof.
  unfold vneg, zeros. induction n; simpl; auto. rewrite IHn. f_equal. ring.
Qed.

Definition out_ok (c : mic) (ov : option (list nat)) (sg : assignment) (x s b : vec) : Prop :=
  match ov with None => True | Some o => map sg o = output c x s b end.

Definition ov_wf (n k : nat) (ov : option (list nat)) : Prop :=
  match ov with None => True | Some o => below n o /\ length o = k end.

Lemma mv_eyek_neg : forall n x, length x = n -> mv (eyek n (-1)) x = vneg x.
Proof. intros. rewrite mv_eyek by auto. rewrite vscale_m1. auto. Qed.

Lemma gfeas_out_stage : forall c ov x s b m sg, mic_wf c ->
  ov_wf (nvars m) (num_out c) ov ->
  length x = nin c -> length s = nsl c -> length b = nbin c ->
  (gfeas (out_stage c ov x s b m) sg <->
   gfeas m sg /\ out_ok c ov sg (map sg x) (map sg s) (map sg b)).
Proof.
  intros c ov x s b m sg W O Lx Ls Lb. destruct ov as [out|]; [|simpl; tauto].
  destruct O as [_ Lo]. destruct W as (W1 & W2 & W3 & W4 & _).
  unfold out_stage, out_ok.
  set (k := match Cout c with Some k => k | None => zeros (num_out c) end).
  assert (Lk : length k = num_out c).
  { unfold k. unfold olen_is in W4. destruct (Cout c); auto. apply zeros_length. }
  assert (Er : match Cout c with Some k => vneg k | None => zeros (length out) end = vneg k).
  { unfold k. destruct (Cout c); auto. rewrite vneg_zeros, Lo. auto. }
  rewrite Er.
  assert (Lr : length (vneg k) = num_out c) by (rewrite vneg_length; auto).
  rewrite <- Lx in W1. rewrite <- Ls in W2. rewrite <- Lb in W3.
  rewrite gfeas_add_block; [|discriminate|].
  - rewrite Lr. cbn [bsum sense_ok]. rewrite bsum_lhs by auto.
    rewrite mv_eyek_neg by (rewrite map_length; auto).
    rewrite neg_add_eq.
    + unfold output. fold k. tauto.
    + rewrite map_length. rewrite (lhs_length _ _ _ _ _ _ _ _ _ _ W1 W2 W3). auto.
    + rewrite (lhs_length _ _ _ _ _ _ _ _ _ _ W1 W2 W3). auto.
  - rewrite Lr. constructor.
    + cbn [fst snd]. rewrite Lo. apply wfm_eyek.
    + rewrite !Forall_app. repeat split; apply some_pair_wf; auto.
Qed.

Lemma nvars_out_stage : forall c ov x s b m, nvars (out_stage c ov x s b m) = nvars m.
Proof. intros. unfold out_stage. destruct ov; auto. apply nvars_add_block. Qed.
Lemma wf_out_stage : forall c ov x s b m k, wf_mip m -> ov_wf (nvars m) k ov ->
  below (nvars m) x -> below (nvars m) s -> below (nvars m) b ->
  wf_mip (out_stage c ov x s b m).
Proof.
  intros c ov x s b m k W O H1 H2 H3. unfold out_stage. destruct ov; auto.
  apply wf_add_block; auto. constructor; [apply O|].
  rewrite !Forall_app.
  repeat split; destruct (Aout_input c), (Aout_slack c), (Aout_binary c); simpl; auto.
Qed.

(** Slack and binary creation. *)
Definition slack_stage (c : mic) (m : mip) : mip * list nat :=
  match slack_size c with
  | O => (m, [])
  | n => let '(m, s) := addVars (repeat (NInf, PInf) n) VCont m in
         (set_var_bound s (slack_lo c) (slack_up c) m, s)
  end.
Definition bin_stage (c : mic) (vt : vtype) (m : mip) : mip * list nat :=
  match binary_size c with
  | O => (m, [])
  | n => let '(m, b) := addVars (repeat (Fin 0, Fin 1) n) vt m in
         (set_var_bound b (binary_lo c) (binary_up c) m, b)
  end.

Lemma lo_ok_nil : forall lo, olen_is 0 lo -> lo_ok lo [].
Proof. intros [[|]|] H; simpl in *; auto; discriminate. Qed.
Lemma up_ok_nil : forall lo, olen_is 0 lo -> up_ok lo [].
Proof. intros [[|]|] H; simpl in *; auto; discriminate. Qed.

Lemma slack_stage_spec : forall c m m' s, slack_stage c m = (m', s) ->
  slack_size c = nsl c -> olen_is (nsl c) (slack_lo c) -> olen_is (nsl c) (slack_up c) ->
  wf_mip m ->
  s = seq (nvars m) (nsl c) /\ nvars m' = (nvars m + nsl c)%nat /\ wf_mip m' /\
  (forall sg, gfeas m' sg <->
     gfeas m sg /\ lo_ok (slack_lo c) (map sg s) /\ up_ok (slack_up c) (map sg s)).
Proof.
  intros c m m' s H E L1 L2 W. unfold slack_stage in H. rewrite E in H.
  destruct (nsl c) as [|n] eqn:En.
  - injection H as H1 H2. subst. rewrite Nat.add_0_r. split; auto. split; auto.
    split; auto. intros. simpl. split; [|tauto]. intros; split; auto.
    split; [apply lo_ok_nil|apply up_ok_nil]; auto.
  - destruct (addVars (repeat (NInf, PInf) (S n)) VCont m) as [m1 s1] eqn:A.
    injection H as H1 H2. subst.
    destruct (addVars_fields _ _ _ _ _ A) as [_ [_ [F1 F2]]].
    rewrite repeat_length in F1, F2.
    assert (Bs : below (nvars m1) s) by (rewrite F2, F1; apply below_seq).
    assert (Ls : length s = S n) by (rewrite F1; apply seq_length).
    split; auto. split; [rewrite nvars_set_var_bound; auto|].
    split; [apply wf_set_var_bound; eapply wf_addVars; eauto|].
    intros sg. rewrite gfeas_set_var_bound; auto; try (rewrite Ls; auto).
    rewrite (gfeas_addVars _ _ _ _ _ _ A). rewrite vars_ok_free_iff.
    rewrite map_length. tauto.
Qed.

Lemma bin_stage_spec : forall c vt m m' s, bin_stage c vt m = (m', s) ->
  binary_size c = nbin c -> olen_is (nbin c) (binary_lo c) -> olen_is (nbin c) (binary_up c) ->
  wf_mip m ->
  s = seq (nvars m) (nbin c) /\ nvars m' = (nvars m + nbin c)%nat /\ wf_mip m' /\
  (forall sg, gfeas m' sg <->
     gfeas m sg /\ bin_dom vt (map sg s) /\
     lo_ok (binary_lo c) (map sg s) /\ up_ok (binary_up c) (map sg s)).
Proof.
  intros c vt m m' s H E L1 L2 W. unfold bin_stage in H. rewrite E in H.
  destruct (nbin c) as [|n] eqn:En.
  - injection H as H1 H2. subst. rewrite Nat.add_0_r. split; auto. split; auto.
    split; auto. intros. simpl. split; [|tauto]. intros; split; auto.
    split; [destruct vt; constructor|].
    split; [apply lo_ok_nil|apply up_ok_nil]; auto.
  - destruct (addVars (repeat (Fin 0, Fin 1) (S n)) vt m) as [m1 s1] eqn:A.
    injection H as H1 H2. subst.
    destruct (addVars_fields _ _ _ _ _ A) as [_ [_ [F1 F2]]].
    rewrite repeat_length in F1, F2.
    assert (Bs : below (nvars m1) s) by (rewrite F2, F1; apply below_seq).
    assert (Ls : length s = S n) by (rewrite F1; apply seq_length).
    split; auto. split; [rewrite nvars_set_var_bound; auto|].
    split; [apply wf_set_var_bound; eapply wf_addVars; eauto|].
    intros sg. rewrite gfeas_set_var_bound; auto; try (rewrite Ls; auto).
    rewrite (gfeas_addVars _ _ _ _ _ _ A). rewrite vars_ok_bin.
    rewrite map_length. tauto.
Qed.

Definition bin_stage' (c : mic) (bin : binary_arg) (vt : vtype) (m : mip) :=
  match bin with
  | NewBinary => bin_stage c vt m
  | GivenBinary l => (m, match binary_size c with O => [] | _ => l end)
  end.

Lemma add_mic_stages : forall c iv ov bin vt m,
  add_mic c iv ov bin vt m =
  let m1 := set_var_bound iv (input_lo c) (input_up c) m in
  let '(m2, sl) := slack_stage c m1 in
  let '(m3, bi) := bin_stage' c bin vt m2 in
  let m4 := row_stage (rhs_in c) (Ain_input c) (Ain_slack c) (Ain_binary c) iv sl bi SLe m3 in
  let m5 := row_stage (rhs_eq c) (Aeq_input c) (Aeq_slack c) (Aeq_binary c) iv sl bi SEq m4 in
  (out_stage c ov iv sl bi m5, sl, bi).
Proof.
  intros. unfold add_mic, slack_stage, bin_stage', bin_stage, row_stage, out_stage.
  cbv zeta.
  set (m1 := set_var_bound iv (input_lo c) (input_up c) m).
  destruct (match slack_size c with
    | O => (m1, [])
    | S n => let '(m, s) := addVars (repeat (NInf, PInf) (S n)) VCont m1 in
           (set_var_bound s (slack_lo c) (slack_up c) m, s)
    end) as [m2 sl].
  destruct bin.
  - reflexivity.
  - destruct (binary_size c); reflexivity.
Qed.

Lemma ov_wf_le : forall n n' k ov, (n <= n')%nat -> ov_wf n k ov -> ov_wf n' k ov.
Proof. intros n n' k [o|] H O; simpl in *; auto. destruct O. split; auto. eapply below_le; eauto. Qed.

Lemma rows_sat_stage : forall c x s b, length x = nin c -> length s = nsl c ->
  length b = nbin c ->
  (rows_sat c x s b <->
   match rhs_in c with
   | None => True
   | Some r => sense_ok SLe (lhs (length r) (Ain_input c) (Ain_slack c) (Ain_binary c) x s b) r
   end /\
   match rhs_eq c with
   | None => True
   | Some r => sense_ok SEq (lhs (length r) (Aeq_input c) (Aeq_slack c) (Aeq_binary c) x s b) r
   end).
Proof. intros. unfold rows_sat, sat_in, sat_eq, sense_ok. tauto. Qed.

Lemma add_mic_new : forall c iv ov vt m m' sl bi,
  add_mic c iv ov NewBinary vt m = (m', sl, bi) -> mic_ok c -> wf_mip m ->
  below (nvars m) iv -> length iv = nin c -> ov_wf (nvars m) (num_out c) ov ->
  sl = seq (nvars m) (nsl c) /\ bi = seq (nvars m + nsl c) (nbin c) /\
  nvars m' = (nvars m + nsl c + nbin c)%nat /\ wf_mip m' /\
  (forall sg, gfeas m' sg <->
     gfeas m sg /\ bin_dom vt (map sg bi) /\
     mic_sat c (map sg iv) (map sg sl) (map sg bi) /\
     out_ok c ov sg (map sg iv) (map sg sl) (map sg bi)).
Proof.
  intros c iv ov vt m m' sl bi H Ok W Biv Liv Ov.
  destruct Ok as (Wc & Es & Eb & N1 & N2). assert (Wc' := Wc).
  destruct Wc' as (_ & _ & _ & _ & I1 & I2 & I3 & _ & E1 & E2 & E3 & _ & X1 & X2 & S1 & S2 & B1 & B2).
  rewrite add_mic_stages in H. cbv zeta in H.
  set (m1 := set_var_bound iv (input_lo c) (input_up c) m) in *.
  assert (W1 : wf_mip m1) by (apply wf_set_var_bound; auto).
  assert (V1 : nvars m1 = nvars m) by apply nvars_set_var_bound.
  destruct (slack_stage c m1) as [m2 sl2] eqn:A2.
  destruct (slack_stage_spec _ _ _ _ A2 Es S1 S2 W1) as [Q1 [Q2 [W2 G2]]].
  simpl bin_stage' in H.
  destruct (bin_stage c vt m2) as [m3 bi3] eqn:A3.
  destruct (bin_stage_spec _ _ _ _ _ A3 Eb B1 B2 W2) as [R1 [R2 [W3 G3]]].
  injection H as H1 H2 H3. subst sl2 bi3.
  rewrite V1 in Q1, Q2. rewrite Q2 in R1, R2.
  assert (Lsl : length sl = nsl c) by (rewrite Q1; apply seq_length).
  assert (Lbi : length bi = nbin c) by (rewrite R1; apply seq_length).
  assert (Bsl : below (nvars m3) sl).
  { rewrite R2, Q1. eapply below_le; [|apply below_seq]. lia. }
  assert (Bbi : below (nvars m3) bi) by (rewrite R2, R1; apply below_seq).
  assert (Biv3 : below (nvars m3) iv) by (eapply below_le; [|exact Biv]; lia).
  assert (Ov3 : ov_wf (nvars m3) (num_out c) ov) by (eapply ov_wf_le; [|exact Ov]; lia).
  set (m4 := row_stage (rhs_in c) (Ain_input c) (Ain_slack c) (Ain_binary c) iv sl bi SLe m3) in *.
  set (m5 := row_stage (rhs_eq c) (Aeq_input c) (Aeq_slack c) (Aeq_binary c) iv sl bi SEq m4) in *.
  assert (V4 : nvars m4 = nvars m3) by apply nvars_row_stage.
  assert (V5 : nvars m5 = nvars m3) by (unfold m5; rewrite nvars_row_stage; auto).
  split; auto. split; auto. split.
  { rewrite <- H1, nvars_out_stage, V5, R2. auto. }
  split.
  { rewrite <- H1. eapply wf_out_stage; rewrite ?V5; eauto.
    apply wf_row_stage; rewrite ?V4; auto. apply wf_row_stage; auto. }
  intros sg. rewrite <- H1.
  rewrite gfeas_out_stage; auto; [|rewrite V5; auto].
  unfold m5. rewrite gfeas_row_stage; try rewrite Liv; try rewrite Lsl; try rewrite Lbi; auto.
  unfold m4. rewrite gfeas_row_stage; try rewrite Liv; try rewrite Lsl; try rewrite Lbi; auto.
  rewrite G3, G2. unfold m1. rewrite gfeas_set_var_bound; auto; try (rewrite Liv; auto).
  unfold mic_sat. rewrite rows_sat_stage by (rewrite map_length; auto).
  unfold bounds_ok. tauto.
Qed.

(** The same with binaries supplied by the caller: their bounds are not
    imposed again. *)
Lemma add_mic_given : forall c iv ov vt l m m' sl bi,
  add_mic c iv ov (GivenBinary l) vt m = (m', sl, bi) -> mic_ok c -> wf_mip m ->
  below (nvars m) iv -> length iv = nin c -> ov_wf (nvars m) (num_out c) ov ->
  below (nvars m) l -> length l = nbin c ->
  sl = seq (nvars m) (nsl c) /\ bi = l /\
  nvars m' = (nvars m + nsl c)%nat /\ wf_mip m' /\
  (forall sg, gfeas m' sg <->
     gfeas m sg /\
     rows_sat c (map sg iv) (map sg sl) (map sg bi) /\
     lo_ok (input_lo c) (map sg iv) /\ up_ok (input_up c) (map sg iv) /\
     lo_ok (slack_lo c) (map sg sl) /\ up_ok (slack_up c) (map sg sl) /\
     out_ok c ov sg (map sg iv) (map sg sl) (map sg bi)).
Proof.
  intros c iv ov vt l m m' sl bi H Ok W Biv Liv Ov Bl Ll.
  destruct Ok as (Wc & Es & Eb & N1 & N2). assert (Wc' := Wc).
  destruct Wc' as (_ & _ & _ & _ & I1 & I2 & I3 & _ & E1 & E2 & E3 & _ & X1 & X2 & S1 & S2 & B1 & B2).
  rewrite add_mic_stages in H. cbv zeta in H.
  set (m1 := set_var_bound iv (input_lo c) (input_up c) m) in *.
  assert (W1 : wf_mip m1) by (apply wf_set_var_bound; auto).
  assert (V1 : nvars m1 = nvars m) by apply nvars_set_var_bound.
  destruct (slack_stage c m1) as [m2 sl2] eqn:A2.
  destruct (slack_stage_spec _ _ _ _ A2 Es S1 S2 W1) as [Q1 [Q2 [W2 G2]]].
  simpl bin_stage' in H.
  assert (Ebi : match binary_size c with O => [] | _ => l end = l).
  { rewrite Eb. destruct (nbin c) eqn:En; auto. destruct l; auto. discriminate. }
  rewrite Ebi in H.
  injection H as H1 H2 H3. subst sl2 bi.
  rewrite V1 in Q1, Q2.
  assert (Lsl : length sl = nsl c) by (rewrite Q1; apply seq_length).
  assert (Bsl : below (nvars m2) sl) by (rewrite Q2, Q1; apply below_seq).
  assert (Bbi : below (nvars m2) l) by (eapply below_le; [|exact Bl]; lia).
  assert (Biv3 : below (nvars m2) iv) by (eapply below_le; [|exact Biv]; lia).
  assert (Ov3 : ov_wf (nvars m2) (num_out c) ov) by (eapply ov_wf_le; [|exact Ov]; lia).
  set (m4 := row_stage (rhs_in c) (Ain_input c) (Ain_slack c) (Ain_binary c) iv sl l SLe m2) in *.
  set (m5 := row_stage (rhs_eq c) (Aeq_input c) (Aeq_slack c) (Aeq_binary c) iv sl l SEq m4) in *.
  assert (V4 : nvars m4 = nvars m2) by apply nvars_row_stage.
  assert (V5 : nvars m5 = nvars m2) by (unfold m5; rewrite nvars_row_stage; auto).
  split; auto. split; auto. split.
  { rewrite <- H1, nvars_out_stage, V5, Q2. auto. }
  split.
  { rewrite <- H1. eapply wf_out_stage; rewrite ?V5; eauto.
    apply wf_row_stage; rewrite ?V4; auto. apply wf_row_stage; auto. }
  intros sg. rewrite <- H1.
  rewrite gfeas_out_stage; auto; [|rewrite V5; auto].
  unfold m5. rewrite gfeas_row_stage; try rewrite Liv; try rewrite Lsl; try rewrite Ll; auto.
  unfold m4. rewrite gfeas_row_stage; try rewrite Liv; try rewrite Lsl; try rewrite Ll; auto.
  rewrite G2. unfold m1. rewrite gfeas_set_var_bound; auto; try (rewrite Liv; auto).
  rewrite rows_sat_stage by (rewrite map_length; auto). tauto.
Qed.

(** Extending a feasible assignment. *)
Lemma override_two : forall sg n s b,
  map (override sg n (s ++ b)) (seq n (length s)) = s /\
  map (override sg n (s ++ b)) (seq (n + length s) (length b)) = b.
Proof.
  intros. pose proof (override_new sg n (s ++ b)) as H.
  rewrite app_length, seq_app, map_app in H.
  assert (L : length (map (override sg n (s ++ b)) (seq n (length s))) = length s)
    by (rewrite map_length, seq_length; auto).
  split.
  - apply (f_equal (firstn (length s))) in H.
    rewrite <- L in H at 1. rewrite firstn_app, Nat.sub_diag, firstn_all in H.
    simpl in H. rewrite app_nil_r in H. rewrite firstn_app, Nat.sub_diag, firstn_all in H.
    simpl in H. rewrite app_nil_r in H. auto.
  - apply (f_equal (skipn (length s))) in H.
    rewrite <- L in H at 1. rewrite skipn_app, Nat.sub_diag, skipn_all in H.
    simpl in H. rewrite skipn_app, Nat.sub_diag, skipn_all in H. simpl in H. auto.
Qed.

Lemma add_mic_extend : forall c iv ov vt m m' sl bi sg s b,
  add_mic c iv ov NewBinary vt m = (m', sl, bi) -> mic_ok c -> wf_mip m ->
  below (nvars m) iv -> length iv = nin c -> ov_wf (nvars m) (num_out c) ov ->
  gfeas m sg -> bin_dom vt b -> mic_sat c (map sg iv) s b ->
  out_ok c ov sg (map sg iv) s b ->
  exists sg', gfeas m' sg' /\ agree m sg sg' /\ map sg' sl = s /\ map sg' bi = b.
Proof.
  intros c iv ov vt m m' sl bi sg s b H Ok W Biv Liv Ov G D S O.
  destruct (add_mic_new _ _ _ _ _ _ _ _ H Ok W Biv Liv Ov) as [Q1 [Q2 [_ [_ Q]]]].
  exists (override sg (nvars m) (s ++ b)).
  assert (Ls : length s = nsl c) by apply S.
  assert (Lb : length b = nbin c) by apply S.
  destruct (override_two sg (nvars m) s b) as [M1 M2].
  rewrite Ls in M1. rewrite Ls, Lb in M2. rewrite <- Q1 in M1. rewrite <- Q2 in M2.
  assert (A : agree m sg (override sg (nvars m) (s ++ b))).
  { intros i Hi. symmetry. apply override_old; auto. }
  split; auto. rewrite Q, M1, M2.
  rewrite (override_map_old sg (nvars m) (s ++ b) iv Biv).
  repeat split; auto; try apply S; try (eapply gfeas_agree; eauto).
  unfold out_ok in *. destruct ov as [o|]; auto.
  rewrite override_map_old; auto. apply Ov.
Qed.
