(** Proofs about the piecewise linear Lyapunov program. *)

Require Import Reals List Arith Lia Lra Bool.
Require Import Verif.Vec Verif.VecFacts Verif.SpecCore Verif.ModelPwl Verif.SpecPwl.
Import ListNotations.
Open Scope R_scope.

(** ** Affine functions on hulls *)
Lemma hull_length : forall n vs x, Forall (fun r => length r = n) vs -> in_hull n vs x -> length x = n.
Proof. intros n vs x W [ws [_ [_ [_ ->]]]]. apply vm_length. auto. Qed.
Lemma hull_vertex : forall n vs v, Forall (fun r => length r = n) vs -> In v vs -> in_hull n vs v.
Proof.
  intros n. induction vs as [|u vs IH]; intros v W I; [destruct I|].
  pose proof (Forall_inv W) as Lu. apply Forall_inv_tail in W. destruct I as [->|I].
  - exists (1 :: zeros (length vs)). split; [cbn; rewrite zeros_length; auto|]. split; [|split].
    + constructor; [lra|]. unfold zeros. apply Forall_forall. intros w Hw. apply repeat_spec in Hw. lra.
    + cbn [vsum]. assert (Z : forall k, vsum (zeros k) = 0) by (induction k as [|k IHk]; cbn; [auto|unfold zeros in IHk; rewrite IHk; ring]).
      rewrite Z. ring.
    + cbn [vm]. assert (Z : forall ms, Forall (fun r => length r = n) ms -> vm n (zeros (length ms)) ms = zeros n).
      { clear. induction ms as [|m ms IHm]; intros F; [reflexivity|]. pose proof (Forall_inv F) as Lm. apply Forall_inv_tail in F.
        cbn [length]. change (zeros (S (length ms))) with (0 :: zeros (length ms)). cbn [vm]. rewrite (IHm F).
        apply vec_ext; [rewrite vadd_length; rewrite vscale_length, ?zeros_length; auto|].
        intros i Hi. rewrite nth_vadd by (rewrite vscale_length, zeros_length; auto). rewrite nth_vscale, nth_zeros. ring. }
      rewrite Z by auto. apply vec_ext; [rewrite vadd_length; rewrite vscale_length; auto; rewrite zeros_length; auto|].
      intros i Hi. rewrite nth_vadd by (rewrite vscale_length, zeros_length; auto). rewrite nth_vscale, nth_zeros. ring.
  - destruct (IH v W I) as [ws [L [P [S E]]]]. exists (0 :: ws). split; [cbn; auto|]. split; [constructor; [lra|auto]|].
    split; [cbn; lra|]. cbn [vm]. rewrite <- E. assert (Lv : length v = n) by (rewrite E; apply vm_length; auto).
    apply vec_ext; [rewrite vadd_length; rewrite vscale_length; congruence|].
    intros i Hi. rewrite nth_vadd by (rewrite vscale_length; congruence). rewrite nth_vscale. ring.
Qed.
Lemma hull_affine : forall n vs x q k, Forall (fun r => length r = n) vs -> length q = n -> in_hull n vs x ->
  exists ws, length ws = length vs /\ Forall (fun w => 0 <= w) ws /\ vsum ws = 1 /\
  dot q x + k = dot ws (map (fun v => dot q v + k) vs).
Proof.
  intros n vs x q k W Lq [ws [L [P [S E]]]]. exists ws. split; [auto|]. split; [auto|]. split; [auto|].
  rewrite dot_comm, E, (vm_dot n ws vs q W Lq). rewrite <- (Rmult_1_l k) at 1. rewrite <- S. clear S P E.
  revert vs W L. induction ws as [|w ws IH]; intros [|v vs] W L; try discriminate; cbn [mv map dot vsum]; [ring|].
  rewrite (dot_comm v q). cbn in L. apply Forall_inv_tail in W. specialize (IH vs W ltac:(lia)).
  change (map (fun r => dot r q) vs) with (mv vs q). rewrite <- IH. ring.
Qed.
Lemma weighted_le : forall ws bs k, length ws = length bs -> Forall (fun w => 0 <= w) ws -> vsum ws = 1 ->
  Forall (fun b => b <= k) bs -> dot ws bs <= k.
Proof.
  intros ws bs k L P S B. rewrite <- (Rmult_1_r k), <- S. clear S. revert bs L B.
  induction ws as [|w ws IH]; intros [|b bs] L B; try discriminate; cbn [dot vsum]; [lra|].
  pose proof (Forall_inv P) as Pw. apply Forall_inv_tail in P. pose proof (Forall_inv B) as Bb. apply Forall_inv_tail in B.
  specialize (IH P bs ltac:(cbn in L; lia) B). assert (w * b <= w * k) by (apply Rmult_le_compat_l; auto). lra.
Qed.
Lemma hull_le : forall n vs x q k b, Forall (fun r => length r = n) vs -> length q = n -> in_hull n vs x ->
  Forall (fun v => dot q v + k <= b) vs -> dot q x + k <= b.
Proof.
  intros n vs x q k b W Lq H B. destruct (hull_affine n vs x q k W Lq H) as [ws [L [P [S E]]]]. rewrite E.
  apply weighted_le; auto; [rewrite map_length; auto|]. apply Forall_map. exact B.
Qed.
Lemma hull_ge : forall n vs x q k b, Forall (fun r => length r = n) vs -> length q = n -> in_hull n vs x ->
  Forall (fun v => b <= dot q v + k) vs -> b <= dot q x + k.
Proof.
  intros n vs x q k b W Lq H B.
  assert (Q : dot (vneg q) x + - k <= - b).
  { apply (hull_le n vs); auto; [unfold vneg; rewrite map_length; auto|].
    eapply Forall_impl; [|exact B]. intros v Hv. cbv beta. rewrite dot_vneg_l. lra. }
  rewrite dot_vneg_l in Q. lra.
Qed.

(** ** The constraints *)
Lemma has_cols_iff : forall n M, has_cols n M = true <-> Forall (fun r => length r = n) M.
Proof.
  intros n M. unfold has_cols. rewrite forallb_forall, Forall_forall. split; intros H r Hr; specialize (H r Hr);
    [apply Nat.eqb_eq; auto|apply Nat.eqb_eq; auto].
Qed.
Lemma negb_if : forall (b : bool) (A : Type) (x y z : A), (if negb b then x else y) = z -> x <> z -> b = true /\ y = z.
Proof. intros [|] A x y z E N; cbn in E; [auto|congruence]. Qed.

Lemma map2_eyek : forall n A e x, length A = n -> Forall (fun r => length r = n) A -> length x = n ->
  mv (map2 vadd A (eyek n e) : mat) x = vadd (mv A x) (vscale e x).
Proof.
  intros n A e x LA FA Lx.
  assert (Le : length (eyek n e) = n) by (unfold eyek; rewrite map_length, seq_length; auto).
  assert (Lm : length (map2 vadd A (eyek n e) : mat) = n)
    by exact (eq_trans (map2_length vadd A (eyek n e)) (eq_trans (f_equal2 Nat.min LA Le) (Nat.min_id n))).
  apply vec_ext; [rewrite mv_length, vadd_length; rewrite mv_length, ?vscale_length; congruence|].
  intros i Hi. rewrite mv_length in Hi. rewrite Lm in Hi.
  rewrite nth_mv by (rewrite Lm; auto). rewrite nth_vadd by (rewrite mv_length, vscale_length; congruence).
  rewrite nth_vscale, nth_mv by lia.
  assert (Row : nth i (map2 vadd A (eyek n e) : mat) [] = vadd (nth i A []) (unit_row n i e)).
  { assert (Q : forall (P Q : mat) j, length P = length Q -> (j < length P)%nat ->
      nth j (map2 vadd P Q : mat) [] = vadd (nth j P []) (nth j Q [])).
    { clear. induction P as [|a P IH]; intros [|b Q] j L Hj; try discriminate; cbn in Hj; [lia|].
      destruct j; [reflexivity|]. cbn. apply IH; [cbn in L; lia|lia]. }
    rewrite Q by (congruence || lia). f_equal. unfold eyek.
    rewrite nth_indep with (d' := unit_row n 0 e) by (rewrite map_length, seq_length; auto).
    rewrite (map_nth (fun j => unit_row n j e)). rewrite seq_nth by auto. reflexivity. }
  rewrite Row. assert (Li : length (nth i A []) = n) by (rewrite Forall_forall in FA; apply FA, nth_In; lia).
  rewrite dot_vadd_l by (rewrite unit_row_length; auto). f_equal.
  assert (U : forall x j k, (j < length x)%nat -> dot (unit_row (length x) j k) x = k * nth j x 0).
  { intros. unfold unit_row. rewrite dot_unit_aux. cbn [Nat.leb]. rewrite Nat.add_0_l.
    destruct (Nat.ltb_spec j (length x0)); [|lia]. cbn [andb]. rewrite Nat.sub_0_r. reflexivity. }
  rewrite <- Lx. apply U. lia.
Qed.

Lemma deriv_affine : forall n A g c d e x, length A = n -> Forall (fun r => length r = n) A -> length g = n ->
  length c = n -> length x = n ->
  dot c (vadd (mv A x) g) + e * (dot c x + d) = dot (vadd (vm n c A) (vscale e c)) x + (dot c g + e * d).
Proof.
  intros n A g c d e x LA FA Lg Lc Lx.
  rewrite dot_vadd_r by (rewrite mv_length; congruence).
  rewrite dot_vadd_l by (rewrite vscale_length, vm_length; auto). rewrite dot_vscale_l, vm_dot by auto. ring.
Qed.
Lemma deriv_vertex : forall n A g c d e x, length A = n -> Forall (fun r => length r = n) A -> length g = n ->
  length c = n -> length x = n ->
  dot c (vadd (mv (map2 vadd A (eyek n e) : mat) x) g) + e * d = dot c (vadd (mv A x) g) + e * (dot c x + d).
Proof.
  intros n A g c d e x LA FA Lg Lc Lx. rewrite map2_eyek by auto.
  rewrite !dot_vadd_r by (rewrite ?vadd_length; rewrite ?mv_length, ?vscale_length; congruence).
  rewrite dot_vscale_r. ring.
Qed.

(** ** Orthants *)
Definition orthant (n : nat) (sign xstar x : vec) : Prop := forall j, (j < n)%nat ->
  (nth j sign 0 = 1 /\ nth j xstar 0 <= nth j x 0) \/ (nth j sign 0 = -1 /\ nth j x 0 <= nth j xstar 0).
Lemma orthant_norm : forall n sign xstar x, length sign = n -> length xstar = n -> length x = n ->
  orthant n sign xstar x -> norm1 (vsub x xstar) = dot sign (vsub x xstar).
Proof.
  unfold norm1. induction n as [|n IH]; intros sign xstar x L1 L2 L3 O;
    destruct sign as [|s sign]; destruct xstar as [|a xstar]; destruct x as [|b x]; try discriminate; [reflexivity|].
  cbn in L1, L2, L3. cbn [vsub map2 map vsum dot].
  assert (O' : orthant n sign xstar x).
  { intros j Hj. destruct (O (S j) ltac:(lia)) as [H|H]; [left|right]; exact H. }
  change (map2 Rminus x xstar) with (vsub x xstar). rewrite (IH sign xstar x) by (auto; lia). f_equal.
  destruct (O 0%nat ltac:(lia)) as [[S H]|[S H]]; cbn [nth] in S, H; rewrite S.
  - rewrite Rabs_right by lra. ring.
  - rewrite Rabs_left1 by lra. ring.
Qed.
Lemma check_signs_ok : forall o vs sign js, check_signs o vs sign js = None ->
  forall j, In j js -> forall x, In x vs ->
  (nth j sign 0 = 1 /\ nth j (pwl_xstar o) 0 <= nth j x 0) \/ (nth j sign 0 = -1 /\ nth j x 0 <= nth j (pwl_xstar o) 0).
Proof.
  intros o vs sign. induction js as [|k js IH]; intros E j I x Ix; [destruct I|]. cbn [check_signs] in E.
  unfold Reqb in E. destruct (Req_EM_T (nth k sign 0) 1) as [S|S].
  - destruct (forallb (fun a => Rleb (nth k (pwl_xstar o) 0) a) (column k vs)) eqn:F; [|discriminate].
    destruct I as [->|I]; [|apply IH; auto]. left. split; [auto|]. rewrite forallb_forall in F.
    specialize (F (nth j x 0)). unfold Rleb in F. unfold column in F.
    specialize (F (in_map (fun r => nth j r 0) vs x Ix)). destruct (Rle_dec (nth j (pwl_xstar o) 0) (nth j x 0)); [auto|discriminate].
  - destruct (Req_EM_T (nth k sign 0) (-1)) as [S'|S']; [|discriminate].
    destruct (forallb (fun a => Rleb a (nth k (pwl_xstar o) 0)) (column k vs)) eqn:F; [|discriminate].
    destruct I as [->|I]; [|apply IH; auto]. right. split; [auto|]. rewrite forallb_forall in F.
    specialize (F (nth j x 0)). unfold Rleb in F. unfold column in F.
    specialize (F (in_map (fun r => nth j r 0) vs x Ix)). destruct (Rle_dec (nth j x 0) (nth j (pwl_xstar o) 0)); [auto|discriminate].
Qed.
Lemma hull_orthant : forall n vs sign xstar x, Forall (fun r => length r = n) vs ->
  (forall v, In v vs -> orthant n sign xstar v) -> in_hull n vs x -> orthant n sign xstar x.
Proof.
  intros n vs sign xstar x W O H j Hj.
  assert (Lx : length x = n) by (eapply hull_length; eauto).
  assert (NE : exists v, In v vs).
  { destruct H as [ws [L [_ [S _]]]]. destruct vs as [|v vs]; [|exists v; left; auto].
    destruct ws; [cbn in S; lra|discriminate]. }
  destruct NE as [v0 I0].
  assert (U : forall y k, length y = n -> dot (unit_row n j k) y = k * nth j y 0) by (intros; apply dot_unit_row; auto).
  destruct (O v0 I0 j Hj) as [[S _]|[S _]]; [left|right]; (split; [auto|]).
  - assert (Q : nth j xstar 0 <= dot (unit_row n j 1) x + 0).
    { apply (hull_ge n vs); auto; [apply unit_row_length|]. apply Forall_forall. intros v I.
      rewrite U by (rewrite Forall_forall in W; auto). destruct (O v I j Hj) as [[_ B]|[S' _]]; [lra|lra]. }
    rewrite U in Q by auto. lra.
  - assert (Q : dot (unit_row n j 1) x + 0 <= nth j xstar 0).
    { apply (hull_le n vs); auto; [apply unit_row_length|]. apply Forall_forall. intros v I.
      rewrite U by (rewrite Forall_forall in W; auto). destruct (O v I j Hj) as [[S' _]|[_ B]]; [lra|lra]. }
    rewrite U in Q by auto. lra.
Qed.

(** ** Each call adds exactly its condition *)
Definition cons_of (o o' : pwl) (cs : list (lpvars -> Prop)) : Prop := o' = extend o cs.
Lemma c_length : forall o v i, lp_shaped o v -> (i < pwl_modes o)%nat -> length (c_of v i) = pwl_x_dim o.
Proof.
  intros o v i [L [F _]] Hi. unfold c_of. rewrite Forall_forall in F. apply F, nth_In. lia.
Qed.
Lemma derivative_call : forall o m vs A g o' v, length (pwl_xstar o) = pwl_x_dim o -> lp_shaped o v ->
  add_derivative o m vs A g = PwlOk o' -> exists cs, o' = extend o cs /\
  (Forall (fun c => c v) cs <-> call_holds (pwl_x_dim o) (pwl_eps1 o) (pwl_eps2 o) (pwl_xstar o) v (Derivative m vs A g)).
Proof.
  intros o m vs A g o' v Lxs Sh E. unfold add_derivative in E. cbv zeta in E.
  apply negb_if in E; [|discriminate]. destruct E as [W E]. apply has_cols_iff in W.
  apply negb_if in E; [|discriminate]. destruct E as [WA E]. apply andb_prop in WA. destruct WA as [LA FA].
  apply Nat.eqb_eq in LA. apply has_cols_iff in FA.
  apply negb_if in E; [|discriminate]. destruct E as [Lg E]. apply Nat.eqb_eq in Lg.
  apply negb_if in E; [|discriminate]. destruct E as [Hm E]. apply Nat.ltb_lt in Hm.
  pose proof (c_length o v m Sh Hm) as Lc.
  assert (E' : o' = extend o (map (fun vj v => lp_s1 v >= dot (c_of v m) (vadd (mv (map2 vadd A (eyek (pwl_x_dim o) (pwl_eps2 o)) : mat) vj) g)
               + pwl_eps2 o * d_of v m) vs)) by congruence.
  exists (map (fun vj v => lp_s1 v >= dot (c_of v m) (vadd (mv (map2 vadd A (eyek (pwl_x_dim o) (pwl_eps2 o)) : mat) vj) g)
               + pwl_eps2 o * d_of v m) vs).
  split; [exact E'|]. cbn [call_holds]. unfold V_of. rewrite Forall_map. split.
  - intros H x Hx. assert (Lx : length x = pwl_x_dim o) by exact (hull_length _ vs x W Hx).
    rewrite (deriv_affine (pwl_x_dim o)) by auto. apply (hull_le (pwl_x_dim o) vs); auto.
    + rewrite vadd_length; [apply vm_length; auto|]. rewrite vscale_length, vm_length; auto.
    + apply Forall_forall. intros u Iu. assert (Lu : length u = pwl_x_dim o) by (rewrite Forall_forall in W; auto).
      rewrite Forall_forall in H. specialize (H u Iu). cbv beta in H.
      rewrite (deriv_vertex (pwl_x_dim o)) in H by auto. rewrite (deriv_affine (pwl_x_dim o)) in H by auto. lra.
  - intros H. apply Forall_forall. intros u Iu.
    assert (Lu : length u = pwl_x_dim o) by (rewrite Forall_forall in W; auto).
    rewrite (deriv_vertex (pwl_x_dim o)) by auto. apply Rle_ge, H, hull_vertex; auto.
Qed.
Lemma positivity_call : forall o m vs sign o' v, length (pwl_xstar o) = pwl_x_dim o -> lp_shaped o v ->
  add_positivity o m vs sign = PwlOk o' -> exists cs, o' = extend o cs /\
  (Forall (fun c => c v) cs <-> call_holds (pwl_x_dim o) (pwl_eps1 o) (pwl_eps2 o) (pwl_xstar o) v (Positivity m vs sign)).
Proof.
  intros o m vs sign o' v Lxs Sh E. unfold add_positivity in E. cbv zeta in E.
  apply negb_if in E; [|discriminate]. destruct E as [W E]. apply has_cols_iff in W.
  apply negb_if in E; [|discriminate]. destruct E as [Ls E]. apply Nat.eqb_eq in Ls.
  destruct (check_signs o vs sign (seq 0 (pwl_x_dim o))) as [e|] eqn:Ck.
  { exfalso. assert (NOk : forall js e, check_signs o vs sign js = Some e -> forall q, e <> PwlOk q).
    { induction js as [|j js IH]; intros e' H q; [discriminate|]. cbn [check_signs] in H.
      destruct (Reqb (nth j sign 0) 1).
      - destruct (forallb (fun a => Rleb (nth j (pwl_xstar o) 0) a) (column j vs)); [eauto|]. assert (PwlAssert = e') by congruence. subst. discriminate.
      - destruct (Reqb (nth j sign 0) (-1)).
        + destruct (forallb (fun a => Rleb a (nth j (pwl_xstar o) 0)) (column j vs)); [eauto|]. assert (PwlAssert = e') by congruence. subst. discriminate.
        + assert (PwlException = e') by congruence. subst. discriminate. }
    exact (NOk _ _ Ck _ E). }
  apply negb_if in E; [|discriminate]. destruct E as [Hm E]. apply Nat.ltb_lt in Hm.
  pose proof (c_length o v m Sh Hm) as Lc. set (n := pwl_x_dim o) in *.
  assert (Orth : forall u, In u vs -> orthant n sign (pwl_xstar o) u).
  { intros u Iu j Hj. apply (check_signs_ok o vs sign _ Ck j); auto. apply in_seq. lia. }
  assert (Val : forall x, length x = n -> orthant n sign (pwl_xstar o) x ->
    V_of v m x - pwl_eps1 o * norm1 (vsub x (pwl_xstar o)) =
    dot (vsub (c_of v m) (vscale (pwl_eps1 o) sign)) x + (d_of v m + dot (vscale (pwl_eps1 o) sign) (pwl_xstar o))).
  { intros x Lx Ox. rewrite (orthant_norm n sign) by auto. unfold V_of.
    rewrite dot_vsub_r by congruence. rewrite dot_vsub_l by (rewrite vscale_length; congruence). rewrite !dot_vscale_l. ring. }
  set (f := fun vj v => lp_s2 v >= - dot (vsub (c_of v m) (vscale (pwl_eps1 o) sign)) vj
                   - d_of v m - dot (vscale (pwl_eps1 o) sign) (pwl_xstar o)) in *.
  assert (E' : o' = extend o (map f vs)) by congruence.
  exists (map f vs). split; [exact E'|]. cbn [call_holds]. rewrite Forall_map. split.
  - intros H x Hx. assert (Lx : length x = n) by (eapply hull_length; eauto).
    assert (Ox : orthant n sign (pwl_xstar o) x) by (eapply hull_orthant; eauto).
    specialize (Val x Lx Ox).
    assert (Q : - lp_s2 v <= dot (vsub (c_of v m) (vscale (pwl_eps1 o) sign)) x + (d_of v m + dot (vscale (pwl_eps1 o) sign) (pwl_xstar o))).
    { apply (hull_ge n vs); auto; [unfold vsub; rewrite map2_length, vscale_length, Lc, Ls; apply Nat.min_id|].
      rewrite Forall_forall in *. intros u Iu. specialize (H u Iu). unfold f in H. lra. }
    lra.
  - intros H. apply Forall_forall. intros u Iu. unfold f.
    assert (Lu : length u = n) by (rewrite Forall_forall in W; auto).
    specialize (H u (hull_vertex n vs u W Iu)). specialize (Val u Lu (Orth u Iu)). lra.
Qed.

Lemma forall_map_zero : forall (A : Type) (f : A -> R) l, Forall (fun a => a = 0) (map f l) <-> Forall (fun a => f a = 0) l.
Proof. intros. apply Forall_map. Qed.
Lemma continuity_vertices : forall n vs v i j, (0 < n)%nat -> Forall (fun r => length r = n) vs ->
  length (c_of v i) = n -> length (c_of v j) = n -> broadcast_add (zeros (length vs)) (zeros n) <> None ->
  ((match broadcast_add (mv vs (vsub (c_of v i) (c_of v j))) (vscale (d_of v i - d_of v j) (ones n)) with
    | Some e => Forall (fun a => a = 0) e | None => False end)
   <-> Forall (fun u => V_of v i u = V_of v j u) vs).
Proof.
  intros n vs v i j Hn W Li Lj B.
  set (q := vsub (c_of v i) (c_of v j)). set (k := d_of v i - d_of v j).
  assert (Eq : forall u, dot u q + k = 0 <-> V_of v i u = V_of v j u).
  { intros u. unfold q, k, V_of. rewrite dot_vsub_r by congruence. rewrite (dot_comm u), (dot_comm u). split; intros; lra. }
  assert (Target : Forall (fun u => V_of v i u = V_of v j u) vs <-> Forall (fun u => dot u q + k = 0) vs).
  { rewrite !Forall_forall. split; intros H u Hu; apply Eq; auto. }
  rewrite Target. clear Target Eq. 
  assert (Ko : vscale k (ones n) = repeat k n).
  { unfold vscale, ones. clear. induction n; [reflexivity|]. cbn. rewrite IHn. f_equal. ring. }
  rewrite Ko. unfold broadcast_add in *. rewrite !zeros_length in B. rewrite mv_length, repeat_length.
  destruct (Nat.eqb (length vs) n) eqn:N.
  - apply Nat.eqb_eq in N. rewrite <- N. clear. induction vs as [|u vs IH]; [split; intros; constructor|].
    change (vadd (mv (u :: vs) q) (repeat k (length (u :: vs)))) with ((dot u q + k) :: vadd (mv vs q) (repeat k (length vs))).
    rewrite !Forall_cons_iff, IH. tauto.
  - apply Nat.eqb_neq in N. destruct vs as [|u [|u' vs]].
    + cbn [mv map]. destruct n as [|[|n]]; [lia| |exfalso; apply B; reflexivity]. split; intros; constructor.
    + cbn [mv map]. split.
      * intros H. constructor; [|constructor]. destruct n as [|n]; [lia|]. cbn in H. apply Forall_inv in H. exact H.
      * intros H. apply Forall_inv in H. apply Forall_forall. intros a Ia. apply in_map_iff in Ia.
        destruct Ia as [b [<- Ib]]. apply repeat_spec in Ib. subst b. exact H.
    + destruct n as [|[|n]]; [lia| |exfalso; apply B; reflexivity].
      cbn [repeat]. change (mv (u :: u' :: vs) q) with (map (fun r => dot r q) (u :: u' :: vs)).
      cbn [map]. rewrite !Forall_cons_iff. rewrite map_map, Forall_map. tauto.
Qed.
Lemma continuity_call : forall o i j vs o' v, (0 < pwl_x_dim o)%nat -> length (pwl_xstar o) = pwl_x_dim o -> lp_shaped o v ->
  add_continuity o i j vs = PwlOk o' -> exists cs, o' = extend o cs /\
  (Forall (fun c => c v) cs <-> call_holds (pwl_x_dim o) (pwl_eps1 o) (pwl_eps2 o) (pwl_xstar o) v (Continuity i j vs)).
Proof.
  intros o i j vs o' v Hn Lxs Sh E. unfold add_continuity in E. cbv zeta in E.
  apply negb_if in E; [|discriminate]. destruct E as [W E]. apply has_cols_iff in W.
  apply negb_if in E; [|discriminate]. destruct E as [Hm E]. apply andb_prop in Hm. destruct Hm as [Hi Hj].
  apply Nat.ltb_lt in Hi. apply Nat.ltb_lt in Hj.
  pose proof (c_length o v i Sh Hi) as Lc. pose proof (c_length o v j Sh Hj) as Lc'. set (n := pwl_x_dim o) in *.
  destruct (broadcast_add (zeros (length vs)) (zeros n)) as [z|] eqn:B; [|discriminate].
  match type of E with PwlOk (extend o ?c) = _ => exists c; split; [congruence|] end.
  rewrite Forall_cons_iff. rewrite continuity_vertices by (auto; congruence). cbn [call_holds]. split.
  - intros [H _] x Hx. assert (Q : forall y, dot (vsub (c_of v i) (c_of v j)) y + (d_of v i - d_of v j) = V_of v i y - V_of v j y).
    { intros y. unfold V_of. rewrite dot_vsub_l by congruence. ring. }
    assert (Lq : length (vsub (c_of v i) (c_of v j)) = n) by (unfold vsub; rewrite map2_length, Lc, Lc'; apply Nat.min_id).
    assert (Le : dot (vsub (c_of v i) (c_of v j)) x + (d_of v i - d_of v j) <= 0).
    { apply (hull_le n vs); auto. rewrite Forall_forall in *. intros u Iu. rewrite Q, (H u Iu). lra. }
    assert (Ge : 0 <= dot (vsub (c_of v i) (c_of v j)) x + (d_of v i - d_of v j)).
    { apply (hull_ge n vs); auto. rewrite Forall_forall in *. intros u Iu. rewrite Q, (H u Iu). lra. }
    rewrite Q in Le, Ge. lra.
  - intros H. split; [|constructor]. apply Forall_forall. intros u Iu. apply H, hull_vertex; auto.
Qed.

(** ** Histories *)
Ltac okinj E := match type of E with PwlOk (extend ?o ?c) = PwlOk ?b => exists c; congruence end.
Lemma step_shape : forall o c o', pwl_step o c = PwlOk o' -> exists cs, o' = extend o cs.
Proof.
  intros o [m vs A g|m vs s|i j vs] o' E; cbn [pwl_step] in E.
  - unfold add_derivative in E. cbv zeta in E. do 4 (apply negb_if in E; [|discriminate]; destruct E as [_ E]). okinj E.
  - unfold add_positivity in E. cbv zeta in E. do 2 (apply negb_if in E; [|discriminate]; destruct E as [_ E]).
    destruct (check_signs o vs s (seq 0 (pwl_x_dim o))) as [e|] eqn:Ck.
    + exfalso. revert e E Ck. induction (seq 0 (pwl_x_dim o)) as [|k js IH]; intros e E Ck; [discriminate|]. cbn [check_signs] in Ck.
      destruct (Reqb (nth k s 0) 1).
      * destruct (forallb (fun a => Rleb (nth k (pwl_xstar o) 0) a) (column k vs)); [eapply IH; eauto|]. congruence.
      * destruct (Reqb (nth k s 0) (-1)); [|congruence].
        destruct (forallb (fun a => Rleb a (nth k (pwl_xstar o) 0)) (column k vs)); [eapply IH; eauto|]. congruence.
    + apply negb_if in E; [|discriminate]. destruct E as [_ E]. okinj E.
  - unfold add_continuity in E. cbv zeta in E. do 2 (apply negb_if in E; [|discriminate]; destruct E as [_ E]).
    destruct (broadcast_add (zeros (length vs)) (zeros (pwl_x_dim o))); [|discriminate]. okinj E.
Qed.
Lemma step_exact : forall o c o' v, (0 < pwl_x_dim o)%nat -> length (pwl_xstar o) = pwl_x_dim o -> lp_shaped o v ->
  pwl_step o c = PwlOk o' -> exists cs, o' = extend o cs /\
  (Forall (fun k => k v) cs <-> call_holds (pwl_x_dim o) (pwl_eps1 o) (pwl_eps2 o) (pwl_xstar o) v c).
Proof.
  intros o [m vs A g|m vs s|i j vs] o' v Hn L Sh E; cbn [pwl_step] in E.
  - apply derivative_call; auto.
  - apply positivity_call; auto.
  - apply continuity_call; auto.
Qed.
Lemma run_exact : forall calls o o' v, (0 < pwl_x_dim o)%nat -> length (pwl_xstar o) = pwl_x_dim o -> lp_shaped o v ->
  pwl_run o calls = PwlOk o' ->
  (pwl_x_dim o' = pwl_x_dim o /\ pwl_modes o' = pwl_modes o /\ pwl_eps1 o' = pwl_eps1 o /\ pwl_eps2 o' = pwl_eps2 o /\
   pwl_xstar o' = pwl_xstar o) /\
  (Forall (fun k => k v) (pwl_constraints o') <-> Forall (fun k => k v) (pwl_constraints o) /\
    Forall (call_holds (pwl_x_dim o) (pwl_eps1 o) (pwl_eps2 o) (pwl_xstar o) v) calls).
Proof.
  induction calls as [|c calls IH]; intros o o' v Hn L Sh E; cbn [pwl_run] in E.
  - assert (o = o') by congruence. subst o'. split; [auto|]. split; [auto|tauto].
  - destruct (pwl_step o c) as [o1| | | |] eqn:S; try discriminate.
    destruct (step_exact o c o1 v Hn L Sh S) as [cs [-> H]].
    destruct (IH (extend o cs) o' v Hn L Sh E) as [F G]. split; [exact F|]. rewrite G. unfold extend.
    cbn [pwl_constraints pwl_x_dim pwl_eps1 pwl_eps2 pwl_xstar]. rewrite Forall_app, Forall_cons_iff, H. tauto.
Qed.
Lemma pwl_exact : forall x_dim modes eps1 eps2 xstar eq_mode o0 calls o v,
  (0 < x_dim)%nat -> pwl_init x_dim modes eps1 eps2 xstar eq_mode = PwlOk o0 -> pwl_run o0 calls = PwlOk o -> lp_shaped o v ->
  (Forall (fun k => k v) (pwl_constraints o) <->
   0 <= lp_s1 v /\ 0 <= lp_s2 v /\ V_of v eq_mode xstar = 0 /\ Forall (call_holds x_dim eps1 eps2 xstar v) calls).
Proof.
  intros x_dim modes eps1 eps2 xstar eq_mode o0 calls o v Hn I Rn Sh. unfold pwl_init in I.
  apply negb_if in I; [|discriminate]. destruct I as [Hm I]. apply negb_if in I; [|discriminate]. destruct I as [Lx I].
  apply Nat.eqb_eq in Lx.
  match type of I with PwlOk ?a = _ => assert (E0 : o0 = a) by congruence end. clear I.
  assert (Sh0 : lp_shaped o0 v).
  { assert (Fld : forall calls o1 o2, pwl_run o1 calls = PwlOk o2 -> pwl_x_dim o2 = pwl_x_dim o1 /\ pwl_modes o2 = pwl_modes o1).
    { clear. induction calls as [|c calls IH]; intros o1 o2 E; cbn [pwl_run] in E; [assert (o1 = o2) by congruence; subst; auto|].
      destruct (pwl_step o1 c) as [o3| | | |] eqn:S; try discriminate. destruct (step_shape _ _ _ S) as [cs ->].
      destruct (IH _ _ E) as [A B]. auto. }
    destruct (Fld _ _ _ Rn) as [A B]. unfold lp_shaped in *. rewrite A, B in Sh. exact Sh. }
  assert (Hn0 : (0 < pwl_x_dim o0)%nat) by (rewrite E0; exact Hn).
  assert (Lx0 : length (pwl_xstar o0) = pwl_x_dim o0) by (rewrite E0; exact Lx).
  destruct (run_exact calls o0 o v Hn0 Lx0 Sh0 Rn) as [_ G]. rewrite E0 in G.
  cbn [pwl_constraints pwl_x_dim pwl_eps1 pwl_eps2 pwl_xstar] in G. rewrite G. unfold V_of. split.
  - intros [A B]. pose proof (Forall_inv A) as A1. apply Forall_inv_tail in A. pose proof (Forall_inv A) as A2.
    apply Forall_inv_tail in A. apply Forall_inv in A. split; [apply Rge_le; auto|]. split; [apply Rge_le; auto|]. auto.
  - intros [A [B [C D]]]. split; [|auto]. constructor; [apply Rle_ge; auto|]. constructor; [apply Rle_ge; auto|].
    constructor; [auto|constructor].
Qed.

(** ** Zero cost *)
Lemma cost_zero : forall weight v, 0 < weight -> weight < 1 -> 0 <= lp_s1 v -> 0 <= lp_s2 v ->
  (pwl_cost weight v = 0 <-> lp_s1 v = 0 /\ lp_s2 v = 0).
Proof.
  intros w v H0 H1 A B. unfold pwl_cost. split.
  - intros E. assert (P : 0 <= (1 - w) * lp_s1 v) by (apply Rmult_le_pos; lra).
    assert (Q : 0 <= w * lp_s2 v) by (apply Rmult_le_pos; lra).
    assert (E1 : (1 - w) * lp_s1 v = 0) by lra. assert (E2 : w * lp_s2 v = 0) by lra.
    apply Rmult_integral in E1. apply Rmult_integral in E2. split; [destruct E1; lra|destruct E2; lra].
  - intros [-> ->]. ring.
Qed.
Definition with_slacks (v : lpvars) (a b : R) : lpvars := mkLp (lp_c v) (lp_d v) a b.
Lemma zero_iff : forall x_dim modes eps1 eps2 xstar eq_mode o0 calls o weight v,
  (0 < x_dim)%nat -> pwl_init x_dim modes eps1 eps2 xstar eq_mode = PwlOk o0 -> pwl_run o0 calls = PwlOk o ->
  0 < weight -> weight < 1 -> lp_optimal o weight v ->
  (pwl_cost weight v = 0 <->
   exists v', lp_shaped o v' /\ lp_s1 v' = 0 /\ lp_s2 v' = 0 /\ V_of v' eq_mode xstar = 0 /\
     Forall (call_holds x_dim eps1 eps2 xstar v') calls).
Proof.
  intros x_dim modes eps1 eps2 xstar eq_mode o0 calls o w v Hn I Rn H0 H1 [[Sh F] Opt].
  pose proof (pwl_exact _ _ _ _ _ _ _ _ _ v Hn I Rn Sh) as Ex. pose proof (proj1 Ex F) as [A [B [C D]]].
  split.
  - intros Z. exists v. apply cost_zero in Z; auto. destruct Z. tauto.
  - intros [v' [Sh' [S1 [S2 [C' D']]]]].
    assert (F' : lp_feasible o v').
    { split; [auto|]. apply (pwl_exact _ _ _ _ _ _ _ _ _ v' Hn I Rn Sh'). rewrite S1, S2. split; [lra|]. split; [lra|]. auto. }
    specialize (Opt v' F'). assert (Z : pwl_cost w v' = 0) by (unfold pwl_cost; rewrite S1, S2; ring).
    assert (P : 0 <= pwl_cost w v).
    { unfold pwl_cost. assert (0 <= (1 - w) * lp_s1 v) by (apply Rmult_le_pos; lra).
      assert (0 <= w * lp_s2 v) by (apply Rmult_le_pos; lra). lra. }
    lra.
Qed.
Lemma vsum_nonneg : forall l, Forall (fun a => 0 <= a) l -> 0 <= vsum l.
Proof. induction l as [|a l IH]; intros F; cbn; [lra|]. pose proof (Forall_inv F). apply Forall_inv_tail in F. specialize (IH F). lra. Qed.
Lemma norm1_pos : forall n x xstar, length x = n -> length xstar = n -> x <> xstar -> 0 < norm1 (vsub x xstar).
Proof.
  unfold norm1. induction n as [|n IH]; intros x xs L1 L2 N; destruct x as [|a x]; destruct xs as [|b xs]; try discriminate; [congruence|].
  cbn in L1, L2. cbn [vsub map2 map vsum]. change (map2 Rminus x xs) with (vsub x xs).
  assert (P : 0 <= vsum (map Rabs (vsub x xs))) by (apply vsum_nonneg, Forall_map, Forall_forall; intros; apply Rabs_pos).
  destruct (Req_dec a b) as [->|D].
  - assert (x <> xs) by congruence. specialize (IH x xs ltac:(lia) ltac:(lia) H). pose proof (Rabs_pos (b - b)). lra.
  - pose proof (Rabs_pos_lt (a - b)). assert (0 < Rabs (a - b)) by (apply H; lra). lra.
Qed.
Lemma certificate : forall x_dim modes eps1 eps2 xstar eq_mode o0 calls o weight v,
  (0 < x_dim)%nat -> pwl_init x_dim modes eps1 eps2 xstar eq_mode = PwlOk o0 -> pwl_run o0 calls = PwlOk o ->
  0 < weight -> weight < 1 -> lp_feasible o v -> pwl_cost weight v = 0 ->
  V_of v eq_mode xstar = 0 /\
  (forall m vs A g, In (Derivative m vs A g) calls -> forall x, in_hull x_dim vs x ->
     dot (c_of v m) (vadd (mv A x) g) <= - eps2 * V_of v m x) /\
  (forall m vs sign, In (Positivity m vs sign) calls -> forall x, in_hull x_dim vs x ->
     eps1 * norm1 (vsub x xstar) <= V_of v m x /\ (0 < eps1 -> x <> xstar -> 0 < V_of v m x)) /\
  (forall i j us, In (Continuity i j us) calls -> forall x, in_hull x_dim us x -> V_of v i x = V_of v j x).
Proof.
  intros x_dim modes eps1 eps2 xstar eq_mode o0 calls o w v Hn I Rn H0 H1 [Sh F] Z.
  pose proof (pwl_exact _ _ _ _ _ _ _ _ _ v Hn I Rn Sh) as Ex. apply Ex in F. destruct F as [A [B [C D]]]. clear Ex.
  apply cost_zero in Z; auto. destruct Z as [S1 S2]. rewrite Forall_forall in D.
  split; [auto|]. split; [|split].
  - intros m vs M g In1 x Hx. specialize (D _ In1). cbn in D. specialize (D x Hx). lra.
  - intros m vs sign In1 x Hx. specialize (D _ In1). cbn [call_holds] in D. specialize (D x Hx). rewrite S2 in D.
    assert (Q : eps1 * norm1 (vsub x xstar) <= V_of v m x) by lra. split; [exact Q|]. intros E1 Nx.
    assert (Lxs : length xstar = x_dim).
    { unfold pwl_init in I. apply negb_if in I; [|discriminate]. destruct I as [_ I]. apply negb_if in I; [|discriminate].
      destruct I as [Lx _]. apply Nat.eqb_eq. auto. }
    assert (Lx : length x = x_dim).
    { assert (W : Forall (fun r => length r = x_dim) vs).
      { clear - In1 I Rn. assert (D0 : pwl_x_dim o0 = x_dim).
        { unfold pwl_init in I. apply negb_if in I; [|discriminate]. destruct I as [_ I]. apply negb_if in I; [|discriminate].
          destruct I as [_ I]. match type of I with PwlOk ?a = _ => assert (E0 : o0 = a) by congruence end. rewrite E0. reflexivity. }
        rewrite <- D0. clear I D0. revert o0 Rn. induction calls as [|c calls IH]; intros o0 Rn; [destruct In1|]. cbn [pwl_run] in Rn.
        destruct (pwl_step o0 c) as [o1| | | |] eqn:S; try discriminate.
        destruct In1 as [->|In1].
        - cbn [pwl_step] in S. unfold add_positivity in S. cbv zeta in S. apply negb_if in S; [|discriminate].
          destruct S as [W _]. apply has_cols_iff in W. auto.
        - destruct (step_shape _ _ _ S) as [cs ->]. apply (IH In1 _ Rn). }
      exact (hull_length _ vs x W Hx). }
    pose proof (norm1_pos x_dim x xstar Lx Lxs Nx) as P. assert (0 < eps1 * norm1 (vsub x xstar)) by (apply Rmult_lt_0_compat; auto). lra.
  - intros i j us In1 x Hx. specialize (D _ In1). cbn in D. auto.
Qed.

(** ** Along a trajectory *)
Lemma d_eq' : forall f x d d', derivable_pt_lim f x d -> d = d' -> derivable_pt_lim f x d'.
Proof. intros. subst. auto. Qed.
Lemma dot_derivable : forall n c phi dphi t, length c = n -> (forall s, length (phi s) = n) -> length dphi = n ->
  (forall i, (i < n)%nat -> derivable_pt_lim (fun s => nth i (phi s) 0) t (nth i dphi 0)) ->
  derivable_pt_lim (fun s => dot c (phi s)) t (dot c dphi).
Proof.
  induction n as [|n IH]; intros c phi dphi t Lc Lp Ld D.
  - destruct c; [|discriminate]. cbn. apply derivable_pt_lim_const.
  - destruct c as [|a c]; [discriminate|]. destruct dphi as [|b dphi]; [discriminate|].
    assert (E : forall s, dot (a :: c) (phi s) = a * nth 0 (phi s) 0 + dot c (tl (phi s))).
    { intros s. specialize (Lp s). destruct (phi s) as [|y ys]; [discriminate|]. reflexivity. }
    assert (Dd : derivable_pt_lim (fun s => a * nth 0 (phi s) 0 + dot c (tl (phi s))) t (a * b + dot c dphi)).
    { apply (derivable_pt_lim_plus (fun s => a * nth 0 (phi s) 0) (fun s => dot c (tl (phi s)))).
      - eapply d_eq'; [apply (derivable_pt_lim_mult (fun _ => a)); [apply derivable_pt_lim_const|apply (D 0%nat); lia]|].
        cbn [nth]. ring.
      - apply IH.
        + cbn in Lc. lia.
        + intros s. specialize (Lp s). destruct (phi s); cbn in *; lia.
        + cbn in Ld. lia.
        + intros i Hi. specialize (D (S i) ltac:(lia)). cbn [nth] in D.
          intros ep Hep. destruct (D ep Hep) as [dl Hd]. exists dl. intros h N0 N1.
          assert (T : forall s, nth i (tl (phi s)) 0 = nth (S i) (phi s) 0).
          { intros s. specialize (Lp s). destruct (phi s); [discriminate|reflexivity]. }
          rewrite !T. auto. }
    change (dot (a :: c) (b :: dphi)) with (a * b + dot c dphi).
    intros ep Hep. destruct (Dd ep Hep) as [dl Hd]. exists dl. intros h N0 N1. rewrite !E. auto.
Qed.
Lemma continuity_pt_ext : forall f g x, (forall y, f y = g y) -> continuity_pt f x -> continuity_pt g x.
Proof.
  intros f g x E C ep Hep. destruct (C ep Hep) as [al [P Q]]. exists al. split; [auto|]. intros y Hy. rewrite <- !E. auto.
Qed.
Lemma dot_continuous : forall n c phi t, length c = n -> (forall s, length (phi s) = n) ->
  (forall i, (i < n)%nat -> continuity_pt (fun s => nth i (phi s) 0) t) ->
  continuity_pt (fun s => dot c (phi s)) t.
Proof.
  induction n as [|n IH]; intros c phi t Lc Lp D.
  - destruct c; [|discriminate]. apply continuity_pt_const. intros a b. reflexivity.
  - destruct c as [|a c]; [discriminate|].
    assert (E : forall s, a * nth 0 (phi s) 0 + dot c (tl (phi s)) = dot (a :: c) (phi s)).
    { intros s. specialize (Lp s). destruct (phi s) as [|y ys]; [discriminate|]. reflexivity. }
    apply (continuity_pt_ext (fun s => a * nth 0 (phi s) 0 + dot c (tl (phi s))) _ t E).
    apply (continuity_pt_plus (fun s => a * nth 0 (phi s) 0) (fun s => dot c (tl (phi s)))).
    + apply (continuity_pt_scal (fun s => nth 0 (phi s) 0) a). apply D. lia.
    + apply IH; [cbn in Lc; lia| |].
      * intros s. specialize (Lp s). destruct (phi s); cbn in *; lia.
      * intros i Hi. apply (continuity_pt_ext (fun s => nth (S i) (phi s) 0)); [|apply D; lia].
        intros s. specialize (Lp s). destruct (phi s); [discriminate|reflexivity].
Qed.

Lemma segment : forall n vs A g a b phi (c : vec) d eps, moves n vs A g a b phi -> length c = n -> length A = n -> length g = n ->
  (forall x, in_hull n vs x -> dot c (vadd (mv A x) g) + eps * (dot c x + d) <= 0) ->
  dot c (phi b) + d <= (dot c (phi a) + d) * exp (- eps * (b - a)).
Proof.
  intros n vs A g a b phi c d eps [Hab [Hin [Hl Hd]]] Lc LA Lg H.
  destruct (Req_dec a b) as [->|N].
  { replace (- eps * (b - b)) with 0 by ring. rewrite exp_0. lra. }
  assert (Lt : a < b) by lra.
  set (W := fun t => (dot c (phi t) + d) * exp (eps * t)).
  assert (DW : forall t, a < t < b -> derivable_pt_lim W t
     ((dot c (vadd (mv A (phi t)) g) + eps * (dot c (phi t) + d)) * exp (eps * t))).
  { intros t Ht. unfold W.
    eapply d_eq'.
    - apply (derivable_pt_lim_mult (fun s => dot c (phi s) + d) (fun s => exp (eps * s))).
      + apply (derivable_pt_lim_plus (fun s => dot c (phi s)) (fun _ => d)); [|apply derivable_pt_lim_const].
        apply (dot_derivable n c phi (vadd (mv A (phi t)) g) t Lc Hl); [|intros; apply Hd; auto].
        unfold vadd. rewrite map2_length. unfold mv. rewrite map_length. exact (eq_trans (f_equal2 Nat.min LA Lg) (Nat.min_id n)).
      + apply (derivable_pt_lim_comp (fun s => eps * s) exp); [|apply derivable_pt_lim_exp].
        apply (derivable_pt_lim_mult (fun _ => eps) (fun s => s)); [apply derivable_pt_lim_const|apply derivable_pt_lim_id].
    - cbv beta. ring. }
  assert (CW : forall t, a <= t <= b -> continuity_pt W t).
  { intros t Ht. unfold W. apply (continuity_pt_mult (fun s => dot c (phi s) + d) (fun s => exp (eps * s))).
    - apply (continuity_pt_plus (fun s => dot c (phi s)) (fun _ => d)).
      + apply (dot_continuous n); auto. intros i Hi. apply (Hin t Ht). auto.
      + apply continuity_pt_const. intros ? ?. reflexivity.
    - apply derivable_continuous_pt. eexists.
      apply (derivable_pt_lim_comp (fun s => eps * s) exp); [|apply derivable_pt_lim_exp].
      apply (derivable_pt_lim_mult (fun _ => eps) (fun s => s)); [apply derivable_pt_lim_const|apply derivable_pt_lim_id]. }
  assert (M : W b <= W a).
  { pose (pr1 := fun t (P : a < t < b) => exist (fun l => derivable_pt_abs W t l) _ (DW t P) : derivable_pt W t).
    destruct (MVT W (fun x => x) a b pr1 (fun t _ => derivable_pt_id t) Lt CW (fun t _ => derivable_continuous_pt _ _ (derivable_pt_id t)))
      as [t [P E]].
    rewrite (derive_pt_eq_0 W t _ (pr1 t P) (DW t P)) in E.
    rewrite (derive_pt_eq_0 (fun x => x) t 1 _ (derivable_pt_lim_id t)) in E.
    assert (I : in_hull n vs (phi t)) by (apply Hin; lra).
    specialize (H _ I).
    assert (Pe : 0 < exp (eps * t)) by apply exp_pos.
    cbv beta in E. set (D := dot c (vadd (mv A (phi t)) g) + eps * (dot c (phi t) + d)) in *.
    assert (Q : (b - a) * (D * exp (eps * t)) <= 0).
    { replace ((b - a) * (D * exp (eps * t))) with (- ((b - a) * ((- D) * exp (eps * t)))) by ring.
      assert (0 <= (b - a) * ((- D) * exp (eps * t))) by (apply Rmult_le_pos; [lra|apply Rmult_le_pos; lra]). lra. }
    lra. }
  unfold W in M.
  assert (X : exp (- eps * (b - a)) = exp (eps * a) * / exp (eps * b)).
  { rewrite <- exp_Ropp, <- exp_plus. f_equal. ring. }
  rewrite X. assert (Pb : 0 < exp (eps * b)) by apply exp_pos.
  apply (Rmult_le_reg_r (exp (eps * b))); auto. rewrite <- Rmult_assoc, Rmult_assoc, Rinv_l by lra. lra.
Qed.

Lemma run_derivative : forall calls o o' m vs A g, pwl_run o calls = PwlOk o' -> In (Derivative m vs A g) calls ->
  length A = pwl_x_dim o /\ length g = pwl_x_dim o /\ (m < pwl_modes o)%nat.
Proof.
  induction calls as [|c calls IH]; intros o o' m vs A g E Hin; [destruct Hin|]. cbn [pwl_run] in E.
  destruct (pwl_step o c) as [o1| | | |] eqn:S; try discriminate.
  destruct Hin as [->|Hin].
  - cbn [pwl_step] in S. unfold add_derivative in S. cbv zeta in S.
    apply negb_if in S; [|discriminate]. destruct S as [_ S].
    apply negb_if in S; [|discriminate]. destruct S as [HA S].
    apply negb_if in S; [|discriminate]. destruct S as [Hg S].
    apply negb_if in S; [|discriminate]. destruct S as [Hm _].
    apply andb_true_iff in HA. destruct HA as [HA _]. apply Nat.eqb_eq in HA, Hg. apply Nat.ltb_lt in Hm. auto.
  - destruct (step_shape _ _ _ S) as [cs ->]. apply (IH _ _ _ _ _ _ E Hin).
Qed.
Lemma decay : forall x_dim modes eps1 eps2 xstar eq_mode o0 calls o weight v phi a b i j,
  (0 < x_dim)%nat -> pwl_init x_dim modes eps1 eps2 xstar eq_mode = PwlOk o0 -> pwl_run o0 calls = PwlOk o ->
  0 < weight -> weight < 1 -> lp_feasible o v -> pwl_cost weight v = 0 ->
  passes x_dim calls phi a b i j ->
  V_of v j (phi b) <= V_of v i (phi a) * exp (- eps2 * (b - a)).
Proof.
  intros x_dim modes eps1 eps2 xstar eq_mode o0 calls o weight v phi a b i j Hn I Rn H0 H1 Fe C0 Pa.
  destruct (certificate _ _ _ _ _ _ _ _ _ _ _ Hn I Rn H0 H1 Fe C0) as [_ [De [_ Co]]].
  assert (Dm : pwl_x_dim o0 = x_dim /\ pwl_modes o0 = modes /\ length (pwl_xstar o0) = pwl_x_dim o0).
  { unfold pwl_init in I. apply negb_if in I; [|discriminate]. destruct I as [_ I]. apply negb_if in I; [|discriminate].
    destruct I as [Lx I]. apply Nat.eqb_eq in Lx. match type of I with PwlOk ?a = _ => assert (E0 : o0 = a) by congruence end. rewrite E0. cbn. auto. }
  destruct Dm as [D1 [D2 D3]].
  assert (Sh0 : lp_shaped o0 v).
  { assert (G : forall calls o0 o, pwl_run o0 calls = PwlOk o -> pwl_x_dim o = pwl_x_dim o0 /\ pwl_modes o = pwl_modes o0).
    { clear. induction calls as [|c calls IH]; intros o0 o E; cbn [pwl_run] in E.
      - assert (o0 = o) by congruence. subst. auto.
      - destruct (pwl_step o0 c) as [o1| | | |] eqn:S; try discriminate. destruct (step_shape _ _ _ S) as [cs ->].
        destruct (IH _ _ E) as [A B]. auto. }
    destruct (G _ _ _ Rn) as [G1 G2]. destruct Fe as [[S1 [S2 S3]] _]. unfold lp_shaped. rewrite G1 in S2. rewrite G2 in S1, S3. auto. }
  induction Pa as [a b m vs A g Hin Mo|a b c i j k l us P1 IH1 Hc Hu P2 IH2].
  - destruct (run_derivative _ _ _ _ _ _ _ Rn Hin) as [LA [Lg Lm]]. rewrite D1 in LA, Lg.
    unfold V_of. apply (segment x_dim vs A g); auto.
    + rewrite (c_length o0 v m Sh0 Lm). auto.
    + intros x Hx. specialize (De _ _ _ _ Hin x Hx). unfold V_of in De. lra.
  - assert (Eq : V_of v j (phi b) = V_of v k (phi b)).
    { destruct Hc as [Hc|Hc]; [apply (Co _ _ _ Hc _ Hu)|symmetry; apply (Co _ _ _ Hc _ Hu)]. }
    rewrite <- Eq in IH2.
    replace (- eps2 * (c - a)) with (- eps2 * (b - a) + - eps2 * (c - b)) by ring. rewrite exp_plus.
    assert (0 < exp (- eps2 * (c - b))) by apply exp_pos.
    apply (Rle_trans _ _ _ IH2). rewrite <- Rmult_assoc. apply Rmult_le_compat_r; lra.
Qed.
Lemma converges : forall x_dim modes eps1 eps2 xstar eq_mode o0 calls o weight v phi a b i j vs sign,
  (0 < x_dim)%nat -> pwl_init x_dim modes eps1 eps2 xstar eq_mode = PwlOk o0 -> pwl_run o0 calls = PwlOk o ->
  0 < weight -> weight < 1 -> lp_feasible o v -> pwl_cost weight v = 0 ->
  passes x_dim calls phi a b i j -> In (Positivity j vs sign) calls -> in_hull x_dim vs (phi b) ->
  eps1 * norm1 (vsub (phi b) xstar) <= V_of v i (phi a) * exp (- eps2 * (b - a)).
Proof.
  intros x_dim modes eps1 eps2 xstar eq_mode o0 calls o weight v phi a b i j vs sign Hn I Rn H0 H1 Fe C0 Pa Hp Hh.
  destruct (certificate _ _ _ _ _ _ _ _ _ _ _ Hn I Rn H0 H1 Fe C0) as [_ [_ [Po _]]].
  destruct (Po _ _ _ Hp _ Hh) as [Q _].
  pose proof (decay _ _ _ _ _ _ _ _ _ _ _ _ _ _ _ _ Hn I Rn H0 H1 Fe C0 Pa). lra.
Qed.

(** ** The shape of the common vertices *)
Lemma continuity_shape : forall o i j vs, has_cols (pwl_x_dim o) vs = true -> (i < pwl_modes o)%nat -> (j < pwl_modes o)%nat ->
  (add_continuity o i j vs = PwlShapeError <->
   length vs <> pwl_x_dim o /\ length vs <> 1%nat /\ pwl_x_dim o <> 1%nat).
Proof.
  intros o i j vs W Hi Hj. unfold add_continuity. cbv zeta. rewrite W. cbn [negb].
  apply Nat.ltb_lt in Hi, Hj. rewrite Hi, Hj. cbn [andb negb].
  unfold broadcast_add. unfold zeros at 1 2. rewrite !repeat_length.
  destruct (Nat.eqb (length vs) (pwl_x_dim o)) eqn:E.
  - apply Nat.eqb_eq in E. split; [discriminate|lia].
  - apply Nat.eqb_neq in E. destruct (length vs) as [|[|p]], (pwl_x_dim o) as [|[|q]]; cbn [zeros repeat]; split; try discriminate; try lia; auto.
Qed.
