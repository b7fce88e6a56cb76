(** Bounded polyhedra, the modes built on them, and a solver that meets the
    assumptions. *)

Require Import Reals List Lia Lra Bool Arith.
Require Import Verif.Vec Verif.VecFacts Verif.ModelMip Verif.SpecMip Verif.SpecCore Verif.ModelNet
  Verif.SpecNet Verif.ProofMip Verif.ModelPoly Verif.SpecPoly Verif.SpecHybrid Verif.ModelHybrid
  Verif.SpecContHybrid Verif.ProofGrad Verif.ProofAttain Verif.ProofHybrid Verif.ProofBounds
  Verif.ProofPoly Verif.ProofPoly2 Verif.ProofPoly3 Verif.ProofLyapFinal.
Import ListNotations.
Open Scope R_scope.

(** ** P y <= 0, y_i = k without solution bounds x_i on P x <= q *)

Definition cone_rows (n : nat) (P : mat) (q : vec) (i : nat) (k : R) : list ineq :=
  ([(1, i)], k) :: ([(-1, i)], - k) :: ([(-1, n)], 0) ::
  map2 (fun (r : list R) b => (lin r ++ [(- b, n)], 0)) P q.

Lemma cone_rows_ok : forall n P q i k sg, Forall (fun r => length r = n) P -> length q = length P ->
  (Forall (sat sg) (cone_rows n P q i k) <->
   sg i = k /\ 0 <= sg n /\ vle (mv P (to_vec n sg)) (vscale (sg n) q)).
Proof.
  intros n P q i k sg W L.
  assert (Rw : Forall (sat sg) (map2 (fun (r : list R) b => (lin r ++ [(- b, n)], 0)) P q) <->
    vle (mv P (to_vec n sg)) (vscale (sg n) q)).
  { revert q L. induction P as [|r P IH]; intros [|b q] L; try discriminate.
    - split; constructor.
    - assert (Q := IH (Forall_inv_tail W) q ltac:(cbn in L; lia)). assert (Hr := Forall_inv W). cbv beta in Hr.
      assert (H0 : sat sg (lin r ++ [(- b, n)], 0) <-> dot r (to_vec n sg) <= sg n * b).
      { unfold sat. cbn [fst snd]. rewrite eval_app, lin_eval_terms, Hr. unfold eval_terms. cbn. split; lra. }
      unfold vle, mv, vscale in *. cbn [map2 map]. split; intros H.
      + constructor; [apply H0; exact (Forall_inv H)|apply Q; exact (Forall_inv_tail H)].
      + inversion H; subst. constructor; [apply H0; auto|apply Q; auto]. }
  unfold cone_rows.
  assert (A1 : sat sg ([(1, i)], k) <-> sg i <= k) by (unfold sat, eval_terms; cbn; split; lra).
  assert (A2 : sat sg ([(-1, i)], - k) <-> k <= sg i) by (unfold sat, eval_terms; cbn; split; lra).
  assert (A3 : sat sg ([(-1, n)], 0) <-> 0 <= sg n) by (unfold sat, eval_terms; cbn; split; lra).
  split.
  - intros H. assert (H1 := Forall_inv H). apply Forall_inv_tail in H. assert (H2 := Forall_inv H).
    apply Forall_inv_tail in H. assert (H3 := Forall_inv H). apply Forall_inv_tail in H.
    apply A1 in H1. apply A2 in H2. apply A3 in H3. apply Rw in H. split; [lra|]. auto.
  - intros (H1 & H2 & H3). constructor; [apply A1; lra|]. constructor; [apply A2; lra|].
    constructor; [apply A3; auto|]. apply Rw. auto.
Qed.
Lemma vscale_0 : forall q, vscale 0 q = zeros (length q).
Proof. induction q as [|b q IH]; cbn; auto. unfold vscale in IH. rewrite IH. f_equal. ring. Qed.
Lemma vscale_vle : forall c a b, 0 <= c -> vle a b -> vle (vscale c a) (vscale c b).
Proof. intros c a b Hc. induction 1; cbn; constructor; auto. apply Rmult_le_compat_l; auto. Qed.
Lemma mv_vscale : forall P c x, mv P (vscale c x) = vscale c (mv P x).
Proof.
  intros P c x. unfold mv, vscale at 2. rewrite map_map. apply map_ext. intros r. apply dot_vscale_r.
Qed.
Lemma vscale_nth : forall c x i, nth i (vscale c x) 0 = c * nth i x 0.
Proof.
  intros c. induction x as [|a x IH]; intros i; cbn; destruct i; auto; ring.
Qed.

Lemma no_ray_bound : forall n P q i k, Forall (fun r => length r = n) P -> length q = length P ->
  (i < n)%nat -> (k = 1 \/ k = -1) ->
  (forall y, polytope n P (zeros (length P)) y -> nth i y 0 <> k) ->
  exists K, forall x, polytope n P q x -> k * nth i x 0 <= K.
Proof.
  intros n P q i k W L Hi Hk No.
  assert (Kk : k * k = 1) by (destruct Hk; subst k; lra).
  (* a point with k x_i > 0 gives a point of the cone *)
  assert (Get : forall x, polytope n P q x -> 0 < k * nth i x 0 ->
    exists sg, Forall (sat sg) (cone_rows n P q i k) /\ sg n = / (k * nth i x 0)).
  { intros x [Lx Vx] Pos. set (t := / (k * nth i x 0)).
    assert (Tp : 0 < t) by (apply Rinv_0_lt_compat; auto).
    exists (fun j => if Nat.eqb j n then t else nth j (vscale t x) 0). split.
    - apply cone_rows_ok; auto. rewrite Nat.eqb_refl.
      assert (TV : to_vec n (fun j => if Nat.eqb j n then t else nth j (vscale t x) 0) = vscale t x).
      { apply nth_ext with 0 0; [rewrite to_vec_length; unfold vscale; rewrite map_length; auto|].
        intros j Hj. rewrite to_vec_length in Hj. rewrite to_vec_nth by auto.
        destruct (Nat.eqb_spec j n); [lia|auto]. }
      rewrite TV, mv_vscale. split; [|split].
      + destruct (Nat.eqb_spec i n); [lia|]. rewrite vscale_nth. unfold t.
        assert (nth i x 0 <> 0) by (intros Z; rewrite Z in Pos; lra).
        assert (k <> 0) by (destruct Hk; lra).
        replace (/ (k * nth i x 0) * nth i x 0) with (/ k) by (field; auto).
        apply Rmult_eq_reg_l with k; auto. rewrite Rinv_r by auto. auto.
      + lra.
      + apply vscale_vle; [lra|auto].
    - rewrite Nat.eqb_refl. auto. }
  destruct (Classical_Prop.classic (exists sg, Forall (sat sg) (cone_rows n P q i k))) as [Y|N].
  - destruct (lp_attains (cone_rows n P q i k) [(-1, n)] 0) as (sg & G & M); auto.
    + intros sg G. apply cone_rows_ok in G; auto. unfold eval_terms. cbn. lra.
    + assert (O : forall s, eval_terms [(-1, n)] s = - s n) by (intros s; unfold eval_terms; cbn; ring).
      assert (G' := G). apply cone_rows_ok in G'; auto. destruct G' as (Ei & Sn & V).
      assert (Sp : 0 < sg n).
      { destruct (Req_dec (sg n) 0) as [Z|Z]; [|lra]. exfalso. apply (No (to_vec n sg)).
        - split; [apply to_vec_length|]. rewrite Z, vscale_0, L in V. auto.
        - rewrite to_vec_nth by auto. auto. }
      exists (/ sg n). intros x Hx. destruct (Rle_dec (k * nth i x 0) 0) as [Q|Q].
      * assert (0 < / sg n) by (apply Rinv_0_lt_compat; auto). lra.
      * assert (Qp : 0 < k * nth i x 0) by lra. destruct (Get x Hx Qp) as (s & Gs & Es).
        specialize (M s Gs). rewrite !O, Es in M.
        rewrite <- (Rinv_inv (k * nth i x 0)). apply Rinv_le_contravar; auto. lra.
  - exists 0. intros x Hx. destruct (Rle_dec (k * nth i x 0) 0) as [Q|Q]; auto.
    exfalso. apply N. destruct (Get x Hx ltac:(lra)) as (s & Gs & _). eauto.
Qed.

Lemma ray_feas : forall n P i k sg, Forall (fun r => length r = n) P ->
  (gfeas (ray_lp n P i k) sg <-> polytope n P (zeros (length P)) (to_vec n sg) /\ sg i = k).
Proof.
  intros n P i k sg W. unfold gfeas, ray_lp, polytope. cbn [lp gvars grows]. rewrite Forall_app.
  assert (Lz : length (zeros (length P)) = length P) by apply repeat_length.
  rewrite (le_rows_ok n) by (auto; lia). rewrite firstn_same by auto.
  assert (E1 : Forall (row_ok sg) [mkRow [(1, i)] SEq k] <-> sg i = k).
  { split; intros H.
    - assert (H0 := Forall_inv H). unfold row_ok in H0. cbn in H0. unfold eval_terms in H0. cbn in H0. lra.
    - constructor; auto. unfold row_ok, eval_terms. cbn. lra. }
  rewrite E1. split.
  - intros (_ & H & E). split; auto. split; auto. apply to_vec_length.
  - intros ((_ & H) & E). split; auto. intros j v Ej. exact (free_ok n j v _ Ej).
Qed.
Lemma bounded_flags : forall solve n P, is_polyhedron_bounded solve n P = true ->
  forall i, (i < n)%nat -> solve (ray_lp n P i 1) = GInfeasible /\ solve (ray_lp n P i (-1)) = GInfeasible.
Proof.
  intros solve n P E i Hi. unfold is_polyhedron_bounded in E. rewrite forallb_forall in E.
  specialize (E i). rewrite in_seq in E. specialize (E ltac:(lia)). apply andb_true_iff in E.
  unfold infeasible in E. destruct E as [E1 E2].
  destruct (solve (ray_lp n P i 1)); try discriminate. destruct (solve (ray_lp n P i (-1))); try discriminate.
  auto.
Qed.

Lemma bounded_sound : forall solve n P q, solver_ok solve -> wfm (length q) n P ->
  is_polyhedron_bounded solve n P = true -> bounded_set (polytope n P q).
Proof.
  intros solve n P q SO [L W] E. assert (F := bounded_flags solve n P E).
  assert (B : forall i, (i < n)%nat -> exists K, forall x, polytope n P q x -> - K <= nth i x 0 <= K).
  { intros i Hi. destruct (F i Hi) as [F1 F2].
    assert (No : forall k, solve (ray_lp n P i k) = GInfeasible ->
      forall y, polytope n P (zeros (length P)) y -> nth i y 0 <> k).
    { intros k Ek y Hy Ey. assert (S := SO (ray_lp n P i k)). rewrite Ek in S. apply (S (of_vec y)).
      apply ray_feas; auto. split; [|exact Ey]. rewrite <- (proj1 Hy), to_of_vec, (proj1 Hy). auto. }
    destruct (no_ray_bound n P q i 1 W (eq_sym L) Hi) as [K1 H1]; [auto|apply No; auto|].
    destruct (no_ray_bound n P q i (-1) W (eq_sym L) Hi) as [K2 H2]; [auto|apply No; auto|].
    exists (Rmax K1 K2). intros x Hx. specialize (H1 x Hx). specialize (H2 x Hx).
    assert (M1 := Rmax_l K1 K2). assert (M2 := Rmax_r K1 K2). lra. }
  assert (C : forall m, (m <= n)%nat -> exists K, forall x, polytope n P q x -> forall i, (i < m)%nat ->
    - K <= nth i x 0 <= K).
  { induction m as [|m IH]; intros Hm.
    - exists 0. intros; lia.
    - destruct (IH ltac:(lia)) as [K1 H1]. destruct (B m ltac:(lia)) as [K2 H2].
      exists (Rmax K1 K2). intros x Hx i Hi. assert (M1 := Rmax_l K1 K2). assert (M2 := Rmax_r K1 K2).
      destruct (Nat.eq_dec i m) as [->|Ne].
      + specialize (H2 x Hx). lra.
      + specialize (H1 x Hx i ltac:(lia)). lra. }
  destruct (C n (le_n n)) as [K HK]. exists K. intros x Hx. apply Forall_forall. intros a Ia.
  destruct (In_nth x a 0 Ia) as (i & Hi & <-). apply HK; auto. rewrite <- (proj1 Hx). auto.
Qed.

Lemma bounded_complete : forall solve n P q, finds_infeasible solve -> wfm (length q) n P ->
  is_polyhedron_bounded solve n P = false -> (exists x, polytope n P q x) ->
  ~ bounded_set (polytope n P q).
Proof.
  intros solve n P q FI [L W] E [x0 H0] [K HK].
  assert (Ray : exists i k y, (i < n)%nat /\ (k = 1 \/ k = -1) /\
    polytope n P (zeros (length P)) y /\ nth i y 0 = k).
  { apply Classical_Prop.NNPP. intros No.
    assert (T : is_polyhedron_bounded solve n P = true); [|congruence].
    unfold is_polyhedron_bounded. apply forallb_forall. intros i Hi. apply in_seq in Hi.
    assert (Inf : forall k, (k = 1 \/ k = -1) -> solve (ray_lp n P i k) = GInfeasible).
    { intros k Hk. apply FI. intros sg G. apply ray_feas in G; auto. destruct G as [G Ei].
      apply No. exists i, k, (to_vec n sg). split; [lia|]. split; auto. split; auto.
      rewrite to_vec_nth by lia. auto. }
    rewrite !Inf by auto. auto. }
  destruct Ray as (i & k & y & Hi & Hk & [Ly Vy] & Ei). destruct H0 as [Lx Vx].
  set (t := K + 1 + Rabs (nth i x0 0)).
  assert (K0 : 0 <= K).
  { assert (F := HK x0 (conj Lx Vx)). rewrite Forall_forall in F. specialize (F (nth i x0 0)).
    assert (In (nth i x0 0) x0) by (apply nth_In; lia). specialize (F H). lra. }
  assert (Tp : 0 <= t) by (unfold t; assert (A := Rabs_pos (nth i x0 0)); lra).
  assert (Hz : polytope n P q (vadd x0 (vscale t y))).
  { split.
    - unfold vadd, vscale. rewrite map2_length, map_length. unfold vec in *. lia.
    - clear - Lx Ly Vx Vy Tp. unfold mv, vle in *. revert q Vx Vy.
      induction P as [|r P IH]; intros q Vx Vy; inversion Vx; subst; [constructor|].
      cbn [map length] in *. cbn [zeros repeat] in Vy. inversion Vy; subst. constructor.
      + rewrite dot_vadd_r by (unfold vscale; rewrite map_length; unfold vec in *; congruence).
        rewrite dot_vscale_r. assert (t * dot r y <= 0) by nra. lra.
      + apply IH; auto. }
  assert (F := HK _ Hz). rewrite Forall_forall in F.
  assert (Lz : length (vadd x0 (vscale t y)) = n) by apply Hz.
  specialize (F (nth i (vadd x0 (vscale t y)) 0) ltac:(apply nth_In; lia)).
  assert (Nz : nth i (vadd x0 (vscale t y)) 0 = nth i x0 0 + t * nth i y 0).
  { unfold vadd. rewrite (map2_nth_lt _ _ _ 0 0) by (unfold vscale; rewrite ?map_length; unfold vec in *; lia).
    rewrite vscale_nth. auto. }
  rewrite Nz, Ei in F.
  assert (A1 : - Rabs (nth i x0 0) <= nth i x0 0 <= Rabs (nth i x0 0)) by (apply abs_between; lra).
  destruct Hk; subst k; unfold t in F; lra.
Qed.

(** ** Modes *)

Lemma poly_finite : forall solve n P q i, solver_ok solve -> solver_total solve -> wfm (length q) n P ->
  (i < n)%nat -> (exists x, polytope n P q x) -> bounded_set (polytope n P q) ->
  exists lo up, compute_bounds_from_polytope solve n P q i = Some (Fin lo, Fin up).
Proof.
  intros solve n P q i SO ST [L W] Hi Ne [K HK]. rewrite cbp_unfold by auto.
  eapply both_finite with (X := polytope n P q) (f := fun x => nth i x 0); auto; intros.
  - apply coord_in; auto.
  - apply coord_out; auto.
  - exists K. intros x Hx. apply Rabs_le. assert (F := HK x Hx). rewrite Forall_forall in F. apply F.
    apply nth_In. rewrite (proj1 Hx). auto.
Qed.

Lemma mode_finite : forall solve nx nu h A B c P q, solver_ok solve -> solver_total solve ->
  h_nx h = nx -> h_nu h = nu -> finite_modes h ->
  wfm nx nx A -> wfm nx nu B -> length c = nx -> wfm (length q) (nx + nu) P ->
  (exists z, polytope (nx + nu) P q z) ->
  is_polyhedron_bounded solve (nx + nu) P = true ->
  exists h', add_mode (compute_bounds_from_polytope solve (nx + nu))
               (is_polyhedron_bounded solve (nx + nu)) h A B c P q true = Some h' /\ finite_modes h'.
Proof.
  intros solve nx nu h A B c P q SO ST Ex Eu Fi WA WB Lc WP Ne Bd.
  assert (BS := bounded_sound solve (nx + nu) P q SO WP Bd).
  assert (Ro : forall j, (j < nx + nu)%nat -> exists lo up,
    compute_bounds_from_polytope solve (nx + nu) P q j = Some (Fin lo, Fin up)).
  { intros j Hj. apply poly_finite; auto. }
  assert (Al : forall l, (forall j, In j l -> (j < nx + nu)%nat) -> exists lu,
    all_some (map (compute_bounds_from_polytope solve (nx + nu) P q) l) = Some lu /\
    Forall (fun e => exists r, e = Fin r) (map fst lu) /\ Forall (fun e => exists r, e = Fin r) (map snd lu)).
  { induction l as [|j l IH]; intros Hl.
    - exists []. cbn. auto.
    - destruct IH as (lu & E & F1 & F2); [intros; apply Hl; right; auto|].
      destruct (Ro j (Hl j (or_introl eq_refl))) as (lo & up & Ej).
      exists ((Fin lo, Fin up) :: lu). cbn [map all_some]. rewrite Ej, E. cbn [fst snd].
      split; auto. split; constructor; eauto. }
  destruct (Al (seq 0 (nx + nu))) as (lu & E & F1 & F2).
  { intros j Hj. apply in_seq in Hj. lia. }
  unfold add_mode. rewrite Ex, Eu. apply shape_ok_wfm in WA. apply shape_ok_wfm in WB.
  assert (LP : length P = length q) by apply WP.
  assert (WP' : wfm (length P) (nx + nu) P) by (split; [auto|apply WP]). apply shape_ok_wfm in WP'.
  rewrite WA, WB, WP', Lc, LP, !Nat.eqb_refl, Bd. cbn [andb negb orb]. rewrite E. eexists. split; [eauto|].
  unfold finite_modes. cbn [h_modes]. apply Forall_app. split; auto.
Qed.

(** ** The solver of the examples decides every program *)

Lemma one_sided : forall m, (exists sg, gfeas m sg) ->
  (exists K, forall sg, gfeas m sg -> if obj_max m then objective m sg <= K else K <= objective m sg) ->
  exists sg, gfeas m sg /\
    forall s, gfeas m s ->
      if obj_max m then objective m s <= objective m sg else objective m sg <= objective m s.
Proof.
  intros m [s0 G0] [K HK].
  assert (A : forall obj K', (forall sg, gfeas m sg -> eval_terms obj sg <= K') ->
    exists sg, gfeas m sg /\ forall s, gfeas m s -> eval_terms obj s <= eval_terms obj sg).
  { intros obj K' Ho. destruct (milp_attains (bin_vars 0 (gvars m)) (mip_ineqs m) obj K') as (sg & G & M).
    - exists s0. apply mip_ineqs_ok. auto.
    - intros sg H1 H2. apply Ho. apply mip_ineqs_ok. auto.
    - exists sg. split; [apply mip_ineqs_ok; auto|]. intros s Gs. apply mip_ineqs_ok in Gs.
      destruct Gs. apply M; auto. }
  unfold objective in *. destruct (obj_max m).
  - destruct (A (obj_terms m) (K - obj_const m)) as (sg & G & M).
    + intros sg G. specialize (HK sg G). lra.
    + exists sg. split; auto. intros s Gs. specialize (M s Gs). lra.
  - destruct (A (scale (-1) (obj_terms m)) (- K + obj_const m)) as (sg & G & M).
    + intros sg G. specialize (HK sg G). rewrite eval_scale. lra.
    + exists sg. split; auto. intros s Gs. specialize (M s Gs). rewrite !eval_scale in M. lra.
Qed.

Lemma poly_hybrid_exact : forall solve nx nu h x_lo x_up u_lo u_up c x u x', solver_ok solve ->
  built (compute_bounds_from_polytope solve (nx + nu)) (is_polyhedron_bounded solve (nx + nu)) nx nu h ->
  hybrid_mic h x_lo x_up u_lo u_up = Some c -> length x = nx -> length u = nu ->
  ((exists s b, bins b /\ mic_sat c (x ++ u) s b /\ output c (x ++ u) s b = x') <->
   opt_box x_lo x_up x /\ opt_box u_lo u_up u /\ hybrid_next h x u x').
Proof.
  intros solve nx nu h x_lo x_up u_lo u_up c x u x' SO B E Lx Lu.
  exact (hybrid_exact_prop _ _ nx nu h x_lo x_up u_lo u_up c x u x' (polytope_valid solve (nx + nu) SO) B E Lx Lu).
Qed.
