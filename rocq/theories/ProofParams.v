(** Proofs about the flat parameters of a network. *)

Require Import Reals List Bool Arith Lia Lra.
Require Import Verif.Vec Verif.VecFacts Verif.SpecCore Verif.ModelNet Verif.SpecNet Verif.ModelROptions
  Verif.ProofROptions Verif.ModelParams Verif.SpecParams.
Import ListNotations.
Open Scope R_scope.

Definition lin_size (i o : nat) (hb : bool) : nat := (i * o + if hb then o else 0)%nat.
Lemma skipn_add : forall {A} m n (l : list A), skipn m (skipn n l) = skipn (n + m) l.
Proof.
  intros A m n. induction n as [|n IH]; intros l; auto. destruct l as [|x l]; cbn [skipn Nat.add].
  - rewrite !skipn_nil. auto.
  - apply IH.
Qed.
Lemma firstn_add : forall {A} m n (l : list A), firstn (m + n) l = firstn m l ++ firstn n (skipn m l).
Proof.
  intros A m n. induction m as [|m IH]; intros l; auto. destruct l as [|x l]; cbn.
  - rewrite !firstn_nil. auto.
  - rewrite IH. auto.
Qed.
Lemma concat_chunks : forall m n v, length v = (m * n)%nat -> concat (chunks m n v) = v.
Proof.
  induction m as [|m IH]; intros n v L; cbn [chunks concat].
  - destruct v; [auto|discriminate].
  - rewrite IH by (rewrite skipn_length; lia). apply firstn_skipn.
Qed.
Lemma chunks_length : forall m n v, length (chunks m n v) = m.
Proof. induction m as [|m IH]; intros; cbn; auto. Qed.

Lemma set_linear_ok : forall i o hb params, (lin_size i o hb <= length params)%nat ->
  exists l, set_linear i o hb params = Some (l, skipn (lin_size i o hb) params) /\ lin_wf i l /\
    out_features l = o /\ biased l = hb /\ concat (lin_params l) = firstn (lin_size i o hb) params.
Proof.
  intros i o hb params H. unfold set_linear, reshape, lin_size in *.
  assert (Lw : length (firstn (i * o) params) = (o * i)%nat) by (rewrite firstn_length; lia).
  rewrite Lw, Nat.eqb_refl. cbn [check].
  assert (W : wfm o i (chunks o i (firstn (i * o) params))) by (apply chunks_wf; exact Lw).
  assert (C : concat (chunks o i (firstn (i * o) params)) = firstn (i * o) params) by (apply concat_chunks; exact Lw).
  destruct hb; eexists; (split; [rewrite ?skipn_add, ?Nat.add_0_r; reflexivity|]);
    unfold lin_wf, out_features, biased, lin_params; cbn [in_features weight bias].
  - rewrite chunks_length. split; [split; auto; split; auto|].
    + rewrite firstn_length, skipn_length. lia.
    + split; auto. split; auto. cbn [concat app]. rewrite C, app_nil_r. rewrite <- firstn_add. auto.
  - rewrite chunks_length. split; [split; auto; split; auto|].
    split; auto. split; auto. cbn [concat app]. rewrite C, app_nil_r, Nat.add_0_r. auto.
Qed.
Lemma lin_params_length : forall i l, lin_wf i l ->
  length (concat (lin_params l)) = lin_size i (out_features l) (biased l).
Proof.
  intros i l (_ & [W1 W2] & B). unfold lin_params, lin_size, biased.
  assert (L := concat_length i (weight l) W2). unfold out_features in *.
  destruct (bias l) as [b|]; cbn [concat]; rewrite !app_length; cbn [length]; unfold mat, vec in *; lia.
Qed.
Lemma set_linear_back : forall i l rest, lin_wf i l ->
  set_linear i (out_features l) (biased l) (concat (lin_params l) ++ rest) = Some (l, rest).
Proof.
  intros i l rest (E & [W1 W2] & B). unfold set_linear, lin_params, biased, out_features in *.
  assert (L := concat_length i (weight l) W2). assert (C := chunks_concat i (weight l) W2).
  destruct l as [i' W b]. cbn [in_features weight bias] in *. subst i'. unfold mat, vec in *.
  assert (Fw : forall t, firstn (i * length W) (concat W ++ t) = concat W).
  { intros t. rewrite firstn_app, firstn_all2 by lia. replace (i * length W - length (concat W))%nat with O by lia.
    cbn. apply app_nil_r. }
  assert (Sw : forall t, skipn (i * length W) (concat W ++ t) = t).
  { intros t. rewrite skipn_app, skipn_all2 by lia. replace (i * length W - length (concat W))%nat with O by lia.
    auto. }
  destruct b as [b|]; cbn [concat]; rewrite !app_nil_r; rewrite <- ?app_assoc; rewrite Fw, Sw;
    unfold reshape; rewrite L, Nat.eqb_refl; cbn [check]; rewrite C; auto.
  rewrite firstn_app, skipn_app, B, Nat.sub_diag, firstn_all2, skipn_all2 by lia. cbn. rewrite app_nil_r. auto.
Qed.

(** ** Chains of linear layers *)
Fixpoint chain_wf (n : nat) (ls : list linear) : Prop :=
  match ls with [] => True | l :: r => lin_wf n l /\ chain_wf (out_features l) r end.
Lemma shape_chain : forall N n, net_shape n N <-> chain_wf n (linears N).
Proof.
  intros [hs l] n. unfold net_shape, linears. cbn [hidden last_layer].
  revert n. induction hs as [|[h a] hs IH]; intros n; cbn [hidden_wf map app chain_wf].
  - split.
    + intros [ -> H]. auto.
    + intros [H _]. assert (E : in_features l = n) by apply H. rewrite E. auto.
  - rewrite <- IH. tauto.
Qed.
Definition flat (ls : list linear) : vec := concat (map (fun l => concat (lin_params l)) ls).
Lemma set_linears_ok : forall hb widths params, (1 <= length widths)%nat ->
  (param_count hb widths <= length params)%nat ->
  exists ls, set_linears hb widths params = Some ls /\ chain_wf (hd O widths) ls /\
    map out_features ls = tl widths /\ Forall (fun l => biased l = hb) ls /\
    flat ls = firstn (param_count hb widths) params.
Proof.
  intros hb. induction widths as [|i r IH]; intros params L H; [cbn in L; lia|].
  destruct r as [|o r].
  - exists []. cbn. repeat split; auto.
  - cbn [param_count] in H. fold (lin_size i o hb) in H.
    destruct (set_linear_ok i o hb params ltac:(lia)) as (l & E & W & Eo & Eb & Ec).
    destruct (IH (skipn (lin_size i o hb) params)) as (ls & E' & C & M & F & Fl).
    { cbn. lia. }
    { rewrite skipn_length. cbn [param_count] in *. lia. }
    exists (l :: ls). change (set_linears hb (i :: o :: r) params) with
      (match set_linear i o hb params with None => None
       | Some (l, rest) => option_map (cons l) (set_linears hb (o :: r) rest) end).
    rewrite E, E'. split; auto. split; [cbn [hd chain_wf]; rewrite Eo; auto|].
    split; [cbn [map tl] in *; rewrite Eo, M; auto|]. split; [constructor; auto|].
    unfold flat in *. cbn [map concat]. rewrite Ec, Fl.
    change (param_count hb (i :: o :: r)) with (lin_size i o hb + param_count hb (o :: r))%nat.
    rewrite firstn_add. auto.
Qed.
Lemma set_linears_back : forall hb ls n rest, chain_wf n ls -> Forall (fun l => biased l = hb) ls ->
  set_linears hb (n :: map out_features ls) (flat ls ++ rest) = Some ls.
Proof.
  intros hb. induction ls as [|l ls IH]; intros n rest C F; auto.
  destruct C as [W C]. assert (Eb := Forall_inv F). cbv beta in Eb.
  unfold flat. cbn [map concat]. rewrite <- app_assoc. fold (flat ls).
  change (set_linears hb (n :: out_features l :: map out_features ls) (concat (lin_params l) ++ flat ls ++ rest))
    with (match set_linear n (out_features l) hb (concat (lin_params l) ++ flat ls ++ rest) with None => None
       | Some (l', rest) => option_map (cons l') (set_linears hb (out_features l :: map out_features ls) rest) end).
  rewrite <- Eb, set_linear_back by auto. rewrite Eb.
  rewrite IH; auto. exact (Forall_inv_tail F).
Qed.
Lemma interleave_seq : forall slope ls, ls <> [] -> exists N,
  interleave slope ls = Some (sequential N) /\ linears N = ls /\ acts N = repeat (Leaky slope) (length ls - 1).
Proof.
  intros slope. induction ls as [|l r IH]; intros H; [contradiction|]. destruct r as [|l' r].
  - exists (mkNet [] l). auto.
  - destruct IH as (N & E & E1 & E2); [discriminate|]. exists (mkNet ((l, Leaky slope) :: hidden N) (last_layer N)).
    change (interleave slope (l :: l' :: r)) with
      (option_map (fun t => LLin l :: LAct (Leaky slope) :: t) (interleave slope (l' :: r))).
    rewrite E. split; [reflexivity|]. unfold linears, acts in *. cbn [hidden last_layer map app fst snd].
    rewrite E1, E2. split; auto. cbn [length]. rewrite !Nat.sub_succ, !Nat.sub_0_r. auto.
Qed.
Lemma all_params_seq : forall N, concat (all_params (sequential N)) = flat (linears N).
Proof.
  intros [hs l]. unfold sequential, linears, flat. cbn [hidden last_layer].
  induction hs as [|[h a] hs IH]; cbn [flat_map app map fst snd all_params].
  - rewrite app_nil_r. cbn [concat]. rewrite app_nil_r. auto.
  - rewrite concat_app, IH. auto.
Qed.
Lemma all_params_some : forall N, all_params (sequential N) <> [].
Proof. intros [[|[h a] hs] l]; cbn; discriminate. Qed.
Lemma extract_seq : forall N, extract_relu_parameters (sequential N) = Some (flat (linears N)).
Proof.
  intros N. unfold extract_relu_parameters. rewrite <- all_params_seq. assert (H := all_params_some N).
  destruct (all_params (sequential N)); [contradiction|auto].
Qed.

(** ** The structure *)
Definition slope_of (a : act) : R := match a with Relu => 0 | Leaky c => c end.
Definition extend_widths (w : list nat) (ls : list linear) : list nat :=
  match w with [] => match ls with [] => [] | l :: _ => in_features l :: map out_features ls end
  | _ => w ++ map out_features ls end.
Lemma structure_ok : forall N w s b hb c, (forall b', b = Some b' -> b' = hb) -> (forall s', s = Some s' -> s' = c) ->
  Forall (fun l => biased l = hb) (linears N) -> Forall (fun a => slope_of a = c) (acts N) ->
  structure (sequential N) w s b
  = Some (extend_widths w (linears N), match acts N with [] => s | _ => Some c end, Some hb).
Proof.
  intros [hs l] w s b hb c. unfold sequential, linears, acts. cbn [hidden last_layer].
  revert w s b. induction hs as [|[h a] hs IH]; intros w s b Hb Hs Fl Fa.
  - cbn [flat_map app structure map]. assert (El := Forall_inv Fl). cbv beta in El.
    fold (biased l). rewrite El.
    assert (E : (match b with None => Some (match w with [] => [in_features l; out_features l] | _ => w ++ [out_features l] end, s, Some hb)
      | Some b' => if Bool.eqb b' hb then Some (match w with [] => [in_features l; out_features l] | _ => w ++ [out_features l] end, s, Some hb) else None end)
      = Some (match w with [] => [in_features l; out_features l] | _ => w ++ [out_features l] end, s, Some hb)).
    { destruct b as [b'|]; auto. rewrite (Hb b' eq_refl), Bool.eqb_reflx. auto. }
    rewrite E. destruct w; auto.
  - cbn [flat_map app map fst snd]. cbn [structure]. assert (El := Forall_inv Fl). cbv beta in El. cbn [map fst] in El.
    fold (biased h). rewrite El. cbn [map fst snd] in Fl, Fa.
    assert (Fl' := Forall_inv_tail Fl). assert (Fa' := Forall_inv_tail Fa). assert (Ea := Forall_inv Fa).
    cbv beta in Ea. fold (slope_of a). rewrite Ea.
    set (w' := match w with [] => [in_features h; out_features h] | _ => w ++ [out_features h] end).
    assert (G : structure (flat_map (fun la : linear * act => [LLin (fst la); LAct (snd la)]) hs ++ [LLin l]) w' (Some c) (Some hb)
      = Some (extend_widths w (h :: map fst hs ++ [l]), Some c, Some hb)).
    { rewrite (IH w' (Some c) (Some hb)); auto; try (intros x Hx; injection Hx; auto).
      f_equal. f_equal. f_equal.
      - unfold extend_widths, w'. destruct w as [|w0 w].
        + cbn [map app]. auto.
        + cbn [map app]. rewrite <- app_assoc. auto.
      - destruct (map snd hs); auto. }
    assert (K : match s with None => structure (flat_map (fun la : linear * act => [LLin (fst la); LAct (snd la)]) hs ++ [LLin l]) w' (Some c) (Some hb)
      | Some s' => if Reqb s' c then structure (flat_map (fun la : linear * act => [LLin (fst la); LAct (snd la)]) hs ++ [LLin l]) w' s (Some hb) else None end
      = Some (extend_widths w (h :: map fst hs ++ [l]), Some c, Some hb)).
    { destruct s as [s'|]; auto. assert (Es := Hs s' eq_refl). subst s'. unfold Reqb.
      destruct (Req_EM_T c c); [exact G|contradiction]. }
    destruct b as [b'|].
    + rewrite (Hb b' eq_refl), Bool.eqb_reflx. exact K.
    + exact K.
Qed.
Lemma structure_inv : forall N w s b w' s' b', structure (sequential N) w s b = Some (w', s', b') ->
  exists hb, (forall x, b = Some x -> x = hb) /\ Forall (fun l => biased l = hb) (linears N) /\ b' = Some hb /\
    ((acts N = [] /\ s' = s) \/ exists c, s' = Some c /\ (forall x, s = Some x -> x = c) /\
       Forall (fun a => slope_of a = c) (acts N)).
Proof.
  intros [hs l] w s b. unfold sequential, linears, acts. cbn [hidden last_layer].
  revert w s b. induction hs as [|[h a] hs IH]; intros w s b w' s' b' E.
  - cbn [flat_map app structure] in E. fold (biased l) in E. exists (biased l). cbn [map app].
    destruct b as [x|].
    + destruct (Bool.eqb x (biased l)) eqn:Eq; [|discriminate]. apply Bool.eqb_prop in Eq. injection E as _ Es Eb.
      split; [intros y Hy; congruence|]. split; [constructor; auto|]. split; [congruence|]. left. split; congruence.
    + injection E as _ Es Eb. split; [intros y Hy; discriminate|]. split; [constructor; auto|].
      split; [congruence|]. left. split; congruence.
  - cbn [flat_map app] in E. cbn [structure fst snd] in E. fold (biased h) in E. fold (slope_of a) in E.
    set (w1 := match w with [] => [in_features h; out_features h] | _ => w ++ [out_features h] end) in *.
    set (rest := flat_map (fun la : linear * act => [LLin (fst la); LAct (snd la)]) hs ++ [LLin l]) in *.
    assert (K : (forall x, b = Some x -> x = biased h) /\ (forall x, s = Some x -> x = slope_of a) /\
      structure rest w1 (Some (slope_of a)) (Some (biased h)) = Some (w', s', b')).
    { destruct b as [x|].
      - destruct (Bool.eqb x (biased h)) eqn:Eq; [|discriminate]. apply Bool.eqb_prop in Eq. subst x.
        split; [intros x Hx; congruence|]. destruct s as [y|].
        + unfold Reqb in E. destruct (Req_EM_T y (slope_of a)) as [ -> |]; [|discriminate].
          split; [intros x Hx; congruence|auto].
        + split; [intros x Hx; discriminate|auto].
      - split; [intros x Hx; discriminate|]. destruct s as [y|].
        + unfold Reqb in E. destruct (Req_EM_T y (slope_of a)) as [ -> |]; [|discriminate].
          split; [intros x Hx; congruence|auto].
        + split; [intros x Hx; discriminate|auto]. }
    destruct K as (K1 & K2 & K3). destruct (IH _ _ _ _ _ _ K3) as (hb & H1 & H2 & H3 & H4).
    assert (Eh : biased h = hb) by (apply H1; auto). exists hb. split; [intros x Hx; rewrite (K1 x Hx); auto|].
    cbn [map fst snd]. split; [constructor; auto|]. split; auto. right.
    destruct H4 as [[Ea Es]|(c & Es & Hc & F)].
    + exists (slope_of a). split; auto. split; auto. rewrite Ea. constructor; auto.
    + exists c. assert (Ec : slope_of a = c) by (apply Hc; auto). split; auto. split; [intros x Hx; rewrite (K2 x Hx); auto|].
      constructor; auto.
Qed.

(** ** Round trips *)
Lemma setup_round_trip : forall widths params slope hb, (2 <= length widths)%nat ->
  length params = param_count hb widths ->
  exists N, setup_relu widths params slope hb = Some (sequential N) /\ net_shape (hd O widths) N /\
    acts N = repeat (Leaky slope) (length widths - 2) /\
    extract_relu_parameters (sequential N) = Some params /\
    extract_relu_structure (sequential N)
    = Some (widths, if Nat.eqb (length widths) 2 then None else Some slope, Some hb).
Proof.
  intros widths params slope hb H L.
  destruct (set_linears_ok hb widths params) as (ls & E & C & M & F & Fl); [lia|lia|].
  assert (Ll : length ls = (length widths - 1)%nat).
  { rewrite <- (map_length out_features), M. destruct widths; cbn; lia. }
  destruct (interleave_seq slope ls) as (N & E1 & E2 & E3).
  { intros ->. cbn in Ll. lia. }
  exists N. unfold setup_relu. rewrite E, E1. split; auto.
  rewrite shape_chain, E2. split; auto. split; [rewrite E3, Ll; f_equal; lia|].
  rewrite extract_seq, E2, Fl, <- L, firstn_all. split; auto.
  unfold extract_relu_structure. rewrite (structure_ok N [] None None hb slope); try discriminate.
  - rewrite E2, E3. f_equal. f_equal. f_equal.
    + unfold extend_widths. destruct widths as [|w0 [|w1 widths]]; [cbn in H; lia|cbn in H; lia|].
      destruct ls as [|l ls]; [discriminate|]. rewrite M. cbn [hd chain_wf] in C. cbn [tl].
      destruct C as [[ -> _ ] _]. auto.
    + rewrite Ll. destruct (Nat.eqb_spec (length widths) 2) as [K|K].
      * rewrite K. auto.
      * destruct (length widths) as [|[|[|k]]]; try lia. cbn. auto.
  - rewrite E2. auto.
  - rewrite E3. apply Forall_forall. intros a Ha. apply repeat_spec in Ha. rewrite Ha. auto.
Qed.

Lemma update_ok : forall hs l n params, chain_wf n (map fst hs ++ [l]) ->
  length params = list_sum (map (fun l => lin_size (in_features l) (out_features l) (biased l)) (map fst hs ++ [l])) ->
  exists hs' l',
    update_relu_params (flat_map (fun la : linear * act => [LLin (fst la); LAct (snd la)]) hs ++ [LLin l]) params
    = Some (flat_map (fun la : linear * act => [LLin (fst la); LAct (snd la)]) hs' ++ [LLin l']) /\
    chain_wf n (map fst hs' ++ [l']) /\ map snd hs' = map snd hs /\
    Forall2 (fun a b => in_features a = in_features b /\ out_features a = out_features b /\ biased a = biased b)
      (map fst hs' ++ [l']) (map fst hs ++ [l]) /\
    flat (map fst hs' ++ [l']) = params.
Proof.
  induction hs as [|[h a] hs IH]; intros l n params C L.
  - cbn [map app flat_map] in *. destruct C as [W _].
    assert (E0 : in_features l = n) by apply W.
    unfold list_sum in L. cbn [fold_right] in L. rewrite Nat.add_0_r, E0 in L.
    destruct (set_linear_ok n (out_features l) (biased l) params) as (l' & E & W' & Eo & Eb & Ec); [lia|].
    exists [], l'. cbn [map app flat_map update_relu_params]. fold (biased l). rewrite E0, E.
    cbn [option_map]. split; auto. split; [split; auto; exact I|]. split; auto.
    split; [constructor; [|constructor]; split; [|auto]; destruct W'; congruence|].
    unfold flat. cbn [map concat]. rewrite app_nil_r, Ec, <- L. apply firstn_all.
  - cbn [map app fst snd] in *. destruct C as [W C].
    assert (E0 : in_features h = n) by apply W.
    change (list_sum (lin_size (in_features h) (out_features h) (biased h) :: map (fun l => lin_size (in_features l) (out_features l) (biased l)) (map fst hs ++ [l])))
      with (lin_size (in_features h) (out_features h) (biased h) + list_sum (map (fun l => lin_size (in_features l) (out_features l) (biased l)) (map fst hs ++ [l])))%nat in L.
    rewrite E0 in L.
    destruct (set_linear_ok n (out_features h) (biased h) params) as (h' & E & W' & Eo & Eb & Ec); [lia|].
    destruct (IH l (out_features h) (skipn (lin_size n (out_features h) (biased h)) params) C) as
      (hs' & l' & U & C' & S' & F' & Fl').
    { rewrite skipn_length. lia. }
    exists ((h', a) :: hs'), l'. cbn [flat_map app fst snd map update_relu_params]. fold (biased h). rewrite E0, E.
    rewrite U. cbn [option_map app]. split; auto. split; [split; auto; rewrite Eo; auto|].
    split; [rewrite S'; auto|]. split.
    { constructor; auto. split; [destruct W'; congruence|auto]. }
    unfold flat in *. cbn [map concat]. rewrite Fl', Ec. apply firstn_skipn.
Qed.
Lemma update_round_trip : forall n N params, net_shape n N -> length params = net_count N ->
  exists N', update_relu_params (sequential N) params = Some (sequential N') /\ net_shape n N' /\
    acts N' = acts N /\
    Forall2 (fun a b => in_features a = in_features b /\ out_features a = out_features b /\ biased a = biased b)
      (linears N') (linears N) /\
    extract_relu_parameters (sequential N') = Some params.
Proof.
  intros n [hs l] params H L. rewrite shape_chain in H. unfold net_count, linears in *. cbn [hidden last_layer] in *.
  destruct (update_ok hs l n params H L) as (hs' & l' & U & C & S' & F & Fl).
  exists (mkNet hs' l'). unfold sequential at 1 2. cbn [hidden last_layer]. rewrite U. split; auto.
  rewrite shape_chain, extract_seq. unfold linears, acts. cbn [hidden last_layer]. rewrite Fl. auto.
Qed.
Lemma update_same : forall n N p, net_shape n N -> extract_relu_parameters (sequential N) = Some p ->
  update_relu_params (sequential N) p = Some (sequential N).
Proof.
  intros n [hs l] p H E. rewrite shape_chain in H. rewrite extract_seq in E. injection E as <-.
  unfold linears, sequential in *. cbn [hidden last_layer] in *. revert n H.
  induction hs as [|[h a] hs IH]; intros n C; cbn [map app flat_map fst snd] in *.
  - destruct C as [W _]. assert (E0 : in_features l = n) by apply W. unfold flat. cbn [map concat].
    cbn [update_relu_params]. fold (biased l). rewrite E0, set_linear_back by auto. auto.
  - destruct C as [W C]. assert (E0 : in_features h = n) by apply W. unfold flat. cbn [map concat].
    cbn [update_relu_params]. fold (biased h). rewrite E0, set_linear_back by auto.
    fold (flat (map fst hs ++ [l])). rewrite (IH _ C). auto.
Qed.

Lemma act_same : forall a x, act_fun a x = act_fun (Leaky (slope_of a)) x.
Proof.
  intros [|c] x; auto. cbn. unfold relu, leaky. rewrite ?Rmult_0_l.
  unfold Rmax. destruct (Rle_dec x 0), (Rle_dec 0 x); lra.
Qed.
Lemma eval_same : forall N N' x, linears N' = linears N ->
  Forall2 (fun a b => forall y, act_fun a y = act_fun b y) (acts N') (acts N) -> net_eval N' x = net_eval N x.
Proof.
  intros [hs l] [hs' l'] x. unfold linears, acts, net_eval. cbn [hidden last_layer]. intros E F.
  assert (Eh : map fst hs' = map fst hs /\ l' = l) by (apply app_inj_tail in E; auto).
  destruct Eh as [Eh ->]. f_equal. clear E. revert hs' x Eh F.
  induction hs as [|[h a] hs IH]; intros [|[h' a'] hs'] x Eh F; try discriminate; auto.
  cbn [map fst snd] in *. injection Eh as -> Eh. cbn [hidden_eval].
  inversion F as [|p q r t Fa Ft]; subst.
  replace (map (act_fun a') (lin_eval h x)) with (map (act_fun a) (lin_eval h x)).
  - apply IH; auto.
  - apply map_ext. intros y. symmetry. apply Fa.
Qed.
Lemma rebuild : forall n N widths slope hb p, net_shape n N ->
  extract_relu_structure (sequential N) = Some (widths, slope, hb) ->
  extract_relu_parameters (sequential N) = Some p ->
  exists b, hb = Some b /\ forall c, (slope = None \/ slope = Some c) ->
  exists N', setup_relu widths p c b = Some (sequential N') /\ linears N' = linears N /\
    forall x, net_eval N' x = net_eval N x.
Proof.
  intros n N widths slope hb p H Es Ep. rewrite shape_chain in H. rewrite extract_seq in Ep. injection Ep as <-.
  destruct (structure_inv N [] None None widths slope hb Es) as (b & _ & Fb & -> & Hs).
  exists b. split; auto. intros c Hc.
  assert (Fa : Forall (fun a => slope_of a = c) (acts N)).
  { destruct Hs as [[-> _]|(c' & -> & _ & F)]; [constructor|]. destruct Hc as [Hc|Hc]; [discriminate|].
    injection Hc as ->. auto. }
  unfold extract_relu_structure in Es. rewrite (structure_ok N [] None None b c) in Es; auto; try discriminate.
  assert (Ew : extend_widths [] (linears N) = widths) by congruence. clear Es.
  assert (Ew' : widths = n :: map out_features (linears N)).
  { rewrite <- Ew. unfold extend_widths. destruct (linears N) as [|l ls] eqn:El.
    - unfold linears in El. apply app_eq_nil in El. destruct El. discriminate.
    - destruct H as [[ -> _ ] _]. auto. }
  unfold setup_relu. rewrite Ew'. assert (B := set_linears_back b (linears N) n [] H Fb). rewrite app_nil_r in B.
  rewrite B. destruct (interleave_seq c (linears N)) as (N' & E1 & E2 & E3).
  { unfold linears. intros K. apply app_eq_nil in K. destruct K. discriminate. }
  exists N'. split; auto. split; auto. intros x. apply eval_same; auto. rewrite E3.
  assert (La : (length (linears N) - 1)%nat = length (acts N)).
  { unfold linears, acts. rewrite app_length, !map_length. cbn. lia. }
  rewrite La. clear - Fa. induction (acts N) as [|a r IH]; [constructor|]. cbn [length repeat].
  assert (Ha := Forall_inv Fa). cbv beta in Ha. constructor; [|apply IH; exact (Forall_inv_tail Fa)].
  intros y. rewrite (act_same a), Ha. auto.
Qed.

(** ** Views *)
Lemma views_read : forall mem c relu count relu', update_views mem c count relu = Some relu' ->
  forall mem', length (mem' c) = length (mem c) ->
  update_relu_params (map (read_layer mem) relu) (skipn count (mem' c)) = Some (map (read_layer mem') relu').
Proof.
  intros mem c. induction relu as [|[l|a|] r IH]; intros count relu' E mem' Hl; cbn [update_views] in E.
  - injection E as <-. auto.
  - apply check_inv in E. destruct E as [Ec E]. apply Nat.eqb_eq in Ec. unfold slice in Ec.
    rewrite firstn_length, skipn_length in Ec. cbn [map read_layer update_relu_params].
    unfold set_linear, reshape. cbn [read_lin in_features bias]. unfold out_features. cbn [read_lin weight].
    rewrite chunks_length, firstn_length, skipn_length, Hl.
    rewrite Ec, Nat.eqb_refl. cbn [check]. destruct (v_b l) as [vb|]; cbn [option_map] in *.
    + destruct (update_views mem c (count + v_in l * v_out l + v_out l) r) as [r'|] eqn:Er; [|discriminate].
      injection E as <-. rewrite !skipn_add. rewrite (IH _ _ Er mem' Hl). cbn [option_map map read_layer].
      unfold read_lin, read_view, slice. cbn [v_in v_out v_w v_b fst snd option_map]. auto.
    + destruct (update_views mem c (count + v_in l * v_out l) r) as [r'|] eqn:Er; [|discriminate].
      injection E as <-. rewrite !skipn_add. rewrite (IH _ _ Er mem' Hl). cbn [option_map map read_layer].
      unfold read_lin, read_view, slice. cbn [v_in v_out v_w v_b fst snd option_map]. auto.
  - destruct (update_views mem c count r) as [r'|] eqn:Er; [|discriminate]. injection E as <-.
    cbn [map read_layer update_relu_params]. rewrite (IH _ _ Er mem' Hl). auto.
  - destruct (update_views mem c count r) as [r'|] eqn:Er; [|discriminate]. injection E as <-.
    cbn [map read_layer update_relu_params]. rewrite (IH _ _ Er mem' Hl). auto.
Qed.
Lemma updated_follows : forall mem c relu relu' n N, update_views mem c 0 relu = Some relu' ->
  map (read_layer mem) relu = sequential N -> net_shape n N -> length (mem c) = net_count N ->
  forall mem', length (mem' c) = length (mem c) ->
  extract_relu_parameters (map (read_layer mem') relu') = Some (mem' c).
Proof.
  intros mem c relu relu' n N E Er H L mem' Hl. assert (U := views_read mem c relu 0 relu' E mem' Hl).
  cbn [skipn] in U. rewrite Er in U.
  destruct (update_round_trip n N (mem' c) H) as (N' & U' & _ & _ & _ & X); [congruence|].
  rewrite U in U'. injection U' as ->. exact X.
Qed.

(** ** Examples *)
Lemma setup_case : exists N, setup_relu [2; 2; 1]%nat [1; 2; 3; 4; 5; 6; 7; 8; 9] (1/10) true = Some (sequential N) /\
  linears N = [mkLin 2 [[1; 2]; [3; 4]] (Some [5; 6]); mkLin 2 [[7; 8]] (Some [9])].
Proof.
  exists (mkNet [(mkLin 2 [[1; 2]; [3; 4]] (Some [5; 6]), Leaky (1/10))] (mkLin 2 [[7; 8]] (Some [9]))).
  split; reflexivity.
Qed.
(** Too few parameters for the last bias are accepted. *)
Lemma short_bias : setup_relu [1; 2]%nat [1; 2; 3] (1/10) true = Some [LLin (mkLin 1 [[1]; [2]] (Some [3]))] /\
  (length [1; 2; 3] < param_count true [1; 2])%nat.
Proof. split; [reflexivity|cbn; lia]. Qed.
(** Writing to the tensor that was passed to update_relu_params changes the network. *)
Lemma alias_case : exists mem mem' relu relu' N, 
  update_views mem 0 0 relu = Some relu' /\ map (read_layer mem) relu = sequential N /\ net_shape 1 N /\
  mem O = [2] /\ mem' O = [3] /\ (forall c, c <> O -> mem' c = mem c) /\
  extract_relu_parameters (map (read_layer mem) relu') = Some [2] /\
  extract_relu_parameters (map (read_layer mem') relu') = Some [3].
Proof.
  exists (fun c => match c with O => [2] | _ => [1] end), (fun c => match c with O => [3] | _ => [1] end),
    [VLin (mkVLin 1 1 (1, 0)%nat None)], [VLin (mkVLin 1 1 (0, 0)%nat None)], (mkNet [] (mkLin 1 [[1]] None)).
  split; [reflexivity|]. split; [reflexivity|]. split.
  { split; [reflexivity|]. split; [reflexivity|]. split; [|exact I]. split; [reflexivity|]. constructor; auto. }
  split; [reflexivity|]. split; [reflexivity|]. split; [intros [|c] H; [contradiction|auto]|].
  split; reflexivity.
Qed.
