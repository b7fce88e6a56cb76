(** Shapes of images and of the layers of ModelImage. *)

Require Import Reals List Bool Arith ZArith Lia Lra ZifyNat ZifyClasses.
Require Import Verif.Vec Verif.VecFacts Verif.ModelNet Verif.SpecNet Verif.ModelLyapunov Verif.ModelLatent
  Verif.ProofBounds Verif.ProofNet Verif.ProofWarm Verif.ModelImage Verif.SpecImage.
Import ListNotations.
Open Scope R_scope.
Ltac Zify.zify_post_hook ::= Z.to_euclidean_division_equations.

(** ** Linear layers *)

Lemma shaped_inputs : forall dims N, shaped dims N -> inputs N = hd O dims.
Proof.
  intros dims N (W & _). unfold widths in W. unfold inputs. destruct (hidden N) as [|[l a] hs]; cbn in W; subst; auto.
Qed.
Lemma shaped_outputs : forall dims N, shaped dims N -> out_features (last_layer N) = last dims O.
Proof.
  intros dims N (W & _). unfold widths in W. rewrite <- W.
  change [in_features (last_layer N); out_features (last_layer N)]
    with ([in_features (last_layer N)] ++ [out_features (last_layer N)]).
  rewrite app_assoc, last_last. auto.
Qed.
Lemma shaped_forward : forall dims N x, shaped dims N -> length x = hd O dims ->
  lin_forward N x = Some (net_eval N x) /\ length (net_eval N x) = last dims O.
Proof.
  intros dims N x S L. pose proof (shaped_inputs _ _ S) as I. pose proof (shaped_outputs _ _ S) as Q.
  destruct S as (W & _ & Wh & Wl). split.
  - unfold lin_forward. rewrite I, L, Nat.eqb_refl. f_equal.
    unfold forward, compute_relu_unit_outputs_and_activation.
    rewrite (unit_outputs_spec _ _ _ _ Wh L). cbn [snd]. unfold net_eval.
    rewrite (lin_eval_bias (last_layer N)); auto.
    rewrite (hidden_eval_length _ _ _ _ Wh L). apply Wl.
  - rewrite <- Q. unfold net_eval. eapply lin_eval_length; [exact Wl|]. apply (hidden_eval_length _ _ _ _ Wh L).
Qed.
Lemma lin_forward_wrong : forall dims N x, shaped dims N -> length x <> hd O dims -> lin_forward N x = None.
Proof.
  intros dims N x S L. unfold lin_forward. rewrite (shaped_inputs _ _ S).
  destruct (Nat.eqb_spec (length x) (hd O dims)); [contradiction|auto].
Qed.

(** ** Flattening *)

Lemma concat_length_const : forall A (ls : list (list A)) n, Forall (fun l => length l = n) ls ->
  length (concat ls) = (length ls * n)%nat.
Proof. induction ls as [|a ls IH]; intros n F; cbn; auto. inversion F; subst. rewrite app_length, (IH _ H2); auto. Qed.
Lemma nth_concat_const : forall A (d : A) (ls : list (list A)) n i j, Forall (fun l => length l = n) ls ->
  (i < length ls)%nat -> (j < n)%nat -> nth (i * n + j) (concat ls) d = nth j (nth i ls []) d.
Proof.
  induction ls as [|a ls IH]; intros n i j F Hi Hj; cbn in Hi; [lia|].
  inversion F; subst. destruct i; cbn [concat nth].
  - cbn. rewrite app_nth1; auto.
  - rewrite app_nth2 by (cbn; lia).
    replace (S i * length a + j - length a)%nat with (i * length a + j)%nat by (cbn; lia). apply IH; auto. lia.
Qed.
Lemma nth_map_seq : forall A (f : nat -> A) d n k, (k < n)%nat -> nth k (map f (seq 0 n)) d = f k.
Proof.
  intros. rewrite (nth_indep _ d (f O)) by (rewrite map_length, seq_length; auto).
  rewrite (map_nth f). rewrite seq_nth; auto.
Qed.

Lemma rows_const : forall (x : tensor) c,
  Forall (fun l => length l = t_h x) (map (fun i => map (fun j => t_at x c i j) (seq 0 (t_h x))) (seq 0 (t_w x))).
Proof.
  intros. apply Forall_forall. intros l I. apply in_map_iff in I. destruct I as (i & <- & _).
  rewrite map_length, seq_length; auto.
Qed.
Lemma channel_length : forall x c, length (channel x c) = (t_w x * t_h x)%nat.
Proof.
  intros. unfold channel. rewrite (concat_length_const _ _ (t_h x)) by apply rows_const.
  rewrite map_length, seq_length; auto.
Qed.
Lemma channel_nth : forall x c i j, (i < t_w x)%nat -> (j < t_h x)%nat ->
  nth (i * t_h x + j) (channel x c) 0 = t_at x c i j.
Proof.
  intros x c i j Hi Hj. unfold channel. rewrite (nth_concat_const _ _ _ (t_h x)); auto.
  - rewrite nth_map_seq by auto. apply nth_map_seq; auto.
  - apply rows_const.
  - rewrite map_length, seq_length; auto.
Qed.
Lemma channels_const : forall x, Forall (fun l : vec => length l = (t_w x * t_h x)%nat) (map (channel x) (seq 0 (t_c x))).
Proof.
  intros. apply Forall_forall. intros l I. apply in_map_iff in I. destruct I as (i & <- & _). apply channel_length.
Qed.
Lemma flatten_length : forall x, length (flatten x) = (t_c x * t_w x * t_h x)%nat.
Proof.
  intros. unfold flatten. rewrite (concat_length_const _ _ (t_w x * t_h x)) by apply channels_const.
  rewrite map_length, seq_length. lia.
Qed.
Lemma flatten_nth : forall x c i j, inside x c i j -> nth (flat_index x c i j) (flatten x) 0 = t_at x c i j.
Proof.
  intros x c i j (Hc & Hi & Hj). unfold flatten, flat_index.
  replace (c * t_w x * t_h x + i * t_h x + j)%nat with (c * (t_w x * t_h x) + (i * t_h x + j))%nat by lia.
  rewrite (nth_concat_const _ _ _ (t_w x * t_h x)).
  - rewrite nth_map_seq by auto. apply channel_nth; auto.
  - apply channels_const.
  - rewrite map_length, seq_length; auto.
  - nia.
Qed.

Lemma index_split : forall w h n, (n < w * h)%nat -> (n = n / h * h + n mod h /\ n / h < w /\ n mod h < h)%nat.
Proof.
  intros w h n L. assert (h <> 0)%nat by nia.
  pose proof (Nat.div_mod n h H). pose proof (Nat.mod_upper_bound n h H).
  repeat split; [lia| |lia]. apply Nat.div_lt_upper_bound; auto. lia.
Qed.
(** Every entry of the flattened image is one entry of the image. *)
Lemma flat_index_onto : forall x n, (n < t_c x * t_w x * t_h x)%nat ->
  exists c i j, inside x c i j /\ n = flat_index x c i j.
Proof.
  intros x n L. destruct (index_split (t_c x) (t_w x * t_h x) n) as (E & Hc & Hn); [lia|].
  destruct (index_split (t_w x) (t_h x) (n mod (t_w x * t_h x)) Hn) as (E2 & Hi & Hj).
  exists (n / (t_w x * t_h x))%nat, (n mod (t_w x * t_h x) / t_h x)%nat, ((n mod (t_w x * t_h x)) mod t_h x)%nat.
  split; [repeat split; auto|]. unfold flat_index. rewrite <- Nat.add_assoc, <- E2.
  rewrite <- Nat.mul_assoc. exact E.
Qed.
Lemma flat_index_inj : forall x c i j c' i' j', inside x c i j -> inside x c' i' j' ->
  flat_index x c i j = flat_index x c' i' j' -> c = c' /\ i = i' /\ j = j'.
Proof.
  unfold flat_index. intros x c i j c' i' j' (Hc & Hi & Hj) (Hc' & Hi' & Hj') E.
  assert (A : (c * (t_w x * t_h x) + (i * t_h x + j) = c' * (t_w x * t_h x) + (i' * t_h x + j'))%nat) by lia.
  assert (c = c').
  { assert ((i * t_h x + j < t_w x * t_h x)%nat) by nia. assert ((i' * t_h x + j' < t_w x * t_h x)%nat) by nia.
    rewrite (Nat.div_unique (c * (t_w x * t_h x) + (i * t_h x + j)) (t_w x * t_h x) c (i * t_h x + j)) by lia.
    rewrite (Nat.div_unique (c * (t_w x * t_h x) + (i * t_h x + j)) (t_w x * t_h x) c' (i' * t_h x + j')) by lia. auto. }
  subst c'. assert (B : (i * t_h x + j = i' * t_h x + j')%nat) by lia.
  assert (i = i').
  { rewrite (Nat.div_unique (i * t_h x + j) (t_h x) i j) by lia.
    rewrite (Nat.div_unique (i * t_h x + j) (t_h x) i' j') by lia. auto. }
  subst i'. repeat split; lia.
Qed.

Lemma flatten_view : forall c w h v y, view c w h v = Some y -> has_shape c w h y /\ flatten y = v.
Proof.
  unfold view. intros c w h v y E. destruct (Nat.eqb_spec (length v) (c * w * h)); [|discriminate].
  injection E as <-. split; [repeat split; auto|].
  set (y := mkTensor c w h _). apply (nth_ext _ _ 0 0).
  - rewrite flatten_length. auto.
  - intros n L. rewrite flatten_length in L. destruct (flat_index_onto y n L) as (k & i & j & I & ->).
    rewrite flatten_nth by auto. reflexivity.
Qed.
Lemma view_ok : forall c w h v, length v = (c * w * h)%nat -> exists y, view c w h v = Some y.
Proof. intros. unfold view. rewrite H, Nat.eqb_refl. eauto. Qed.

Lemma flatten_tmap : forall f x, flatten (tmap f x) = map f (flatten x).
Proof.
  intros. unfold flatten, channel. rewrite !concat_map, !map_map. cbn. f_equal. apply map_ext. intros c.
  rewrite concat_map, map_map. f_equal. apply map_ext. intros i. rewrite map_map. auto.
Qed.

(** ** Shapes after layers *)

Definition shape := (nat * nat * nat)%type.
Definition shape_of (x : tensor) : shape := (t_c x, t_w x, t_h x).
Definition layer_shape (l : ilayer) (s : shape) : option shape :=
  let '(c, w, h) := s in
  match l with
  | Conv cin cout k stride pad _ =>
      if (Nat.eqb c cin && Nat.leb k (w + 2 * pad) && Nat.leb k (h + 2 * pad))%bool
      then Some (cout, ((w + 2 * pad - k) / stride + 1)%nat, ((h + 2 * pad - k) / stride + 1)%nat) else None
  | Pool => if (Nat.leb 2 w && Nat.leb 2 h)%bool then Some (c, (w / 2)%nat, (h / 2)%nat) else None
  | ConvT cin cout k stride _ =>
      if (Nat.eqb c cin && Nat.ltb 0 w && Nat.ltb 0 h)%bool
      then Some (cout, ((w - 1) * stride + k)%nat, ((h - 1) * stride + k)%nat) else None
  | Up => Some (c, (2 * w)%nat, (2 * h)%nat)
  end.
Fixpoint layers_shape (ls : list ilayer) (s : shape) : option shape :=
  match ls with
  | [] => Some s
  | l :: ls' => match layer_shape l s with Some t => layers_shape ls' t | None => None end
  end.

Lemma apply_shape : forall l x, option_map shape_of (apply_layer l x) = layer_shape l (shape_of x).
Proof.
  intros l x. destruct l; cbn [apply_layer layer_shape shape_of]; try reflexivity;
    match goal with |- context [if ?b then _ else _] => destruct b end; reflexivity.
Qed.
Lemma plain_shape : forall ls x, option_map shape_of (plain_layers ls x) = layers_shape ls (shape_of x).
Proof.
  induction ls as [|l ls IH]; intros x; cbn [plain_layers layers_shape]; auto.
  rewrite <- apply_shape. destruct (apply_layer l x); cbn; auto.
Qed.
Lemma relu_shape : forall ls x, option_map shape_of (relu_layers ls x) = layers_shape ls (shape_of x).
Proof.
  induction ls as [|l ls IH]; intros x; cbn [relu_layers layers_shape]; auto.
  rewrite <- apply_shape. destruct (apply_layer l x); cbn [option_map]; auto. rewrite IH. reflexivity.
Qed.
Lemma decoder_shape : forall ls x, option_map shape_of (decoder_layers ls x) = layers_shape ls (shape_of x).
Proof.
  induction ls as [|l ls IH]; intros x; [reflexivity|].
  destruct ls as [|l2 ls].
  - cbn [decoder_layers layers_shape]. rewrite <- apply_shape. destruct (apply_layer l x); auto.
  - change (option_map shape_of (match apply_layer l x with Some y => decoder_layers (l2 :: ls) (trelu y) | None => None end) =
            match layer_shape l (shape_of x) with Some t => layers_shape (l2 :: ls) t | None => None end).
    rewrite <- apply_shape. destruct (apply_layer l x); cbn [option_map]; auto. rewrite IH. reflexivity.
Qed.
Lemma shape_some : forall (o : option tensor) c w h, option_map shape_of o = Some (c, w, h) ->
  exists y, o = Some y /\ has_shape c w h y.
Proof. intros [y|] c w h E; inversion E. exists y. repeat split; auto. Qed.
Lemma shape_none : forall (o : option tensor), option_map shape_of o = None -> o = None.
Proof. intros [y|] E; [discriminate|auto]. Qed.

Lemma features_shape : forall ls c w h rand,
  conv_features ls c w h rand = option_map (fun s => let '(a, b, d) := s in (a * b * d)%nat) (layers_shape ls (c, w, h)).
Proof.
  intros. unfold conv_features, layers_output_shape.
  pose proof (plain_shape ls (mkTensor c w h rand)) as P. change (shape_of (mkTensor c w h rand)) with (c, w, h) in P.
  destruct (plain_layers ls (mkTensor c w h rand)) as [y|]; cbn [option_map] in P; rewrite <- P; reflexivity.
Qed.

Ltac shape_step :=
  match goal with
  | |- context [if ?b then _ else _] =>
      let E := fresh "E" in destruct b eqn:E;
      rewrite ?andb_true_iff, ?andb_false_iff, ?Nat.leb_le, ?Nat.leb_gt, ?Nat.ltb_lt, ?Nat.ltb_ge, ?Nat.eqb_eq, ?Nat.eqb_neq in E
  end.
Ltac shapes := repeat (cbn [layers_shape layer_shape]; try shape_step).

Lemma triple_eq : forall a b c a' b' c' : nat, a = a' -> b = b' -> c = c' -> Some (a, b, c) = Some (a', b', c').
Proof. intros; subst; auto. Qed.

Lemma enc1_shape : forall c K1 K2 w h, (4 <= w)%nat -> (4 <= h)%nat ->
  layers_shape (enc1_layers c K1 K2) (c, w, h) = Some (4, w / 4, h / 4)%nat.
Proof.
  intros c K1 K2 w h Hw Hh. unfold enc1_layers. shapes; try (exfalso; lia).
  apply triple_eq; lia.
Qed.
Lemma enc1_none : forall c K1 K2 w h, (w < 4 \/ h < 4)%nat -> layers_shape (enc1_layers c K1 K2) (c, w, h) = None.
Proof. intros c K1 K2 w h H. unfold enc1_layers. shapes; try reflexivity. exfalso; lia. Qed.
Lemma enc2_shape : forall c K1 K2 K3 K4 w h, (33 <= w)%nat -> (33 <= h)%nat ->
  layers_shape (enc2_layers c K1 K2 K3 K4) (c, w, h) = Some (10, (w - 25) / 8, (h - 25) / 8)%nat.
Proof.
  intros c K1 K2 K3 K4 w h Hw Hh. unfold enc2_layers. shapes; try (exfalso; lia).
  apply triple_eq; lia.
Qed.
Lemma enc2_none : forall c K1 K2 K3 K4 w h, (w < 33 \/ h < 33)%nat ->
  layers_shape (enc2_layers c K1 K2 K3 K4) (c, w, h) = None.
Proof. intros c K1 K2 K3 K4 w h H. unfold enc2_layers. shapes; try reflexivity. exfalso; lia. Qed.

Lemma dec1_shape : forall c K1 K2 a b, (0 < a)%nat -> (0 < b)%nat ->
  layers_shape (dec1_layers c K1 K2) (1, a, b)%nat = Some (c, 4 * a, 4 * b)%nat.
Proof. intros. unfold dec1_layers. shapes; try (exfalso; lia). apply triple_eq; lia. Qed.
Lemma dec2_shape : forall c K1 K2 K3 a b, (0 < a)%nat -> (0 < b)%nat ->
  layers_shape (dec2_layers c K1 K2 K3) (1, a, b)%nat = Some (c, 4 * a + 28, 4 * b + 28)%nat.
Proof. intros. unfold dec2_layers. shapes; try (exfalso; lia). apply triple_eq; lia. Qed.

Lemma dec1_size_eq : forall w, dec1_size w = Z.of_nat (w / 4).
Proof. intros. unfold dec1_size. lia. Qed.
Lemma dec2_size_pos : forall w, (0 < dec2_size w)%Z <-> (32 <= w)%nat.
Proof. intros. unfold dec2_size. lia. Qed.
Lemma dec2_size_round : forall w, (32 <= w)%nat -> (4 * Z.to_nat (dec2_size w) + 28 = round4 w)%nat.
Proof. intros. unfold dec2_size, round4. lia. Qed.
