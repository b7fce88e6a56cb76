(** Which nodes grow_tree connects a new state to. *)

Require Import Reals List Permutation Lra Lia Sorted.
Require Import Verif.Vec Verif.SpecExt Verif.ModelValueIter Verif.ModelRrt Verif.SpecRrt Verif.ProofRrt.
Import ListNotations.
Open Scope R_scope.

Lemma distance_apart : forall x y, length x = 3%nat -> length y = 3%nat -> state_distance x y = apart x y.
Proof.
  intros x y Hx Hy. destruct x as [|x0 [|x1 [|x2 [|? ?]]]]; try discriminate.
  destruct y as [|y0 [|y1 [|y2 [|? ?]]]]; try discriminate.
  unfold state_distance, apart, Rsqr. cbn. field.
Qed.
Lemma neighbours_exact : forall T x r i, Forall (fun s => length s = 3%nat) (states T) -> length x = 3%nat ->
  In i (neighbours T x r) <-> (i < nodes T)%nat /\ apart (nth i (states T) []) x <= r.
Proof.
  intros T x r i F L. unfold neighbours. rewrite filter_In, in_seq. unfold nodes.
  split; intros (H & K).
  - split; [lia|]. unfold Rleb in K. destruct (Rle_dec _ _); [|discriminate].
    rewrite distance_apart in r0; auto. rewrite Forall_forall in F. apply F. apply nth_In. lia.
  - split; [lia|]. unfold Rleb. destruct (Rle_dec _ _) as [|n]; auto. exfalso. apply n.
    rewrite distance_apart; auto. rewrite Forall_forall in F. apply F. apply nth_In. lia.
Qed.
Lemma grow_exact : forall ord find T x, (forall l, Permutation l (ord l)) -> tree_ok T ->
  nonneg_costs find -> Forall (fun s => length s = 3%nat) (states T) -> length x = 3%nat ->
  exists N T', (forall fuel, (N <= fuel)%nat -> grow_step fuel ord find T x = Ok T') /\ tree_ok T' /\
    (T' = T /\ (forall i, (i < nodes T)%nat -> apart (nth i (states T) []) x <= 2 / 10 -> find x (nth i (states T) []) = None) \/
     states T' = states T ++ [x] /\
     (exists i c p, (i < nodes T)%nat /\ apart (nth i (states T) []) x <= 2 / 10 /\
        find x (nth i (states T) []) = Some (c, p) /\ root_cost T' (nodes T) = c + root_cost T i) /\
     (forall i c p, (i < nodes T)%nat -> apart (nth i (states T) []) x <= 2 / 10 ->
        find x (nth i (states T) []) = Some (c, p) ->
        root_cost T' (nodes T) <= c + root_cost T i /\ root_cost T' i <= c + root_cost T' (nodes T)) /\
     (forall i, (i < nodes T)%nat -> parent T' i = parent T i \/
        parent T' i = Some (nodes T) /\ root_cost T' i < root_cost T i)).
Proof.
  intros ord find T x P V F L3 Lx.
  assert (Hn : forall i, In i (neighbours T x (2 / 10)) <-> (i < nodes T)%nat /\ apart (nth i (states T) []) x <= 2 / 10)
    by (intros; apply neighbours_exact; auto).
  destruct (connect_statement ord find T x _ P V F (neighbours_range T x (2 / 10))) as (N & T' & idx & E & V' & H).
  unfold grow_step. destruct (neighbours T x (2 / 10)) as [|a l] eqn:En.
  - exists 0%nat, T. split; [auto|]. split; [auto|]. left. split; auto. intros i Hi Ha. exfalso. apply (proj2 (Hn i)). auto.
  - exists N, T'. split; [intros; rewrite E; auto|]. split; [auto|]. destruct idx as [new|].
    + destruct H as (-> & Hs & _ & (i & c & p & Hi & Hf & Hr) & Ho & Hp). right. split; [auto|]. split; [|split].
      * exists i, c, p. apply Hn in Hi. tauto.
      * intros j c' p' Hj Ha. apply Ho. apply Hn. auto.
      * exact Hp.
    + destruct H as (-> & H). left. split; auto. intros i Hi Ha. apply H, Hn. auto.
Qed.
Lemma grow_case : tree_ok (rrt_init [0; 0; 0]) /\ nonneg_costs axis_find /\
  Forall (fun s => length s = 3%nat) (states (rrt_init [0; 0; 0])) /\
  apart [0; 0; 0] [1 / 4; 0; 0] <= 2 / 10 /\ exists c p, axis_find [1 / 4; 0; 0] [0; 0; 0] = Some (c, p).
Proof.
  split; [apply init_ok|]. split.
  { intros x y c p H. unfold axis_find in H. destruct (andb _ _); [|discriminate]. assert (c = 2 * (nth 0 y 0 - nth 0 x 0) * (nth 0 y 0 - nth 0 x 0)) by congruence. subst. pose proof (Rle_0_sqr (nth 0 y 0 - nth 0 x 0)) as K. unfold Rsqr in K. lra. }
  split; [repeat constructor|]. split; [unfold apart, Rsqr; cbn; lra|].
  unfold axis_find. assert (A : forall a, on_axis [a; 0; 0] = true).
  { intros a. unfold on_axis. cbn [nth]. destruct (list_eq_dec Req_EM_T [a; 0; 0] [a; 0; 0]); [reflexivity|contradiction]. }
  rewrite !A. cbn [andb]. do 2 eexists. reflexivity.
Qed.
