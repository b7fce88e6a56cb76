(** Properties of the scalar and vector encodings (C01-C04, C06-C09). *)

Require Import Reals List Bool Lra Lia.
Require Import Verif.Vec Verif.VecFacts Verif.ModelMip Verif.SpecMip
  Verif.ModelUtils Verif.ModelGrad Verif.SpecCore Verif.SpecUtils
  Verif.ProofUtils Verif.ProofMaxBox Verif.ProofGrad.
Import ListNotations.
Open Scope R_scope.

(** C01.  The interval is accepted exactly when it is not empty; the rows then
    hold iff x is in the interval and s is the product. *)
Theorem C01_product_exact : forall lo up,
  (up < lo -> replace_binary_continuous_product lo up = None) /\
  (lo <= up -> exists rw, replace_binary_continuous_product lo up = Some rw /\
     forall x s al, is_bin al ->
       (sat4 rw x s al <-> (lo <= x <= up /\ s = al * x))).
Proof. exact product_prop. Qed.
Print Assumptions C01_product_exact.
Example C01_case : -1 <= 2. Proof. lra. Qed.

(** C02. *)
Theorem C02_relu_exact : forall lo up,
  (~ (lo < 0 < up) -> replace_relu lo up = None) /\
  (lo < 0 < up -> exists rw, replace_relu lo up = Some rw /\
     forall x y be, is_bin be ->
       (sat4 rw x y be <->
        (lo <= x <= up /\ y = relu x /\ (be = 1 -> 0 <= x) /\ (be = 0 -> x <= 0)))).
Proof. exact relu_prop. Qed.
Print Assumptions C02_relu_exact.
Example C02_case : -1 < 0 < 2. Proof. lra. Qed.

(** C03.  Slopes other than 1 are exact.  At slope 1 the binary and the range
    are not constrained at all, but y = x still holds. *)
Theorem C03_leaky_exact : forall a lo up,
  (~ (lo < 0 < up) -> replace_leaky_relu a lo up = None) /\
  (lo < 0 < up -> exists rw, replace_leaky_relu a lo up = Some rw /\
     forall x y be, is_bin be ->
       (a <> 1 ->
        (sat4 rw x y be <->
         (lo <= x <= up /\ y = leaky a x /\
          (be = 1 -> 0 <= x) /\ (be = 0 -> x <= 0)))) /\
       (a = 1 -> (sat4 rw x y be <-> y = x))).
Proof. exact leaky_prop. Qed.
Print Assumptions C03_leaky_exact.
Example C03_case : -1 < 0 < 2 /\ -3 <> 1. Proof. lra. Qed.

(** C04. *)
Theorem C04_leaky_gradient_exact : forall lo up c,
  (up < lo -> leaky_relu_gradient_times_x lo up c = None) /\
  (lo <= up -> exists rw, leaky_relu_gradient_times_x lo up c = Some rw /\
     forall x y al,
       (lo <= x <= up ->
        (sat4 rw x y 1 <-> y = x) /\ (sat4 rw x y 0 <-> y = c * x)) /\
       (is_bin al -> c <> 1 -> sat4 rw x y al -> lo <= x <= up)).
Proof. exact leaky_grad_prop. Qed.
Print Assumptions C04_leaky_gradient_exact.
Example C04_case : -1 <= 2 /\ 3 <> 1. Proof. lra. Qed.

(** C06.  Rejection, exactness for s, and the meaning of the binaries.  The
    first conjunct of the feasible case uses the constraint rows only (that is
    what the optimisation program keeps when the binaries are given), the
    second one also meets the declared bounds. *)
Theorem C06_absolute_value_exact : forall lo up bz,
  (up < lo -> abs_mic lo up bz = None) /\
  (lo <= up -> exists c, abs_mic lo up bz = Some c /\
     nin c = 1%nat /\ nsl c = 1%nat /\ nbin c = (if bz then 3 else 1)%nat /\
     (forall x s b, bins b -> rows_sat c x s b ->
        exists v, x = [v] /\ lo <= v <= up /\ s = [Rabs v] /\
                  output c x s b = [Rabs v] /\ abs_sign bz v b) /\
     (forall v, lo <= v <= up ->
        exists b, bins b /\ mic_sat c [v] [Rabs v] b /\
                  output c [v] [Rabs v] b = [Rabs v])).
Proof. exact abs_prop. Qed.
Print Assumptions C06_absolute_value_exact.
Example C06_case : -1 <= 2. Proof. lra. Qed.

(** C07.  Full exactness whenever a constraint is returned.  Completeness holds
    for every index attaining the maximum, so the indices ruled out by
    binary_up = 0 lose no point. *)
Theorem C07_max_exact : forall lo up c, max_mic lo up = Some c ->
  (forall x s b, bins b -> rows_sat c x s b ->
     exists y k, is_max y x /\ (k < length x)%nat /\ nth k x 0 = y /\
       s = [y] /\ b = one_hot (length x) k /\ output c x s b = [y]) /\
  (forall x y k, in_box lo up x -> is_max y x ->
     (k < length x)%nat -> nth k x 0 = y ->
     mic_sat c x [y] (one_hot (length x) k)).
Proof. exact max_prop. Qed.
Print Assumptions C07_max_exact.
Example C07_case : exists c, max_mic [0; 1] [2; 3] = Some c /\ in_box [0; 1] [2; 3] [1; 2].
Proof. exact max_case. Qed.

(** When the code raises: on an empty or inverted box, on a length mismatch —
    and, a defect, when exactly one index can never be the maximum. *)
Theorem C07_max_rejects : forall lo up,
  max_mic lo up = None <->
  up = [] \/ length up <> length lo \/ ~ vle lo up \/
  (length up = length lo /\ vle lo up /\ exists i, non_maximal_idx lo up = [i]).
Proof. exact max_reject. Qed.
Print Assumptions C07_max_rejects.
(** The property "every non-empty box is accepted" is false. *)
Theorem C07_max_total_refuted : exists lo up,
  up <> [] /\ length up = length lo /\ vle lo up /\ max_mic lo up = None.
Proof. exact max_total_refuted. Qed.
Print Assumptions C07_max_total_refuted.

(** C08.  With tolerance 0: exactly the sign patterns, each once, and each row
    is a subgradient of the norm. *)
Theorem C08_l1_gradient : forall subs x,
  Forall (fun v => -1 < v < 1) subs ->
  exists G, l1_gradient 0 subs x = Some G /\
    (forall g, In g G <-> l1_row subs x g) /\
    (NoDup subs -> NoDup G) /\
    (forall g, In g G ->
       dot g x = norm1 x /\
       (forall y, length y = length x -> dot g y <= norm1 y) /\
       (forall y, length y = length x -> norm1 x + dot g (vsub y x) <= norm1 y)).
Proof. exact l1_prop. Qed.
Print Assumptions C08_l1_gradient.
Example C08_case : Forall (fun v => -1 < v < 1) [1/2; 0].
Proof. repeat constructor; lra. Qed.

Theorem C08_linf_gradient : forall x, x <> [] ->
  exists G, l_infinity_gradient 0 x = Some G /\ G <> [] /\
    (forall g, In g G <-> linf_row x g) /\
    (forall g, In g G ->
       dot g x = norminf x /\
       (forall y, length y = length x -> dot g y <= norminf y) /\
       (forall y, length y = length x -> norminf x + dot g (vsub y x) <= norminf y)).
Proof. exact linf_prop. Qed.
Print Assumptions C08_linf_gradient.

(** With a positive tolerance a coordinate below the tolerance is meant to get
    both one-sided derivatives; when it is the only such coordinate the code
    tests the sign vector instead of x, and the left derivative is lost. *)
Theorem C08_l1_tolerance_refuted : exists tol x G,
  0 < tol /\ Rabs (nth 0 x 0) < tol /\ l1_gradient tol [] x = Some G /\
  ~ (exists g, In g G /\ nth 0 g 0 = -1).
Proof. exact l1_gradient_tol_refuted. Qed.
Print Assumptions C08_l1_tolerance_refuted.

(** C09. *)
Theorem C09_box_boundary_exact : forall lo up x, vle lo up ->
  exists c, box_boundary lo up = Some c /\
  ((exists s b, bins b /\ mic_sat c x s b) <-> on_boundary lo up x).
Proof. exact bb_prop. Qed.
Print Assumptions C09_box_boundary_exact.
Example C09_case : vle [0; 1] [2; 3] /\ on_boundary [0; 1] [2; 3] [1; 3].
Proof. exact bb_case. Qed.
