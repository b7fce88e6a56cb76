(** What the mixed-integer data structures mean.

    A [MixedIntegerConstraintsReturn] denotes a set of points
    (input, slack, binary) and an affine output, exactly as written in the
    class documentation (gurobi_torch_mip.py:11-25).  A Gurobi model denotes
    the set of assignments of its variables that satisfy every bound,
    integrality requirement and linear constraint. *)

Require Import Reals List.
Require Import Verif.Vec Verif.ModelMip.
Import ListNotations.
Open Scope R_scope.

(** The value of a term [A @ x] with [m] rows; an absent matrix contributes
    zero. *)
Definition term (m : nat) (A : option mat) (x : vec) : vec :=
  match A with None => zeros m | Some M => mv M x end.

Definition lhs (m : nat) (Ax As Ab : option mat) (x s b : vec) : vec :=
  vadd (vadd (term m Ax x) (term m As s)) (term m Ab b).

(** Ain_input x + Ain_slack s + Ain_binary b <= rhs_in, rowwise. *)
Definition sat_in (c : mic) (x s b : vec) : Prop :=
  match rhs_in c with
  | None => True
  | Some r => vle (lhs (length r) (Ain_input c) (Ain_slack c) (Ain_binary c)
                       x s b) r
  end.
(** Aeq_input x + Aeq_slack s + Aeq_binary b = rhs_eq. *)
Definition sat_eq (c : mic) (x s b : vec) : Prop :=
  match rhs_eq c with
  | None => True
  | Some r => lhs (length r) (Aeq_input c) (Aeq_slack c) (Aeq_binary c) x s b
              = r
  end.
(** Aout_input x + Aout_slack s + Aout_binary b + Cout. *)
Definition output (c : mic) (x s b : vec) : vec :=
  let m := num_out c in
  vadd (lhs m (Aout_input c) (Aout_slack c) (Aout_binary c) x s b)
       (match Cout c with None => zeros m | Some k => k end).

Definition lo_ok (lo : option (list ext)) (x : vec) : Prop :=
  match lo with None => True | Some l => Forall2 ext_le_r l x end.
Definition up_ok (up : option (list ext)) (x : vec) : Prop :=
  match up with None => True | Some u => Forall2 r_le_ext x u end.

(** The variable bounds carried by the object. *)
Definition bounds_ok (c : mic) (x s b : vec) : Prop :=
  lo_ok (input_lo c) x /\ up_ok (input_up c) x /\
  lo_ok (slack_lo c) s /\ up_ok (slack_up c) s /\
  lo_ok (binary_lo c) b /\ up_ok (binary_up c) b.

Definition is_bin (v : R) : Prop := v = 0 \/ v = 1.
Definition bins (b : vec) : Prop := Forall is_bin b.

(** A feasible point: all rows, and the declared dimensions. *)
Definition rows_sat (c : mic) (x s b : vec) : Prop :=
  length x = nin c /\ length s = nsl c /\ length b = nbin c /\
  sat_in c x s b /\ sat_eq c x s b.
Definition mic_sat (c : mic) (x s b : vec) : Prop :=
  rows_sat c x s b /\ bounds_ok c x s b.

(** Shape well-formedness (the asserts of num_out/num_ineq/num_eq/_num_var,
    lines 50-111). *)
Definition owf (m n : nat) (A : option mat) : Prop :=
  match A with None => True | Some M => wfm m n M end.
Definition olen_is {A} (n : nat) (l : option (list A)) : Prop :=
  match l with None => True | Some v => length v = n end.
Definition none_if {A B} (o : option A) (p : option B) : Prop :=
  match o with None => p = None | Some _ => True end.
Definition mic_wf (c : mic) : Prop :=
  owf (num_out c) (nin c) (Aout_input c) /\
  owf (num_out c) (nsl c) (Aout_slack c) /\
  owf (num_out c) (nbin c) (Aout_binary c) /\
  olen_is (num_out c) (Cout c) /\
  owf (num_ineq c) (nin c) (Ain_input c) /\
  owf (num_ineq c) (nsl c) (Ain_slack c) /\
  owf (num_ineq c) (nbin c) (Ain_binary c) /\
  (none_if (rhs_in c) (Ain_input c) /\ none_if (rhs_in c) (Ain_slack c) /\
   none_if (rhs_in c) (Ain_binary c)) /\
  owf (num_eq c) (nin c) (Aeq_input c) /\
  owf (num_eq c) (nsl c) (Aeq_slack c) /\
  owf (num_eq c) (nbin c) (Aeq_binary c) /\
  (none_if (rhs_eq c) (Aeq_input c) /\ none_if (rhs_eq c) (Aeq_slack c) /\
   none_if (rhs_eq c) (Aeq_binary c)) /\
  olen_is (nin c) (input_lo c) /\ olen_is (nin c) (input_up c) /\
  olen_is (nsl c) (slack_lo c) /\ olen_is (nsl c) (slack_up c) /\
  olen_is (nbin c) (binary_lo c) /\ olen_is (nbin c) (binary_up c).

Definition some_of3 {A} (a b c : option A) : Prop :=
  a <> None \/ b <> None \/ c <> None.

(** Well-formed, and the sizes read by the method are the sizes of the slack
    and binary vectors; a right hand side comes with some matrix. *)
Definition mic_ok (c : mic) : Prop :=
  mic_wf c /\ slack_size c = nsl c /\ binary_size c = nbin c /\
  (forall r rs, rhs_in c = Some (r :: rs) ->
     some_of3 (Ain_input c) (Ain_slack c) (Ain_binary c)) /\
  (forall r rs, rhs_eq c = Some (r :: rs) ->
     some_of3 (Aeq_input c) (Aeq_slack c) (Aeq_binary c)).

(** [c] encodes the function [f] on the domain [D]: every point of [D] has a
    feasible completion, and every feasible point lies in [D] and has output
    [f x]. *)
Definition encodes (c : mic) (D : vec -> Prop) (f : vec -> vec) : Prop :=
  (forall x, D x -> exists s b, bins b /\ mic_sat c x s b) /\
  (forall x s b, bins b -> mic_sat c x s b -> D x /\ output c x s b = f x).

(** ** Concatenation *)

(** The slack (or binary) vector of a concatenation: shared, or one part after
    the other. *)
Definition join (same : bool) (a b : vec) : vec := if same then a else a ++ b.

(** When the binary-bound bookkeeping of lines 343-347 is harmless. *)
Definition bin_bounds_fine (same_binary : bool) (c1 c2 : mic) : Prop :=
  same_binary = true \/ nbin c1 = nbin c2 \/
  (binary_lo c1 = None /\ binary_lo c2 = None /\
   binary_up c1 = None /\ binary_up c2 = None) \/
  (binary_lo c1 <> None /\ binary_lo c2 <> None /\
   binary_up c1 <> None /\ binary_up c2 <> None).

(** ** Gurobi models *)

Definition assignment := nat -> R.

Definition eval_terms (t : list (R * nat)) (sg : assignment) : R :=
  vsum (map (fun p => fst p * sg (snd p)) t).

Definition row_ok (sg : assignment) (g : grow) : Prop :=
  match row_sense g with
  | SLe => eval_terms (row_terms g) sg <= row_rhs g
  | SEq => eval_terms (row_terms g) sg = row_rhs g
  | SGe => eval_terms (row_terms g) sg >= row_rhs g
  end.

Definition var_ok (v : gvar) (x : R) : Prop :=
  (v_bin v = true -> is_bin x) /\ ext_le_r (v_lb v) x /\ r_le_ext x (v_ub v).

(** Feasible assignments of the Gurobi model. *)
Definition gfeas (m : mip) (sg : assignment) : Prop :=
  (forall i v, nth_error (gvars m) i = Some v -> var_ok v (sg i)) /\
  Forall (row_ok sg) (grows m).

(** Objective value of an assignment. *)
Definition objective (m : mip) (sg : assignment) : R :=
  eval_terms (obj_terms m) sg + obj_const m.

(** Two assignments that coincide on the variables of [m]. *)
Definition agree (m : mip) (s1 s2 : assignment) : Prop :=
  forall i, (i < nvars m)%nat -> s1 i = s2 i.

(** Every constraint mentions variables of the program only. *)
Definition wf_mip (m : mip) : Prop :=
  Forall (fun g => Forall (fun t => (snd t < nvars m)%nat) (row_terms g)) (grows m).
Definition below (n : nat) (l : list nat) : Prop := Forall (fun v => (v < n)%nat) l.

(** Feasible assignments of the torch copy: the recorded rows over the values
    of the continuous variables [r] and the binary variables [zeta]. *)
Definition tfeas (m : mip) (sg : assignment) : Prop :=
  let r := map sg (r_ m) in
  let z := map sg (zeta_ m) in
  let '(Ar, Az, b) := get_inequality_constraints m in
  let '(Er, Ez, be) := get_equality_constraints m in
  vle (vadd (mv Ar r) (mv Az z)) b /\ vadd (mv Er r) (mv Ez z) = be.

(** Programs reachable by the calls of GurobiTorchMIP.  [strict] restricts to
    the calls for which the torch copy is complete: continuous variables are
    created with lb <= ub (not an infinite equal pair) and bounds are tightened
    afterwards for binary variables only. *)
Definition bnd_fine (b : ext * ext) : Prop :=
  match b with
  | (Fin l, Fin u) => l <= u
  | (Fin _, PInf) | (NInf, Fin _) | (NInf, PInf) => True
  | _ => False
  end.

Inductive history (strict : bool) : mip -> Prop :=
| h_init : history strict init_mip
| h_vars : forall bnds vt m, history strict m ->
    (strict = true -> vt = VCont -> Forall bnd_fine bnds) ->
    history strict (fst (addVars bnds vt m))
| h_lconstr : forall cs vs s r m m', history strict m ->
    addLConstr cs vs s r m = Some m' -> history strict m'
| h_mconstr : forall As xs s b m, history strict m ->
    Forall (fun v => known m v = true) (concat xs) ->
    history strict (addMConstr As xs s b m)
| h_bound : forall vs lo up m, history strict m ->
    (strict = true -> Forall (fun v => In v (zeta_ m)) vs) ->
    history strict (set_var_bound vs lo up m)
| h_obj : forall cs vs k mx m m', history strict m ->
    setObjective cs vs k mx m = Some m' -> history strict m'.

(** The binary variables respect their declared type and bounds. *)
Definition zeta_ok (m : mip) (sg : assignment) : Prop :=
  forall i v, In i (zeta_ m) -> nth_error (gvars m) i = Some v -> var_ok v (sg i).
