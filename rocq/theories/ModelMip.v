(** Model of /repo/neural_network_lyapunov/gurobi_torch_mip.py:
    the container of mixed-integer constraints and the [GurobiTorchMIP] class
    that keeps a Gurobi model and a torch copy of its data side by side. *)

Require Import Reals List Bool Arith.
Require Import Verif.Vec.
Import ListNotations.
Open Scope R_scope.

(** ** MixedIntegerConstraintsReturn — gurobi_torch_mip.py:10-48.
    [None] fields are [None].  [nin]/[nsl]/[nbin] are the column counts that
    torch keeps in the tensor shapes and that num_input()/num_slack()/
    num_binary() (lines 91-111) read off; lists of rows lose them when a matrix
    has no row, so they are carried explicitly.  Bounds are extended reals
    because stack_bounds (310-325) fills them with +-inf. *)
Record mic := mkMic {
  nin : nat; nsl : nat; nbin : nat;
  Aout_input : option mat; Aout_slack : option mat; Aout_binary : option mat;
  Cout : option vec;
  Ain_input : option mat; Ain_slack : option mat; Ain_binary : option mat;
  rhs_in : option vec;
  Aeq_input : option mat; Aeq_slack : option mat; Aeq_binary : option mat;
  rhs_eq : option vec;
  input_lo : option (list ext); input_up : option (list ext);
  slack_lo : option (list ext); slack_up : option (list ext);
  binary_lo : option (list ext); binary_up : option (list ext)
}.

(** gurobi_torch_mip.py:26-48 [__init__]: everything None. *)
Definition empty_mic (a b c : nat) : mic :=
  mkMic a b c None None None None None None None None None None None None
        None None None None None None.

Definition olen {A} (o : option (list A)) : option nat :=
  match o with None => None | Some l => Some (length l) end.

(** num_out — lines 50-61: row count of the first field that is not None.
    The consistency asserts are the well-formedness predicate [mic_wf] of
    SpecMip. *)
Definition num_out (c : mic) : nat :=
  match olen (Aout_input c), olen (Aout_slack c), olen (Aout_binary c),
        olen (Cout c) with
  | Some n, _, _, _ => n
  | None, Some n, _, _ => n
  | None, None, Some n, _ => n
  | None, None, None, Some n => n
  | None, None, None, None => 0%nat
  end.
(** num_ineq — lines 63-75; num_eq — lines 77-89. *)
Definition num_ineq (c : mic) : nat :=
  match rhs_in c with None => 0%nat | Some r => length r end.
Definition num_eq (c : mic) : nat :=
  match rhs_eq c with None => 0%nat | Some r => length r end.

(** transform_input — lines 124-153.  [n] is the number of columns of [A].
    The final [assert("...")] (151-153) tests a non-empty string, so it never
    fires: bounds are kept unchanged.  [rhs_in]/[rhs_eq] being None while the
    matrix is not None raises in python ([None -= tensor]): error [None]. *)
Definition transform_input (n : nat) (A : mat) (b : vec) (c : mic)
  : option mic :=
  match
    match Ain_input c with
    | None => Some (None, rhs_in c)
    | Some M => match rhs_in c with
                | None => None
                | Some r => Some (Some (mm n M A), Some (vsub r (mv M b)))
                end
    end,
    match Aeq_input c with
    | None => Some (None, rhs_eq c)
    | Some M => match rhs_eq c with
                | None => None
                | Some r => Some (Some (mm n M A), Some (vsub r (mv M b)))
                end
    end
  with
  | Some (ain, rin), Some (aeq, req) =>
      let '(aout, co) :=
        match Aout_input c with
        | None => (None, Cout c)
        | Some M => (Some (mm n M A),
                     Some (match Cout c with
                           | Some k => vadd k (mv M b)
                           | None => mv M b
                           end))
        end in
      Some (mkMic n (nsl c) (nbin c)
              aout (Aout_slack c) (Aout_binary c) co
              ain (Ain_slack c) (Ain_binary c) rin
              aeq (Aeq_slack c) (Aeq_binary c) req
              (input_lo c) (input_up c) (slack_lo c) (slack_up c)
              (binary_lo c) (binary_up c))
  | _, _ => None
  end.

(** ** concatenate_mixed_integer_constraints — lines 156-349 *)

(** stack_rhs — lines 175-182. *)
Definition stack_rhs (a b : option vec) : option vec :=
  match a, b with
  | None, None => None
  | None, Some y => Some y
  | Some x, None => Some x
  | Some x, Some y => Some (x ++ y)
  end.

(** stack_matrix — lines 184-194 (sizes m1 x n1, m2 x n2 of the zero block). *)
Definition stack_matrix (a b : option mat) (m1 n1 m2 n2 : nat) : option mat :=
  match a, b with
  | None, None => None
  | Some x, None => Some (x ++ zerom m2 n2)
  | None, Some y => Some (zerom m1 n1 ++ y)
  | Some x, Some y => Some (x ++ y)
  end.
(** The same for the 1-D [Cout] (line 270). *)
Definition stack_vector (a b : option vec) (m1 m2 : nat) : option vec :=
  match a, b with
  | None, None => None
  | Some x, None => Some (x ++ zeros m2)
  | None, Some y => Some (zeros m1 ++ y)
  | Some x, Some y => Some (x ++ y)
  end.

(** torch.block_diag of an (m1 x n1) and an (m2 x n2) matrix. *)
Definition block_diag (n1 n2 : nat) (a b : mat) : mat :=
  map (fun r => r ++ zeros n2) a ++ map (fun r => zeros n1 ++ r) b.

(** blk_diagonize_matrix — lines 196-210 (shape asserts: [mic_wf]). *)
Definition blk_diagonize_matrix (a b : option mat) (m1 m2 n1 n2 : nat)
  : option mat :=
  match a, b with
  | None, None => None
  | Some x, None => Some (block_diag n1 n2 x (zerom m2 n2))
  | None, Some y => Some (block_diag n1 n2 (zerom m1 n1) y)
  | Some x, Some y => Some (block_diag n1 n2 x y)
  end.

(** torch.maximum / torch.minimum on extended reals. *)
Definition ext_max (a b : ext) : ext :=
  match a, b with
  | PInf, _ | _, PInf => PInf
  | NInf, y => y
  | x, NInf => x
  | Fin x, Fin y => Fin (Rmax x y)
  end.
Definition ext_min (a b : ext) : ext :=
  match a, b with
  | NInf, _ | _, NInf => NInf
  | PInf, y => y
  | x, PInf => x
  | Fin x, Fin y => Fin (Rmin x y)
  end.
(** take_maximum / take_minimum — lines 292-308. *)
Definition take_with (f : ext -> ext -> ext) (a b : option (list ext))
  : option (list ext) :=
  match a, b with
  | None, None => None
  | Some x, None => Some x
  | None, Some y => Some y
  | Some x, Some y => Some (map2 f x y)
  end.
(** stack_bounds — lines 310-325; [dflt] is inf for upper bounds and -inf for
    lower bounds.  Result [None] (outer option) is the assertion error. *)
Definition stack_bounds (a b : option (list ext)) (n1 n2 : nat) (dflt : ext)
  : option (option (list ext)) :=
  match a, b with
  | None, None => Some None
  | Some x, None =>
      if Nat.eqb (length x) n1 then Some (Some (x ++ repeat dflt n2)) else None
  | None, Some y =>
      if Nat.eqb (length y) n2 then Some (Some (repeat dflt n1 ++ y)) else None
  | Some x, Some y => Some (Some (x ++ y))
  end.

(** concatenate_mixed_integer_constraints — lines 156-349.
    Note lines 343-344: both counts used for the binary bounds are
    [cnstr1.num_binary()]. *)
Definition concatenate (c1 c2 : mic) (same_slack same_binary stack_output : bool)
  : option mic :=
  if negb (Nat.eqb (nin c1) (nin c2)) then None else
  if (same_slack && negb (Nat.eqb (nsl c1) (nsl c2)))%bool then None else
  if (same_binary && negb (Nat.eqb (nbin c1) (nbin c2)))%bool then None else
  let ni := nin c1 in
  let e1 := num_eq c1 in let e2 := num_eq c2 in
  let i1 := num_ineq c1 in let i2 := num_ineq c2 in
  let o1 := num_out c1 in let o2 := num_out c2 in
  let s1 := nsl c1 in let s2 := nsl c2 in
  let b1 := nbin c1 in let b2 := nbin c2 in
  let stk same m1 m2 a b n1 n2 :=
    if (same : bool) then stack_matrix a b m1 n1 m2 n2
    else blk_diagonize_matrix a b m1 m2 n1 n2 in
  match
    (if same_slack then Some (take_with ext_max (slack_lo c1) (slack_lo c2))
     else stack_bounds (slack_lo c1) (slack_lo c2) s1 s2 NInf),
    (if same_slack then Some (take_with ext_min (slack_up c1) (slack_up c2))
     else stack_bounds (slack_up c1) (slack_up c2) s1 s2 PInf),
    (if same_binary then Some (take_with ext_max (binary_lo c1) (binary_lo c2))
     else stack_bounds (binary_lo c1) (binary_lo c2) b1 b1 NInf),
    (if same_binary then Some (take_with ext_min (binary_up c1) (binary_up c2))
     else stack_bounds (binary_up c1) (binary_up c2) b1 b1 PInf)
  with
  | Some slo, Some sup, Some blo, Some bup =>
      Some (mkMic ni
              (if same_slack then s1 else (s1 + s2)%nat)
              (if same_binary then b1 else (b1 + b2)%nat)
              (if stack_output
               then stack_matrix (Aout_input c1) (Aout_input c2) o1 ni o2 ni
               else None)
              (if stack_output
               then stk same_slack o1 o2 (Aout_slack c1) (Aout_slack c2) s1 s2
               else None)
              (if stack_output
               then stk same_binary o1 o2 (Aout_binary c1) (Aout_binary c2) b1 b2
               else None)
              (if stack_output then stack_vector (Cout c1) (Cout c2) o1 o2
               else None)
              (stack_matrix (Ain_input c1) (Ain_input c2) i1 ni i2 ni)
              (stk same_slack i1 i2 (Ain_slack c1) (Ain_slack c2) s1 s2)
              (stk same_binary i1 i2 (Ain_binary c1) (Ain_binary c2) b1 b2)
              (stack_rhs (rhs_in c1) (rhs_in c2))
              (stack_matrix (Aeq_input c1) (Aeq_input c2) e1 ni e2 ni)
              (stk same_slack e1 e2 (Aeq_slack c1) (Aeq_slack c2) s1 s2)
              (stk same_binary e1 e2 (Aeq_binary c1) (Aeq_binary c2) b1 b2)
              (stack_rhs (rhs_eq c1) (rhs_eq c2))
              (take_with ext_max (input_lo c1) (input_lo c2))
              (take_with ext_min (input_up c1) (input_up c2))
              slo sup blo bup)
  | _, _, _, _ => None
  end.

(** ** GurobiTorchMIP — lines 362-1060 *)

(** The vtype argument of addVars: GRB.CONTINUOUS, GRB.BINARY or BINARYRELAX
    (line 359). *)
Inductive vtype := VCont | VBin | VBinRelax.
Inductive sense := SLe | SEq | SGe.

(** A Gurobi variable: registered as BINARY or not, and its bounds. *)
Record gvar := mkVar { v_bin : bool; v_lb : ext; v_ub : ext }.
(** A Gurobi linear constraint; a term is (coefficient, variable id). *)
Record grow := mkRow { row_terms : list (R * nat); row_sense : sense;
                       row_rhs : R }.

(** A sparse matrix as the list of its (row, col, value) triplets.  Python
    keeps three parallel lists that are always extended together (e.g.
    452-454). *)
Definition coo := list (nat * nat * R).

(** State of a GurobiTorchMILP: lines 376-400 and 1072-1078.  A variable is
    identified with its creation index in the Gurobi model; [r_indices] /
    [zeta_indices] are positions in [r] / [zeta]. *)
Record mip := mkMip {
  gvars : list gvar;
  grows : list grow;
  r_ : list nat;
  zeta_ : list nat;
  Ain_r : coo; Ain_zeta : coo; rhs_in_ : list R;
  Aeq_r : coo; Aeq_zeta : coo; rhs_eq_ : list R;
  (** objective: terms, constant, [true] = MAXIMIZE *)
  obj_terms : list (R * nat); obj_const : R; obj_max : bool
}.

Definition init_mip : mip :=
  mkMip [] [] [] [] [] [] [] [] [] [] [] 0 false.

Fixpoint index_of (v : nat) (l : list nat) : option nat :=
  match l with
  | [] => None
  | x :: l' => if Nat.eqb x v then Some 0%nat
               else match index_of v l' with
                    | Some i => Some (S i)
                    | None => None
                    end
  end.

Definition nvars (m : mip) : nat := length (gvars m).

(** Bound helpers for the tests at 450-451, 457 and 464. *)
Definition ext_ltb (a b : ext) : bool :=
  match a, b with
  | NInf, NInf => false
  | NInf, _ => true
  | Fin x, Fin y => Rltb x y
  | Fin _, PInf => true
  | _, _ => false
  end.
Definition ext_eqb (a b : ext) : bool :=
  match a, b with
  | NInf, NInf => true
  | PInf, PInf => true
  | Fin x, Fin y => Reqb x y
  | _, _ => false
  end.

(** Rows recorded by addVars for one block of continuous variables:
    lines 449-455 (lower bounds), 456-462 (upper bounds), 463-468 (fixed).
    [base] = number of rows recorded so far, [col] = index of the first new
    variable in [r].  An infinite equal pair of bounds would be recorded as
    an equality with an infinite right hand side; not representable here and
    never passed by /repo. *)
Fixpoint lb_rows (base col : nat) (bnds : list (ext * ext)) : coo * list R :=
  match bnds with
  | [] => ([], [])
  | (lb, ub) :: rest =>
      match lb with
      | Fin l => if ext_ltb lb ub
                 then let '(c, r) := lb_rows (S base) (S col) rest in
                      ((base, col, -1) :: c, - l :: r)
                 else lb_rows base (S col) rest
      | _ => lb_rows base (S col) rest
      end
  end.
Fixpoint ub_rows (base col : nat) (bnds : list (ext * ext)) : coo * list R :=
  match bnds with
  | [] => ([], [])
  | (lb, ub) :: rest =>
      match ub with
      | Fin u => if ext_ltb lb ub
                 then let '(c, r) := ub_rows (S base) (S col) rest in
                      ((base, col, 1) :: c, u :: r)
                 else ub_rows base (S col) rest
      | _ => ub_rows base (S col) rest
      end
  end.
Fixpoint eq_rows (base col : nat) (bnds : list (ext * ext)) : coo * list R :=
  match bnds with
  | [] => ([], [])
  | (lb, ub) :: rest =>
      match lb with
      | Fin l => if ext_eqb lb ub
                 then let '(c, r) := eq_rows (S base) (S col) rest in
                      ((base, col, 1) :: c, l :: r)
                 else eq_rows base (S col) rest
      | _ => eq_rows base (S col) rest
      end
  end.

(** The Gurobi variable created for one pair of bounds: lines 419-440. *)
Definition new_gvar (vt : vtype) (b : ext * ext) : gvar :=
  match vt with
  | VCont => mkVar false (fst b) (snd b)
  | VBin => mkVar true (fst b) (snd b)
  | VBinRelax => mkVar false (ext_max (Fin 0) (fst b)) (ext_min (Fin 1) (snd b))
  end.

(** addVars — lines 402-479.  [bnds] are the per-variable (lb, ub) after the
    scalar broadcast of 411-414.  Returns the new variable ids. *)
Definition addVars (bnds : list (ext * ext)) (vt : vtype) (m : mip)
  : mip * list nat :=
  let n := length bnds in
  let ids := seq (nvars m) n in
  let gv := gvars m ++ map (new_gvar vt) bnds in
  match vt with
  | VCont =>
      let nr := length (r_ m) in
      let base := length (rhs_in_ m) in
      let '(c1, b1) := lb_rows base nr bnds in
      let '(c2, b2) := ub_rows (base + length b1) nr bnds in
      let '(c3, b3) := eq_rows (length (rhs_eq_ m)) nr bnds in
      (mkMip gv (grows m) (r_ m ++ ids) (zeta_ m)
             (Ain_r m ++ c1 ++ c2) (Ain_zeta m) (rhs_in_ m ++ b1 ++ b2)
             (Aeq_r m ++ c3) (Aeq_zeta m) (rhs_eq_ m ++ b3)
             (obj_terms m) (obj_const m) (obj_max m), ids)
  | VBin | VBinRelax =>
      (mkMip gv (grows m) (r_ m) (zeta_ m ++ ids)
             (Ain_r m) (Ain_zeta m) (rhs_in_ m)
             (Aeq_r m) (Aeq_zeta m) (rhs_eq_ m)
             (obj_terms m) (obj_const m) (obj_max m), ids)
  end.

(** Triplets of one recorded row for the variables that belong to [which]
    (the list [r] or [zeta]); [k] multiplies the values (-1 for >=). *)
Fixpoint row_trips (row : nat) (which : list nat) (k : R)
         (terms : list (R * nat)) : coo :=
  match terms with
  | [] => []
  | (a, v) :: rest =>
      match index_of v which with
      | Some j => (row, j, k * a) :: row_trips row which k rest
      | None => row_trips row which k rest
      end
  end.

(** Appending one linear constraint on both sides.  Shared by addLConstr
    (one row) and addMConstr (row by row; python extends the lists block-wise,
    lines 639-678, which only permutes the order of the triplets). *)
Definition push_row (terms : list (R * nat)) (s : sense) (rhs : R) (m : mip)
  : mip :=
  let g := grows m ++ [mkRow terms s rhs] in
  match s with
  | SEq =>
      let row := length (rhs_eq_ m) in
      mkMip (gvars m) g (r_ m) (zeta_ m)
            (Ain_r m) (Ain_zeta m) (rhs_in_ m)
            (Aeq_r m ++ row_trips row (r_ m) 1 terms)
            (Aeq_zeta m ++ row_trips row (zeta_ m) 1 terms)
            (rhs_eq_ m ++ [rhs])
            (obj_terms m) (obj_const m) (obj_max m)
  | SLe | SGe =>
      let k := match s with SGe => -1 | _ => 1 end in
      let row := length (rhs_in_ m) in
      mkMip (gvars m) g (r_ m) (zeta_ m)
            (Ain_r m ++ row_trips row (r_ m) k terms)
            (Ain_zeta m ++ row_trips row (zeta_ m) k terms)
            (rhs_in_ m ++ [match s with SGe => - rhs | _ => rhs end])
            (Aeq_r m) (Aeq_zeta m) (rhs_eq_ m)
            (obj_terms m) (obj_const m) (obj_max m)
  end.

Definition known (m : mip) (v : nat) : bool :=
  match index_of v (r_ m), index_of v (zeta_ m) with
  | None, None => false
  | _, _ => true
  end.
Fixpoint nodupb (l : list nat) : bool :=
  match l with
  | [] => true
  | x :: l' => (negb (existsb (Nat.eqb x) l') && nodupb l')%bool
  end.

(** addLConstr — lines 481-594.  Raises (None) on a duplicated (539-541,
    555-557) or unknown (569-571) variable.  Python has by then already added
    the constraint to the Gurobi model (506); the exception is not caught
    anywhere in /repo, so the half-updated object is never used. *)
Definition addLConstr (coeffs : list vec) (vars : list (list nat)) (s : sense)
           (rhs : R) (m : mip) : option mip :=
  let vs := concat vars in
  if negb (Nat.eqb (length coeffs) (length vars)) then None
  else if (forallb (known m) vs && nodupb vs)%bool
  then Some (push_row (combine (concat coeffs) vs) s rhs m)
  else None.

(** torch.cat(A, dim=1) — line 613. *)
Fixpoint hcats (As : list mat) : mat :=
  match As with
  | [] => []
  | [A] => A
  | A :: rest => hcat A (hcats rest)
  end.

Fixpoint push_rows (A : mat) (vs : list nat) (s : sense) (b : vec) (m : mip)
  : mip :=
  match A, b with
  | row :: A', rhs :: b' =>
      push_rows A' vs s b' (push_row (combine row vs) s rhs m)
  | _, _ => m
  end.

(** addMConstr — lines 596-679.  There is no duplicate check.  Unknown
    variables are not expected (no call in /repo passes one). *)
Definition addMConstr (As : list mat) (xs : list (list nat)) (s : sense)
           (b : vec) (m : mip) : mip :=
  push_rows (hcats As) (concat xs) s b m.

(** set_var_bound — lines 713-727: bounds are only tightened, and only in the
    Gurobi model. *)
Definition tighten (v : gvar) (lo up : option ext) : gvar :=
  let v1 := match lo with
            | Some l => if ext_ltb (v_lb v) l
                        then mkVar (v_bin v) l (v_ub v) else v
            | None => v
            end in
  match up with
  | Some u => if ext_ltb u (v_ub v1)
              then mkVar (v_bin v1) (v_lb v1) u else v1
  | None => v1
  end.

Definition upd_var (i : nat) (f : gvar -> gvar) (l : list gvar) : list gvar :=
  match nth_error l i with
  | None => l
  | Some v => firstn i l ++ f v :: skipn (S i) l
  end.

Definition onth {A} (i : nat) (o : option (list A)) : option A :=
  match o with None => None | Some l => nth_error l i end.

Fixpoint set_bounds_from (k : nat) (vars : list nat)
         (lo up : option (list ext)) (gv : list gvar) : list gvar :=
  match vars with
  | [] => gv
  | v :: rest =>
      set_bounds_from (S k) rest lo up
        (upd_var v (fun g => tighten g (onth k lo) (onth k up)) gv)
  end.
Definition with_gvars (gv : list gvar) (m : mip) : mip :=
  mkMip gv (grows m) (r_ m) (zeta_ m) (Ain_r m) (Ain_zeta m) (rhs_in_ m)
        (Aeq_r m) (Aeq_zeta m) (rhs_eq_ m)
        (obj_terms m) (obj_const m) (obj_max m).
Definition set_var_bound (vars : list nat) (lo up : option (list ext))
           (m : mip) : mip :=
  with_gvars (set_bounds_from 0 vars lo up (gvars m)) m.

(** Which binaries add_mixed_integer_linear_constraints uses: new ones
    ([binary_var_name] is a str) or given ones (a list of variables). *)
Inductive binary_arg := NewBinary | GivenBinary (l : list nat).

(** slack_size — lines 734-742: Aout_slack is not consulted. *)
Definition slack_size (c : mic) : nat :=
  match Ain_slack c, Aeq_slack c, slack_lo c, slack_up c with
  | Some _, _, _, _ => nsl c
  | None, Some _, _, _ => nsl c
  | None, None, Some l, _ => length l
  | None, None, None, Some l => length l
  | None, None, None, None => 0%nat
  end.
(** binary_size — lines 754-762. *)
Definition binary_size (c : mic) : nat :=
  match Ain_binary c, Aeq_binary c, binary_lo c, binary_up c with
  | Some _, _, _, _ => nbin c
  | None, Some _, _, _ => nbin c
  | None, None, Some l, _ => length l
  | None, None, None, Some l => length l
  | None, None, None, None => 0%nat
  end.

(** add_var_if_not_none — lines 780-785. *)
Definition some_pair (A : option mat) (vs : list nat) : list (mat * list nat) :=
  match A with None => [] | Some M => [(M, vs)] end.

Definition add_block (blocks : list (mat * list nat)) (s : sense) (b : vec)
           (m : mip) : mip :=
  addMConstr (map fst blocks) (map snd blocks) s b m.

(** add_mixed_integer_linear_constraints — lines 681-845. *)
Definition add_mic (c : mic) (input_vars : list nat)
           (output_vars : option (list nat)) (bin : binary_arg) (vt : vtype)
           (m : mip) : mip * list nat * list nat :=
  (* 730-731 *)
  let m := set_var_bound input_vars (input_lo c) (input_up c) m in
  (* 743-752 *)
  let '(m, slack) :=
    match slack_size c with
    | O => (m, [])
    | n => let '(m, s) := addVars (repeat (NInf, PInf) n) VCont m in
           (set_var_bound s (slack_lo c) (slack_up c) m, s)
    end in
  (* 763-778 *)
  let '(m, binary) :=
    match binary_size c with
    | O => (m, [])
    | n =>
        match bin with
        | NewBinary =>
            let '(m, b) := addVars (repeat (Fin 0, Fin 1) n) vt m in
            (set_var_bound b (binary_lo c) (binary_up c) m, b)
        | GivenBinary l => (m, l)
        end
    end in
  (* 789-803 *)
  let m := match rhs_in c with
           | Some ((_ :: _) as rhs) =>
               add_block (some_pair (Ain_input c) input_vars
                          ++ some_pair (Ain_slack c) slack
                          ++ some_pair (Ain_binary c) binary) SLe rhs m
           | _ => m
           end in
  (* 806-820 *)
  let m := match rhs_eq c with
           | Some ((_ :: _) as rhs) =>
               add_block (some_pair (Aeq_input c) input_vars
                          ++ some_pair (Aeq_slack c) slack
                          ++ some_pair (Aeq_binary c) binary) SEq rhs m
           | _ => m
           end in
  (* 821-844 *)
  let m := match output_vars with
           | None => m
           | Some out =>
               add_block ((eyek (length out) (-1), out)
                          :: some_pair (Aout_input c) input_vars
                          ++ some_pair (Aout_slack c) slack
                          ++ some_pair (Aout_binary c) binary) SEq
                 (match Cout c with
                  | Some k => vneg k
                  | None => zeros (length out)
                  end) m
           end in
  (m, slack, binary).

(** GurobiTorchMILP.setObjective — lines 1080-1124: later writes to the same
    variable are rejected, unknown variables are ignored by the python loop
    (there is no else branch at 1100-1113). *)
Definition setObjective (coeffs : list vec) (vars : list (list nat))
           (constant : R) (maximize : bool) (m : mip) : option mip :=
  let vs := concat vars in
  if negb (Nat.eqb (length coeffs) (length vars)) then None
  else if nodupb (filter (known m) vs)
  then Some (mkMip (gvars m) (grows m) (r_ m) (zeta_ m)
                   (Ain_r m) (Ain_zeta m) (rhs_in_ m)
                   (Aeq_r m) (Aeq_zeta m) (rhs_eq_ m)
                   (filter (fun t => known m (snd t))
                           (combine (concat coeffs) vs))
                   constant maximize)
  else None.

(** remove_binary_relaxation — lines 1035-1044. *)
Definition remove_binary_relaxation (m : mip) : mip :=
  with_gvars
    (fold_left (fun gv i => upd_var i (fun g => mkVar true (v_lb g) (v_ub g)) gv)
               (zeta_ m) (gvars m)) m.

(** ** Reading the torch side — get_inequality_constraints (901-927) and the
    equality part of get_active_constraints (861-886).  to_dense() sums
    duplicate triplets. *)
Definition coo_entry (c : coo) (i j : nat) : R :=
  vsum (map snd (filter (fun t => (Nat.eqb (fst (fst t)) i
                                   && Nat.eqb (snd (fst t)) j)%bool) c)).
Definition coo_row (c : coo) (ncols i : nat) : vec :=
  map (coo_entry c i) (seq 0 ncols).
Definition coo_dense (c : coo) (nrows ncols : nat) : mat :=
  map (coo_row c ncols) (seq 0 nrows).

Definition get_inequality_constraints (m : mip) : mat * mat * vec :=
  (coo_dense (Ain_r m) (length (rhs_in_ m)) (length (r_ m)),
   coo_dense (Ain_zeta m) (length (rhs_in_ m)) (length (zeta_ m)),
   rhs_in_ m).
Definition get_equality_constraints (m : mip) : mat * mat * vec :=
  (coo_dense (Aeq_r m) (length (rhs_eq_ m)) (length (r_ m)),
   coo_dense (Aeq_zeta m) (length (rhs_eq_ m)) (length (zeta_ m)),
   rhs_eq_ m).

(** get_active_constraints — lines 847-899; [active] lists the indices of the
    active inequality rows (python iterates over a set, in some order). *)
Definition pick {A} (d : A) (idx : list nat) (l : list A) : list A :=
  map (fun i => nth i l d) idx.
Definition get_active_constraints (m : mip) (active : list nat) (zeta_sol : vec)
  : mat * vec :=
  let '(Aer, Aez, be) := get_equality_constraints m in
  let '(Air, Aiz, bi) := get_inequality_constraints m in
  (Aer ++ pick [] active Air,
   vsub be (mv Aez zeta_sol)
   ++ vsub (pick 0 active bi) (mv (pick [] active Aiz) zeta_sol)).
