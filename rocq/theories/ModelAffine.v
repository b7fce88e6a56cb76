(** Model of /repo/neural_network_lyapunov/control_affine_system.py.

    [None] is a raised exception.  dtype handling and the optimiser run inside
    train_control_affine_forward_model are left out. *)

Require Import Reals List Bool Arith.
Require Import Verif.Vec Verif.ModelMip Verif.ModelNet Verif.ModelLyapunov Verif.ModelROptions.
Import ListNotations.
Open Scope R_scope.

(** ControlAffineSystemConstraintReturn — lines 8-26. *)
Record ca_ret := mkCa { ca_f : mic; ca_G : mic; ca_f_lo : vec; ca_f_up : vec;
                        ca_G_lo : vec; ca_G_up : vec }.

(** ControlPiecewiseAffineSystem.__init__ — lines 39-58. *)
Record ca_box := mkBox { cx_lo : vec; cx_up : vec; cu_lo : vec; cu_up : vec }.
Definition new_box (x_lo x_up u_lo u_up : vec) : option ca_box :=
  if (Nat.eqb (length x_lo) (length x_up) && vleb x_lo x_up
      && Nat.eqb (length u_lo) (length u_up) && vleb u_lo u_up)%bool
  then Some (mkBox x_lo x_up u_lo u_up) else None.
Definition x_dim (X : ca_box) : nat := length (cx_lo X).
Definition u_dim (X : ca_box) : nat := length (cu_lo X).

(** dynamics — lines 86-91, for the methods f and G of the subclass. *)
Definition u_clamped (X : ca_box) (u : vec) : vec := map2 Rmax (map2 Rmin u (cu_up X)) (cu_lo X).
Definition ca_dynamics (X : ca_box) (f : vec -> vec) (G : vec -> mat) (x u : vec) : vec :=
  vadd (f x) (mv (G x) (u_clamped X u)).

(** ** LinearSystem — lines 106-140 *)
Definition has_shape (m n : nat) (A : mat) : bool :=
  (Nat.eqb (length A) m && forallb (fun r => Nat.eqb (length r) n) A)%bool.
Definition new_linear (X : ca_box) (A B : mat) : bool :=
  (has_shape (x_dim X) (x_dim X) A && has_shape (x_dim X) (u_dim X) B)%bool.
Definition lin_f (A : mat) (x : vec) : vec := mv A x.
Definition lin_G (B : mat) (x : vec) : mat := B.
(** The mic of lines 117-121: only the output fields are set. *)
Definition output_only (n : nat) (Ai : option mat) (C : option vec) : mic :=
  mkMic n 0 0 Ai None None C None None None None None None None None None None None None None None.
Definition lin_constraints (X : ca_box) (A B : mat) : option ca_ret :=
  match compute_range_by_IA (x_dim X) A (zeros (x_dim X)) (cx_lo X) (cx_up X) with
  | None => None
  | Some (lo, up) =>
      Some (mkCa (output_only (x_dim X) (Some A) None) (output_only (x_dim X) None (Some (concat B)))
                 lo up (concat B) (concat B))
  end.

(** ** SecondOrderControlAffineSystem — lines 143-238 *)
Definition even_dim (X : ca_box) : bool := Nat.eqb (x_dim X mod 2) 0.
Definition nq (X : ca_box) : nat := (x_dim X / 2)%nat.
Definition so_f (X : ca_box) (a : vec -> vec) (x : vec) : vec := skipn (nq X) x ++ a x.
Definition so_G (X : ca_box) (b : vec -> mat) (x : vec) : mat := zerom (nq X) (u_dim X) ++ b x.

(** torch.vstack of matrices with n1 and n2 columns. *)
Definition vstack (n1 n2 : nat) (A B : mat) : option mat :=
  if Nat.eqb n1 n2 then Some (A ++ B) else None.
(** The output fields of a replaced; all others are copied (177-183, 206-211). *)
Definition with_out (c : mic) (Ai As Ab : option mat) (C : option vec) : mic :=
  mkMic (nin c) (nsl c) (nbin c) Ai As Ab C
        (Ain_input c) (Ain_slack c) (Ain_binary c) (rhs_in c)
        (Aeq_input c) (Aeq_slack c) (Aeq_binary c) (rhs_eq c)
        (input_lo c) (input_up c) (slack_lo c) (slack_up c) (binary_lo c) (binary_up c).
(** Zero rows on top of an optional matrix or vector (195-204, 220-231). *)
Definition under_zeros (m n : nat) (A : option mat) : option mat :=
  match A with None => None | Some M => Some (zerom m n ++ M) end.
Definition under_zeros_vec (m : nat) (C : option vec) : option vec :=
  match C with None => None | Some k => Some (zeros m ++ k) end.
(** mip_cnstr_f — lines 190-204. *)
Definition so_mic_f (X : ca_box) (ca : mic) : option mic :=
  let n := nq X in
  let top := hcat (zerom n n) (eye n) in
  match (match Aout_input ca with
         | Some A => vstack (n + n) (nin ca) top A
         | None => vstack (n + n) (x_dim X) top (zerom n (x_dim X))
         end) with
  | None => None
  | Some Ai => Some (with_out ca (Some Ai) (under_zeros n (nsl ca) (Aout_slack ca))
                       (under_zeros n (nbin ca) (Aout_binary ca)) (under_zeros_vec n (Cout ca)))
  end.
(** mip_cnstr_G — lines 206-231.  The zero block for Aout_input has nq columns, not x_dim. *)
Definition so_mic_G (X : ca_box) (cb : mic) : option mic :=
  let k := (nq X * u_dim X)%nat in
  match (match Aout_input cb with
         | None => Some None
         | Some A => match vstack (nq X) (nin cb) (zerom k (nq X)) A with
                     | None => None | Some Ai => Some (Some Ai) end
         end) with
  | None => None
  | Some Ai => Some (with_out cb Ai (under_zeros k (nsl cb) (Aout_slack cb))
                       (under_zeros k (nbin cb) (Aout_binary cb)) (under_zeros_vec k (Cout cb)))
  end.
(** mixed_integer_constraints — lines 172-238, given what _mixed_integer_constraints_v
    of the subclass returns. *)
Definition so_constraints (X : ca_box) (ca cb : mic) (a_lo a_up b_lo b_up : vec) : option ca_ret :=
  match so_mic_f X ca, so_mic_G X cb with
  | Some cf, Some cG =>
      let z := zeros (nq X * u_dim X) in
      Some (mkCa cf cG (skipn (nq X) (cx_lo X) ++ a_lo) (skipn (nq X) (cx_up X) ++ a_up)
                 (z ++ b_lo) (z ++ b_up))
  | _, _ => None
  end.

(** ** ReluSecondOrderControlAffineSystem — lines 241-286 *)
Record relu_so := mkRso { rs_box : ca_box; rs_a : network; rs_b : network; rs_meth : method }.
Definition new_relu_so (x_lo x_up u_lo u_up : vec) (Na Nb : network) (meth : method) : option relu_so :=
  match new_box x_lo x_up u_lo u_up with
  | None => None
  | Some X =>
      if (even_dim X && Nat.eqb (x_size Na) (x_dim X) && Nat.eqb (out_features (last_layer Na)) (nq X)
          && Nat.eqb (x_size Nb) (x_dim X) && Nat.eqb (out_features (last_layer Nb)) (u_dim X * nq X))%bool
      then Some (mkRso X Na Nb meth) else None
  end.
Definition rs_fa (Y : relu_so) (x : vec) : vec := forward (rs_a Y) x.
Definition rs_fb (Y : relu_so) (x : vec) : mat := chunks (nq (rs_box Y)) (u_dim (rs_box Y)) (forward (rs_b Y) x).
Definition rs_f (Y : relu_so) : vec -> vec := so_f (rs_box Y) (rs_fa Y).
Definition rs_G (Y : relu_so) : vec -> mat := so_G (rs_box Y) (rs_fb Y).
Definition rs_constraints (solve : mip -> gresult) (Y : relu_so) : option ca_ret :=
  let X := rs_box Y in
  match output_constraint solve (rs_meth Y) (rs_a Y) (cx_lo X) (cx_up X),
        output_constraint solve (rs_meth Y) (rs_b Y) (cx_lo X) (cx_up X) with
  | Some (ca, _, (a_lo, a_up)), Some (cb, _, (b_lo, b_up)) => so_constraints X ca cb a_lo a_up b_lo b_up
  | _, _ => None
  end.

(** compute_x_dot of train_control_affine_forward_model — lines 312-321, for the batch of rows [x|u].
    [fm], [gm] are the networks for f and for the flat G on one state. *)
Definition compute_x_dot (nx nu : nat) (fm gm : vec -> vec) (xe ue : vec) (batch : mat) : mat :=
  map (fun r =>
    let x := firstn nx r in let u := skipn nx r in
    vsub (vsub (vadd (fm x) (mv (chunks nx nu (gm x)) u)) (fm xe)) (mv (chunks nx nu (gm xe)) ue)) batch.
