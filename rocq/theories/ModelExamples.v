(** Concrete objects used to show that the hypotheses of the theorems can be
    met.  Nothing here models code of the repository, except that the objects
    are of the kind a user would build. *)

Require Import Reals List ClassicalEpsilon.
Require Import Verif.ModelSystems Verif.Vec Verif.ModelMip Verif.SpecMip Verif.ModelNet Verif.ModelUtils Verif.ModelHybrid Verif.SpecHybrid.
Import ListNotations.
Open Scope R_scope.

(** Bounds of a coordinate read off the rows x_j <= q and - x_j <= q of a
    polytope. *)
Definition row_up (j : nat) (P : mat) (q : vec) : ext :=
  fold_right (fun pr acc =>
    if list_eq_dec Req_EM_T (fst pr) (unit_row (length (fst pr)) j 1)
    then ext_min acc (Fin (snd pr)) else acc) PInf (combine P q).
Definition row_lo (j : nat) (P : mat) (q : vec) : ext :=
  fold_right (fun pr acc =>
    if list_eq_dec Req_EM_T (fst pr) (unit_row (length (fst pr)) j (-1))
    then ext_max acc (Fin (- snd pr)) else acc) NInf (combine P q).
Definition row_bounds (P : mat) (q : vec) (j : nat) : option (ext * ext) :=
  Some (row_lo j P q, row_up j P q).

(** A solver that is always right: it reports the optimum if there is one and
    infeasibility if there is no feasible point. *)
Definition optimum (m : mip) (v : R) : Prop :=
  (exists sg, gfeas m sg /\ objective m sg = v) /\
  forall sg, gfeas m sg -> if obj_max m then objective m sg <= v else v <= objective m sg.
Definition ideal_solve (m : mip) : gresult :=
  match excluded_middle_informative (exists v, optimum m v) with
  | left H => GOptimal (proj1_sig (constructive_indefinite_description _ H))
  | right _ => match excluded_middle_informative (exists sg, gfeas m sg) with
               | left _ => GOther
               | right _ => GInfeasible
               end
  end.

(** One dimension: x' = x / 2 on [-1, 0], x' = - x / 4 on [0, 1]. *)
Definition sys1 : hybrid := mkHybrid 1 0
  [mkMode [[1/2]] [[]] [0] [[1]; [-1]] [0; 1] [Fin (Ropp 1)] [Fin 0];
   mkMode [[-1/4]] [[]] [0] [[1]; [-1]] [1; 0] [Fin (Ropp 0)] [Fin 1]].

(** relu x + relu (- x) = |x|. *)
Definition net_abs : network :=
  mkNet [(mkLin 1 [[1]; [-1]] (Some [0; 0]), Relu)] (mkLin 2 [[1; 1]] (Some [0])).

(** Two dimensions, a system that leaves the square through a corner:
    x' = x / 2 where x1 <= 1/2, x' = (2, 2) where x1 >= 1/2. *)
Definition sysc : hybrid := mkHybrid 2 0
  [mkMode [[1/2; 0]; [0; 1/2]] [[]; []] [0; 0]
          [[1; 0]; [-1; 0]; [0; 1]; [0; -1]] [1/2; 1; 1; 1]
          [Fin (Ropp 1); Fin (Ropp 1)] [Fin (1/2); Fin 1];
   mkMode [[0; 0]; [0; 0]] [[]; []] [2; 2]
          [[1; 0]; [-1; 0]; [0; 1]; [0; -1]] [1; Ropp (1/2); 1; 1]
          [Fin (Ropp (Ropp (1/2))); Fin (Ropp 1)] [Fin 1; Fin 1]].

(** phi(x) = |x1| / 2 *)
Definition net_abs2 : network :=
  mkNet [(mkLin 2 [[1; 0]; [-1; 0]] (Some [0; 0]), Relu)] (mkLin 2 [[1/2; 1/2]] (Some [0])).

(** The matching answers about programs with extra rows. *)
Definition ideal_query (m : mip) (rows : list grow) : bool :=
  if excluded_middle_informative (exists sg, gfeas m sg /\ Forall (row_ok sg) rows)
  then false else true.

(** ** The two systems as constraints and as transitions *)

Definition add1 := fun xv xn vt m => hybrid_add_dynamics sys1 xv xn [] vt m.
Definition T1 := fun x x' => hybrid_next sys1 x [] x'.
Definition addc := fun xv xn vt m => hybrid_add_dynamics sysc xv xn [] vt m.
Definition Tc := fun x x' => hybrid_next sysc x [] x'.

(** A trajectory of the first system. *)
Definition traj1 (k : nat) : vec := match k with O => [1] | S j => [- (1/4) * (1/2) ^ j] end.

(** A cost. *)
Definition first_coord (x : vec) : R := nth 0 x 0.

(** ** Learned systems *)

(** phi(x) = relu x - relu (- x) / 2 + 1/4 *)
Definition net_kink : network :=
  mkNet [(mkLin 1 [[1]; [-1]] (Some [0; 0]), Relu)] (mkLin 2 [[1; -1/2]] (Some [1/4])).
(** phi(q, v, u) = relu (q + v + u) - relu (- q - v - u) / 2 + 1/4 *)
Definition net_kink3 : network :=
  mkNet [(mkLin 3 [[1; 1; 1]; [-1; -1; -1]] (Some [0; 0]), Relu)]
        (mkLin 2 [[1; -1/2]] (Some [1/4])).
Definition auto_ex (k : auto_kind) : auto_sys := mkAuto net_kink [-1] [1] IA k.
Definition ctl_ex (k : ctl_kind) : ctl_sys := mkCtl net_kink3 [-1; -1] [1; 1] [-1] [1] k.
(** A second order system with equilibrium (q, v) = (1/2, 0), u = 1/4. *)
Definition second_ex : ctl_sys := ctl_ex (CSecond [1/2] [1/4] (1/10)).
Definition residue_ex : ctl_sys := ctl_ex (CResidue [1/2] [1/4] (1/10) [0; 1]%nat).
(** Closed with a network controller and limits -1/2 .. 1/2. *)
Definition fb_ex (solve : mip -> gresult) : feedback :=
  mkFb (ctl_fwd solve second_ex) (CtlNet net_abs2) [1/2; 0] [1/4] [Fin (-1/2)] [Fin (1/2)] IA.
(** Closed with a linear controller without limits. *)
Definition fb_lin (solve : mip -> gresult) : feedback :=
  mkFb (ctl_fwd solve second_ex) (CtlLinear (mkLin 2 [[1; -1]] (Some [3]))) [1/2; 0] [1/4]
       [NInf] [PInf] IA.

(** ** Barriers *)

(** phi(x) = - |x|, so that h(x) = 1/2 - |x| with x_star = 0, c = 1/2. *)
Definition net_nabs : network :=
  mkNet [(mkLin 1 [[1]; [-1]] (Some [0; 0]), Relu)] (mkLin 2 [[-1; -1]] (Some [0])).
(** x' = x / 2 on [-1, 1/4], x' = 2 on [1/4, 1]. *)
Definition sysj : hybrid := mkHybrid 1 0
  [mkMode [[1/2]] [[]] [0] [[1]; [-1]] [1/4; 1] [Fin (Ropp 1)] [Fin (1/4)];
   mkMode [[0]] [[]] [2] [[1]; [-1]] [1; Ropp (1/4)] [Fin (Ropp (Ropp (1/4)))] [Fin 1]].
Definition addj := fun xv xn vt m => hybrid_add_dynamics sysj xv xn [] vt m.
Definition Tj := fun x x' => hybrid_next sysj x [] x'.
(** The region x >= 3/4, and the region where a binary chooses between x >= 1 and
    x <= -1 (the boundary of the box). *)
Definition region_ge : mic :=
  mkMic 1 0 0 None None None None (Some [[-1]]) None None (Some [-3/4]) None None None None
        None None None None None None.
Definition region_edge : mic :=
  mkMic 1 0 1 None None None None (Some [[-1]; [1]]) None (Some [[-2]; [2]]) (Some [-1; 1])
        None None None None None None None None None None.
