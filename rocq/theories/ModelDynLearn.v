(** Model of /repo/neural_network_lyapunov/dynamics_learning.py, classes
    DynamicsLearning and StateSpaceDynamicsLearning: learning the dynamics of a
    system together with a Lyapunov function.  The training loop is in
    ModelDynTrain, the latent space in ModelLatent.

    [None] is a raised exception.  dtype/device handling, logging and Gurobi
    parameters are left out, and so are the start values of the warm start
    (option lyap_loss_warmstart), which do not change the programs. *)

Require Import Reals List Bool Arith.
Require Import Verif.Vec Verif.ModelMip Verif.SpecMip Verif.ModelGrad Verif.ModelNet Verif.ModelLyapunov
  Verif.ModelMilp Verif.ModelSystems.
Import ListNotations.
Open Scope R_scope.

(** The options that the modelled functions read (DynamicsLearningOptions, lines
    14-32: a missing option raises): V_lambda, V_eps_pos, V_eps_der_lo,
    V_eps_der_up, R; the weights lyap_pos_loss_weight, lyap_der_lo_loss_weight,
    lyap_der_up_loss_weight and their counterparts *_at_samples_weight;
    x_lo_stable, x_up_stable; lyap_loss_optimal. *)
Record dl_opt := mkDlOpt {
  o_lam : R; o_eps_pos : R; o_eps_lo : R; o_eps_up : R; o_R : option mat;
  o_w_pos : R; o_w_lo : R; o_w_up : R;
  o_s_pos : R; o_s_lo : R; o_s_up : R;
  o_x_lo : vec; o_x_up : vec; o_optimal : bool }.

(** The learner: lyap.lyapunov_relu, lyap.network_bound_propagate_method,
    lyap.system and the options. *)
Record learner := mkLearner { l_net : network; l_meth : method; l_sys : auto_sys; l_opt : dl_opt }.
Definition l_dim (L : learner) : nat := length (au_lo (l_sys L)).
(** lyap.system.x_equilibrium; the constructor (lines 45-50) accepts only the two
    systems that have one. *)
Definition l_xeq (L : learner) : option vec :=
  match au_kind (l_sys L) with
  | APlain => None
  | AGiven xeq _ | AResidual xeq _ => Some xeq
  end.

Section Learner.
Variable solve : mip -> gresult.   (* for the bounds of the networks *)
(** The solutions that Gurobi holds after optimize() ([None]) or after optimize
    with the callback of utils.get_gurobi_terminate_if_callback ([Some threshold]),
    best one first; PoolObjVal is the objective of a solution. *)
Variable pool : option R -> mip -> list assignment.
Variables (inverse : mat -> option mat) (ill : mat -> bool).
Variable L : learner.
Let o := l_opt L.

(** lyapunov_positivity_as_milp and lyapunov_derivative_as_milp as called on lines
    111-115, 136-142, 164-170 and 213-225, 247-262, 285-300. *)
Definition pos_program : option (mip * list nat) :=
  match l_xeq L with
  | None => None
  | Some xeq => positivity_milp solve (l_meth L) (l_net L) (l_dim L) (au_lo (l_sys L)) (au_up (l_sys L))
                  xeq (o_lam o) (o_eps_pos o) (o_R o)
  end.
Definition der_program (eps : R) (et : eps_type) : option (mip * list nat) :=
  match l_xeq L with
  | None => None
  | Some xeq =>
      match derivative_milp solve (l_meth L) (l_net L) (l_dim L) (au_lo (l_sys L)) (au_up (l_sys L))
              (auto_add solve (l_sys L)) xeq (o_lam o) eps et (o_R o) None None VBin with
      | None => None
      | Some d => Some (d_mip d, d_x d)
      end
  end.

(** The states of the solutions with a positive objective — lines 123-134, 151-162,
    179-190. *)
Definition reported (p : mip * list nat) : list vec :=
  let '(m, xv) := p in
  map (fun sg => map sg xv)
    (filter (fun sg => Rltb 0 (objective m sg))
       (pool (if o_optimal o then None else Some 0) m)).

(** adversarial_samples — lines 103-192.  z_adv_der_lo and z_adv_der_up are only
    assigned when the lists are not empty (lines 161, 189); otherwise the return
    statement raises UnboundLocalError. *)
Inductive adv_result :=
  | AdvSamples (pos lo up : list vec)
  | AdvUnbound
  | AdvFails.                         (* building a program raised *)
Definition adversarial_samples : adv_result :=
  match pos_program, der_program (o_eps_lo o) ExpLower, der_program (o_eps_up o) ExpUpper with
  | Some p, Some dl, Some du =>
      match reported dl, reported du with
      | [], _ | _, [] => AdvUnbound
      | lo, up => AdvSamples (reported p) lo up
      end
  | _, _, _ => AdvFails
  end.

(** compute_objective_from_mip_data_and_solution (gurobi_torch_mip.py:958-1033) with
    its two kinds of failure apart: no trial matched (IncorrectActiveConstraint), or
    another exception (an assertion, torch.inverse). *)
Inductive outcome := Value (v : R) | Incorrect | Fails.
Fixpoint match_outcome (n : nat) (m : mip) (r_sol zeta_sol : vec) (pool : R)
         (tol penalty objective_tol : R) : outcome :=
  match milp_objective inverse ill m (active_rows m r_sol zeta_sol tol) zeta_sol penalty with
  | None => Fails
  | Some obj =>
      if Rltb objective_tol (Rabs (obj - pool)) then
        match n with
        | O => Incorrect
        | S n' => match_outcome n' m r_sol zeta_sol pool (tol + tol) penalty objective_tol
        end
      else Value obj
  end.
Definition pool_objective (m : mip) (sols : list assignment) : outcome :=
  match sols with
  | [] => Fails
  | sg :: _ => match_outcome 9 m (map sg (r_ m)) (map sg (zeta_ m)) (objective m sg)
                 (/ 10 ^ 6) 0 (/ 10 ^ 3)
  end.

(** One of the three losses of lyapunov_loss — lines 228-242, 266-280, 304-318:
    only with the callback is IncorrectActiveConstraint caught. *)
Definition program_loss (threshold : R) (p : mip * list nat) : option R :=
  let m := fst p in
  if o_optimal o then
    match pool_objective m (pool None m) with Value v => Some v | _ => None end
  else
    match pool_objective m (pool (Some threshold) m) with
    | Value v => Some v
    | Incorrect => Some 0
    | Fails => None
    end.
(** lyapunov_loss — lines 194-325. *)
Definition lyapunov_loss (t_pos t_lo t_up : R) : option (R * R * R) :=
  match pos_program, der_program (o_eps_lo o) ExpLower, der_program (o_eps_up o) ExpUpper with
  | Some p, Some dl, Some du =>
      match program_loss t_pos p, program_loss t_lo dl, program_loss t_up du with
      | Some a, Some b, Some c => Some (o_w_pos o * a, o_w_lo o * b, o_w_up o * c)
      | _, _, _ => None
      end
  | _, _, _ => None
  end.

(** lyapunov_loss_at_samples — lines 327-365 (DynamicsLearning). *)
Definition stable_samples (x_lo x_up : vec) (xs : list vec) : list vec :=
  filter (fun x => vleb x_lo x) (filter (fun x => vleb x x_up) xs).
Definition losses_at_samples (x_lo x_up : vec) (xs : list vec) : option (R * R * R) :=
  match stable_samples x_lo x_up xs with
  | [] => Some (0, 0, 0)
  | s => match l_xeq L with
         | None => None
         | Some xeq =>
             let next := map (auto_step (l_sys L)) s in
             let der eps et := derivative_loss (l_net L) (l_dim L) xeq s next (o_lam o) eps et (o_R o)
                                 0 RMean None in
             match positivity_loss (l_net L) (l_dim L) xeq s (o_lam o) (o_eps_pos o) (o_R o) 0 RMean None,
                   der (o_eps_lo o) ExpLower, der (o_eps_up o) ExpUpper with
             | Some a, Some b, Some c => Some (o_s_pos o * a, o_s_lo o * b, o_s_up o * c)
             | _, _, _ => None
             end
         end
  end.

(** StateSpaceDynamicsLearning.lyapunov_loss_at_samples — lines 562-568. *)
Definition sample_losses (xs : list vec) : option (R * R * R) :=
  losses_at_samples (o_x_lo o) (o_x_up o) xs.

(** torch.nn.MSELoss() on two batches of the same shape: the mean over all entries. *)
Definition mean (v : vec) : option R :=
  match v with [] => None | _ => Some (vsum v / INR (length v)) end.
Definition squares (a b : vec) : vec := map (fun d => d * d) (vsub a b).
Definition mse (a b : list vec) : option R := mean (squares (concat a) (concat b)).
(** dynamics_loss — lines 570-577. *)
Definition dynamics_loss (xs nexts : list vec) : option R :=
  mse (map (auto_step (l_sys L)) xs) nexts.

(** rollout — lines 579-608: the states and the Lyapunov values. *)
Fixpoint roll (N : nat) (x : vec) : list vec :=
  x :: match N with O => [] | S N' => roll N' (auto_step (l_sys L) x) end.
Definition rollout (x_init : vec) (N : nat) : option (list vec * vec) :=
  if negb (Nat.eqb (length x_init) (l_dim L)) then None else
  match l_xeq L with
  | None => None
  | Some xeq =>
      let xs := roll N x_init in
      match traverse (lyapunov_value (l_net L) (l_dim L) (o_R o) xeq (o_lam o)) xs with
      | Some vs => Some (xs, vs)
      | None => None
      end
  end.

(** rollout_loss — lines 610-620; mean(dim=[1]) of an empty row is nan: None. *)
Fixpoint all_some {A} (l : list (option A)) : option (list A) :=
  match l with
  | [] => Some []
  | Some a :: l' => match all_some l' with Some r => Some (a :: r) | None => None end
  | None :: _ => None
  end.
Definition rollout_loss (expected : list vec) : option vec :=
  match expected with
  | [] => None
  | x0 :: _ =>
      match rollout x0 (length expected - 1) with
      | None => None
      | Some (xs, _) => all_some (map2 (fun e p => mean (squares e p)) expected xs)
      end
  end.

(** rollout_validation — lines 367-384: [loss] is self.rollout_loss; a tensor of
    length one is added to every entry, other different lengths do not add up. *)
Fixpoint add_losses (loss : list vec -> option vec) (acc : vec) (rollouts : list (list vec)) : option vec :=
  match rollouts with
  | [] => Some acc
  | r :: rest => match loss r with
                 | None => None
                 | Some l => if Nat.eqb (length l) (length acc)
                             then add_losses loss (vadd acc l) rest else
                             match l with
                             | [a] => add_losses loss (map (fun b => b + a) acc) rest
                             | _ => None
                             end
                 end
  end.
Definition rollout_validation (rollouts : list (list vec)) : option vec :=
  match rollouts with
  | [] => None
  | r :: _ => add_losses rollout_loss (zeros (length r)) rollouts
  end.
End Learner.
