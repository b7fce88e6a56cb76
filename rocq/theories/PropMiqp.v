(** C83: a quadratic objective means what was written. *)

Require Import Reals List Arith.
Require Import Verif.Vec Verif.ModelMip Verif.SpecMip Verif.SpecMilp Verif.ModelMiqp Verif.SpecMiqp Verif.ProofMiqp Verif.ProofMiqp2.
Import ListNotations.
Open Scope R_scope.

(** What is stored and what Gurobi is given both have the value written down, at every assignment. *)
Theorem C83_objective_is_written : forall rs zs sg qc qv lc lv c mx o,
  Forall (Forall (fun v => In v rs \/ In v zs)) lv ->
  set_quad_objective rs zs qc qv lc lv c mx = Some o ->
  quad_value (qo_Qr o) (qo_Qz o) (qo_Qrz o) (qo_cr o) (qo_cz o) (qo_k o) (map sg rs) (map sg zs) = written qc qv lc lv c sg /\
  gurobi_value (qo_gquad o) (qo_glin o) (qo_k o) sg = written qc qv lc lv c sg /\
  qo_max o = mx.
Proof. exact objective_written. Qed.
Print Assumptions C83_objective_is_written.
(** Hence over every feasible set the optima are those of the written objective. *)
Theorem C83_same_optimum : forall rs zs qc qv lc lv c mx o (feasible : assignment -> Prop) sg,
  Forall (Forall (fun v => In v rs \/ In v zs)) lv -> set_quad_objective rs zs qc qv lc lv c mx = Some o ->
  ((forall sg', feasible sg' -> gurobi_value (qo_gquad o) (qo_glin o) (qo_k o) sg <= gurobi_value (qo_gquad o) (qo_glin o) (qo_k o) sg') <->
   (forall sg', feasible sg' -> written qc qv lc lv c sg <= written qc qv lc lv c sg')).
Proof. exact same_optimum. Qed.
Print Assumptions C83_same_optimum.
(** It is accepted exactly if the shapes fit, the variables are known and no term is given twice; x * y and y * x
    are the same term if one of x and y is continuous and the other binary. *)
Theorem C83_accepted : forall rs zs qc qv lc lv c mx,
  Forall2 (fun (a : vec) (b : list nat) => length a = length b) lc lv -> Forall (Forall (fun v => In v rs \/ In v zs)) lv ->
  ((exists o, set_quad_objective rs zs qc qv lc lv c mx = Some o) <->
   Forall2 shaped qc qv /\ NoDup (concat lv) /\
   Forall (fun p => (In (fst p) rs \/ In (fst p) zs) /\ (In (snd p) rs \/ In (snd p) zs)) (pairs qv) /\
   NoDup (map (oriented rs) (pairs qv))).
Proof. exact accepted. Qed.
Print Assumptions C83_accepted.
(** A linear term in a variable the program does not have is dropped without an exception. *)
Theorem C83_unknown_variable_refuted : exists rs zs lc lv o sg,
  Forall2 (fun (a : vec) (b : list nat) => length a = length b) lc lv /\
  set_quad_objective rs zs [] [] lc lv 0 false = Some o /\
  gurobi_value (qo_gquad o) (qo_glin o) (qo_k o) sg <> written [] [] lc lv 0 sg.
Proof. exact dropped. Qed.
Print Assumptions C83_unknown_variable_refuted.

(** Two continuous variables and a binary one, with every kind of term. *)
Example C83_case : Forall (Forall (fun v => In v ex_rs \/ In v ex_zs)) ex_lv /\
  exists o, set_quad_objective ex_rs ex_zs ex_qc ex_qv ex_lc ex_lv 9 false = Some o /\
  qo_Qr o = [[1; 2]; [0; 3]] /\ qo_Qz o = [[4]] /\ qo_Qrz o = [[0]; [5]] /\ qo_cr o = [7; 6] /\ qo_cz o = [8].
Proof. exact (conj ex_known ex_accepted). Qed.
Example C83_rejected_case :
  set_quad_objective ex_rs ex_zs (ex_qc ++ [[[1]]]) (ex_qv ++ [([2], [1])])%nat ex_lc ex_lv 9 false = None.
Proof. exact ex_rejected. Qed.
