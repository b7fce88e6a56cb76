(** The properties of the parameterisations of R (C39). *)

Require Import Reals List.
Require Import Verif.Vec Verif.ModelMilp Verif.SpecLyapunov Verif.ModelROptions Verif.SpecROptions
  Verif.ProofROptions Verif.ProofROptionsEx.
Import ListNotations.
Open Scope R_scope.

(** C39.  SearchRwithSPDOptions, in every state that its methods can reach. *)
Theorem C39_spd_rank : forall cholesky o, cholesky_ok cholesky -> spd_made cholesky o ->
  exists M, spd_R o = Some M /\ wfm (spd_m o) (spd_n o) M /\ full_column_rank (spd_n o) M.
Proof. exact spd_rank. Qed.
Print Assumptions C39_spd_rank.
Theorem C39_spd_norm : forall cholesky o, cholesky_ok cholesky -> spd_made cholesky o ->
  exists M, spd_R o = Some M /\
  (forall x, length x = spd_n o -> spd_eps o * sqnorm x <= dot x (mv (firstn (spd_n o) M) x)) /\
  forall x, length x = spd_n o -> spd_eps o * spd_eps o * sqnorm x <= sqnorm (mv M x).
Proof. exact spd_made_norm. Qed.
Print Assumptions C39_spd_norm.
Theorem C39_spd_roundtrip : forall cholesky o junk Rv o', cholesky_ok cholesky -> spd_made cholesky o ->
  length junk = length (spd_vars o) -> spd_set cholesky junk o Rv = Some o' ->
  spd_R o' = Some (symmetrised (spd_n o) Rv).
Proof. exact spd_roundtrip. Qed.
Print Assumptions C39_spd_roundtrip.
Example C39_spd_case : cholesky_ok ideal_cholesky /\ spd_made ideal_cholesky spd3 /\ exists o,
  spd_set ideal_cholesky [0; 0; 0; 0; 0] spd3 [[3 / 2; 1]; [3; 11 / 2]; [7; 8]] = Some o /\
  spd_made ideal_cholesky o /\
  spd_R o = Some [[3 / 2; 2]; [2; 11 / 2]; [7; 8]].
Proof. exact (conj ideal_cholesky_ok spd3_case). Qed.

(** SearchRwithSVDOptions. *)
Theorem C39_svd_rank : forall factor o, svd_made factor o -> (svd_n o <= svd_m o)%nat ->
  full_column_rank (svd_n o) (svd_R o).
Proof. exact svd_rank. Qed.
Print Assumptions C39_svd_rank.
Theorem C39_svd_norm : forall factor o, svd_made factor o -> wfm (svd_m o) (svd_n o) (svd_R o) /\
  ((svd_n o <= svd_m o)%nat -> forall k, 0 <= k -> Forall (Rle k) (svd_a o) ->
   forall x, length x = svd_n o -> k * k * sqnorm x <= sqnorm (mv (svd_R o) x)).
Proof. exact svd_norm. Qed.
Print Assumptions C39_svd_norm.
Theorem C39_svd_roundtrip : forall factor o Rv U s V o', svd_made factor o -> factor Rv = (U, s, V) ->
  is_svd (svd_m o) (svd_n o) Rv U s V -> svd_set factor o Rv = Some o' -> svd_R o' = Rv.
Proof. exact svd_roundtrip. Qed.
Print Assumptions C39_svd_roundtrip.
Example C39_svd_case : svd_made factor22 svd2 /\
  is_svd 2 2 [[0; -2]; [3; 0]] [[0; -1]; [1; 0]] [3; 2] [[1; 0]; [0; 1]] /\
  exists o, svd_set factor22 svd2 [[0; -2]; [3; 0]] = Some o.
Proof. exact svd2_case. Qed.

(** SearchRfreeOptions. *)
Theorem C39_free_roundtrip : forall m n Rv M, free_set m n Rv = Some M -> M = Rv /\ wfm m n Rv.
Proof. exact free_roundtrip. Qed.
Print Assumptions C39_free_roundtrip.
