(** The properties of the flat network parameters (C48). *)

Require Import Reals List Bool Arith Lra Lia.
Require Import Verif.Vec Verif.SpecCore Verif.ModelNet Verif.SpecNet Verif.ModelParams Verif.SpecParams
  Verif.ProofParams.
Import ListNotations.
Open Scope R_scope.

(** C48. *)
Theorem C48_setup : forall widths params slope hb, (2 <= length widths)%nat ->
  length params = param_count hb widths ->
  exists N, setup_relu widths params slope hb = Some (sequential N) /\ net_shape (hd O widths) N /\
    acts N = repeat (Leaky slope) (length widths - 2) /\
    extract_relu_parameters (sequential N) = Some params /\
    extract_relu_structure (sequential N)
    = Some (widths, if Nat.eqb (length widths) 2 then None else Some slope, Some hb).
Proof. exact setup_round_trip. Qed.
Print Assumptions C48_setup.
Theorem C48_update : forall n N params, net_shape n N -> length params = net_count N ->
  exists N', update_relu_params (sequential N) params = Some (sequential N') /\ net_shape n N' /\
    acts N' = acts N /\
    Forall2 (fun a b => in_features a = in_features b /\ out_features a = out_features b /\ biased a = biased b)
      (linears N') (linears N) /\
    extract_relu_parameters (sequential N') = Some params.
Proof. exact update_round_trip. Qed.
Print Assumptions C48_update.
Theorem C48_update_same : forall n N p, net_shape n N -> extract_relu_parameters (sequential N) = Some p ->
  update_relu_params (sequential N) p = Some (sequential N).
Proof. exact update_same. Qed.
Print Assumptions C48_update_same.
Theorem C48_rebuild : forall n N widths slope hb p, net_shape n N ->
  extract_relu_structure (sequential N) = Some (widths, slope, hb) ->
  extract_relu_parameters (sequential N) = Some p ->
  exists b, hb = Some b /\ forall c, (slope = None \/ slope = Some c) ->
  exists N', setup_relu widths p c b = Some (sequential N') /\ linears N' = linears N /\
    forall x, net_eval N' x = net_eval N x.
Proof. exact rebuild. Qed.
Print Assumptions C48_rebuild.
Example C48_case : exists N,
  setup_relu [2; 2; 1]%nat [1; 2; 3; 4; 5; 6; 7; 8; 9] (1/10) true = Some (sequential N) /\
  linears N = [mkLin 2 [[1; 2]; [3; 4]] (Some [5; 6]); mkLin 2 [[7; 8]] (Some [9])].
Proof. exact setup_case. Qed.
(** update_relu_params does not copy: afterwards the network follows the tensor that was
    passed, whatever is written there. *)
Theorem C48_update_follows : forall mem c relu relu' n N, update_views mem c 0 relu = Some relu' ->
  map (read_layer mem) relu = sequential N -> net_shape n N -> length (mem c) = net_count N ->
  forall mem', length (mem' c) = length (mem c) ->
  extract_relu_parameters (map (read_layer mem') relu') = Some (mem' c).
Proof. exact updated_follows. Qed.
Print Assumptions C48_update_follows.
Theorem C48_alias_refuted : exists mem mem' relu relu' N,
  update_views mem 0 0 relu = Some relu' /\ map (read_layer mem) relu = sequential N /\ net_shape 1 N /\
  mem O = [2] /\ mem' O = [3] /\ (forall c, c <> O -> mem' c = mem c) /\
  extract_relu_parameters (map (read_layer mem) relu') = Some [2] /\
  extract_relu_parameters (map (read_layer mem') relu') = Some [3].
Proof. exact alias_case. Qed.
Print Assumptions C48_alias_refuted.
(** Too few parameters for the last bias are accepted. *)
Theorem C48_short_refuted :
  setup_relu [1; 2]%nat [1; 2; 3] (1/10) true = Some [LLin (mkLin 1 [[1]; [2]] (Some [3]))] /\
  (length [1; 2; 3] < param_count true [1; 2])%nat.
Proof. exact short_bias. Qed.
Print Assumptions C48_short_refuted.
