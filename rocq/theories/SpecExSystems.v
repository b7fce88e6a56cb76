(** What the constraints of the example systems have to say. *)

Require Import Reals List.
Require Import Verif.Vec Verif.ModelMip Verif.ModelNet Verif.SpecNet Verif.ModelExSystems.
Import ListNotations.
Open Scope R_scope.

(** The constructor accepted the system; the arrays it does not check have the
    documented shapes. *)
Definition ex_built (S : ex_sys) : Prop :=
  let k := ex_kind_ S in
  net_wf (ex_nin k) (ex_net S) /\ length (ex_xup S) = ex_nx k /\
  length (ex_ulo S) = ex_nu k /\ length (ex_uup S) = ex_nu k /\
  new_ex (ex_net S) (ex_xlo S) (ex_xup S) (ex_ulo S) (ex_uup S) (ex_dt S) k = Some S.

(** The entries of the state and of the input that the network reads. *)
Definition ex_reads (k : ex_kind) : list nat * list nat :=
  match k with
  | KUnicycle true | KZeroVel true => ([2], [0; 1])
  | KUnicycle false | KZeroVel false => ([2], [0])
  | KAccel => ([2; 3], [0; 1])
  | KPixhawk _ => ([3; 4; 5], [0; 1; 2; 3])
  | KQuad _ _ => ([3; 4; 5; 9; 10; 11], [0; 1; 2; 3])
  | KPole _ _ => ([0; 1; 5; 6], [0; 1; 2])
  end%nat.

(** These entries are within the bounds of the system and within the additional
    bounds on the input. *)
Definition ex_domain (S : ex_sys) (alo aup : option vec) (x u : vec) : Prop :=
  Forall (fun i => nth i (ex_xlo S) 0 <= nth i x 0 <= nth i (ex_xup S) 0)
         (fst (ex_reads (ex_kind_ S))) /\
  Forall (fun j => nth j (ex_ulo S) 0 <= nth j u 0 <= nth j (ex_uup S) 0 /\
                   (forall a, alo = Some a -> nth j a 0 <= nth j u 0) /\
                   (forall a, aup = Some a -> nth j u 0 <= nth j a 0))
         (snd (ex_reads (ex_kind_ S))).

(** The equations of step_forward without its assertion on the input limits: the
    step of the system whose limits are the given input. *)
Definition ex_move (S : ex_sys) (x u : vec) : option vec :=
  ex_step (mkEx (ex_net S) (ex_xlo S) (ex_xup S) u u (ex_dt S) (ex_kind_ S)) x u.

Definition ex_next (S : ex_sys) (x u x' : vec) : Prop :=
  ex_domain S None None x u /\ ex_move S x u = Some x'.

(** The network reads every entry of the input. *)
Definition ex_reads_all (k : ex_kind) : Prop := snd (ex_reads k) = seq 0 (ex_nu k).
