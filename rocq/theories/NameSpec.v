(** * Vocabulary for parameter names (C114).  No proofs in this file. *)
From Coq Require Import String List Reals.
From Verif Require Import Cplx Py Ndarray OperatorUtils Noise Gates Apply Composite.
Import ListNotations.

(** [stands_for vals p x]: the parameter [p], a number or a name with a numeric value in [vals], is the number [x] *)
Inductive stands_for (vals : values) : param -> R -> Prop :=
| sf_number : forall x, stands_for vals (PNum x) x
| sf_name : forall s x, lookup vals s = Ok (VNum x) -> stands_for vals (PName s) x.
(** the same number, written in two ways *)
Definition same_number (vals vals' : values) (p p' : param) : Prop := exists x, stands_for vals p x /\ stands_for vals' p' x.

(** [same_gate vals vals' g g']: the same gate, up to the way its angle is written.  (A Hamiltonian evolution reads its data
    under two fixed names.) *)
Inductive same_gate (vals vals' : values) : gate -> gate -> Prop :=
| sg_fixed : forall name t c ns sp, same_gate vals vals' (Primitive name t c ns sp) (Primitive name t c ns sp)
| sg_rotation : forall rot p p' t c ns sp, In rot [RX; RY; RZ; PHASE] -> same_number vals vals' p p' ->
    same_gate vals vals' (rot p t c ns sp) (rot p' t c ns sp)
| sg_evolution : forall t c h x, lookup vals "hamiltonian" = Ok h -> lookup vals' "hamiltonian" = Ok h ->
    lookup vals "time_evolution" = Ok x -> lookup vals' "time_evolution" = Ok x ->
    same_gate vals vals' (HamiltonianEvolution t c) (HamiltonianEvolution t c).

(** the same operation, up to the way the angles and the factors of its Scale operations are written, and up to the names listed as
    feature parameters *)
Inductive same_operation (vals vals' : values) : oper -> oper -> Prop :=
| so_gates : forall g g', same_gate vals vals' g g' -> same_operation vals vals' (OGate g) (OGate g')
| so_sequence : forall l l', Forall2 (same_operation vals vals') l l' -> same_operation vals vals' (OSeq l) (OSeq l')
| so_scale : forall l l' p p', Forall2 (same_operation vals vals') l l' -> same_number vals vals' p p' ->
    same_operation vals vals' (OScale l p) (OScale l' p')
| so_add : forall l l', Forall2 (same_operation vals vals') l l' -> same_operation vals vals' (OAdd l) (OAdd l')
| so_observable : forall l l', Forall2 (same_operation vals vals') l l' -> same_operation vals vals' (OObs l) (OObs l')
| so_circuit : forall n l l' fp fp', Forall2 (same_operation vals vals') l l' -> same_operation vals vals' (OQC n l fp) (OQC n l' fp').
