(** * Vocabulary for inverse circuits (C115).  No proofs in this file. *)
From Coq Require Import String List Reals.
From Verif Require Import Cplx Py Ndarray OperatorUtils Noise Gates Apply Spec GateSpec CtorSpec.
Import ListNotations.
Local Open Scope R_scope.

(** [inverse_gate vals g g']: [g'], as a user would write it, is the inverse of the gate [g] on the same targets and under the same
    controls: the same gate, or the gate with the negated angle *)
Inductive inverse_gate (vals : values) : gate -> gate -> Prop :=
| ig_self : forall mk t c, In mk [gI; gX; NOT; gY; gZ; gH; SWAP] -> inverse_gate vals (mk t c None false) (mk t c None false)
| ig_rotation : forall rot p p' a t c, In rot [RX; RY; RZ; PHASE] -> angle_is vals p a -> angle_is vals p' (- a) ->
    inverse_gate vals (rot p t c None false) (rot p' t c None false)
| ig_S : forall t c, inverse_gate vals (gS t c None false) (PHASE (PNum (- (PI / 2))) t c None false)
| ig_T : forall t c, inverse_gate vals (gT t c None false) (PHASE (PNum (- (PI / 4))) t c None false).

(** the inverse gates in the reverse order *)
Definition inverse_circuit (vals : values) (gs gs' : list gate) : Prop := Forall2 (inverse_gate vals) (rev gs) gs'.
