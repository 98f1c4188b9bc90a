(** * Vocabulary for telling states apart (C125).  No proofs in this file. *)
From Coq Require Import List Reals.
From Verif Require Import Cplx Py Ndarray OperatorUtils Noise Gates Apply Spec GateSpec PropSpec SampleSpec ExpectSpec VarSpec.
Import ListNotations.
Local Open Scope R_scope.

(** a measurement with two outcomes: [E] is the operator of the outcome "yes", with 0 <= E <= 1; its probability in the state [s] is
    [mean n E s] *)
Definition test (n : nat) (E : op) : Prop := bounded_below n E 0 /\ bounded_above n E 1.
(** no measurement whatever distinguishes the two states by more than [eps]: whatever is tested, the probabilities of "yes" differ by at
    most [eps] (for physical states: their trace distance is at most [eps]) *)
Definition within (n : nat) (eps : R) (s s' : state) : Prop := forall E, test n E -> Rabs (mean n E s - mean n E s') <= eps.
