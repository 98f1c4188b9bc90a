(** * Vocabulary for C120.  No proofs in this file. *)
From Coq Require Import List.
From Verif Require Import Cplx Spec.
Import ListNotations.

(** the event [ev] is about the qubits [S] only: whether a bit string has the property depends only on its bits there *)
Definition event_on (n : nat) (S : nat -> Prop) (ev : list nat -> bool) : Prop :=
  forall x y, In x (bitstrings n) -> In y (bitstrings n) -> (forall q, S q -> nth q x 0 = nth q y 0) -> ev x = ev y.
