(** * Vocabulary for linear combinations of lists of numbers (C129).  No proofs in this file. *)
From Coq Require Import List Reals.
Import ListNotations.
Local Open Scope R_scope.

(** [a * u + b * v], entry by entry *)
Definition combination (a b : R) (u v : list R) : list R := map (fun xy => a * fst xy + b * snd xy) (combine u v).
