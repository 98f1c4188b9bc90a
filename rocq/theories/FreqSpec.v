(** * Vocabulary for the frequencies of outcomes in samples (C119).  No proofs in this file. *)
From Coq Require Import String List Reals.
From Verif Require Import Cplx Py Ndarray OperatorUtils Noise Gates Apply Composite Spec GateSpec PropSpec NoiseSpec SampleSpec ExpectSpec ShotsSpec HeisSpec.
Import ListNotations.
Local Open Scope R_scope.

(** the probability, in the state [st] of [n] qubits, that the outcome has the property [ev] *)
Definition event_probability (n : nat) (ev : list nat -> bool) (st : state) : R :=
  rsum (filter ev (bitstrings n)) (outcome_probability st).
(** the part of the counted outcomes that has the property [ev] *)
Definition frequency (ev : list nat -> bool) (counts : list (list nat * nat)) : R :=
  rsum (filter (fun xc => ev (fst xc)) counts) (fun xc => INR (snd xc)) / rsum counts (fun xc => INR (snd xc)).
(** the probability that a number, which depends on the generator of random draws, is at least [eps] away from [m] *)
Definition off_by (Om : space) (f : sampler -> R) (m eps : R) : R := expected Om (fun ch => if Rle_dec eps (Rabs (f ch - m)) then 1 else 0).
