(** * Vocabulary for qubits that are only read (C128).  No proofs in this file. *)
From Coq Require Import String List Bool.
From Verif Require Import Cplx Py Ndarray OperatorUtils Sparse Noise Gates Apply Spec GateSpec PropSpec SampleSpec.
Import ListNotations.

(** gates whose matrix is diagonal: I, Z, S, T, RZ and PHASE *)
Definition diagonal_gate (g : gate) : Prop :=
  gclass g = KPrim /\ In (generator_name g) ["I"; "Z"; "S"; "T"]%string \/ gclass g = KParam /\ generator_name g = "Z"%string \/ gclass g = KPhase.
(** noise without bit flips *)
Definition dephasing (i : noise_inst) : Prop := ntype i = PHASEFLIP \/ ntype i = PHASE_DAMPING.
(** [only_reads S g]: the gate uses the qubits of [S] only as controls, or it is a diagonal gate with no other noise than dephasing *)
Definition only_reads (S : nat -> Prop) (g : gate) : Prop :=
  (forall q, In q (target g) -> ~ S q) \/ diagonal_gate g /\ match noise g with None => True | Some l => Forall dephasing l end.

(** [collapsed n ev st st']: [st'] is what remains of [st] (not normalised) if the property [ev] of the bit string is measured and found to hold *)
Definition collapsed (n : nat) (ev : list nat -> bool) (st st' : state) : Prop :=
  forall x y, In x (bitstrings n) -> In y (bitstrings n) -> density_of st' x y = if ev x && ev y then density_of st x y else C0.
