(** * Vocabulary for the sensitivity of expectations to angles and to noise (C118).  No proofs in this file. *)
From Coq Require Import String List Reals.
From Verif Require Import Cplx Py Ndarray OperatorUtils Noise Gates Apply Composite Spec GateSpec PropSpec NoiseSpec ExpectSpec.
Import ListNotations.
Local Open Scope R_scope.

(** the number with the key [name] in the dictionary of values *)
Definition number (vals : values) (name : string) : R := match lookup vals name with Ok (VNum x) => x | _ => 0 end.
(** by how much the parameters of the gates differ, summed over all the places where a parameter is used *)
Definition total_change (gs : list gate) (vals vals' : values) : R :=
  rsum (flat_map names_of_gate gs) (fun name => Rabs (number vals name - number vals' name)).

(** the gate without its noise *)
Definition without_noise (g : gate) : gate :=
  mkGate (gclass g) (generator_name g) (target g) (control g) None (sparse g) (gparam g) (shift g).
(** the probability of an error in a noise channel: the sum of the probabilities of a Pauli channel, the damping rate of the others *)
Definition error_rate (i : noise_inst) : R :=
  match ntype i, error_probability i with
  | PAULI_CHANNEL, PTuple (px :: py :: pz :: _) => px + py + pz
  | GENERALIZED_AMPLITUDE_DAMPING, PTuple (_ :: r :: _) => r
  | _, PFloat p => p
  | _, _ => 0
  end.
(** the sum of the error probabilities of all the noise of the circuit *)
Definition total_error (gs : list gate) : R :=
  rsum gs (fun g => match noise g with Some l => rsum l error_rate | None => 0 end).
