(** * Vocabulary for C130: overlap and purity of density matrices, and noise that only mixes.  No proofs in this file. *)
From Coq Require Import List Reals.
From Verif Require Import Cplx Py Ndarray Noise Gates Apply Spec SampleSpec.
Import ListNotations.

(** tr(rho sigma), for the density matrices of two states *)
Definition overlap_trace (n : nat) (st st' : state) : C :=
  csum (bitstrings n) (fun x => csum (bitstrings n) (fun y => Cmul (density_of st x y) (density_of st' y x))).
(** tr(rho^2): 1 for a pure state, 2^-n for the maximally mixed one *)
Definition purity (n : nat) (st : state) : R := re (overlap_trace n st st).
(** the noise of [g], if any, contains no (generalized) amplitude damping *)
Definition mixing_type (t : noise_type) : Prop :=
  match t with AMPLITUDE_DAMPING | GENERALIZED_AMPLITUDE_DAMPING => False | _ => True end.
Definition mixing_noise (g : gate) : Prop :=
  match noise g with None => True | Some l => Forall (fun i => mixing_type (ntype i)) l end.
(** every outcome of every measurement is equally likely: the density matrix is the identity divided by 2^n *)
Definition maximally_mixed (n : nat) (st : state) : Prop := keq n (density_of st) (kscale (RtoC (/ 2 ^ n)) kid).
