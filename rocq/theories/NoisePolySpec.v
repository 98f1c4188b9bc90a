(** * Vocabulary for C131: circuits whose noise depends on one error probability.  No proofs in this file. *)
From Coq Require Import List Reals.
From Verif Require Import Cplx Py Ndarray Noise Gates Spec NoiseSpec NoiseLawSpec.
Import ListNotations.
Local Open Scope R_scope.

(** the polynomial with the given coefficients, constant term first *)
Definition polynomial (coefs : list R) (p : R) : R := fold_right (fun a acc => a + p * acc) 0 coefs.

(** [noise_family m f]: the noise instance [f p] does not depend on [p] (m = 0), or its probabilities are a + b p (m = 1) *)
Inductive noise_family : nat -> (R -> noise_inst) -> Prop :=
| nf_fixed : forall i, noise_family 0 (fun _ => i)
| nf_bitflip : forall a b, noise_family 1 (fun p => bitflip (a + b * p))
| nf_phaseflip : forall a b, noise_family 1 (fun p => phaseflip (a + b * p))
| nf_depolarizing : forall a b, noise_family 1 (fun p => depolarizing (a + b * p))
| nf_pauli : forall a b a' b' a'' b'', noise_family 1 (fun p => pauli_channel (a + b * p) (a' + b' * p) (a'' + b'' * p))
| nf_temperature : forall a b r, noise_family 1 (fun p => generalized_amplitude_damping (a + b * p) r).
(** [gate_family m g]: a gate, of which [m] noise instances depend on [p] *)
Inductive gate_family : nat -> (R -> gate) -> Prop :=
| gf_fixed : forall g, gate_family 0 (fun _ => g)
| gf_noise : forall g ms fs, Forall2 noise_family ms fs -> gate_family (list_sum ms) (fun p => with_noise (map (fun f => f p) fs) g).
(** [circuit_family m gs]: a list of gates, of which [m] noise instances depend on [p] *)
Inductive circuit_family : nat -> (R -> list gate) -> Prop :=
| cf_nil : circuit_family 0 (fun _ => [])
| cf_cons : forall m g k gs, gate_family m g -> circuit_family k gs -> circuit_family (m + k) (fun p => g p :: gs p).

(** [extrapolates m ps ws p0]: the weights [ws] compute the value at [p0] of every polynomial of degree at most [m] from its values at [ps] *)
Definition extrapolates (m : nat) (ps ws : list R) (p0 : R) : Prop :=
  length ws = length ps /\ forall k, (k <= m)%nat -> fold_right Rplus 0 (map (fun pw => snd pw * fst pw ^ k) (combine ps ws)) = p0 ^ k.
Definition weighted_sum (ws es : list R) : R := fold_right Rplus 0 (map (fun we => fst we * snd we) (combine ws es)).
