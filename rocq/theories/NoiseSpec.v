(** * Specification of noise: accepted parameters, the documented channels, noisy evolution.  Of the model, the
    data types (noise instances, gates) and the matrices returned by [.kraus] are used. *)
From Coq Require Import List String Arith Bool Reals.
From Verif Require Import Cplx Py Ndarray OperatorUtils Noise Gates Spec GateSpec PropSpec.
Import ListNotations.
Local Open Scope nat_scope.

(** a probability *)
Definition is_prob (p : R) : Prop := (0 <= p <= 1)%R.

(** The right kind of parameter for the noise type: a number, or a tuple with at least three (PauliChannel) or
    two (GeneralizedAmplitudeDamping) components. *)
Definition well_typed (i : noise_inst) : Prop :=
  match ntype i, error_probability i with
  | PAULI_CHANNEL, PTuple l => 3 <= List.length l
  | GENERALIZED_AMPLITUDE_DAMPING, PTuple l => 2 <= List.length l
  | PAULI_CHANNEL, PFloat _ | GENERALIZED_AMPLITUDE_DAMPING, PFloat _ => False
  | _, PFloat _ => True
  | _, PTuple _ => False
  end.

(** the parameters that should be accepted (GeneralizedAmplitudeDamping reads only two components) *)
Definition valid_parameter (i : noise_inst) : Prop :=
  match ntype i, error_probability i with
  | PAULI_CHANNEL, PTuple l => Forall is_prob l /\ is_prob (fold_right Rplus 0%R l)
  | GENERALIZED_AMPLITUDE_DAMPING, PTuple l => Forall is_prob (firstn 2 l)
  | _, PFloat p => is_prob p
  | _, PTuple _ => False
  end.

(** [A rho A^dagger] *)
Definition sandwiched (n : nat) (A rho : op) : op := kmul n (kmul n A rho) (kadj A).

(** a one-qubit matrix given by its entries in terms of those of [rho] *)
Definition entrywise (f : C -> C -> C -> C -> op) (rho : op) : op :=
  f (rho [0] [0]) (rho [0] [1]) (rho [1] [0]) (rho [1] [1]).

(** The documented channels on one qubit: docstrings of utils_noise.py; the damping channels, documented by
    their Kraus operators, are written out on the entries [a b; c d] of the density matrix. *)
Definition documented_channel (i : noise_inst) (rho : op) : option op :=
  match ntype i, error_probability i with
  | BITFLIP, PFloat p =>
      Some (ksum [kscale (Cn (1 - p)) rho; kscale (Cn p) (sandwiched 1 X_matrix rho)])
  | PHASEFLIP, PFloat p =>
      Some (ksum [kscale (Cn (1 - p)) rho; kscale (Cn p) (sandwiched 1 Z_matrix rho)])
  | DEPOLARIZING, PFloat p =>
      Some (ksum [kscale (Cn (1 - p)) rho; kscale (Cn (p / 3)) (sandwiched 1 X_matrix rho);
                  kscale (Cn (p / 3)) (sandwiched 1 Y_matrix rho); kscale (Cn (p / 3)) (sandwiched 1 Z_matrix rho)])
  | PAULI_CHANNEL, PTuple (px :: py :: pz :: _) =>
      Some (ksum [kscale (Cn (1 - px - py - pz)) rho; kscale (Cn px) (sandwiched 1 X_matrix rho);
                  kscale (Cn py) (sandwiched 1 Y_matrix rho); kscale (Cn pz) (sandwiched 1 Z_matrix rho)])
  | AMPLITUDE_DAMPING, PFloat p =>
      Some (entrywise (fun a b c d => mat2 (Cadd a (Cmul (Cn p) d)) (Cmul (Cn (sqrt (1 - p))) b)
                                           (Cmul (Cn (sqrt (1 - p))) c) (Cmul (Cn (1 - p)) d)) rho)
  | PHASE_DAMPING, PFloat p =>
      Some (entrywise (fun a b c d => mat2 a (Cmul (Cn (sqrt (1 - p))) b) (Cmul (Cn (sqrt (1 - p))) c) d) rho)
  | GENERALIZED_AMPLITUDE_DAMPING, PTuple (p :: r :: _) =>
      Some (entrywise (fun a b c d =>
        mat2 (Cadd (Cmul (Cn (1 - (1 - p) * r)) a) (Cmul (Cn (p * r)) d)) (Cmul (Cn (sqrt (1 - r))) b)
             (Cmul (Cn (sqrt (1 - r))) c) (Cadd (Cmul (Cn ((1 - p) * r)) a) (Cmul (Cn (1 - p * r)) d))) rho)
  | _, _ => None
  end.

(** the Kraus sum of one-qubit matrices acting on qubit [q] of [n] *)
Definition kraus_sum (n q : nat) (ks : list arr) (rho : op) : op :=
  ksum (map (fun K => sandwiched n (ctrl_kernel (entry K) [] [q]) rho) ks).

(** [through n q l rho rho']: [rho'] is [rho] after the channels [l], in order, on qubit [q] *)
Inductive through (n q : nat) : list noise_inst -> op -> op -> Prop :=
| through_nil : forall rho, through n q [] rho rho
| through_cons : forall i ks l rho rho', kraus i = Ok ks -> through n q l (kraus_sum n q ks rho) rho' ->
    through n q (i :: l) rho rho'.

(** [noisy_run n vals gs rho rho']: the gates [gs], on distinct qubits among [0 .. n-1], take the density matrix
    [rho] to [rho']: each gate acts as [U rho U^dagger], followed by its channels on its target qubit *)
Inductive noisy_run (n : nat) (vals : values) : list gate -> op -> op -> Prop :=
| nrun_nil : forall rho, noisy_run n vals [] rho rho
| nrun_plain : forall g gs M cs ts rho rho', gate_on n vals g M cs ts -> noise g = None ->
    noisy_run n vals gs (sandwiched n (gate_op M cs ts) rho) rho' ->
    noisy_run n vals (g :: gs) rho rho'
| nrun_noise : forall g gs M cs q l rho rho1 rho', gate_on n vals g M cs [q] -> noise g = Some l ->
    through n q l (sandwiched n (gate_op M cs [q]) rho) rho1 ->
    noisy_run n vals gs rho1 rho' ->
    noisy_run n vals (g :: gs) rho rho'.

(** a gate with accepted noise (or none) on a single target qubit *)
Definition noise_ok (g : gate) : Prop :=
  match noise g with
  | None => True
  | Some l => List.length (target g) = 1 /\ Forall (fun i => well_typed i /\ valid_parameter i) l
  end.

(** noise instances of probability zero *)
Definition silent (i : noise_inst) : Prop :=
  match ntype i, error_probability i with
  | PAULI_CHANNEL, PTuple l => 3 <= List.length l /\ Forall (fun p => p = 0%R) l
  | GENERALIZED_AMPLITUDE_DAMPING, PTuple (p :: r :: _) => is_prob p /\ r = 0%R
  | PAULI_CHANNEL, PFloat _ | GENERALIZED_AMPLITUDE_DAMPING, PFloat _ => False
  | _, PFloat p => p = 0%R
  | _, PTuple _ => False
  end.
(** the same gate without noise *)
Definition without_noise (g : gate) : gate :=
  mkGate (gclass g) (generator_name g) (target g) (control g) None (sparse g) (gparam g) (shift g).
(** a gate whose noise (if any) has probability zero, on one target qubit *)
Definition silent_gate (g : gate) : Prop :=
  match noise g with None => True | Some l => List.length (target g) = 1 /\ Forall silent l end.
