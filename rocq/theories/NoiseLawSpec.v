(** * Vocabulary for the algebra of noise channels (C100, C101): when two noise tuples describe the same noise.  No proofs in this file. *)
From Coq Require Import List Reals.
From Verif Require Import Cplx Py Ndarray Noise Gates Spec NoiseSpec PhysSpec.
Import ListNotations.
Local Open Scope R_scope.

Definition bitflip (p : R) : noise_inst := mkNoise BITFLIP (PFloat p).
Definition phaseflip (p : R) : noise_inst := mkNoise PHASEFLIP (PFloat p).
Definition depolarizing (p : R) : noise_inst := mkNoise DEPOLARIZING (PFloat p).
Definition pauli_channel (px py pz : R) : noise_inst := mkNoise PAULI_CHANNEL (PTuple [px; py; pz]).
Definition amplitude_damping (g : R) : noise_inst := mkNoise AMPLITUDE_DAMPING (PFloat g).
Definition phase_damping (g : R) : noise_inst := mkNoise PHASE_DAMPING (PFloat g).
Definition generalized_amplitude_damping (p r : R) : noise_inst := mkNoise GENERALIZED_AMPLITUDE_DAMPING (PTuple [p; r]).

(** mixtures of Pauli operators *)
Inductive pauli_type : noise_inst -> Prop :=
| pt_bitflip : forall p, pauli_type (bitflip p)
| pt_phaseflip : forall p, pauli_type (phaseflip p)
| pt_depolarizing : forall p, pauli_type (depolarizing p)
| pt_pauli : forall px py pz, pauli_type (pauli_channel px py pz).
(** channels that multiply the coherences and do not move population from |0> to |1> *)
Inductive decay : noise_inst -> Prop :=
| de_phaseflip : forall p, decay (phaseflip p)
| de_amplitude : forall p, decay (amplitude_damping p)
| de_phase : forall p, decay (phase_damping p).

(** [noise_law l l']: the textbook identities between channels: what follows what, on the same qubit. *)
Inductive noise_law : list noise_inst -> list noise_inst -> Prop :=
  (* two channels of a kind are one *)
| nl_bitflips : forall p q, noise_law [bitflip p; bitflip q] [bitflip (p + q - 2 * p * q)]
| nl_phaseflips : forall p q, noise_law [phaseflip p; phaseflip q] [phaseflip (p + q - 2 * p * q)]
| nl_depolarizings : forall p q, noise_law [depolarizing p; depolarizing q] [depolarizing (p + q - 4 * p * q / 3)]
| nl_paulis : forall px py pz qx qy qz, let p0 := 1 - px - py - pz in let q0 := 1 - qx - qy - qz in
    noise_law [pauli_channel px py pz; pauli_channel qx qy qz]
              [pauli_channel (p0 * qx + px * q0 + py * qz + pz * qy) (p0 * qy + py * q0 + px * qz + pz * qx) (p0 * qz + pz * q0 + px * qy + py * qx)]
| nl_amplitude_dampings : forall p q, noise_law [amplitude_damping p; amplitude_damping q] [amplitude_damping (p + q - p * q)]
| nl_phase_dampings : forall p q, noise_law [phase_damping p; phase_damping q] [phase_damping (p + q - p * q)]
| nl_generalized : forall t p q, noise_law [generalized_amplitude_damping t p; generalized_amplitude_damping t q] [generalized_amplitude_damping t (p + q - p * q)]
  (* which channels commute *)
| nl_pauli_commute : forall i j, pauli_type i -> pauli_type j -> noise_law [i; j] [j; i]
| nl_decay_commute : forall i j, decay i -> decay j -> noise_law [i; j] [j; i]
  (* channels that are special cases of others *)
| nl_bitflip_pauli : forall p, noise_law [bitflip p] [pauli_channel p 0 0]
| nl_phaseflip_pauli : forall p, noise_law [phaseflip p] [pauli_channel 0 0 p]
| nl_depolarizing_pauli : forall p, noise_law [depolarizing p] [pauli_channel (p / 3) (p / 3) (p / 3)]
| nl_phaseflip_damping : forall p, p <= / 2 -> noise_law [phaseflip p] [phase_damping (4 * p * (1 - p))]
| nl_generalized_zero : forall p, noise_law [amplitude_damping p] [generalized_amplitude_damping 1 p]
| nl_x_then_z : forall p q, noise_law [bitflip p; phaseflip q] [pauli_channel (p * (1 - q)) (p * q) (q * (1 - p))].

(** the gate [g] with the noise [l] *)
Definition with_noise (l : list noise_inst) (g : gate) : gate :=
  mkGate (gclass g) (generator_name g) (target g) (control g) (Some l) (sparse g) (gparam g) (shift g).

(** ** Pauli noise as random Pauli errors *)
(** the probabilities of no error and of the errors X, Y, Z *)
Definition error_weights (i : noise_inst) : list (R * option pauli_kind) :=
  match ntype i, error_probability i with
  | BITFLIP, PFloat p => [(1 - p, None); (p, Some PX)]
  | PHASEFLIP, PFloat p => [(1 - p, None); (p, Some PZ)]
  | DEPOLARIZING, PFloat p => [(1 - p, None); (p / 3, Some PX); (p / 3, Some PY); (p / 3, Some PZ)]
  | PAULI_CHANNEL, PTuple (px :: py :: pz :: _) => [(1 - px - py - pz, None); (px, Some PX); (py, Some PY); (pz, Some PZ)]
  | _, _ => []
  end.
(** the gates applied for an error on qubit [q] *)
Definition error_gates (q : nat) (e : option pauli_kind) : list gate :=
  match e with
  | None => []
  | Some PX => [gX (TInt q) no_control None false]
  | Some PY => [gY (TInt q) no_control None false]
  | Some PZ => [gZ (TInt q) no_control None false]
  end.
(** the weighted mean of the values [vs] *)
Definition weighted (ws : list (R * option pauli_kind)) (vs : list R) : R :=
  fold_right (fun wv acc => fst (fst wv) * snd wv + acc) 0 (combine ws vs).
