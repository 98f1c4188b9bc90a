(** * Vocabulary for the physical laws of circuits: locality, superposition, composition, bounds.  No proofs in this file. *)
From Coq Require Import String List Arith Bool Reals Permutation.
From Verif Require Import Cplx Py Ndarray OperatorUtils Sparse Noise Gates Apply Composite Api Spec GateSpec PropSpec NoiseSpec SampleSpec ExpectSpec
  GpsrSpec StructSpec.
Import ListNotations.
Local Open Scope nat_scope.

(** [runnable n vals c gs]: the circuit [c] performs the gates [gs] (at least one), which are gates of the library on
    distinct qubits among [0 .. n-1], dense, with or without accepted noise *)
Definition runnable (n : nat) (vals : values) (c : oper) (gs : list gate) : Prop :=
  sequence_of c gs /\ gs <> [] /\ Forall (usable n vals) gs /\ Forall dense_gate gs /\ Forall noise_ok gs.

(** some gate of the observable with the operations [l] acts on the qubit [q] *)
Definition measures (l : list oper) (q : nat) : Prop := exists o g, In o l /\ In g (all_gates o) /\ occupies g q.

(** the two modes that evaluate expectations exactly on every kind of state *)
Inductive exact_mode : diff_mode -> Prop := exact_AD : exact_mode AD | exact_GPSR : exact_mode GPSR.

(** [magnitude n vals o b]: [b] is the sum of the absolute values of the coefficients of the terms of [o]; a gate, or a sequence
    of gates, counts 1 (and a multiple of such a sequence counts as its coefficient) *)
Inductive magnitude (n : nat) (vals : values) : oper -> R -> Prop :=
| mag_seq : forall o gs, sequence_of o gs -> Forall (usable n vals) gs -> Forall dense_gate gs -> magnitude n vals o 1
| mag_scale : forall o p c b, param_value p vals = Ok c -> magnitude n vals o b -> magnitude n vals (OScale [o] p) (Rabs c * b)
| mag_multiple : forall l gs p c, param_value p vals = Ok c -> sequence_of (OSeq l) gs -> Forall (usable n vals) gs -> Forall dense_gate gs ->
    magnitude n vals (OScale l p) (Rabs c)
| mag_add : forall l bs, Forall2 (magnitude n vals) l bs -> magnitude n vals (OAdd l) (total bs).

(** [light_cone S gs gs']: [gs'] is [gs] without some gates outside the backward light cone of the qubits [S]: reading the
    circuit from its end, a gate that acts on none of the qubits collected so far may be left out; one that is kept adds its qubits *)
Inductive light_cone : (nat -> Prop) -> list gate -> list gate -> Prop :=
| cone_nil : forall S, light_cone S [] []
| cone_keep : forall (S : nat -> Prop) gs gs' g, light_cone (fun q => S q \/ occupies g q) gs gs' -> light_cone S (gs ++ [g]) (gs' ++ [g])
| cone_drop : forall (S : nat -> Prop) gs gs' g, (forall q, occupies g q -> ~ S q) -> light_cone S gs gs' -> light_cone S (gs ++ [g]) gs'.

(** the angle [name] is read by rotations without control, and by PHASE gates (controlled or not), only *)
Definition turning (gs : list gate) (name : string) : Prop :=
  forall g, In g gs -> In name (names_of_gate g) -> plain_rotation g \/ gclass g = KPhase.

(** the reduced density matrix of the first qubits: the partial trace over the last [k] qubits *)
Definition reduced (k : nat) (r : op) : op := fun x y => csum (bitstrings k) (fun e => r (x ++ e) (y ++ e)).

(** ** renaming qubits *)
(** [f] permutes the qubits [0 .. n-1] *)
Definition permutes (n : nat) (f : nat -> nat) : Prop := valid_qubits n (map f (seq 0 n)).
Definition rename_control (f : nat -> nat) (c : cspec) : cspec :=
  match c with CNone => CNone | CTup l => CTup (map (fun q => match q with QInt k => QInt (f k) | QNp k => QNp (f k) | QNone => QNone end) l) end.
Definition rename_gate (f : nat -> nat) (g : gate) : gate :=
  mkGate (gclass g) (generator_name g) (map f (target g)) (rename_control f (control g)) (noise g) (sparse g) (gparam g) (shift g).
Fixpoint rename (f : nat -> nat) (o : oper) : oper :=
  match o with
  | OGate g => OGate (rename_gate f g)
  | OSeq l => OSeq (map (rename f) l)
  | OScale l p => OScale (map (rename f) l) p
  | OAdd l => OAdd (map (rename f) l)
  | OObs l => OObs (map (rename f) l)
  | OQC m l fp => OQC m (map (rename f) l) fp
  end.
(** the bitstring whose bit [q] is bit [f q] of [x] *)
Definition read_through (n : nat) (f : nat -> nat) (x : list nat) : list nat := bits_at x (map f (seq 0 n)).
(** [renamed n f s s']: qubit [f q] of the state [s'] is qubit [q] of [s] *)
Definition renamed (n : nat) (f : nat -> nat) (s s' : state) : Prop :=
  match s, s' with
  | SDense a, SDense b => forall x, In x (bitstrings n) -> amp b x = amp a (read_through n f x)
  | SDM a, SDM b => forall x y, In x (bitstrings n) -> In y (bitstrings n) -> rho_entry b x y = rho_entry a (read_through n f x) (read_through n f y)
  | _, _ => False
  end.

(** ** gates that differ in an irrelevant way *)
(** another order of the control qubits; SWAP with its targets exchanged *)
Inductive same_gate : gate -> gate -> Prop :=
| same_refl : forall g, same_gate g g
| same_controls : forall g cs cs', control_qubits (control g) cs -> Permutation cs cs' -> same_gate g (with_control (CTup (map QInt cs')) g)
| same_swap : forall a b c ns sp p s, same_gate (mkGate KPrim "SWAP" [a; b] c ns sp p s) (mkGate KPrim "SWAP" [b; a] c ns sp p s).
(** the gate with the noise () replaced by None *)
Definition drop_empty_noise (g : gate) : gate :=
  match noise g with
  | Some [] => mkGate (gclass g) (generator_name g) (target g) (control g) None (sparse g) (gparam g) (shift g)
  | _ => g
  end.
(** the modes that do not sample *)
Definition unsampled (mode : diff_mode) : Prop := mode = AD \/ mode = GPSR \/ mode = ADJOINT.

(** ** generators *)
(** the generator of a (controlled) one-parameter gate: [G] on the targets where all the controls are 1, zero elsewhere *)
Definition controlled_generator (G : op) (cs ts : list nat) : op :=
  fun x y => if all_ones (bits_at x cs) then ctrl_kernel G [] ts x y else C0.
(** -i/2: the derivative of [exp(-i t G / 2)] at [t = 0] is [G] times this *)
Definition minus_half_i : C := Cmul (Copp Ci) (RtoC (1 / 2)).
(** the rotation [exp(-i t G / 2)] and its generator [G], by the name of the gate *)
Definition rotations : list (string * (R -> op) * op) :=
  [("X", RX_matrix, X_matrix); ("Y", RY_matrix, Y_matrix); ("Z", RZ_matrix, Z_matrix)]%string.
(** PHASE(t) is exp(-i t G / 2) with this [G] *)
Definition PHASE_generator : op := mat2 C0 C0 C0 (RtoC (-2)).
(** [d] is the smallest difference between two different numbers of the list *)
Definition smallest_gap (es : list R) (d : R) : Prop :=
  (0 < d)%R /\ (exists a b, In a es /\ In b es /\ Rabs (a - b) = d) /\ forall a b, In a es -> In b es -> a <> b -> (d <= Rabs (a - b))%R.

(** ** the effect of noise on Pauli observables *)
(** the gate with one more noise instance at the end of its noise tuple *)
Definition add_noise (i : noise_inst) (g : gate) : gate :=
  mkGate (gclass g) (generator_name g) (target g) (control g) (Some ((match noise g with Some l => l | None => [] end) ++ [i]))
         (sparse g) (gparam g) (shift g).
Inductive pauli_kind : Type := PX | PY | PZ.
(** Observable([X(q)]), Observable([Y(q)]), Observable([Z(q)]) *)
Definition pauli_observable (P : pauli_kind) (q : nat) : list oper :=
  [OGate (match P with PX => gX | PY => gY | PZ => gZ end (TInt q) no_control None false)].
(** the expectation of the Pauli operator [P] on a qubit after a channel on that qubit, when it is [v] before it (textbook
    table: a bit flip keeps X, a phase flip and phase damping keep Z, amplitude damping relaxes to |0>) *)
Definition attenuated (i : noise_inst) (P : pauli_kind) (v : R) : R :=
  match ntype i, error_probability i, P with
  | BITFLIP, PFloat _, PX => v
  | BITFLIP, PFloat p, _ => (1 - 2 * p) * v
  | PHASEFLIP, PFloat _, PZ => v
  | PHASEFLIP, PFloat p, _ => (1 - 2 * p) * v
  | DEPOLARIZING, PFloat p, _ => (1 - 4 * p / 3) * v
  | PAULI_CHANNEL, PTuple (px :: py :: pz :: _), PX => (1 - 2 * (py + pz)) * v
  | PAULI_CHANNEL, PTuple (px :: py :: pz :: _), PY => (1 - 2 * (px + pz)) * v
  | PAULI_CHANNEL, PTuple (px :: py :: pz :: _), PZ => (1 - 2 * (px + py)) * v
  | AMPLITUDE_DAMPING, PFloat p, PZ => (1 - p) * v + p
  | AMPLITUDE_DAMPING, PFloat p, _ => sqrt (1 - p) * v
  | PHASE_DAMPING, PFloat _, PZ => v
  | PHASE_DAMPING, PFloat p, _ => sqrt (1 - p) * v
  | GENERALIZED_AMPLITUDE_DAMPING, PTuple (p :: r :: _), PZ => (1 - r) * v + r * (2 * p - 1)
  | GENERALIZED_AMPLITUDE_DAMPING, PTuple (p :: r :: _), _ => sqrt (1 - r) * v
  | _, _, _ => v
  end%R.

(** ** reading observables off samples *)
(** [K] is diagonal in the computational basis *)
Definition diagonal_op (n : nat) (K : op) : Prop := forall x y, In x (bitstrings n) -> In y (bitstrings n) -> x <> y -> K x y = C0.
(** the average of the eigenvalue [K x x] over the outcomes [x] counted in [counts] *)
Definition read_off (K : op) (counts : list (list nat * nat)) : R :=
  (rsum counts (fun xc => INR (snd xc) * re (K (fst xc) (fst xc))) / rsum counts (fun xc => INR (snd xc)))%R.
(** the average of +1 for outcomes with bit [q] equal to 0 and -1 for the others *)
Definition signs (q : nat) (counts : list (list nat * nat)) : R :=
  (rsum counts (fun xc => INR (snd xc) * (if Nat.eqb (nth q (fst xc) 0%nat) 0%nat then 1 else -1)) / rsum counts (fun xc => INR (snd xc)))%R.
