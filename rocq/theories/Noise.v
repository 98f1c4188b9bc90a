(** * Model of /repo/horqrux/noise/noise.py and /repo/horqrux/noise/utils_noise.py.
    No proofs in this file. *)
From Coq Require Import List Bool Reals.
From Verif Require Import Cplx Py Ndarray Matrices.
Import ListNotations.
Local Open Scope R_scope.

(** noise.py:22-29 *)
Inductive noise_type : Type :=
| BITFLIP | PHASEFLIP | DEPOLARIZING | PAULI_CHANNEL
| AMPLITUDE_DAMPING | PHASE_DAMPING | GENERALIZED_AMPLITUDE_DAMPING.

(** [error_probability: tuple[float, ...] | float] *)
Inductive prob : Type := PFloat (p : R) | PTuple (l : list R).

(** noise.py:43-47 *)
Record noise_inst : Type := mkNoise { ntype : noise_type; error_probability : prob }.

(** float comparisons [a > b], [a < b] *)
Definition gtb (a b : R) : bool := if Rgt_dec a b then true else false.
(** [a < b] on floats *)
Definition ltb (a b : R) : bool := if Rlt_dec a b then true else false.
(** [(p > 1.0) or (p < 0.0)] *)
Definition bad_prob (p : R) : bool := gtb p 1 || ltb p 0.

(** [sqrt(p) * M] *)
Definition sq (p : R) (m : arr) : arr := scale (RtoC (sqrt p)) m.

(** utils_noise.py:9-32 *)
Definition BitFlip (p : R) : res (list arr) :=
  if bad_prob p then Err ValueError else Ok [sq (1 - p) m_I; sq p m_X].
(** utils_noise.py:35-59 *)
Definition PhaseFlip (p : R) : res (list arr) :=
  if bad_prob p then Err ValueError else Ok [sq (1 - p) m_I; sq p m_Z].
(** utils_noise.py:62-91 *)
Definition Depolarizing (p : R) : res (list arr) :=
  if bad_prob p then Err ValueError
  else Ok [sq (1 - p) m_I; sq (p / 3) m_X; sq (p / 3) m_Y; sq (p / 3) m_Z].
(** utils_noise.py:94-133 *)
Definition PauliChannel (ps : list R) : res (list arr) :=
  if gtb (fold_left Rplus ps 0) 1 then Err ValueError
  else if existsb bad_prob ps then Err ValueError
  else match ps with
       | px :: py :: pz :: _ =>
           Ok [sq (1 - (px + py + pz)) m_I; sq px m_X; sq py m_Y; sq pz m_Z]
       | _ => Err IndexError
       end.
(** utils_noise.py:136-167 *)
Definition AmplitudeDamping (p : R) : res (list arr) :=
  if bad_prob p then Err ValueError
  else Ok [matrix [[C1; C0]; [C0; RtoC (sqrt (1 - p))]]; matrix [[C0; RtoC (sqrt p)]; [C0; C0]]].
(** utils_noise.py:170-201 *)
Definition PhaseDamping (p : R) : res (list arr) :=
  if bad_prob p then Err ValueError
  else Ok [matrix [[C1; C0]; [C0; RtoC (sqrt (1 - p))]]; matrix [[C0; C0]; [C0; RtoC (sqrt p)]]].
(** utils_noise.py:204-257 *)
Definition GeneralizedAmplitudeDamping (ps : list R) : res (list arr) :=
  match ps with
  | probability :: rate :: _ =>
      if bad_prob probability then Err ValueError
      else if bad_prob rate then Err ValueError
      else Ok [sq probability (matrix [[C1; C0]; [C0; RtoC (sqrt (1 - rate))]]);
               sq probability (matrix [[C0; RtoC (sqrt rate)]; [C0; C0]]);
               sq (1 - probability) (matrix [[RtoC (sqrt (1 - rate)); C0]; [C0; C1]]);
               sq (1 - probability) (matrix [[C0; C0]; [RtoC (sqrt rate); C0]])]
  | _ => Err IndexError
  end.

(** noise.py:32-40, 60-63 [DigitalNoiseInstance.kraus].  Comparing a tuple with a float, summing or
    indexing a float, raise TypeError. *)
Definition kraus (n : noise_inst) : res (list arr) :=
  match ntype n, error_probability n with
  | BITFLIP, PFloat p => BitFlip p
  | PHASEFLIP, PFloat p => PhaseFlip p
  | DEPOLARIZING, PFloat p => Depolarizing p
  | PAULI_CHANNEL, PTuple l => PauliChannel l
  | AMPLITUDE_DAMPING, PFloat p => AmplitudeDamping p
  | PHASE_DAMPING, PFloat p => PhaseDamping p
  | GENERALIZED_AMPLITUDE_DAMPING, PTuple l => GeneralizedAmplitudeDamping l
  | _, _ => Err TypeError
  end.
