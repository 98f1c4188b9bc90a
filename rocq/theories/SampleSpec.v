(** * Vocabulary for the properties of probabilities and sampling.  No proofs in this file. *)
From Coq Require Import String List Arith Bool Reals.
From Verif Require Import Cplx Py Ndarray OperatorUtils Sparse Noise Gates Apply Composite Spec GateSpec.
Import ListNotations.
Local Open Scope nat_scope.

(** What is assumed of jax.random.choice: it returns the requested number of outcomes, each an index into the
    non-empty probability vector. *)
Definition choice_contract (w : world) : Prop :=
  forall key p k, p <> [] -> length (choice w key p k) = k /\ Forall (fun i => i < length p) (choice w key p k).

(** The histogram of a sequence of outcomes: the [n]-bit strings that occur, in increasing order, with their numbers of
    occurrences. *)
Definition occurrences (draws : list nat) (x : list nat) : nat := count_occ Nat.eq_dec draws (binval x).
Definition histogram (n : nat) (draws : list nat) : list (list nat * nat) :=
  map (fun x => (x, occurrences draws x)) (filter (fun x => Nat.ltb 0 (occurrences draws x)) (bitstrings n)).

(** |psi_x|^2 and <x|rho|x> in bitstring order *)
Definition born_probabilities (n : nat) (a : arr) : list R := map (fun x => Cnorm2 (amp a x)) (bitstrings n).
Definition diagonal (n : nat) (rho : arr) : list R := map (fun x => re (rho_entry rho x x)) (bitstrings n).

(** number of gates somewhere in an operation *)
Inductive has_gate : oper -> Prop :=
| hg_gate : forall g, has_gate (OGate g)
| hg_seq : forall l, Exists has_gate l -> has_gate (OSeq l)
| hg_scale : forall l p, Exists has_gate l -> has_gate (OScale l p)
| hg_add : forall l, Exists has_gate l -> has_gate (OAdd l)
| hg_obs : forall l, Exists has_gate l -> has_gate (OObs l)
| hg_qc : forall n l fp, Exists has_gate l -> has_gate (OQC n l fp).

(** [sequence_of o gs]: the operation [o], built from gates with (nested) sequences and circuits, performs the gates
    [gs] in this order *)
Inductive sequence_of : oper -> list gate -> Prop :=
| so_gate : forall g, sequence_of (OGate g) [g]
| so_seq : forall l gss, Forall2 sequence_of l gss -> sequence_of (OSeq l) (List.concat gss)
| so_qc : forall m l fp gss, Forall2 sequence_of l gss -> sequence_of (OQC m l fp) (List.concat gss).

(** the density matrix of a state *)
Definition pure_density (a : arr) : op := fun x y => Cmul (amp a x) (Cconj (amp a y)).
Definition density_of (s : state) : op :=
  match s with SDense a => pure_density a | SDM a => rho_entry a | SSparse _ => fun _ _ => C0 end.
