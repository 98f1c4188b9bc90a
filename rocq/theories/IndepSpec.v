(** * Vocabulary for registers that never interact (C117).  No proofs in this file. *)
From Coq Require Import String List Arith Reals.
From Verif Require Import Cplx Py Ndarray OperatorUtils Noise Gates Apply Composite Spec GateSpec PropSpec SampleSpec StructSpec HeisSpec.
Import ListNotations.
Local Open Scope nat_scope.

(** a register is a set of qubits, given by its membership test; the gate acts on the register only, or on the other qubits only *)
Definition inside (reg : nat -> bool) (g : gate) : Prop := forall q, occupies g q -> reg q = true.
Definition outside (reg : nat -> bool) (g : gate) : Prop := forall q, occupies g q -> reg q = false.
(** no gate of the circuit acts on both parts *)
Definition never_interact (reg : nat -> bool) (gs : list gate) : Prop := forall g, In g gs -> inside reg g \/ outside reg g.

(** every gate of the operation acts on the register; on the other qubits *)
Definition measured_inside (reg : nat -> bool) (o : oper) : Prop := forall g, In g (all_gates o) -> inside reg g.
Definition measured_outside (reg : nat -> bool) (o : oper) : Prop := forall g, In g (all_gates o) -> outside reg g.

(** the product state of the bits [x], as a state vector or as a density matrix *)
Definition prepared (n : nat) (x : list nat) (st : state) : Prop :=
  In x (bitstrings n) /\ state_of n st /\ keq n (density_of st) (fun u v => if list_eq_dec Nat.eq_dec u x then if list_eq_dec Nat.eq_dec v x then C1 else C0 else C0).

(** the bits of [x] and [y] on the qubits of the register are the same *)
Definition same_on (n : nat) (reg : nat -> bool) (x y : list nat) : bool :=
  forallb (fun q => if reg q then Nat.eqb (nth q x 0) (nth q y 0) else true) (seq 0 n).
(** the probability that measuring the register gives the bits of [y] there, whatever the other qubits give *)
Definition register_probability (n : nat) (reg : nat -> bool) (st : state) (y : list nat) : R :=
  rsum (bitstrings n) (fun x => if same_on n reg x y then outcome_probability st x else 0%R).
