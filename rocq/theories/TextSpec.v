(** * Vocabulary for circuits of one-qubit gates and textbook circuits (C121).  No proofs in this file. *)
From Coq Require Import String List Arith Reals.
From Verif Require Import Cplx Py Ndarray OperatorUtils Noise Gates Apply Composite Spec GateSpec PropSpec SampleSpec StructSpec CtorSpec PauliSpec HeisSpec.
Import ListNotations.
Local Open Scope nat_scope.

(** [acts_as vals q gs M]: the gates of [gs] whose target is the qubit [q], one after the other, apply the 2 x 2 matrix [M] *)
Inductive acts_as (vals : values) (q : nat) : list gate -> op -> Prop :=
| aa_nil : acts_as vals q [] kid
| aa_other : forall g gs M, target g <> [q] -> acts_as vals q gs M -> acts_as vals q (g :: gs) M
| aa_here : forall g gs G M, target g = [q] -> gate_matrix vals g G -> acts_as vals q gs M -> acts_as vals q (g :: gs) (kmul 1 M G).
(** the gate acts on one qubit among 0 .. n-1 and has no controls *)
Definition one_qubit (n : nat) (vals : values) (g : gate) : Prop := exists q G, gate_on n vals g G [] [q].
(** the tensor product of the 2 x 2 matrices [Ms 0], ..., [Ms (n-1)] *)
Definition tensor_product (n : nat) (Ms : nat -> op) : op := fun x y => cprod (seq 0 n) (fun q => Ms q [nth q x 0] [nth q y 0]).

(** an H gate on every qubit *)
Definition hadamards (n : nat) : list gate := map (plain gH) (seq 0 n).
(** the qubits where the bitstring has a 1, and the number of qubits where both bitstrings have a 1 *)
Definition ones (s : list nat) : list nat := filter (fun q => Nat.eqb (nth q s 0) 1) (seq 0 (length s)).
Definition common_ones (n : nat) (x b : list nat) : nat := length (filter (fun q => andb (Nat.eqb (nth q x 0) 1) (Nat.eqb (nth q b 0) 1)) (seq 0 n)).
(** CNOT *)
Definition cnot (c t : nat) : gate := gX (TInt t) (IInt c) None false.
(** H on qubit 0, then CNOTs from each qubit to the next *)
Definition ghz (n : nat) : list gate := plain gH 0 :: map (fun q => cnot q (S q)) (seq 0 (n - 1)).
(** The Bernstein-Vazirani circuit for the hidden string [s] on [length s] qubits and one ancilla: prepare the ancilla in 1, H on every qubit,
    a CNOT onto the ancilla from each qubit where [s] has a 1, H on every qubit. *)
Definition bernstein_vazirani (s : list nat) : list gate :=
  plain gX (length s) :: hadamards (S (length s)) ++ map (fun q => cnot q (length s)) (ones s) ++ hadamards (S (length s)).
