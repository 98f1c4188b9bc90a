(** * Vocabulary for Clifford circuits (C132).  No proofs in this file. *)
From Coq Require Import String List Reals.
From Verif Require Import Cplx Py Ndarray OperatorUtils Noise Gates Apply Composite Spec GateSpec PropSpec SampleSpec ExpectSpec CtorSpec PauliSpec HeisSpec.
Import ListNotations.
Local Open Scope R_scope.

(** the Clifford gates: I, X, NOT, Y, Z, H and S on one qubit, CNOT, CZ and SWAP on two *)
Inductive clifford : gate -> Prop :=
| cl_one : forall mk q, In mk [gI; gX; NOT; gY; gZ; gH; gS] -> clifford (plain mk q)
| cl_cnot : forall a b, clifford (gX (TInt b) (IInt a) None false)
| cl_cz : forall a b, clifford (gZ (TInt b) (IInt a) None false)
| cl_swap : forall a b, clifford (SWAP (TTup [a; b]) no_control None false).

(** the state is the basis state |b>, as a vector (up to a phase) or as a density matrix *)
Definition in_basis_state (n : nat) (st : state) (b : list nat) : Prop :=
  In b (bitstrings n) /\ state_of n st /\
  forall x y, In x (bitstrings n) -> In y (bitstrings n) -> density_of st x y = if list_eq_dec Nat.eq_dec x b then (if list_eq_dec Nat.eq_dec y b then C1 else C0) else C0.

(** -1, 0 or 1 *)
Definition sign_or_zero (e : R) : Prop := e = -1 \/ e = 0 \/ e = 1.
(** sum_k c_k e_k, for the coefficients c_k of a Hamiltonian *)
Definition weighted (H : hamiltonian) (es : list R) : R := rsum (combine H es) (fun te => fst (fst te) * snd te).
(** the bitwise sum modulo 2 of three outcomes *)
Definition xor3 (x y z : list nat) : list nat := map (fun t : nat * nat * nat => Nat.modulo (fst (fst t) + snd (fst t) + snd t) 2) (combine (combine x y) z).
