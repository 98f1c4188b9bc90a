(** * Hamiltonians made of Pauli strings: vocabulary of C111.

    Nothing here refers to how the library computes expectation values. *)
From Coq Require Import String List Arith Reals.
From Verif Require Import Cplx Py Ndarray Sparse Matrices Noise Gates Apply Composite Spec GateSpec ExpectSpec.
Import ListNotations.
Local Open Scope nat_scope.

Inductive letter : Type := LI | LX | LY | LZ.
Definition letter_matrix (P : letter) : op :=
  match P with LI => I_matrix | LX => X_matrix | LY => Y_matrix | LZ => Z_matrix end.

(** a Pauli string: letters and the qubits they act on; and a Hamiltonian: strings with real coefficients *)
Definition pauli_string : Type := list (letter * nat).
Definition hamiltonian : Type := list (R * pauli_string).

(** a string acts on at least one qubit, on distinct qubits and on qubits among 0 .. n-1 *)
Definition string_ok (n : nat) (s : pauli_string) : Prop := s <> [] /\ NoDup (map snd s) /\ Forall (fun q => q < n) (map snd s).
Definition hamiltonian_ok (n : nat) (H : hamiltonian) : Prop := H <> [] /\ Forall (fun t => string_ok n (snd t)) H.

(** the matrix of a string, entry by entry: the tensor product over the qubits 0 .. n-1 of the letter acting there, and of
    the identity where there is none *)
Fixpoint letter_at (s : pauli_string) (q : nat) : letter :=
  match s with [] => LI | (P, q') :: s' => if Nat.eqb q q' then P else letter_at s' q end.
Fixpoint cprod {A} (l : list A) (f : A -> C) : C := match l with [] => C1 | a :: l' => Cmul (f a) (cprod l' f) end.
Definition string_matrix (n : nat) (s : pauli_string) : op :=
  fun x y => cprod (seq 0 n) (fun q => letter_matrix (letter_at s q) [nth q x 0] [nth q y 0]).
(** sum_k c_k P_k *)
Definition hamiltonian_matrix (n : nat) (H : hamiltonian) : op :=
  fun x y => csum H (fun t => Cmul (RtoC (fst t)) (string_matrix n (snd t) x y)).

(** what the user writes (docs/vqe.md:28-44): Scale(Z(0), c), Scale(OpSequence([Z(0), Z(1)]), c), and a list of such terms as the
    operations of an Observable *)
Definition letter_gate (P : letter) (q : nat) : oper :=
  OGate (match P with LI => gI | LX => gX | LY => gY | LZ => gZ end (TInt q) no_control None false).
Definition string_term (t : R * pauli_string) : oper :=
  match snd t with
  | [(P, q)] => Scale (AOp (letter_gate P q)) (PNum (fst t))
  | s => Scale (AOp (OpSequence (map (fun Pq => letter_gate (fst Pq) (snd Pq)) s))) (PNum (fst t))
  end.
Definition hamiltonian_operations (H : hamiltonian) : list oper := map string_term H.

(** sum_k c_k <P_k> in the state [s] *)
Definition energy (n : nat) (H : hamiltonian) (s : state) : R :=
  rsum H (fun t => (fst t * mean n (string_matrix n (snd t)) s)%R).
(** sum_k |c_k| *)
Definition one_norm (H : hamiltonian) : R := rsum H (fun t => Rabs (fst t)).
