(** * Independent specification: qubits, bitstrings, textbook operators.

    Nothing here refers to the model of the code.  A pure state of [n] qubits is a function from
    bitstrings to amplitudes; an operator on [k] qubits is a matrix indexed by two bitstrings.
    Bit [i] of a bitstring is the value of qubit [i]; qubit 0 is the most significant one. *)
From Coq Require Import List Arith Bool Reals.
From Verif Require Import Cplx Ndarray.
Import ListNotations.
Local Open Scope nat_scope.

(** all bitstrings of length [n], in lexicographic order *)
Fixpoint bitstrings (n : nat) : list (list nat) :=
  match n with
  | 0 => [[]]
  | S n' => map (cons 0) (bitstrings n') ++ map (cons 1) (bitstrings n')
  end.

(** the number written by a bitstring, most significant bit first *)
Definition binval (b : list nat) : nat := fold_left (fun acc x => 2 * acc + x) b 0.

(** the bits of [x] at the listed qubits, in the listed order *)
Definition bits_at (x qs : list nat) : list nat := map (fun q => nth q x 0) qs.

Fixpoint set_bit (x : list nat) (q b : nat) : list nat :=
  match x, q with
  | [], _ => []
  | _ :: x', 0 => b :: x'
  | y :: x', S q' => y :: set_bit x' q' b
  end.

(** [x] with the bits at qubits [qs] replaced by [y] *)
Fixpoint overwrite (x qs y : list nat) : list nat :=
  match qs, y with
  | q :: qs', b :: y' => set_bit (overwrite x qs' y') q b
  | _, _ => x
  end.

Definition all_ones (b : list nat) : bool := forallb (Nat.eqb 1) b.

(** amplitudes / matrix elements *)
Definition vec := list nat -> C.
Definition op := list nat -> list nat -> C.

(** action of the [2^k] x [2^k] matrix [M] on the qubits [ts] ([k = length ts]) *)
Definition gate_action (M : op) (ts : list nat) (psi : vec) : vec :=
  fun x => csum (bitstrings (length ts)) (fun y => Cmul (M (bits_at x ts) y) (psi (overwrite x ts y))).

(** the same, controlled on the qubits [cs] all being 1 *)
Definition ctrl_action (M : op) (cs ts : list nat) (psi : vec) : vec :=
  fun x => if all_ones (bits_at x cs) then gate_action M ts psi x else psi x.

(** operators on [n] qubits: kernel [K x y = <x|K|y>] *)
Definition apply_kernel (n : nat) (K : op) (psi : vec) : vec :=
  fun x => csum (bitstrings n) (fun y => Cmul (K x y) (psi y)).
Definition kmul (n : nat) (A B : op) : op :=
  fun x y => csum (bitstrings n) (fun z => Cmul (A x z) (B z y)).
Definition kadj (A : op) : op := fun x y => Cconj (A y x).
Definition kid : op := fun x y => if list_eq_dec Nat.eq_dec x y then C1 else C0.
Definition ktrace (n : nat) (A : op) : C := csum (bitstrings n) (fun x => A x x).
Definition kadd (A B : op) : op := fun x y => Cadd (A x y) (B x y).
Definition kscale (c : C) (A : op) : op := fun x y => Cmul c (A x y).

(** equality of operators / vectors on [n] qubits *)
Definition keq (n : nat) (A B : op) : Prop :=
  forall x y, In x (bitstrings n) -> In y (bitstrings n) -> A x y = B x y.
Definition veq (n : nat) (f g : vec) : Prop := forall x, In x (bitstrings n) -> f x = g x.

Definition unitary (n : nat) (A : op) : Prop :=
  keq n (kmul n (kadj A) A) kid /\ keq n (kmul n A (kadj A)) kid.
Definition hermitian (n : nat) (A : op) : Prop := keq n (kadj A) A.

(** kernel of the (controlled) action of [M] on [n] qubits *)
Definition ctrl_kernel (M : op) (cs ts : list nat) : op :=
  fun x y => if all_ones (bits_at x cs)
             then csum (bitstrings (length ts))
                       (fun z => Cmul (M (bits_at x ts) z) (kid (overwrite x ts z) y))
             else kid x y.

Definition inner_product (n : nat) (f g : vec) : C :=
  csum (bitstrings n) (fun x => Cmul (Cconj (f x)) (g x)).
Definition norm2 (n : nat) (f : vec) : R := rsum (bitstrings n) (fun x => Cnorm2 (f x)).

(** quadratic form <f|A|f> *)
Definition qform (n : nat) (A : op) (f : vec) : C := inner_product n f (apply_kernel n A f).
Definition positive (n : nat) (A : op) : Prop :=
  forall f, (0 <= re (qform n A f))%R /\ im (qform n A f) = 0%R.

(** ** Reading arrays *)

(** a state vector of [n] qubits: array of shape (2, ..., 2) *)
Definition is_state (n : nat) (a : arr) : Prop := shape a = repeat 2 n /\ wf a.
(** amplitude of a bitstring *)
Definition amp (a : arr) : vec := get a.
(** a matrix on [k] qubits: array of shape (2^k, 2^k) *)
Definition is_matrix (k : nat) (a : arr) : Prop := shape a = [2 ^ k; 2 ^ k] /\ wf a.
Definition entry (a : arr) : op := fun r c => get a [binval r; binval c].
(** a density matrix of [n] qubits: array of shape (2, ..., 2) with [2 n] axes, row bits first *)
Definition is_density (n : nat) (a : arr) : Prop := shape a = repeat 2 (2 * n) /\ wf a.
Definition rho_entry (a : arr) : op := fun r c => get a (r ++ c).

Definition valid_qubits (n : nat) (qs : list nat) : Prop :=
  NoDup qs /\ Forall (fun q => q < n) qs.

(** An iteration order of Python sets: given the sequence of insertions, every element is listed, once.
    Nothing else is assumed about the order. *)
Definition set_order (so : list nat -> list nat) : Prop :=
  forall l, NoDup (so l) /\ forall x, In x (so l) <-> In x l.

(** derivative of a complex-valued function of a real variable *)
Definition Cderiv (f : R -> C) (t : R) (d : C) : Prop :=
  derivable_pt_lim (fun x => re (f x)) t (re d) /\ derivable_pt_lim (fun x => im (f x)) t (im d).
(** entrywise derivative of an operator depending on a real variable *)
Definition kderiv (n : nat) (f : R -> op) (t : R) (D : op) : Prop :=
  forall x y, In x (bitstrings n) -> In y (bitstrings n) -> Cderiv (fun s => f s x y) t (D x y).
