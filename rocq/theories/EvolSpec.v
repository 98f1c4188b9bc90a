(** * Vocabulary for Hamiltonian evolution inside circuits (C98, C99) *)
From Coq Require Import String List Arith Reals.
From Verif Require Import Cplx Py Ndarray Sparse Matrices Noise Gates Spec GateSpec PropSpec.
Import ListNotations.
Local Open Scope nat_scope.

(** The Hamiltonian [H] acting on the qubits [ts] where all the controls [cs] are 1, as an operator on the whole
    register: zero on the basis states with a control that is 0, [H] on [ts] on the others. *)
Definition controlled_hamiltonian (H : op) (cs ts : list nat) : op :=
  fun x y => if all_ones (bits_at x cs) then gate_op H [] ts x y else C0.

(** [hybrid_gate w n vals g K]: [g] is a dense, noise-free gate of the library on qubits among [0 .. n-1], or a
    Hamiltonian evolution whose Hermitian Hamiltonian [h] and time [t] are among the values; [K] is its operator on
    [n] qubits.  The contract of the matrix exponential is [exponential_of] (PropSpec.v). *)
Inductive hybrid_gate (w : world) (n : nat) (vals : values) : gate -> op -> Prop :=
| hg_library : forall g M cs ts,
    gate_on n vals g M cs ts -> dense_gate g -> noiseless g -> hybrid_gate w n vals g (gate_op M cs ts)
| hg_evolution : forall ts c cs h t,
    lookup vals "hamiltonian"%string = Ok (VMat h) -> lookup vals "time_evolution"%string = Ok (VNum t) ->
    is_matrix (List.length ts) h -> hermitian (List.length ts) (entry h) ->
    exponential_of (expm w) (List.length ts) (minus_i h) ->
    control_qubits (parse_control c) cs -> valid_qubits n (cs ++ ts) ->
    hybrid_gate w n vals (HamiltonianEvolution (TTup ts) c) (gate_op (entry (expm w (scale (RtoC t) (minus_i h)))) cs ts).

(** [hybrid_circuit w n vals gs U]: the gates [gs], applied one after the other, are the operator [U]. *)
Inductive hybrid_circuit (w : world) (n : nat) (vals : values) : list gate -> op -> Prop :=
| hc_nil : hybrid_circuit w n vals [] kid
| hc_cons : forall g gs K U, hybrid_gate w n vals g K -> hybrid_circuit w n vals gs U ->
    hybrid_circuit w n vals (g :: gs) (kmul n U K).

(** the matrix of [A] on the first and [B] on the second of two qubits *)
Definition kron2 (A B : op) : op := fun x y => Cmul (A [nth 0 x 0] [nth 0 y 0]) (B [nth 1 x 0] [nth 1 y 0]).
