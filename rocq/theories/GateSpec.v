(** * Independent specification of the gates: textbook matrices, and which matrix and qubits a gate object
    of the library denotes.  Only the data types of the model are used here (the fields of a gate, the
    parameter dictionary), none of its functions except dictionary lookup. *)
From Coq Require Import List String Arith Bool Reals.
From Verif Require Import Cplx Py Ndarray OperatorUtils Gates Spec.
Import ListNotations.
Local Open Scope nat_scope.

(** a one-qubit matrix [[a, b], [c, d]] *)
Definition mat2 (a b c d : C) : op := fun row col =>
  match row, col with
  | [0], [0] => a | [0], [1] => b | [1], [0] => c | [1], [1] => d
  | _, _ => C0
  end.

Definition Cn (x : R) : C := RtoC x.
Definition X_matrix : op := mat2 C0 C1 C1 C0.
Definition Y_matrix : op := mat2 C0 (Copp Ci) Ci C0.
Definition Z_matrix : op := mat2 C1 C0 C0 (Copp C1).
Definition I_matrix : op := mat2 C1 C0 C0 C1.
Definition H_matrix : op := let h := Cn (1 / sqrt 2) in mat2 h h h (Copp h).
Definition S_matrix : op := mat2 C1 C0 C0 Ci.
Definition T_matrix : op := mat2 C1 C0 C0 (Cexpi (PI / 4)).
(** |a b> -> |b a> *)
Definition SWAP_matrix : op := fun row col =>
  match row, col with
  | [a; b], [c; d] => if Nat.eqb a d && Nat.eqb b c then C1 else C0
  | _, _ => C0
  end.
Definition RX_matrix (t : R) : op :=
  let c := Cn (cos (t / 2)) in let s := Cmul (Copp Ci) (Cn (sin (t / 2))) in mat2 c s s c.
Definition RY_matrix (t : R) : op :=
  let c := Cn (cos (t / 2)) in let s := Cn (sin (t / 2)) in mat2 c (Copp s) s c.
Definition RZ_matrix (t : R) : op := mat2 (Cexpi (- t / 2)) C0 C0 (Cexpi (t / 2)).
Definition PHASE_matrix (t : R) : op := mat2 C1 C0 C0 (Cexpi t).

(** The angle of a parametric gate: the number, or the value the dictionary has for the name, plus the
    shift stored in the gate. *)
Definition angle (vals : values) (g : gate) (t : R) : Prop :=
  match gparam g with
  | PNum x => t = (x + shift g)%R
  | PName s => exists x, lookup vals s = Ok (VNum x) /\ t = (x + shift g)%R
  end.

(** [gate_matrix vals g M]: with the parameter values [vals], the gate [g] is the gate whose matrix on its
    target qubits is [M].  (All gates of the library except SQRTSWAP, ISWAP, ISQRTSWAP, see C22, and
    Hamiltonian evolution, see C76.) *)
Inductive gate_matrix (vals : values) (g : gate) : op -> Prop :=
| gm_fixed : forall name M,
    gclass g = KPrim -> generator_name g = name -> List.length (target g) = 1 ->
    In (name, M) [("I", I_matrix); ("X", X_matrix); ("Y", Y_matrix); ("Z", Z_matrix);
                  ("H", H_matrix); ("S", S_matrix); ("T", T_matrix)]%string ->
    gate_matrix vals g M
| gm_SWAP :
    gclass g = KPrim -> generator_name g = "SWAP"%string -> List.length (target g) = 2 ->
    gate_matrix vals g SWAP_matrix
| gm_rotation : forall name R_ t,
    gclass g = KParam -> generator_name g = name -> List.length (target g) = 1 ->
    angle vals g t ->
    In (name, R_) [("X", RX_matrix); ("Y", RY_matrix); ("Z", RZ_matrix)]%string ->
    gate_matrix vals g (R_ t)
| gm_PHASE : forall t,
    gclass g = KPhase -> List.length (target g) = 1 ->
    angle vals g t ->
    gate_matrix vals g (PHASE_matrix t).

(** The control qubits of a gate: none for [None] and for the default [(None,)], and otherwise the given
    tuple of Python integers. *)
Inductive control_qubits : cspec -> list nat -> Prop :=
| cq_none : control_qubits CNone []
| cq_default : control_qubits (CTup [QNone]) []
| cq_ints : forall cs, control_qubits (CTup (map QInt cs)) cs.

(** [gate_on n vals g M cs ts]: [g] is the gate with matrix [M], controlled by the qubits [cs], on the
    target qubits [ts] (in this order), and all these qubits are distinct and among [0 .. n-1]. *)
Record gate_on (n : nat) (vals : values) (g : gate) (M : op) (cs ts : list nat) : Prop := {
  go_matrix : gate_matrix vals g M;
  go_control : control_qubits (control g) cs;
  go_target : target g = ts;
  go_qubits : valid_qubits n (cs ++ ts)
}.

(** The operator on [n] qubits of a controlled gate, and of a list of gates applied first to last. *)
Definition gate_op (M : op) (cs ts : list nat) : op := ctrl_kernel M cs ts.

(** [circuit_on n vals gs U]: the gates [gs] all fit on [n] qubits and, applied one after the other, are
    the operator [U] on [n] qubits. *)
Inductive circuit_on (n : nat) (vals : values) : list gate -> op -> Prop :=
| circ_nil : circuit_on n vals [] kid
| circ_cons : forall g gs M cs ts U,
    gate_on n vals g M cs ts -> circuit_on n vals gs U ->
    circuit_on n vals (g :: gs) (kmul n U (gate_op M cs ts)).

(** [usable n vals g]: [g] is a gate of the library on distinct qubits among [0 .. n-1], and its parameter
    (if it has one) is a number or has a numeric value in [vals]. *)
Definition usable (n : nat) (vals : values) (g : gate) : Prop := exists M cs ts, gate_on n vals g M cs ts.
(** gates with an angle: RX, RY, RZ, PHASE *)
Definition parametric (g : gate) : Prop := gclass g = KParam \/ gclass g = KPhase.

(** dense, noiseless gates *)
Definition dense_gate (g : gate) : Prop := sparse g = false.
Definition noiseless (g : gate) : Prop := noise g = None.
