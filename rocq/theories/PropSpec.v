(** * Specification vocabulary of the theorems: predicates on gates, states and circuits.  The data types of the
    model (gates, states, operations) are used, and none of its functions except [is_controlled]. *)
From Coq Require Import List String Arith Bool Reals Sorted.
From Verif Require Import Cplx Py Ndarray OperatorUtils Noise Gates Apply Composite Spec GateSpec.
Import ListNotations.
Local Open Scope nat_scope.

(** two uncontrolled gates on the same tuple of qubits, or on disjoint ones *)
Definition same_or_disjoint (g h : gate) : Prop :=
  target g = target h \/ (forall q, In q (target g) -> ~ In q (target h)).

(** gates allowed to be reordered: pairwise same-or-disjoint among the uncontrolled ones *)
Definition groupable (l : list gate) : Prop :=
  forall g h, In g l -> In h l -> is_controlled (control g) = false -> is_controlled (control h) = false ->
              same_or_disjoint g h.

(** a list of operators with unitary matrices, applied with apply_operator *)
Definition unitary_step (n : nat) (p : arr * list nat * cspec) : Prop :=
  let '(u, ts, c) := p in
  is_matrix (List.length ts) u /\ unitary (List.length ts) (entry u) /\
  exists cs, control_qubits c cs /\ valid_qubits n (cs ++ ts).

(** the operation type is defined for the gate *)
Definition has_operation (ot : op_type) (g : gate) : Prop := ot = JACOBIAN -> parametric g.

(** a dense state vector or density matrix of [n] qubits *)
Definition state_of (n : nat) (s : state) : Prop :=
  match s with SDense a => is_state n a | SDM a => is_density n a | SSparse _ => False end.

(** ** grouping *)
Definition single_qubit_uncontrolled (gs : list gate) : Prop :=
  forall g, In g gs -> is_controlled (control g) = false -> List.length (target g) = 1.

(** sequences and circuits without gates, nested to any depth *)
Inductive empty_circuit : oper -> Prop :=
| empty_seq : forall l, Forall empty_circuit l -> empty_circuit (OSeq l)
| empty_qc : forall n l fp, Forall empty_circuit l -> empty_circuit (OQC n l fp).

(** [positions sub full ps]: [ps] lists where the qubits of [sub] occur in [full] *)
Definition positions (sub full ps : list nat) : Prop :=
  List.length ps = List.length sub /\
  forall i, i < List.length sub -> nth i ps 0 < List.length full /\ nth (nth i ps 0) full 0 = nth i sub 0.

(** ** matrices of operations *)
(** [g] has a dense [2^k x 2^k] matrix [u] for its [k] target qubits (listed in increasing order), which are
    distinct from the controls [cs], and all these qubits are among [0 .. n-1]; [K] is its operator on [n]
    qubits. *)
Definition ordered_gate (w : world) (n : nat) (vals : values) (g : gate) (K : op) : Prop :=
  exists u cs, unitary_of w g vals = Ok (MD u) /\ is_matrix (List.length (target g)) u /\
    control_qubits (control g) cs /\ valid_qubits n (cs ++ target g) /\ StronglySorted lt (target g) /\
    K = gate_op (entry u) cs (target g).

(** the sum of a list of operators *)
Fixpoint ksum (l : list op) : op :=
  match l with [] => fun _ _ => C0 | K :: l' => fun x y => Cadd (K x y) (ksum l' x y) end.
(** the product of the operators of a list, the first one acting first *)
Fixpoint kprod (n : nat) (l : list op) : op :=
  match l with [] => kid | K :: l' => kmul n (kprod n l') K end.

(** the products of all pairs of operators in a list commute *)
Inductive commuting (n : nat) : list op -> Prop :=
| com_nil : commuting n []
| com_cons : forall K L, Forall (fun B => keq n (kmul n K B) (kmul n B K)) L -> commuting n L -> commuting n (K :: L).
(** the sequences that may occur in an operation: any one if [seq]; otherwise those of operations that commute, as
    e.g. the Pauli strings on distinct qubits (the matrix of a sequence is otherwise not that of its action, see C18) *)
Definition sequences (n : nat) (seq : bool) (Ks : list op) : Prop := seq = true \/ (Ks <> [] /\ commuting n Ks).

(** [denotes w n vals seq o K]: the operation [o], built from gates with sums, real multiples and sequences (see
    [sequences]), is the operator [K] on [n] qubits. [OScale] of several operations is a multiple of their sequence. *)
Inductive denotes (w : world) (n : nat) (vals : values) (seq : bool) : oper -> op -> Prop :=
| den_gate : forall g M cs ts, gate_on n vals g M cs ts -> dense_gate g -> noiseless g ->
    denotes w n vals seq (OGate g) (gate_op M cs ts)
| den_matrix : forall g K, ordered_gate w n vals g K -> noiseless g -> denotes w n vals seq (OGate g) K
| den_add : forall l Ks, l <> [] -> Forall2 (denotes w n vals seq) l Ks -> denotes w n vals seq (OAdd l) (ksum Ks)
| den_scale : forall o K p c, denotes w n vals seq o K -> param_value p vals = Ok c ->
    denotes w n vals seq (OScale [o] p) (kscale (RtoC c) K)
| den_multiple : forall l Ks p c, sequences n seq Ks -> Forall2 (denotes w n vals seq) l Ks -> param_value p vals = Ok c ->
    denotes w n vals seq (OScale l p) (kscale (RtoC c) (kprod n Ks))
| den_seq : forall l Ks, sequences n seq Ks -> Forall2 (denotes w n vals seq) l Ks ->
    denotes w n vals seq (OSeq l) (kprod n Ks)
| den_circuit : forall m l fp Ks, sequences n seq Ks -> Forall2 (denotes w n vals seq) l Ks ->
    denotes w n vals seq (OQC m l fp) (kprod n Ks).

(** ** exponentials *)
(** [exponential_of e k a]: on the real multiples of the [2^k x 2^k] matrix [a], the function [e] is the matrix
    exponential, i.e. [t -> e(t a)] solves E' = a E, E(0) = 1 *)
Definition exponential_of (e : arr -> arr) (k : nat) (a : arr) : Prop :=
  is_matrix k a /\ (forall t, is_matrix k (e (scale (RtoC t) a))) /\
  keq k (entry (e (scale (RtoC 0) a))) kid /\
  forall t, kderiv k (fun s => entry (e (scale (RtoC s) a))) t (kmul k (entry a) (entry (e (scale (RtoC t) a)))).

(** [-i H] *)
Definition minus_i (a : arr) : arr := scale (Copp Ci) a.

(** the values of a Hamiltonian evolution *)
Definition evolution_values (h : arr) (t : R) : values :=
  [("hamiltonian", VMat h); ("time_evolution", VNum t)]%string.
