(** * Vocabulary for the properties about the structure of gates and circuits.  No proofs in this file. *)
From Coq Require Import String List Arith Bool Reals.
From Verif Require Import Cplx Py Ndarray OperatorUtils Sparse Noise Gates Apply Composite Spec GateSpec ExpectSpec.
Import ListNotations.
Local Open Scope nat_scope.

(** an object of the class _HamiltonianEvolution with the given fields *)
Definition evolution (name : string) (t : target_arg) (c : index_arg) (ns : option (list noise_inst)) (sp : bool) (s : R) : gate :=
  mkGate KHam name (parse_target t) (parse_control c) ns sp (PName "") s.
(** [built g]: the gate is made by calling the class Primitive, Parametric or _PHASE, with any arguments *)
Inductive built : gate -> Prop :=
| bt_prim : forall name t c ns sp, built (Primitive name t c ns sp)
| bt_param : forall name t c ns sp p s, built (mkGate KParam name (parse_target t) (parse_control c) ns sp p s)
| bt_phase : forall name t c ns sp p s, built (mkGate KPhase name (parse_target t) (parse_control c) ns sp p s).
(** ... or _HamiltonianEvolution with its default shift *)
Definition built_any (g : gate) : Prop := built g \/ exists name t c ns sp, g = evolution name t c ns sp 0.

(** the gates of an operation, at any depth *)
Fixpoint all_gates (o : oper) : list gate :=
  match o with
  | OGate g => [g]
  | OSeq l | OScale l _ | OAdd l | OObs l | OQC _ l _ => flat_map all_gates l
  end.

(** [no_circuit o]: there is no QuantumCircuit in [o], at any depth *)
Inductive no_circuit : oper -> Prop :=
| nc_gate : forall g, no_circuit (OGate g)
| nc_seq : forall l, Forall no_circuit l -> no_circuit (OSeq l)
| nc_scale : forall l p, Forall no_circuit l -> no_circuit (OScale l p)
| nc_add : forall l, Forall no_circuit l -> no_circuit (OAdd l)
| nc_obs : forall l, Forall no_circuit l -> no_circuit (OObs l).
(** nestings of gates in OpSequence, Add and Observable *)
Inductive plain_nesting : oper -> Prop :=
| pn_gate : forall g, plain_nesting (OGate g)
| pn_seq : forall l, Forall plain_nesting l -> plain_nesting (OSeq l)
| pn_add : forall l, Forall plain_nesting l -> plain_nesting (OAdd l)
| pn_obs : forall l, Forall plain_nesting l -> plain_nesting (OObs l).
(** the same, and also Scale of a single gate or of a Scale, and QuantumCircuits without feature parameters *)
Definition gate_or_scale (o : oper) : Prop := match o with OGate _ | OScale _ _ => True | _ => False end.
Inductive simple_nesting : oper -> Prop :=
| sn_gate : forall g, simple_nesting (OGate g)
| sn_seq : forall l, Forall simple_nesting l -> simple_nesting (OSeq l)
| sn_add : forall l, Forall simple_nesting l -> simple_nesting (OAdd l)
| sn_obs : forall l, Forall simple_nesting l -> simple_nesting (OObs l)
| sn_scale : forall o p, gate_or_scale o -> simple_nesting o -> simple_nesting (OScale [o] p)
| sn_circuit : forall n l, Forall simple_nesting l -> simple_nesting (OQC n l []).

(** the gate, resp. operation, with the sparse flag of every gate set to [b] and nothing else changed *)
Definition with_sparse (b : bool) (g : gate) : gate :=
  mkGate (gclass g) (generator_name g) (target g) (control g) (noise g) b (gparam g) (shift g).
Fixpoint with_sparse_oper (b : bool) (o : oper) : oper :=
  match o with
  | OGate g => OGate (with_sparse b g)
  | OSeq l => OSeq (map (with_sparse_oper b) l)
  | OScale l p => OScale (map (with_sparse_oper b) l) p
  | OAdd l => OAdd (map (with_sparse_oper b) l)
  | OObs l => OObs (map (with_sparse_oper b) l)
  | OQC n l fp => OQC n (map (with_sparse_oper b) l) fp
  end.

(** the gate has an angle, given by the name [s]; all gates with an angle have a name *)
Definition has_name (s : string) (g : gate) : Prop := parametric g /\ gparam g = PName s.
Definition all_named (o : oper) : Prop := forall g, In g (all_gates o) -> parametric g -> exists s, gparam g = PName s.

(** the qubits of a gate: its controls and its targets *)
Definition occupies (g : gate) (q : nat) : Prop := exists cs, control_qubits (control g) cs /\ In q (cs ++ target g).
(** the control is None, (None,) or a tuple of Python ints *)
Definition int_controls (g : gate) : Prop := exists cs, control_qubits (control g) cs.

(** the gate with another control *)
Definition with_control (c : cspec) (g : gate) : gate :=
  mkGate (gclass g) (generator_name g) (target g) c (noise g) (sparse g) (gparam g) (shift g).
(** the gate with every np.int64 among its control qubits replaced by the Python int *)
Definition as_int (q : qidx) : qidx := match q with QNp k => QInt k | _ => q end.
Definition with_int_controls (g : gate) : gate :=
  mkGate (gclass g) (generator_name g) (target g) (match control g with CNone => CNone | CTup l => CTup (map as_int l) end)
         (noise g) (sparse g) (gparam g) (shift g).

(** [starts k o]: the first gate that [o] applies (the first gate of each term, for a sum) has exactly the qubits
    [0 .. k-1] *)
Inductive starts (k : nat) : oper -> Prop :=
| st_gate : forall g, int_controls g -> (forall q, occupies g q <-> q < k) -> starts k (OGate g)
| st_seq : forall o l, starts k o -> starts k (OSeq (o :: l))
| st_scale : forall o l p, starts k o -> starts k (OScale (o :: l) p)
| st_add : forall l, Forall (starts k) l -> starts k (OAdd l)
| st_circuit : forall n o l fp, starts k o -> starts k (OQC n (o :: l) fp).

(** the basis state |b> *)
Definition ket (b : list nat) : vec := fun x => if list_eq_dec Nat.eq_dec x b then C1 else C0.

(** sums of gates: a gate, or an Add of sums of gates *)
Inductive sum_of_gates : oper -> Prop :=
| sg_gate : forall g, sum_of_gates (OGate g)
| sg_add : forall l, Forall sum_of_gates l -> sum_of_gates (OAdd l).
