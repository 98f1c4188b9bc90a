(** * Vocabulary for the properties of the tensors of sparse operations.  No proofs in this file. *)
From Coq Require Import String List Arith Bool Reals.
From Verif Require Import Cplx Py Ndarray OperatorUtils Sparse Noise Gates Apply Composite SparseSpec.
Import ListNotations.
Local Open Scope nat_scope.

(** [r] and [d] have the same outcome: the same exception, or a well-formed BCOO array and its dense form *)
Definition same_tensor (r d : res mat) : Prop :=
  match r, d with
  | Ok (MS b), Ok (MD a) => is_bcoo b /\ a = todense b
  | Err e, Err e' => e = e'
  | _, _ => False
  end.

(** nestings of gates by Add, Observable, and by OpSequence, Scale and QuantumCircuit of at most one operation *)
Inductive no_products : oper -> Prop :=
| np_gate : forall g, no_products (OGate g)
| np_seq : forall l, length l <= 1 -> Forall no_products l -> no_products (OSeq l)
| np_scale : forall l p, length l <= 1 -> Forall no_products l -> no_products (OScale l p)
| np_add : forall l, Forall no_products l -> no_products (OAdd l)
| np_obs : forall l, Forall no_products l -> no_products (OObs l)
| np_circuit : forall n l fp, length l <= 1 -> Forall no_products l -> no_products (OQC n l fp).

(** nestings of gates by OpSequence, Scale, Add and QuantumCircuit: no Observable, at any depth *)
Inductive no_observable : oper -> Prop :=
| no_gate : forall g, no_observable (OGate g)
| no_seq : forall l, Forall no_observable l -> no_observable (OSeq l)
| no_scale : forall l p, Forall no_observable l -> no_observable (OScale l p)
| no_add : forall l, Forall no_observable l -> no_observable (OAdd l)
| no_qc : forall n l fp, Forall no_observable l -> no_observable (OQC n l fp).

(** the result of a sparse run and of a dense run: the same exception, or a sparse state and its dense form *)
Definition same_run (r d : res (option state)) : Prop :=
  match r, d with
  | Ok (Some (SSparse b)), Ok (Some (SDense a)) => is_bcoo b /\ a = todense b
  | Err e, Err e' => e = e'
  | _, _ => False
  end.
