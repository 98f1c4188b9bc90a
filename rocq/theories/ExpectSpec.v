(** * Vocabulary for the properties of expectation values.  No proofs in this file. *)
From Coq Require Import String List Arith Bool Reals Sorted.
From Verif Require Import Cplx Py Ndarray OperatorUtils Sparse Noise Gates Apply Composite Spec GateSpec PropSpec.
Import ListNotations.
Local Open Scope nat_scope.

(** [observable_on w n vals seq l K]: the observable with the operations [l] is the operator [K] on [n] qubits: the sum
    of its operations *)
Definition observable_on (w : world) (n : nat) (vals : values) (seq : bool) (l : list oper) (K : op) : Prop :=
  exists Ks, l <> [] /\ Forall2 (denotes w n vals seq) l Ks /\ K = ksum Ks.

(** Re <psi|K psi>, and Re tr(K rho) *)
Definition mean_pure (n : nat) (K : op) (psi : vec) : R := re (inner_product n psi (apply_kernel n K psi)).
Definition mean_density (n : nat) (K : op) (rho : op) : R := re (ktrace n (kmul n K rho)).
Definition mean (n : nat) (K : op) (s : state) : R :=
  match s with
  | SDense a => mean_pure n K (amp a)
  | SDM a => mean_density n K (rho_entry a)
  | SSparse _ => 0%R
  end.

(** the set of qubits of the observable is iterated in increasing order *)
Definition increasing_support (w : world) (l : list oper) : Prop :=
  forall s, support w (OObs l) = Ok s -> StronglySorted lt s.

(** what the density-matrix code path needs of an observable *)
Definition density_ready (w : world) (n : nat) (vals : values) (l : list oper) (K : op) : Prop :=
  observable_on w n vals false l K /\ increasing_support w l.

(** a dictionary with separate values for the circuit and for the observables *)
Definition separate_values (d v o : values) : Prop :=
  lookup d "circuit" = Ok (VDict v) /\ lookup d "observables" = Ok (VDict o).
Definition flat_values (d : values) : Prop :=
  lookup d "circuit" = Err KeyError \/ lookup d "observables" = Err KeyError.
(** the values used for the circuit and for the observables *)
Definition routed (d v o : values) : Prop := separate_values d v o \/ (flat_values d /\ v = d /\ o = d).

(** [obs_for w n vals s l K]: the observable [l], which is the operator [K], can be measured in the state [s] *)
Definition obs_for (w : world) (n : nat) (vals : values) (s : state) (l : list oper) (K : op) : Prop :=
  match s with SDM _ => density_ready w n vals l K | _ => exists sq, observable_on w n vals sq l K end.

(** [scaled c s s']: the state [s'] is [c] times the state [s] *)
Definition scaled (c : R) (s s' : state) : Prop :=
  match s, s' with
  | SDense a, SDense b => shape b = shape a /\ forall v, get b v = Cmul (RtoC c) (get a v)
  | SSparse a, SSparse b => bshp b = bshp a /\ forall v, get (todense b) v = Cmul (RtoC c) (get (todense a) v)
  | _, _ => False
  end.

(** the names of the values a gate, resp. an operation, reads *)
Definition names_of_gate (g : gate) : list string :=
  match gclass g with
  | KParam | KPhase => match gparam g with PName s => [s] | PNum _ => [] end
  | KHam => ["time_evolution"; "hamiltonian"]%string
  | KPrim => []
  end.
Fixpoint names_of (o : oper) : list string :=
  match o with
  | OGate g => names_of_gate g
  | OScale l p => (match p with PName s => [s] | PNum _ => [] end) ++ flat_map names_of l
  | OSeq l | OAdd l | OObs l | OQC _ l _ => flat_map names_of l
  end.
(** two dictionaries with the same values for the names in [l] *)
Definition agree_on (l : list string) (v v' : values) : Prop := forall s, In s l -> lookup v s = lookup v' s.
(** [v'] extends [v] *)
Definition extends (v v' : values) : Prop := forall s x, lookup v s = Ok x -> lookup v' s = Ok x.
