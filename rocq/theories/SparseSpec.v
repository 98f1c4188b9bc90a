(** * Vocabulary for the properties of sparse simulation.  No proofs in this file. *)
From Coq Require Import String List Arith Bool Reals.
From Verif Require Import Cplx Py Ndarray OperatorUtils ApplyOperator Sparse Matrices Noise Gates Apply Spec GateSpec.
Import ListNotations.
Local Open Scope nat_scope.

(** A BCOO array: every stored index has one coordinate per axis.  Indices may repeat, be out of bounds, or carry the
    value zero. *)
Definition is_bcoo (b : bcoo) : Prop := Forall (fun e => length (fst e) = length (bshp b)) (bent b).

(** the gate with its sparse flag cleared, resp. set *)
Definition with_sparse (sp : bool) (g : gate) : gate :=
  mkGate (gclass g) (generator_name g) (target g) (control g) (noise g) sp (gparam g) (shift g).

(** gates of the digital library (everything but Hamiltonian evolution) built with sparse=True *)
Definition sparse_gate (g : gate) : Prop := sparse g = true /\ gclass g <> KHam.

(** gates whose matrix is a dense array: built with sparse=False, or Hamiltonian evolution *)
Definition dense_matrix_gate (g : gate) : Prop := sparse g = false \/ gclass g = KHam.

(** the sparse run [r] and the dense run [d] have the same outcome: the same exception, or a sparse state and its dense
    form *)
Definition same_outcome (r d : res state) : Prop :=
  match r, d with
  | Ok (SSparse b), Ok (SDense a) => a = todense b
  | Err e, Err e' => e = e'
  | _, _ => False
  end.

(** the gate argument of [apply_gates] with every gate replaced *)
Definition map_gates (f : gate -> gate) (ga : gate_arg) : gate_arg :=
  match ga with GOne g => GOne (f g) | GMany l => GMany (map f l) end.
(** every gate of the argument *)
Definition all_gates (P : gate -> Prop) (ga : gate_arg) : Prop :=
  match ga with GOne g => P g | GMany l => Forall P l end.
Definition some_gate (P : gate -> Prop) (ga : gate_arg) : Prop :=
  match ga with GOne g => P g | GMany l => Exists P l end.
Definition nonempty_arg (ga : gate_arg) : Prop := ga <> GMany [].

(** the state as a dense array: sparse states are converted, dense ones and density matrices are left alone *)
Definition dense_form (s : state) : state := match s with SSparse b => SDense (todense b) | _ => s end.
