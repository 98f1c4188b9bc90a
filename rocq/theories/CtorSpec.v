(** * The gate constructors of the library: vocabulary of C112 *)
From Coq Require Import String List Arith Reals.
From Verif Require Import Cplx Py Ndarray OperatorUtils ApplyOperator Sparse Matrices Noise Gates Spec GateSpec NoiseSpec.
Import ListNotations.
Local Open Scope nat_scope.

(** the target qubits of a target argument: an integer or a tuple of integers *)
Inductive targets : target_arg -> list nat -> Prop :=
| tg_int : forall q, targets (TInt q) [q]
| tg_tuple : forall l, targets (TTup l) l.
(** the control qubits of a control argument: an integer, a tuple of integers, None or the default [(None,)] *)
Inductive controls : index_arg -> list nat -> Prop :=
| ct_int : forall q, controls (IInt q) [q]
| ct_tuple : forall l, controls (ITup (map QInt l)) l
| ct_default : controls no_control []
| ct_none : controls INone [].
(** the value of an angle argument: a number, or the value of that name *)
Inductive angle_is (vals : values) : param -> R -> Prop :=
| an_number : forall x, angle_is vals (PNum x) x
| an_name : forall s x, lookup vals s = Ok (VNum x) -> angle_is vals (PName s) x.

(** [built vals k t c ns g M]: [g] is what a constructor of the library returns for the target, control and noise
    arguments [t], [c], [ns] (and, for a parametrised gate, some angle argument); it is the gate with the textbook matrix [M] on
    [k] target qubits *)
Inductive built (vals : values) (t : target_arg) (c : index_arg) (ns : option (list noise_inst)) : nat -> gate -> op -> Prop :=
| b_I : built vals t c ns 1 (gI t c ns false) I_matrix
| b_X : built vals t c ns 1 (gX t c ns false) X_matrix
| b_NOT : built vals t c ns 1 (NOT t c ns false) X_matrix
| b_Y : built vals t c ns 1 (gY t c ns false) Y_matrix
| b_Z : built vals t c ns 1 (gZ t c ns false) Z_matrix
| b_H : built vals t c ns 1 (gH t c ns false) H_matrix
| b_S : built vals t c ns 1 (gS t c ns false) S_matrix
| b_T : built vals t c ns 1 (gT t c ns false) T_matrix
| b_SWAP : built vals t c ns 2 (SWAP t c ns false) SWAP_matrix
| b_RX : forall p a, angle_is vals p a -> built vals t c ns 1 (RX p t c ns false) (RX_matrix a)
| b_RY : forall p a, angle_is vals p a -> built vals t c ns 1 (RY p t c ns false) (RY_matrix a)
| b_RZ : forall p a, angle_is vals p a -> built vals t c ns 1 (RZ p t c ns false) (RZ_matrix a)
| b_PHASE : forall p a, angle_is vals p a -> built vals t c ns 1 (PHASE p t c ns false) (PHASE_matrix a).

(** a noise argument that is accepted on [k] target qubits: none, or valid instances on a single qubit *)
Definition noise_argument (k : nat) (ns : option (list noise_inst)) : Prop :=
  match ns with None => True | Some l => k = 1 /\ Forall (fun i => well_typed i /\ valid_parameter i) l end.
