(** * Vocabulary for circuit identities (C102, C103): which sequences of gates are the same operation.  No proofs in this file. *)
From Coq Require Import String List Reals.
From Verif Require Import Cplx Py Ndarray OperatorUtils Noise Gates Apply Spec GateSpec PropSpec StructSpec.
Import ListNotations.
Local Open Scope R_scope.

(** gates on qubit [q] with the control argument [c] *)
Definition Ig (q : nat) (c : index_arg) : gate := gI (TInt q) c None false.
Definition Xg (q : nat) (c : index_arg) : gate := gX (TInt q) c None false.
Definition Yg (q : nat) (c : index_arg) : gate := gY (TInt q) c None false.
Definition Zg (q : nat) (c : index_arg) : gate := gZ (TInt q) c None false.
Definition Hg (q : nat) (c : index_arg) : gate := gH (TInt q) c None false.
Definition Sg (q : nat) (c : index_arg) : gate := gS (TInt q) c None false.
Definition Tg (q : nat) (c : index_arg) : gate := gT (TInt q) c None false.
Definition RXg (t : R) (q : nat) (c : index_arg) : gate := RX (PNum t) (TInt q) c None false.
Definition RYg (t : R) (q : nat) (c : index_arg) : gate := RY (PNum t) (TInt q) c None false.
Definition RZg (t : R) (q : nat) (c : index_arg) : gate := RZ (PNum t) (TInt q) c None false.
Definition Pg (t : R) (q : nat) (c : index_arg) : gate := PHASE (PNum t) (TInt q) c None false.
Definition SWAPg (a b : nat) : gate := SWAP (TTup [a; b]) no_control None false.

(** [same_circuit l l']: the gates [l] (the first is applied first) are, by a textbook identity, the gates [l'].  The control
    argument [c] is the same on both sides: every identity of one-qubit gates holds for controlled gates as well. *)
Inductive same_circuit : list gate -> list gate -> Prop :=
| sc_II : forall q c, same_circuit [Ig q c] []
| sc_XX : forall q c, same_circuit [Xg q c; Xg q c] []
| sc_YY : forall q c, same_circuit [Yg q c; Yg q c] []
| sc_ZZ : forall q c, same_circuit [Zg q c; Zg q c] []
| sc_HH : forall q c, same_circuit [Hg q c; Hg q c] []
| sc_SS : forall q c, same_circuit [Sg q c; Sg q c] [Zg q c]
| sc_TT : forall q c, same_circuit [Tg q c; Tg q c] [Sg q c]
| sc_HXH : forall q c, same_circuit [Hg q no_control; Xg q c; Hg q no_control] [Zg q c]
| sc_HZH : forall q c, same_circuit [Hg q no_control; Zg q c; Hg q no_control] [Xg q c]
| sc_SXSSS : forall q c, same_circuit [Sg q no_control; Sg q no_control; Sg q no_control; Xg q c; Sg q no_control] [Yg q c]
| sc_RXRX : forall s t q c, same_circuit [RXg s q c; RXg t q c] [RXg (s + t) q c]
| sc_RYRY : forall s t q c, same_circuit [RYg s q c; RYg t q c] [RYg (s + t) q c]
| sc_RZRZ : forall s t q c, same_circuit [RZg s q c; RZg t q c] [RZg (s + t) q c]
| sc_PP : forall s t q c, same_circuit [Pg s q c; Pg t q c] [Pg (s + t) q c]
| sc_RX0 : forall q c, same_circuit [RXg 0 q c] []
| sc_RY0 : forall q c, same_circuit [RYg 0 q c] []
| sc_RZ0 : forall q c, same_circuit [RZg 0 q c] []
| sc_P0 : forall q c, same_circuit [Pg 0 q c] []
| sc_PZ : forall q c, same_circuit [Pg PI q c] [Zg q c]
| sc_PS : forall q c, same_circuit [Pg (PI / 2) q c] [Sg q c]
| sc_PT : forall q c, same_circuit [Pg (PI / 4) q c] [Tg q c]
| sc_HRXH : forall t q c, same_circuit [Hg q no_control; RXg t q c; Hg q no_control] [RZg t q c]
| sc_XRZX : forall t q c, same_circuit [Xg q no_control; RZg t q c; Xg q no_control] [RZg (- t) q c]
| sc_SWAP : forall a b, same_circuit [SWAPg a b] [Xg b (IInt a); Xg a (IInt b); Xg b (IInt a)]
| sc_CZ : forall a b, same_circuit [Zg b (IInt a)] [Zg a (IInt b)]
| sc_CP : forall t a b, same_circuit [Pg t b (IInt a)] [Pg t a (IInt b)]
| sc_disjoint : forall g g', noiseless g -> noiseless g' -> (forall q, occupies g q -> ~ occupies g' q) -> same_circuit [g; g'] [g'; g].

(** [same_up_to_phase l l']: the same up to a global phase, which no measurement sees; without control only, where the phase is
    global. *)
Inductive same_up_to_phase : list gate -> list gate -> Prop :=
| sp_RX : forall q, same_up_to_phase [RXg PI q no_control] [Xg q no_control]
| sp_RY : forall q, same_up_to_phase [RYg PI q no_control] [Yg q no_control]
| sp_RZ : forall q, same_up_to_phase [RZg PI q no_control] [Zg q no_control]
| sp_P : forall t q, same_up_to_phase [RZg t q no_control] [Pg t q no_control]
| sp_XY : forall q, same_up_to_phase [Xg q no_control; Yg q no_control] [Zg q no_control]
| sp_YZ : forall q, same_up_to_phase [Yg q no_control; Zg q no_control] [Xg q no_control]
| sp_ZX : forall q, same_up_to_phase [Zg q no_control; Xg q no_control] [Yg q no_control]
| sp_XZ : forall q, same_up_to_phase [Xg q no_control; Zg q no_control] [Zg q no_control; Xg q no_control]
| sp_H : forall q, same_up_to_phase [RZg (PI / 2) q no_control; RXg (PI / 2) q no_control; RZg (PI / 2) q no_control] [Hg q no_control].

(** the same state up to a global phase [z], [|z| = 1]; a density matrix has no phase *)
Inductive equal_up_to_phase (n : nat) : state -> state -> Prop :=
| eup_vector : forall a a' z, Cnorm2 z = 1 -> (forall x, In x (bitstrings n) -> amp a x = Cmul z (amp a' x)) -> equal_up_to_phase n (SDense a) (SDense a')
| eup_density : forall r, equal_up_to_phase n (SDM r) (SDM r).
