(** * Vocabulary for negative qubit indices.  No proofs in this file. *)
From Coq Require Import List Arith ZArith Bool Sorting.Sorted.
From Verif Require Import Cplx Py Ndarray OperatorUtils ApplyOperator Sparse Noise Gates Apply Signed.
Import ListNotations.
Local Open Scope nat_scope.

(** on [n] qubits, the indices are -n, ..., n-1; a negative index counts from the end: -1 is the last qubit *)
Definition is_index (n : nat) (i : Z) : Prop := (- Z.of_nat n <= i < Z.of_nat n)%Z.
Definition qubit_of (n : nat) (i : Z) : nat := Z.to_nat (if (i <? 0)%Z then (i + Z.of_nat n)%Z else i).
(** all indices of a gate *)
Definition places (c : option (list Z)) (t : list Z) : list Z := match c with Some l => l ++ t | None => t end.
Definition indices_of (g : zgate) : list Z := places (zcontrol g) (ztarget g).
(** the same gate, with every index replaced by the qubit it stands for; no control is [(None,)] *)
Definition control_of (n : nat) (c : option (list Z)) : cspec := match c with Some l => CTup (map (fun i => QInt (qubit_of n i)) l) | None => CTup [QNone] end.
Definition resolved (n : nat) (g : zgate) : gate :=
  mkGate (gclass (zfields g)) (generator_name (zfields g)) (map (qubit_of n) (ztarget g)) (control_of n (zcontrol g))
    (noise (zfields g)) (sparse (zfields g)) (gparam (zfields g)) (shift (zfields g)).
(** control and target qubits are the first ones, in this order *)
Definition first_controls (c : option (list Z)) : cspec := match c with Some l => CTup (map QInt (seq 0 (length l))) | None => CTup [QNone] end.
Definition first_targets (c : option (list Z)) (t : list Z) : list nat := seq (match c with Some l => length l | None => 0 end) (length t).
Definition moved (g : zgate) : gate :=
  mkGate (gclass (zfields g)) (generator_name (zfields g)) (first_targets (zcontrol g) (ztarget g)) (first_controls (zcontrol g))
    (noise (zfields g)) (sparse (zfields g)) (gparam (zfields g)) (shift (zfields g)).
(** a list of integers in increasing order *)
Definition increasing (l : list Z) : Prop := StronglySorted Z.lt l.
