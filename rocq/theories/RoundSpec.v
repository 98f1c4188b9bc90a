(** * Vocabulary for rounding errors (C127).  No proofs in this file. *)
From Coq Require Import String List Reals.
From Verif Require Import Cplx Py Ndarray OperatorUtils Sparse Noise Gates Apply Spec GateSpec PropSpec.
Import ListNotations.
Local Open Scope R_scope.

(** the length of the difference of two state vectors *)
Definition distance (n : nat) (a b : arr) : R := sqrt (norm2 n (fun x => Csub (amp a x) (amp b x))).

(** [rounded w n vals delta k gates a c]: the gates are applied to [a] in [k] portions (one or more gates each: a single gate, or neighbouring gates that were merged).
    After each portion the exact result [b] may be replaced by any vector [b'] at a distance of at most [delta].  The last vector is [c]. *)
Inductive rounded (w : world) (n : nat) (vals : values) (delta : R) : nat -> list gate -> arr -> arr -> Prop :=
| rd_done : forall a, rounded w n vals delta 0 [] a a
| rd_portion : forall k portion rest a b b' c, portion <> [] ->
    apply_gates w (SDense a) (GMany portion) vals UNITARY false true = Ok (SDense b) ->
    is_state n b' -> distance n b b' <= delta ->
    rounded w n vals delta k rest b' c -> rounded w n vals delta (S k) (portion ++ rest) a c.
