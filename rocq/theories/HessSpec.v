(** * Vocabulary for second derivatives (C106).  No proofs in this file. *)
From Coq Require Import String List Arith Bool Reals.
From Verif Require Import Cplx Py Gates GpsrSpec.
Import ListNotations.
Local Open Scope nat_scope.

(** [second_derivative_at F vals a b h]: [F] has a derivative with respect to [b] whatever the value of [a], and [h] is the derivative with
    respect to [a], at [vals], of that derivative *)
Definition second_derivative_at (F : values -> res (list R)) (vals : values) (a b : string) (h : list R) : Prop :=
  exists (G : R -> list R) x, lookup vals a = Ok (VNum x) /\
    (forall t, gradient_at F (at_value vals a t) b (G t) /\ List.length (G t) = List.length h) /\
    forall i, i < List.length h -> derivable_pt_lim (fun t => nth i (G t) 0%R) x (nth i h 0%R).
(** the form [sum_ab H_ab t1_a t2_b], for each of [m] observables; [H] lists the rows of the matrix, each entry a vector over the observables *)
Definition second_directional (m : nat) (H : list (list (list R))) (t1 t2 : list R) : list R :=
  map (fun i => rsum (combine H t1) (fun rt => (rsum (combine (fst rt) t2) (fun ht => nth i (fst ht) 0 * snd ht) * snd rt)%R)) (seq 0 m).
