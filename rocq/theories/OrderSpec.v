(** * Vocabulary for derivatives of any order (C108).  No proofs in this file. *)
From Coq Require Import String List Arith Bool Reals.
From Verif Require Import Cplx Py Gates GpsrSpec.
Import ListNotations.
Local Open Scope nat_scope.

(** [mixed_derivative F l vals h]: the derivative of [F] with respect to the names in [l] (the last one first) exists at [vals] and is [h] *)
Fixpoint mixed_derivative (F : values -> res (list R)) (l : list string) (vals : values) (h : list R) : Prop :=
  match l with
  | [] => F vals = Ok h
  | a :: l' =>
      exists (G : R -> list R) x, lookup vals a = Ok (VNum x) /\
        (forall t, mixed_derivative F l' (at_value vals a t) (G t) /\ List.length (G t) = List.length h) /\
        forall i, i < List.length h -> derivable_pt_lim (fun t => nth i (G t) 0%R) x (nth i h 0%R)
  end.
(** the multilinear form with the coefficients [H]: the sum over [a], [b], ... in [keys] of [H [a; b; ...] * t1_a * t2_b * ...], where
    [ts = [t1; t2; ...]] *)
Fixpoint multilinear (keys : list string) (H : list string -> R) (ts : list (list R)) : R :=
  match ts with
  | [] => H []
  | t :: ts' => rsum (combine keys t) (fun kt => (multilinear keys (fun l => H (fst kt :: l)) ts' * snd kt)%R)
  end.
