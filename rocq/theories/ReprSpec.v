(** * Vocabulary for printed gates (C126).  No proofs in this file. *)
From Coq Require Import String Ascii List Arith Bool Reals.
From Verif Require Import Cplx Py Ndarray OperatorUtils ApplyOperator Sparse Matrices Noise Gates Apply Repr.
Import ListNotations.
Local Open Scope nat_scope.

(** the character [c] does not occur in [s] *)
Definition lacks (c : ascii) (s : string) : Prop := ~ In c (list_ascii_of_string s).

(** the same gate with another shift, as the parameter-shift rule makes *)
Definition shifted (g : gate) (x : R) : gate := mkGate (gclass g) (generator_name g) (target g) (control g) (noise g) (sparse g) (gparam g) x.
(** the gates that the constructors of the library return, for any arguments *)
Inductive library_gate : gate -> Prop :=
| lg_fixed : forall k t c ns sp, In k [gI; gX; NOT; gY; gZ; gH; gS; gT; SWAP; SQRTSWAP; ISWAP; ISQRTSWAP] -> library_gate (k t c ns sp)
| lg_angle : forall k p t c ns sp x, In k [RX; RY; RZ; PHASE] -> library_gate (shifted (k p t c ns sp) x)
| lg_evolution : forall t c x, library_gate (shifted (HamiltonianEvolution t c) x).

(** the numbers that are printed for a gate *)
Definition numbers (g : gate) : list R := shift g :: match gparam g with PNum x => [x] | PName _ => [] end.
(** different numbers of the list are printed differently, by at least one character and without commas and parentheses *)
Definition distinguished (pr : printer) (l : list R) : Prop :=
  (forall x y, In x l -> In y l -> float_text pr x = float_text pr y -> x = y) /\ (forall x, In x l -> lacks "," (float_text pr x) /\ lacks "(" (float_text pr x) /\ float_text pr x <> ""%string).
(** the probabilities of a noise instance *)
Definition probabilities_of (n : noise_inst) : list R := match error_probability n with PFloat p => [p] | PTuple l => l end.
(** a parameter name without commas that is not the text of a number *)
Definition proper_name (pr : printer) (p : param) : Prop :=
  match p with PName s => lacks "," s /\ (forall x, s <> float_text pr x) | PNum _ => True end.

(** the two gates do the same to every state, with every values, in every way of applying them *)
Definition same_effect (w : world) (g h : gate) : Prop :=
  forall s vals ot group_gates merge_ops,
    apply_gates w s (GOne g) vals ot group_gates merge_ops = apply_gates w s (GOne h) vals ot group_gates merge_ops.
