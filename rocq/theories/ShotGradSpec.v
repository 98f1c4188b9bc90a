(** * Vocabulary for the precision of finite-shot gradients.  No proofs in this file. *)
From Coq Require Import String List Arith Bool Reals.
From Verif Require Import Cplx Py Ndarray OperatorUtils Sparse Noise Gates Apply Composite Spec GateSpec PropSpec SampleSpec ExpectSpec.
Import ListNotations.
Local Open Scope nat_scope.

(** number of gates that use the parameter [name] *)
Definition uses (gs : list gate) (name : string) : nat := count_occ string_dec (flat_map names_of_gate gs) name.
(** the eigenvalues [ev] lie between -b and b *)
Definition within (b : R) (ev : list R) : Prop := Forall (fun x => (Rabs x <= b)%R) ev.
(** sum over the parameters of |tangent| times the number of gates that use the parameter *)
Definition tangent_size (gs : list gate) (names : list string) (tangents : list R) : R :=
  rsum (combine names tangents) (fun nt => (Rabs (snd nt) * INR (uses gs (fst nt)))%R).
