(** * Vocabulary for the dependence of expectations on one parameter (C104, C105).  No proofs in this file. *)
From Coq Require Import String List Arith Reals.
From Verif Require Import Cplx Py Ndarray OperatorUtils Noise Gates Sparse Spec GateSpec PropSpec ExpectSpec.
Import ListNotations.
Local Open Scope R_scope.

(** [trig_poly m f]: [f] is a trigonometric polynomial of degree at most [m] *)
Definition trig_poly (m : nat) (f : R -> R) : Prop :=
  exists a b : nat -> R, forall t, f t = rsum (seq 0 (S m)) (fun j => a j * cos (INR j * t) + b j * sin (INR j * t)).
(** how many gates use the parameter [name] *)
Definition uses (gs : list gate) (name : string) : nat := count_occ string_dec (flat_map names_of_gate gs) name.
(** the parameter is used by PHASE gates and by rotations without control only *)
Definition no_controlled_rotation (gs : list gate) (name : string) : Prop :=
  forall g, In g gs -> In name (names_of_gate g) -> gclass g = KPhase \/ control_qubits (control g) [].
(** a function with the frequencies 1 and 1/2, and its derivative with the part of frequency 1/2 multiplied by [r] *)
Definition two_tones (A B D P Q t : R) : R := A + B * cos t + D * sin t + P * cos (t / 2) + Q * sin (t / 2).
Definition two_tones_slope (r B D P Q t : R) : R := - B * sin t + D * cos t + r * ((- P * sin (t / 2) + Q * cos (t / 2)) / 2).
