(** * Vocabulary for comparing two programs at finitely many parameter values (C124).  No proofs in this file. *)
From Coq Require Import String List Arith Reals.
From Verif Require Import Cplx Py Ndarray OperatorUtils Noise Gates Sparse Spec GateSpec PropSpec ExpectSpec GpsrSpec TrigSpec.
Import ListNotations.
Local Open Scope R_scope.

(** the parameters named in [a] take the given numbers, the others stay as in [vals] *)
Definition at_values (vals : values) (a : list (string * R)) : values := fold_left (fun v x => at_value v (fst x) (snd x)) a vals.

(** a grid gives some values for each of some parameters; [on_grid a grid]: the point [a] takes one of them for each parameter *)
Definition on_grid (a : list (string * R)) (grid : list (string * list R)) : Prop :=
  Forall2 (fun x g => fst x = fst g /\ In (snd x) (snd g)) a grid.

(** enough different values for one parameter: more than twice as many as the gates of [gs] or [gs'] that use it, in one turn; or,
    with controlled rotations, more than four times as many, in two turns *)
Definition enough_values (gs gs' : list gate) (g : string * list R) : Prop :=
  NoDup (snd g) /\
  ((no_controlled_rotation gs (fst g) /\ no_controlled_rotation gs' (fst g) /\ Forall (fun t => 0 <= t < 2 * PI) (snd g) /\
      (2 * Nat.max (uses gs (fst g)) (uses gs' (fst g)) < length (snd g))%nat)
   \/ (Forall (fun t => 0 <= t < 4 * PI) (snd g) /\ (4 * Nat.max (uses gs (fst g)) (uses gs' (fst g)) < length (snd g))%nat)).
