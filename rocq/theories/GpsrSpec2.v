(** * Vocabulary for finite-shot gradients.  No proofs in this file. *)
From Coq Require Import String List Arith Bool Reals.
From Verif Require Import Cplx Py Ndarray OperatorUtils Sparse Noise Gates Apply Composite Gpsr Spec GateSpec PropSpec ExpectSpec ShotsSpec GpsrSpec.
Import ListNotations.
Local Open Scope nat_scope.

(** [same_in_mean Om F G]: the random outcome [F] and the outcome [G] either both raise the same exception, or both return
    vectors of the same length, and the expected value of every entry of [F] is that entry of [G] *)
Definition same_in_mean (Om : space) (F : sampler -> res (list R)) (G : res (list R)) : Prop :=
  (exists e, (forall ch, F ch = Err e) /\ G = Err e) \/
  (exists est d, (forall ch, F ch = Ok (est ch) /\ List.length (est ch) = List.length d) /\ G = Ok d /\
     forall i, i < List.length d -> expected Om (fun ch => nth i (est ch) 0%R) = nth i d 0%R).

(** the circuits and values at which the parameter-shift rule evaluates expectations: the value of one parameter, or the
    angle of one gate, moved by pi/2 or -pi/2; and the unchanged circuit *)
Inductive shifted_evaluation (vals : values) (gs : list gate) : list gate -> values -> Prop :=
| se_here : shifted_evaluation vals gs gs vals
| se_value : forall name x s, lookup vals name = Ok (VNum x) -> s = (PI / 2)%R \/ s = (- (PI / 2))%R ->
    shifted_evaluation vals gs gs (at_value vals name (x + s))
| se_gate : forall i s gs', s = (PI / 2)%R \/ s = (- (PI / 2))%R -> alter_gate_sequence gs i s = Ok gs' ->
    shifted_evaluation vals gs gs' vals.
