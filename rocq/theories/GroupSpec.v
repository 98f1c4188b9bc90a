(** * When grouping gates by qubit is harmless, and what it does in general (C12).  No proofs in this file. *)
From Coq Require Import List Arith Permutation.
From Verif Require Import Py OperatorUtils Gates.
Import ListNotations.
Local Open Scope nat_scope.

(** the order of Python tuples of integers *)
Inductive tuple_le : list nat -> list nat -> Prop :=
| tle_nil : forall l, tuple_le [] l
| tle_lt : forall x y a b, x < y -> tuple_le (x :: a) (y :: b)
| tle_eq : forall x a b, tuple_le a b -> tuple_le (x :: a) (x :: b).
(** of any two uncontrolled gates without a controlled gate between them, the first has the smaller target tuple, or they act on
    disjoint qubits *)
Definition grouping_keeps_order (gs : list gate) : Prop :=
  forall a g b h c, gs = a ++ g :: b ++ h :: c -> Forall (fun x => is_controlled (control x) = false) (g :: b ++ [h]) ->
    tuple_le (target g) (target h) \/ (forall q, In q (target g) -> ~ In q (target h)).

(** In general: the list is cut at its controlled gates, which stay where they are; every run of uncontrolled gates between them is
    rearranged in the order of the target tuples, gates with the same targets staying in the order they had. *)

(** the tuple [a] precedes the tuple [b]: the first difference decides, and a proper prefix comes first *)
Definition tuple_before (a b : list nat) : Prop :=
  exists p b', (exists y, b = p ++ y :: b' /\ a = p) \/ (exists x y a', a = p ++ x :: a' /\ b = p ++ y :: b' /\ x < y).

(** [run'] is [run] put in the order of the targets, without changing the order of gates with equal targets *)
Definition ordered_by_target (run run' : list gate) : Prop :=
  Permutation run run' /\
  (forall ts, filter (fun g => if list_eq_dec Nat.eq_dec (target g) ts then true else false) run' =
              filter (fun g => if list_eq_dec Nat.eq_dec (target g) ts then true else false) run) /\
  (forall l1 g l2 h l3, run' = l1 ++ g :: l2 ++ h :: l3 -> ~ tuple_before (target h) (target g)).

Inductive regrouped : list gate -> list gate -> Prop :=
| rg_run : forall run run', Forall (fun g => is_controlled (control g) = false) run -> ordered_by_target run run' -> regrouped run run'
| rg_cut : forall run run' g gs gs', Forall (fun h => is_controlled (control h) = false) run -> ordered_by_target run run' ->
    is_controlled (control g) = true -> regrouped gs gs' -> regrouped (run ++ g :: gs) (run' ++ g :: gs').
