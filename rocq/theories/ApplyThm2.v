(** * Control tuples that mix qubits and None (C02) *)
From Coq Require Import List Arith Bool.
From Verif Require Import Cplx Py Ndarray OperatorUtils ApplyOperator.
Import ListNotations.
Local Open Scope nat_scope.

Lemma none_axis : forall l, In QNone l -> exists e, mapM qidx_nat l = Err e.
Proof.
  induction l as [|q l IH]; intros H; [destruct H|]. cbn [mapM]. destruct H as [->|H]; [eexists; reflexivity|]. destruct (IH H) as (e & E). rewrite E.
  destruct (qidx_nat q); eexists; reflexivity.
Qed.
Lemma none_prepare : forall u ts l k, In (QInt k) l -> In QNone l -> exists e, prepare_operator u ts (CTup l) = Err e.
Proof.
  intros u ts l k K N. unfold prepare_operator. assert (I : is_controlled (CTup l) = true) by (cbn; apply existsb_exists; exists (QInt k); split; [exact K|reflexivity]). rewrite I.
  destruct (controlled_block u (clen (CTup l))) as [o|e]; cbn [bind]; [|eexists; reflexivity]. cbn [axes_of]. destruct (none_axis l N) as (e & E). rewrite E. eexists; reflexivity.
Qed.
Lemma c02_none : forall psi u ts l k, In (QInt k) l -> In QNone l ->
    (exists e, apply_operator psi u ts (CTup l) = Err e) /\ forall so, exists e, apply_operator_dm so psi u ts (CTup l) = Err e.
Proof.
  intros psi u ts l k K N. destruct (none_prepare u ts l k K N) as (e & E). split; [exists e; unfold apply_operator|intro so; exists e; unfold apply_operator_dm]; rewrite E; reflexivity.
Qed.
