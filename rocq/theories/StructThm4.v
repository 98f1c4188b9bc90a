(** * Proofs for C64: circuits as they are constructed *)
From Coq Require Import String List Arith Bool Reals.
From Verif Require Import Cplx Py Ndarray OperatorUtils Sparse Matrices Noise Gates Apply Composite StructSpec StructThm.
Import ListNotations.
Local Open Scope nat_scope.

Lemma flatten_all_gates : forall o, flat_map all_gates (flatten o) = all_gates o.
Proof.
  fix IH 1. assert (L : forall l, flat_map all_gates (flat_map flatten l) = flat_map all_gates l).
  { induction l as [|o l IL]; [reflexivity|]. cbn [flat_map]. rewrite flat_map_app, IH, IL. reflexivity. }
  intros [g|l|l p|l|l|m l fp]; cbn [flatten all_gates]; [reflexivity|apply L..].
Qed.
Lemma iter_all_gates : forall o, flat_map all_gates (iter o) = all_gates o.
Proof.
  assert (L : forall l, flat_map all_gates (flat_map flatten l) = flat_map all_gates l).
  { induction l as [|o l IL]; [reflexivity|]. cbn [flat_map]. rewrite flat_map_app, flatten_all_gates, IL. reflexivity. }
  intros [g|l|l p|l|l|m l fp]; cbn [iter all_gates flat_map]; rewrite ?app_nil_r; [reflexivity|apply L|reflexivity|apply L..].
Qed.
Lemma c64_built : forall str_of n fp,
    (forall l, (forall o, In o l -> all_named o) -> forall s, In s (vparams str_of (QuantumCircuit n (AList l) fp)) <-> (exists o g, In o l /\ In g (all_gates o) /\ has_name s g) /\ ~ In s fp) /\
    (forall o, all_named o -> forall s, In s (vparams str_of (QuantumCircuit n (AOp o) fp)) <-> (exists g, In g (all_gates o) /\ has_name s g) /\ ~ In s fp).
Proof.
  intros str_of n fp. split.
  - intros l A s. destruct (c64_thm str_of n l fp) as (E & _).
    { intros g I. cbn [all_gates] in I. apply in_flat_map in I. destruct I as (o & Io & Ig). apply (A o Io g Ig). }
    unfold QuantumCircuit. cbn [list_of]. rewrite E. cbn [all_gates]. split; intros [X N]; (split; [|exact N]).
    + destruct X as (g & I & H). apply in_flat_map in I. destruct I as (o & Io & Ig). eauto.
    + destruct X as (o & g & Io & Ig & H). exists g. split; [apply in_flat_map; eauto|exact H].
  - intros o A s. destruct (c64_thm str_of n (iter o) fp) as (E & _).
    { intros g I. cbn [all_gates] in I. rewrite iter_all_gates in I. apply (A g I). }
    unfold QuantumCircuit. cbn [list_of]. rewrite E. cbn [all_gates]. rewrite iter_all_gates. reflexivity.
Qed.
