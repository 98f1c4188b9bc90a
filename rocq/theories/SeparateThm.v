(** * Separate values for circuit and observables outside AD mode (C48) *)
From Coq Require Import String List Arith Bool Reals Lia Lra ZArith.
From Verif Require Import Cplx Py PyFacts Ndarray OperatorUtils Sparse Matrices Noise Gates Apply Composite Conversion Shots Gpsr Api
  Spec SpecFacts GateSpec PropSpec NoiseSpec SampleSpec ExpectSpec GateFacts CircuitFacts AlgebraFacts ApplyThm GateThm NoiseThm SeqThm SampleThm ExpectThm ExpectThm2.
Import ListNotations.
Local Open Scope nat_scope.

Lemma run_flat_agree : forall w st circuit v v', agree_on (names_of circuit) v v' -> run_flat w st circuit v = run_flat w st circuit v'.
Proof.
  intros w st circuit v v' H. unfold run_flat. destruct (gates_of (iter circuit)) as [gs|] eqn:E; cbn [bind]; [|reflexivity]. apply c75_unused_gates.
  intros x Hx. apply H. cbn [gate_list] in Hx. rewrite in_flat_map in Hx. destruct Hx as (g & Hg & Hx). apply (iter_names circuit g); [eapply gates_of_in; eassumption|exact Hx].
Qed.
Lemma obs_agree : forall (obs : list (list oper)) v v' l, agree_on (flat_map names_of (List.concat obs)) v v' -> In l obs -> agree_on (flat_map names_of l) v v'.
Proof.
  intros obs v v' l H Hl x Hx. apply H. rewrite in_flat_map in Hx |- *. destruct Hx as (o & Ho & Hx). exists o; split; [rewrite in_concat; eauto|exact Hx].
Qed.
Lemma c48_repeated : forall w st circuit obs d v o key key', separate_values d v o ->
    agree_on (names_of circuit) v d -> agree_on (flat_map names_of (List.concat obs)) o d -> obs <> [] ->
    expectation w st circuit obs d GPSR 0 key = expectation w st circuit obs d AD 0 key' /\
    (scalable st -> noise_free circuit -> forall k, expectation w st circuit obs d ADJOINT k key = expectation w st circuit obs d AD 0 key').
Proof.
  intros w st circuit obs d v o key key' SV AC AO NE.
  assert (EA : expectation w st circuit obs d AD 0 key' = let! outputs := mapM (fun l => let! out := run_flat w st circuit d in ad_single w out l d) obs in stack outputs).
  { unfold expectation. cbn [Z.ltb Z.eqb Z.compare]. unfold ad_expectation. rewrite (values_routed d v o) by (left; exact SV). cbn [bind fst snd]. f_equal.
    apply mapM_ext_in. intros l Hl. rewrite (run_flat_agree w st circuit v d AC). destruct (run_flat w st circuit d); cbn [bind]; [|reflexivity]. apply ad_single_agree. eapply obs_agree; eassumption. }
  rewrite EA. split.
  - unfold expectation. cbn [Z.ltb Z.eqb Z.compare]. unfold run_flat, analytical_expectation, stack.
    destruct (gates_of (iter circuit)) as [gs|e]; cbn [bind]; [reflexivity|]. destruct obs as [|l obs]; [contradiction|reflexivity].
  - intros SC NF k. unfold expectation. transitivity (adjoint_expectation w st circuit obs d); [destruct st; [reflexivity|reflexivity|destruct SC]|].
    unfold adjoint_expectation. f_equal. apply mapM_ext_in. intros l _. unfold adjoint_single. destruct (run_flat w st circuit d) as [out|e] eqn:E; cbn [bind]; [|reflexivity].
    assert (SO : scalable out).
    { unfold run_flat in E. destruct (gates_of (iter circuit)) as [gs|] eqn:G; [|discriminate]. cbn [bind] in E. eapply apply_not_dm; [exact SC|exact (NF gs G)|exact E]. }
    destruct out; [reflexivity|reflexivity|destruct SO].
Qed.
