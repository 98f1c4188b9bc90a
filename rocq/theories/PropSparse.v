(** * C33-C34: sparse simulation; C95: tensors of sparse operations; C96-C97: sparse programs.

    The vocabulary is in Spec.v, GateSpec.v, SparseSpec.v and SparseSpec2.v.  Every theorem is followed by an example that meets its
    hypotheses. *)
From Coq Require Import List String Arith Bool Reals Lia Lra Permutation Sorted ZArith.
From Verif Require Import Cplx Py Ndarray OperatorUtils ApplyOperator Sparse Matrices Noise Gates Apply Composite Api SparseTensor
  Spec GateSpec ExpectSpec StructSpec SparseSpec SparseSpec2 SparseThm SparseThm2 SparseThm3 SparseThm4 Examples.
Import ListNotations.
Local Open Scope nat_scope.

(** a three-qubit sparse state with a repeated index, an explicit zero and an entry out of bounds *)
Definition ex_sparse : bcoo :=
  mkB [2; 2; 2] [([0; 1; 0], C1); ([0; 1; 0], Ci); ([1; 1; 1], C0); ([2; 0; 0], C1); ([1; 0; 1], RtoC 3)].
Lemma ex_sparse_ok : is_bcoo ex_sparse.
Proof. repeat constructor. Qed.
Definition ex_sparse_circuit : list gate := map (with_sparse true) ex_circuit.
Lemma ex_sparse_circuit_ok : Forall (usable 3 ex_values) ex_sparse_circuit /\ Forall sparse_gate ex_sparse_circuit /\ Forall noiseless ex_sparse_circuit.
Proof.
  split; [|split].
  - unfold ex_sparse_circuit. apply Forall_map. eapply Forall_impl; [|exact ex_circuit_usable]. intros g (M & cs & ts & G).
    exists M, cs, ts; apply gate_on_sparse; exact G.
  - constructor; [|constructor; [|constructor; [|constructor; [|constructor]]]]; split; try reflexivity; discriminate.
  - repeat constructor.
Qed.
Definition ex_sparse_noisy : list gate :=
  [gX (TInt 0) no_control None true; gH (TInt 1) (IInt 2) (Some [mkNoise BITFLIP (PFloat (1 / 4))]) true].

(** C33 *)
Theorem C33_sparse_rejects_noise : forall w n b ga vals ot group merge,
    ot = UNITARY \/ ot = DAGGER -> all_gates (usable n vals) ga -> some_gate (fun g => ~ noiseless g) ga ->
    apply_gates w (SSparse b) ga vals ot group merge = Err NotImplementedError.
Proof. exact c33_noisy. Qed.
Print Assumptions C33_sparse_rejects_noise.
Example C33_example : apply_gates ex_world (SSparse ex_sparse) (GMany ex_sparse_noisy) ex_values UNITARY true true = Err NotImplementedError.
Proof.
  apply (C33_sparse_rejects_noise ex_world 3); [auto| |].
  - constructor; [|constructor; [|constructor]].
    + do 3 eexists; split; [eapply gm_fixed; simpl; eauto 10|apply cq_default|reflexivity|ex_side].
    + do 3 eexists; split; [eapply gm_fixed; simpl; eauto 10|apply (cq_ints [2])|reflexivity|ex_side].
  - right; left. discriminate.
Qed.
Theorem C33_noise_is_the_only_unsupported : forall w b ga vals ot group merge,
    ot = UNITARY \/ ot = DAGGER -> all_gates noiseless ga ->
    apply_gates w (SSparse b) ga vals ot group merge <> Err NotImplementedError.
Proof. exact c33_clean. Qed.
Print Assumptions C33_noise_is_the_only_unsupported.
Example C33_clean_example : apply_gates ex_world (SSparse ex_sparse) (GMany ex_sparse_circuit) ex_values DAGGER true true <> Err NotImplementedError.
Proof. apply C33_noise_is_the_only_unsupported; [auto|apply ex_sparse_circuit_ok]. Qed.
Theorem C33_sparse_runs_without_noise : forall w n b ga vals ot group merge,
    is_bcoo b -> bshp b = repeat 2 n -> ot = UNITARY \/ ot = DAGGER -> nonempty_arg ga ->
    all_gates (usable n vals) ga -> all_gates sparse_gate ga -> all_gates noiseless ga ->
    exists b', apply_gates w (SSparse b) ga vals ot group merge = Ok (SSparse b') /\ bshp b' = repeat 2 n.
Proof. exact c33_ok. Qed.
Print Assumptions C33_sparse_runs_without_noise.
Example C33_ok_example : exists b', apply_gates ex_world (SSparse ex_sparse) (GMany ex_sparse_circuit) ex_values UNITARY true true = Ok (SSparse b')
    /\ bshp b' = repeat 2 3.
Proof.
  destruct ex_sparse_circuit_ok as (A & B & D).
  apply (C33_sparse_runs_without_noise ex_world 3); auto; [apply ex_sparse_ok|discriminate].
Qed.

(** C34 *)
Theorem C34_sparse_and_dense_agree : forall w b ga vals ot group merge,
    is_bcoo b -> ot = UNITARY \/ ot = DAGGER -> all_gates sparse_gate ga -> all_gates noiseless ga ->
    same_outcome (apply_gates w (SSparse b) ga vals ot group merge)
                 (apply_gates w (SDense (todense b)) (map_gates (with_sparse false) ga) vals ot group merge).
Proof. exact c34_agree. Qed.
Print Assumptions C34_sparse_and_dense_agree.
Example C34_example : same_outcome
    (apply_gates ex_world (SSparse ex_sparse) (GMany ex_sparse_circuit) ex_values UNITARY true false)
    (apply_gates ex_world (SDense (todense ex_sparse)) (GMany (map (with_sparse false) ex_sparse_circuit)) ex_values UNITARY true false).
Proof.
  destruct ex_sparse_circuit_ok as (A & B & D).
  apply (C34_sparse_and_dense_agree ex_world ex_sparse (GMany ex_sparse_circuit)); auto. apply ex_sparse_ok.
Qed.
Theorem C34_dense_gates_on_a_sparse_state : forall w b ga vals ot group merge,
    all_gates dense_matrix_gate ga -> all_gates noiseless ga ->
    apply_gates w (SSparse b) ga vals ot group merge = apply_gates w (SDense (todense b)) ga vals ot group merge.
Proof. exact c34_dense_gates. Qed.
Print Assumptions C34_dense_gates_on_a_sparse_state.
Example C34_dense_example :
    apply_gates ex_world (SSparse ex_sparse) (GMany ex_circuit) ex_values UNITARY true true
    = apply_gates ex_world (SDense (todense ex_sparse)) (GMany ex_circuit) ex_values UNITARY true true.
Proof.
  apply C34_dense_gates_on_a_sparse_state; [|apply ex_circuit_noiseless].
  eapply Forall_impl; [|exact ex_circuit_dense]. intros g H; left; exact H.
Qed.

(** any mixture of sparse and dense gates: a run that ends gives the result of the dense run; a sparse matrix meeting a dense state raises
    TypeError *)
Theorem C34_sparse_and_dense_gates_mixed : forall w s ga vals ot group merge,
    (forall b, s = SSparse b -> is_bcoo b) -> ot = UNITARY \/ ot = DAGGER ->
    match apply_gates w s ga vals ot group merge with
    | Ok r => apply_gates w (dense_form s) (map_gates (with_sparse false) ga) vals ot group merge = Ok (dense_form r)
    | Err e => apply_gates w (dense_form s) (map_gates (with_sparse false) ga) vals ot group merge = Err e \/ e = TypeError \/
               ((exists b, s = SSparse b) /\ some_gate (fun g => ~ noiseless g) ga /\ e = NotImplementedError)
    end.
Proof. exact c34_mixed. Qed.
Print Assumptions C34_sparse_and_dense_gates_mixed.
(** X (sparse), H (dense) and CZ (dense) on |00>: merging multiplies the dense H with the sparse X; the reversed order H, X on another qubit raises *)
Definition ex_mixed : list gate :=
  [gX (TInt 0) no_control None true; gH (TInt 0) no_control None false; gZ (TInt 1) (IInt 0) None false].
Example C34_mixed_example : forall w, exists r,
    apply_gates w (SSparse (mkB [2; 2] [([0; 0], C1)])) (GMany ex_mixed) [] UNITARY false true = Ok (SDense r) /\
    apply_gates w (SDense (todense (mkB [2; 2] [([0; 0], C1)]))) (GMany (map (with_sparse false) ex_mixed)) [] UNITARY false true = Ok (SDense r).
Proof.
  intro w. pose proof (C34_sparse_and_dense_gates_mixed w (SSparse (mkB [2; 2] [([0; 0], C1)])) (GMany ex_mixed) [] UNITARY false true) as H.
  destruct (apply_gates w (SSparse (mkB [2; 2] [([0; 0], C1)])) (GMany ex_mixed) [] UNITARY false true) as [r|e] eqn:E; [|discriminate].
  assert (K : exists a, r = SDense a) by (cbv -[Rplus Rmult Ropp sqrt Rdiv Rinv IZR R0 R1 cos sin PI C1 C0] in E; injection E as <-; eauto). destruct K as [a ->].
  exists a. split; [reflexivity|]. apply H; [|left; reflexivity]. intros b Eb. injection Eb as <-. repeat constructor.
Qed.
Example C34_mixed_raises : forall w, apply_gates w (SSparse (mkB [2; 2] [([0; 0], C1)]))
    (GMany [gH (TInt 0) no_control None false; gX (TInt 1) no_control None true]) [] UNITARY false true = Err TypeError.
Proof. reflexivity. Qed.

(** C95.  The tensor of an operation whose gates are all built with sparse=True. *)
(** the observable 2 Z(0) + CX(2 -> 1) + p (H(1)), and the circuit X(0); X(0) *)
Definition ex_sparse_obs : oper :=
  OObs [OScale [OGate (gZ (TInt 0) no_control None true)] (PNum 2); OGate (gX (TInt 1) (IInt 2) None true);
        OScale [OGate (gH (TInt 1) no_control None true)] (PName "p")].
Definition ex_sparse_product : oper := OSeq [OGate (gX (TInt 0) no_control None true); OGate (gX (TInt 0) no_control None true)].
Theorem C95_sparse_tensor_partial : forall w vals o fs, Forall sparse_gate (StructSpec.all_gates o) -> no_products o ->
    same_tensor (mat_tensor w vals o fs) (mat_tensor w vals (with_sparse_oper false o) fs).
Proof. exact c95_sparse_tensor. Qed.
Print Assumptions C95_sparse_tensor_partial.
Example C95_example : Forall sparse_gate (StructSpec.all_gates ex_sparse_obs) /\ no_products ex_sparse_obs.
Proof. split; [repeat constructor; discriminate|repeat constructor]. Qed.
Theorem C95_sparse_products_fail : forall w vals o fs m, Forall sparse_gate (StructSpec.all_gates o) -> ~ no_products o -> mat_tensor w vals o fs <> Ok m.
Proof. exact c95_products. Qed.
Print Assumptions C95_sparse_products_fail.
Example C95_products_example : Forall sparse_gate (StructSpec.all_gates ex_sparse_product) /\ ~ no_products ex_sparse_product.
Proof. split; [repeat constructor; discriminate|]. intro H. inversion H as [|l L| | | |]; subst. simpl in L. lia. Qed.
Theorem C95_sparse_products_refuted : exists (w : world) (o : oper) (a : arr), set_order (set_iter w) /\ Forall sparse_gate (StructSpec.all_gates o) /\
    mat_tensor w [] (with_sparse_oper false o) None = Ok (MD a) /\ mat_tensor w [] o None = Err TypeError.
Proof. exact c95_refuted. Qed.
Print Assumptions C95_sparse_products_refuted.
Theorem C95_sparse_observable_of_density : forall w vals l a r, Forall sparse_gate (flat_map StructSpec.all_gates l) -> call w vals (OObs l) (Some (SDM a)) <> Ok r.
Proof. exact c95_density. Qed.
Print Assumptions C95_sparse_observable_of_density.
Example C95_density_example : Forall sparse_gate (flat_map StructSpec.all_gates [ex_sparse_obs]).
Proof. repeat constructor; discriminate. Qed.

(** C96.  Programs made of sparse gates without noise, on a sparse state.  A result of [expectation] is the number, whether the
    library stores it as an array or as a BCOO array of shape (). *)
Definition ex_sparse_program : oper := OQC 3 (map OGate ex_sparse_circuit) [].
Lemma ex_sparse_program_ok : Forall sparse_gate (StructSpec.all_gates ex_sparse_program) /\ Forall noiseless (StructSpec.all_gates ex_sparse_program) /\ no_observable ex_sparse_program.
Proof.
  assert (E : StructSpec.all_gates ex_sparse_program = ex_sparse_circuit) by reflexivity. rewrite E. split; [apply ex_sparse_circuit_ok|split; [apply ex_sparse_circuit_ok|]].
  apply no_qc. apply Forall_map, Forall_forall. intros g _. apply no_gate.
Qed.
Theorem C96_sparse_run : forall w vals o b, is_bcoo b -> Forall sparse_gate (StructSpec.all_gates o) -> Forall noiseless (StructSpec.all_gates o) -> no_observable o ->
    same_run (run w o (SSparse b) vals) (run w (with_sparse_oper false o) (SDense (todense b)) vals).
Proof. exact c96_run. Qed.
Print Assumptions C96_sparse_run.
Example C96_run_example : same_run (run ex_world ex_sparse_program (SSparse ex_sparse) ex_values)
    (run ex_world (with_sparse_oper false ex_sparse_program) (SDense (todense ex_sparse)) ex_values).
Proof. apply C96_sparse_run; [exact ex_sparse_ok|apply ex_sparse_program_ok..]. Qed.
Theorem C96_sparse_expectation : forall w b circuit obs vals mode key, is_bcoo b ->
    Forall sparse_gate (StructSpec.all_gates circuit) -> Forall noiseless (StructSpec.all_gates circuit) ->
    Forall (fun l => Forall sparse_gate (flat_map StructSpec.all_gates l) /\ Forall noiseless (flat_map StructSpec.all_gates l) /\ Forall no_observable l) obs ->
    expectation w (SSparse b) circuit obs vals mode 0 key =
    expectation w (SDense (todense b)) (with_sparse_oper false circuit) (map (map (with_sparse_oper false)) obs) vals mode 0 key.
Proof. exact c96_expectation. Qed.
Print Assumptions C96_sparse_expectation.
Example C96_expectation_example : expectation ex_world (SSparse ex_sparse) ex_sparse_program
      [[OScale [OGate (gZ (TInt 0) no_control None true)] (PNum 2); OGate (gX (TInt 1) (IInt 2) None true)]] ex_values ADJOINT 0 0 =
    expectation ex_world (SDense (todense ex_sparse)) (with_sparse_oper false ex_sparse_program)
      [[OScale [OGate (gZ (TInt 0) no_control None false)] (PNum 2); OGate (gX (TInt 1) (IInt 2) None false)]] ex_values ADJOINT 0 0.
Proof.
  apply (C96_sparse_expectation ex_world ex_sparse ex_sparse_program [[OScale [OGate (gZ (TInt 0) no_control None true)] (PNum 2); OGate (gX (TInt 1) (IInt 2) None true)]]);
    [exact ex_sparse_ok|apply ex_sparse_program_ok|apply ex_sparse_program_ok|].
  apply Forall_cons; [|apply Forall_nil]. split; [repeat constructor; discriminate|]. split; repeat constructor.
Qed.
Theorem C96_sparse_observable : forall w b l vals, is_bcoo b ->
    Forall sparse_gate (flat_map StructSpec.all_gates l) -> Forall noiseless (flat_map StructSpec.all_gates l) -> Forall no_observable l ->
    run w (OObs l) (SSparse b) vals = run w (with_sparse_oper false (OObs l)) (SDense (todense b)) vals.
Proof. exact c96_observable. Qed.
Print Assumptions C96_sparse_observable.
Example C96_observable_example : run ex_world (OObs [OGate (gX (TInt 1) (IInt 2) None true)]) (SSparse ex_sparse) ex_values =
    run ex_world (OObs [OGate (gX (TInt 1) (IInt 2) None false)]) (SDense (todense ex_sparse)) ex_values.
Proof. apply (C96_sparse_observable ex_world ex_sparse [OGate (gX (TInt 1) (IInt 2) None true)]); [exact ex_sparse_ok|repeat constructor; discriminate|repeat constructor|repeat constructor]. Qed.

(** C97.  [sample] and finite shots refuse sparse programs. *)
Theorem C97_sample_refuses_sparse : forall w b circuit vals n r, is_bcoo b ->
    Forall sparse_gate (StructSpec.all_gates circuit) -> Forall noiseless (StructSpec.all_gates circuit) -> no_observable circuit -> fst (sample w (SSparse b) circuit vals n) <> Ok r.
Proof. exact c97_sample. Qed.
Print Assumptions C97_sample_refuses_sparse.
Example C97_sample_example : forall r, fst (sample ex_world (SSparse ex_sparse) ex_sparse_program ex_values 100) <> Ok r.
Proof. intro r. apply C97_sample_refuses_sparse; [exact ex_sparse_ok|apply ex_sparse_program_ok..]. Qed.
Theorem C97_shots_refuse_sparse : forall w b circuit obs vals mode n key r, is_bcoo b -> mode <> ADJOINT -> (0 < n)%Z ->
    Forall sparse_gate (StructSpec.all_gates circuit) -> Forall noiseless (StructSpec.all_gates circuit) -> expectation w (SSparse b) circuit obs vals mode n key <> Ok r.
Proof. exact c97_shots. Qed.
Print Assumptions C97_shots_refuse_sparse.
Example C97_shots_example : forall r, expectation ex_world (SSparse ex_sparse) ex_sparse_program [[OGate (gZ (TInt 0) no_control None true)]] ex_values GPSR 100 0 <> Ok r.
Proof. intro r. apply C97_shots_refuse_sparse; [exact ex_sparse_ok|discriminate|reflexivity|apply ex_sparse_program_ok|apply ex_sparse_program_ok]. Qed.
