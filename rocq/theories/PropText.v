(** * C121: circuits of one-qubit gates act on each qubit separately; textbook circuits prepare their states, for any number of qubits.

    The vocabulary is in Spec.v, GateSpec.v, SampleSpec.v, PauliSpec.v, HeisSpec.v and TextSpec.v.  Every theorem is followed by an example that meets its
    hypotheses. *)
From Coq Require Import String List Arith Bool ZArith Reals Lia Lra.
From Verif Require Import Cplx Py Ndarray OperatorUtils ApplyOperator Sparse Matrices Noise Gates Apply Composite Conversion Shots Gpsr Api
  Spec GateSpec PropSpec NoiseSpec SampleSpec ShotsSpec ExpectSpec GpsrSpec StructSpec PhysSpec PauliSpec HeisSpec TextSpec StructThm3 SampleThm ExpectThm2 GpsrFacts PhysThm TextThm Examples.
Import ListNotations.
Local Open Scope nat_scope.

(** a circuit of one-qubit gates without controls applies the tensor product of the matrices of its qubits *)
Theorem C121_qubits_separately : forall w n vals c gs psi Ms, sequence_of c gs -> Forall dense_gate gs -> Forall noiseless gs -> Forall (one_qubit n vals) gs ->
    (forall q, q < n -> acts_as vals q gs (Ms q)) -> is_state n psi ->
    exists out, run w c (SDense psi) vals = Ok (Some (SDense out)) /\ is_state n out /\
      (forall x, In x (bitstrings n) -> amp out x = csum (bitstrings n) (fun y => Cmul (tensor_product n Ms x y) (amp psi y))) /\
      (forall b, In b (bitstrings n) -> psi = product_state b -> forall x, In x (bitstrings n) -> amp out x = cprod (seq 0 n) (fun q => Ms q [nth q x 0] [nth q b 0])).
Proof. exact c121_separately. Qed.
Print Assumptions C121_qubits_separately.
(** RX(a) and then H on qubit 0, RY(b) in between on qubit 1, nothing on qubit 2 *)
Definition tx_gates : list gate := [plain (RX (PName "a")) 0; plain (RY (PName "b")) 1; plain gH 0].
Definition tx_vals (a b : R) : values := [("a", VNum a); ("b", VNum b)]%string.
Definition tx_matrix (a b : R) (q : nat) : op :=
  match q with 0 => kmul 1 (kmul 1 kid H_matrix) (RX_matrix (a + 0)) | 1 => kmul 1 kid (RY_matrix (b + 0)) | _ => kid end.
Example C121_separately_example : forall a b, exists out,
    run ex_world (OpSequence (map OGate tx_gates)) (SDense (product_state [0; 1; 1])) (tx_vals a b) = Ok (Some (SDense out)) /\
    amp out [1; 0; 1] = Cmul (tx_matrix a b 0 [1] [0]) (Cmul (tx_matrix a b 1 [0] [1]) (Cmul (kid [1] [1]) C1)).
Proof.
  intros a b. assert (H : In [0; 1; 1] (bitstrings 3)) by (simpl; tauto). destruct (c72_product_thm 3 _ H) as (S & _).
  assert (GA : gate_matrix (tx_vals a b) (plain (RX (PName "a")) 0) (RX_matrix (a + 0))).
  { eapply gm_rotation; [reflexivity|reflexivity|reflexivity|eexists; split; [reflexivity|reflexivity]|simpl; tauto]. }
  assert (GB : gate_matrix (tx_vals a b) (plain (RY (PName "b")) 1) (RY_matrix (b + 0))).
  { eapply gm_rotation; [reflexivity|reflexivity|reflexivity|eexists; split; [reflexivity|reflexivity]|simpl; tauto]. }
  assert (GH : gate_matrix (tx_vals a b) (plain gH 0) H_matrix) by (eapply gm_fixed; simpl; eauto 10).
  destruct (C121_qubits_separately ex_world 3 (tx_vals a b) _ tx_gates (product_state [0; 1; 1]) (tx_matrix a b) (sequence_gates _)) as (out & R & _ & _ & V); [repeat constructor|repeat constructor| | |exact S| ].
  - apply Forall_cons; [exists 0; eexists; split; [exact GA|apply cq_default|reflexivity|apply valid_one; lia]|].
    apply Forall_cons; [exists 1; eexists; split; [exact GB|apply cq_default|reflexivity|apply valid_one; lia]|].
    apply Forall_cons; [exists 0; eexists; split; [exact GH|apply cq_default|reflexivity|apply valid_one; lia]|apply Forall_nil].
  - intros q Hq. unfold tx_gates. destruct q as [|[|[|q]]]; [| | |lia]; cbn [tx_matrix].
    + apply aa_here; [reflexivity|exact GA|]. apply aa_other; [discriminate|]. apply aa_here; [reflexivity|exact GH|apply aa_nil].
    + apply aa_other; [discriminate|]. apply aa_here; [reflexivity|exact GB|]. apply aa_other; [discriminate|apply aa_nil].
    + do 3 (apply aa_other; [discriminate|]). apply aa_nil.
  - exists out. split; [exact R|]. apply (V [0; 1; 1] H eq_refl [1; 0; 1]). simpl; tauto.
Qed.

(** H on every qubit of a basis state: the Hadamard transform *)
Theorem C121_hadamard_transform : forall w n vals c b, sequence_of c (hadamards n) -> In b (bitstrings n) ->
    exists out, run w c (SDense (product_state b)) vals = Ok (Some (SDense out)) /\ is_state n out /\
      forall x, In x (bitstrings n) -> amp out x = RtoC ((1 / sqrt 2) ^ n * (-1) ^ common_ones n x b).
Proof. exact c121_hadamards. Qed.
Print Assumptions C121_hadamard_transform.
Example C121_hadamard_example : exists out, run ex_world (QuantumCircuit 3 (AList (map OGate (hadamards 3))) []) (SDense (product_state [1; 0; 1])) [] = Ok (Some (SDense out)) /\
    amp out [1; 1; 0] = RtoC ((1 / sqrt 2) ^ 3 * (-1)).
Proof.
  assert (SQ : sequence_of (QuantumCircuit 3 (AList (map OGate (hadamards 3))) []) (hadamards 3)).
  { exact (so_qc 3 _ [] [[plain gH 0]; [plain gH 1]; [plain gH 2]] ltac:(repeat constructor)). }
  destruct (C121_hadamard_transform ex_world 3 [] _ [1; 0; 1] SQ) as (out & R & _ & V); [simpl; tauto|]. exists out. split; [exact R|]. rewrite (V [1; 1; 0]) by (simpl; tauto).
  f_equal. change (common_ones 3 [1; 1; 0] [1; 0; 1]) with 1. ring.
Qed.
(** on the state 0 ... 0 it gives the library's uniform_state *)
Theorem C121_uniform_superposition : forall w n vals c, sequence_of c (hadamards n) ->
    exists u, uniform_state n = Ok u /\ run w c (SDense (zero_state n)) vals = Ok (Some (SDense u)).
Proof. exact c121_uniform. Qed.
Print Assumptions C121_uniform_superposition.
Example C121_uniform_example : exists u, uniform_state 3 = Ok u /\ run ex_world (OpSequence (map OGate (hadamards 3))) (SDense (zero_state 3)) [] = Ok (Some (SDense u)).
Proof. exact (C121_uniform_superposition ex_world 3 [] _ (sequence_gates _)). Qed.
(** X gates prepare the library's product_state *)
Theorem C121_basis_states : forall w n vals c b, In b (bitstrings n) -> sequence_of c (map (plain gX) (ones b)) -> run w c (SDense (zero_state n)) vals = Ok (Some (SDense (product_state b))).
Proof. exact c121_basis. Qed.
Print Assumptions C121_basis_states.
Example C121_basis_example : run ex_world (OpSequence (map OGate [plain gX 0; plain gX 2])) (SDense (zero_state 3)) [] = Ok (Some (SDense (product_state [1; 0; 1]))).
Proof. apply (C121_basis_states ex_world 3 [] _ [1; 0; 1]); [simpl; tauto|apply (sequence_gates [plain gX 0; plain gX 2])]. Qed.
(** H and a chain of CNOTs prepare the GHZ state *)
Theorem C121_ghz : forall w n vals c, 0 < n -> sequence_of c (ghz n) ->
    exists out, run w c (SDense (zero_state n)) vals = Ok (Some (SDense out)) /\ is_state n out /\
      forall x, In x (bitstrings n) -> amp out x = if orb (forallb (Nat.eqb 0) x) (forallb (Nat.eqb 1) x) then RtoC (1 / sqrt 2) else C0.
Proof. exact c121_ghz. Qed.
Print Assumptions C121_ghz.
Example C121_ghz_example : exists out, run ex_world (OpSequence (map OGate [plain gH 0; cnot 0 1; cnot 1 2])) (SDense (zero_state 3)) [] = Ok (Some (SDense out)) /\
    amp out [1; 1; 1] = RtoC (1 / sqrt 2) /\ amp out [1; 1; 0] = C0.
Proof.
  destruct (C121_ghz ex_world 3 [] (OpSequence (map OGate [plain gH 0; cnot 0 1; cnot 1 2]))) as (out & R & _ & V); [lia|apply (sequence_gates [plain gH 0; cnot 0 1; cnot 1 2])|].
  exists out. split; [exact R|split; apply V; simpl; tauto].
Qed.
(** the Bernstein-Vazirani circuit writes the hidden string into the qubits, with certainty *)
Theorem C121_bernstein_vazirani : forall w n vals c s, In s (bitstrings n) -> sequence_of c (bernstein_vazirani s) ->
    run w c (SDense (zero_state (S n))) vals = Ok (Some (SDense (product_state (s ++ [1])))).
Proof. exact c121_bernstein_vazirani. Qed.
Print Assumptions C121_bernstein_vazirani.
Example C121_bv_example : run ex_world (OpSequence (map OGate (bernstein_vazirani [1; 0; 1]))) (SDense (zero_state 4)) [] = Ok (Some (SDense (product_state [1; 0; 1; 1]))).
Proof. apply (C121_bernstein_vazirani ex_world 3 [] _ [1; 0; 1]); [simpl; tauto|apply sequence_gates]. Qed.
