(** * C35-C39, C44: probabilities, sampling and flattening.

    The vocabulary is in Spec.v, GateSpec.v, PropSpec.v, NoiseSpec.v and SampleSpec.v.  Every theorem is followed by
    an example that meets its hypotheses. *)
From Coq Require Import String List Arith Bool Reals Lia Lra ZArith.
From Verif Require Import Cplx Py Ndarray OperatorUtils ApplyOperator Sparse Matrices Noise Gates Apply Composite Shots Api
  Spec GateSpec PropSpec NoiseSpec SampleSpec ApplyThm NoiseThm SampleThm SeqThm Examples.
Import ListNotations.
Local Open Scope nat_scope.

(** C35 *)
Theorem C35_probabilities_of_a_state_vector : forall n a, is_state n a ->
    probabilities_array a = born_probabilities n a /\ length (probabilities_array a) = 2 ^ n /\
    Forall (fun p => 0 <= p)%R (probabilities_array a) /\
    rsum (probabilities_array a) (fun p => p) = norm2 n (amp a) /\
    forall k, k < 2 ^ n -> binval (nth k (bitstrings n) []) = k.
Proof. exact c35_born. Qed.
Print Assumptions C35_probabilities_of_a_state_vector.
Example C35_example : probabilities_array (basis [1; 0; 1]) = [0; 0; 0; 0; 0; 1; 0; 0]%R.
Proof.
  destruct (C35_probabilities_of_a_state_vector 3 (basis [1; 0; 1])) as (E & _); [split; reflexivity|].
  rewrite E. lazy -[Rplus Rmult Ropp Rminus IZR]. repeat (apply f_equal2; [ring|]). reflexivity.
Qed.

(** C36: in the library's layout [2, ..., 2] the result is the diagonal for one qubit only; for a square matrix, which
    [sample] and finite shots build first, it is the diagonal for every number of qubits. *)
Theorem C36_probabilities_of_a_square_density_matrix_partial : forall n rho m, is_density n rho -> reshape rho [2 ^ n; 2 ^ n] = Ok m ->
    probabilities_dm m = Ok ([2 ^ n], diagonal n rho).
Proof. exact c36_square. Qed.
Print Assumptions C36_probabilities_of_a_square_density_matrix_partial.
Example C36_square_example : exists m, reshape (mixed 3) [2 ^ 3; 2 ^ 3] = Ok m.
Proof. eexists; reflexivity. Qed.
Theorem C36_probabilities_of_one_qubit_partial : forall rho, is_density 1 rho -> probabilities_dm rho = Ok ([2], diagonal 1 rho).
Proof. exact c36_one_qubit. Qed.
Print Assumptions C36_probabilities_of_one_qubit_partial.
Example C36_one_qubit_example : probabilities_dm (mixed 1) = Ok ([2], [1; 1]%R).
Proof.
  rewrite (C36_probabilities_of_one_qubit_partial (mixed 1)) by apply mixed_density. reflexivity.
Qed.
Theorem C36_probabilities_of_a_density_matrix_refuted : forall n rho, 2 <= n -> is_density n rho ->
    exists s l, probabilities_dm rho = Ok (s, l) /\ length s = 2 * n - 1 /\ s <> [2 ^ n] /\ length l = 2 ^ (2 * n - 1) /\ length l <> 2 ^ n.
Proof. exact c36_refuted. Qed.
Print Assumptions C36_probabilities_of_a_density_matrix_refuted.
Example C36_refuted_example : exists s l, probabilities_dm (mixed 2) = Ok (s, l) /\ s <> [2 ^ 2].
Proof.
  destruct (C36_probabilities_of_a_density_matrix_refuted 2 (mixed 2)) as (s & l & E & _ & N & _); [lia|apply mixed_density|]. eauto.
Qed.

(** C37 *)
Theorem C37_sample_rejects_fewer_than_one_shot : forall w st circuit vals k, (k < 1)%Z -> sample w st circuit vals k = (Err ValueError, st).
Proof. exact c37_rejects. Qed.
Print Assumptions C37_sample_rejects_fewer_than_one_shot.
Theorem C37_sample_returns_a_histogram : forall w n st circuit vals k out,
    choice_contract w -> 1 <= n -> (1 <= k)%Z -> run w circuit st vals = Ok (Some out) -> state_of n out ->
    exists counts draws, fst (sample w st circuit vals k) = Ok counts /\
      Z.of_nat (length draws) = k /\ Forall (fun i => i < 2 ^ n) draws /\
      NoDup (map fst counts) /\
      (forall x c, In (x, c) counts -> In x (bitstrings n) /\ 0 < c /\ c = occurrences draws x) /\
      (forall x, In x (bitstrings n) -> 0 < occurrences draws x -> In (x, occurrences draws x) counts) /\
      Z.of_nat (fold_right Nat.add 0 (map snd counts)) = k.
Proof. exact c37_histogram. Qed.
Print Assumptions C37_sample_returns_a_histogram.
Example C37_example : exists counts, fst (sample draw_world (SDense (basis [0; 0; 0])) (OQC 3 (map OGate ex_circuit) []) ex_values 5) = Ok counts
    /\ fold_right Nat.add 0 (map snd counts) = 5.
Proof.
  destruct (ex_circuit_denotes draw_world) as (K & HK).
  destruct (TensorThm.denotes_call _ _ _ _ _ _ HK (basis [0; 0; 0])) as (out & E & So & _); [split; reflexivity|].
  destruct (C37_sample_returns_a_histogram draw_world 3 (SDense (basis [0; 0; 0])) (OQC 3 (map OGate ex_circuit) []) ex_values 5 (SDense out))
    as (counts & draws & EC & _ & _ & _ & _ & _ & T); [apply draw_world_choice|lia|lia|exact E|exact So|].
  exists counts; split; [exact EC|]. apply Nat2Z.inj; exact T.
Qed.

(** C38 *)
Theorem C38_sample_draws_from_the_output_state : forall w n st circuit vals k a,
    choice_contract w -> 1 <= n -> (1 <= k)%Z -> run w circuit st vals = Ok (Some (SDense a)) -> is_state n a ->
    fst (sample w st circuit vals k) = Ok (histogram n (choice w 0 (born_probabilities n a) (Z.to_nat k))).
Proof. exact c38_dense. Qed.
Print Assumptions C38_sample_draws_from_the_output_state.
Theorem C38_sample_draws_from_the_output_density_matrix : forall w n st circuit vals k a,
    choice_contract w -> 1 <= n -> (1 <= k)%Z -> run w circuit st vals = Ok (Some (SDM a)) -> is_density n a ->
    fst (sample w st circuit vals k) = Ok (histogram n (choice w 0 (diagonal n a) (Z.to_nat k))).
Proof. exact c38_density. Qed.
Print Assumptions C38_sample_draws_from_the_output_density_matrix.
Theorem C38_sample_draws_from_the_born_distribution : forall w n vals sq circuit K psi k,
    choice_contract w -> 1 <= n -> (1 <= k)%Z -> denotes w n vals sq circuit K -> is_state n psi ->
    fst (sample w (SDense psi) circuit vals k) =
      Ok (histogram n (choice w 0 (map (fun x => Cnorm2 (apply_kernel n K (amp psi) x)) (bitstrings n)) (Z.to_nat k))).
Proof. exact c38_pure_circuit. Qed.
Print Assumptions C38_sample_draws_from_the_born_distribution.
Example C38_example : exists p, fst (sample draw_world (SDense (basis [0; 0; 0])) (OQC 3 (map OGate ex_circuit) []) ex_values 5)
    = Ok (histogram 3 (choice draw_world 0 p 5)).
Proof.
  destruct (ex_circuit_denotes draw_world) as (K & HK). eexists.
  apply (C38_sample_draws_from_the_born_distribution draw_world 3 ex_values true _ K);
    [apply draw_world_choice|lia|lia|exact HK|split; reflexivity].
Qed.
Theorem C38_sample_draws_from_the_final_density_matrix : forall w n vals circuit gs st r k,
    set_order (set_iter w) -> choice_contract w -> 1 <= n -> (1 <= k)%Z ->
    sequence_of circuit gs -> Forall dense_gate gs -> state_of n st ->
    (exists a, st = SDM a) \/ (exists g, In g gs /\ noise g <> None) ->
    noisy_run n vals gs (density_of st) r ->
    fst (sample w st circuit vals k) =
      Ok (histogram n (choice w 0 (map (fun x => re (r x x)) (bitstrings n)) (Z.to_nat k))).
Proof. exact c38_noisy_circuit. Qed.
Print Assumptions C38_sample_draws_from_the_final_density_matrix.
Example C38_noisy_example : exists p, fst (sample draw_world (SDense (basis [0; 0; 0])) ex_noisy_oper ex_values 5)
    = Ok (histogram 3 (choice draw_world 0 p 5)).
Proof.
  destruct (noisy_run_exists 3 ex_values ex_noisy_gates ex_noisy_usable ex_noisy_ok (density_of (SDense (basis [0; 0; 0])))) as (r & HR). eexists.
  apply (C38_sample_draws_from_the_final_density_matrix draw_world 3 ex_values ex_noisy_oper ex_noisy_gates _ r);
    [apply draw_world_order|apply draw_world_choice|lia|lia|apply ex_noisy_sequence|apply ex_noisy_dense|split; reflexivity| |exact HR].
  right; eexists; split; [right; left; reflexivity|discriminate].
Qed.

(** C39: a density matrix given to a circuit without gates is reshaped in place. *)
Theorem C39_sample_keeps_the_state_partial : forall w st circuit vals k,
    (forall a, st <> SDM a) \/ has_gate circuit -> snd (sample w st circuit vals k) = st.
Proof. exact c39_unchanged. Qed.
Print Assumptions C39_sample_keeps_the_state_partial.
Example C39_example : snd (sample draw_world (SDM (mixed 3)) ex_noisy_oper ex_values 5) = SDM (mixed 3).
Proof.
  apply C39_sample_keeps_the_state_partial. right. unfold ex_noisy_oper, ex_noisy_gates.
  apply hg_qc. apply Exists_cons_hd. apply hg_seq. apply Exists_cons_hd. apply hg_gate.
Qed.
Theorem C39_sample_keeps_the_state_refuted : forall w n rho vals k, 2 <= n -> is_density n rho -> (1 <= k)%Z ->
    exists rho', snd (sample w (SDM rho) (OSeq []) vals k) = SDM rho' /\ shape rho' = [2 ^ n; 2 ^ n] /\ shape rho' <> shape rho.
Proof. exact c39_refuted. Qed.
Print Assumptions C39_sample_keeps_the_state_refuted.
Example C39_refuted_example : exists rho', snd (sample draw_world (SDM (mixed 2)) (OSeq []) [] 1) = SDM rho' /\ shape rho' <> shape (mixed 2).
Proof.
  destruct (C39_sample_keeps_the_state_refuted draw_world 2 (mixed 2) [] 1) as (r & E & _ & N); [lia|apply mixed_density|lia|]. eauto.
Qed.

(** C44 *)
Theorem C44_flattening_keeps_the_circuit : forall w n vals o gs st, set_order (set_iter w) -> sequence_of o gs -> gs <> [] ->
    Forall (usable n vals) gs -> Forall dense_gate gs -> Forall noise_ok gs -> state_of n st ->
    exists out, run w o st vals = Ok (Some out) /\ apply_gates w st (GMany gs) vals UNITARY false true = Ok out /\
                run_flat w st o vals = Ok out /\ state_of n out.
Proof. exact c44_flatten. Qed.
Print Assumptions C44_flattening_keeps_the_circuit.
Example C44_example : exists out, run draw_world ex_noisy_oper (SDense (basis [0; 0; 0])) ex_values = Ok (Some out) /\
    run_flat draw_world (SDense (basis [0; 0; 0])) ex_noisy_oper ex_values = Ok out.
Proof.
  destruct (C44_flattening_keeps_the_circuit draw_world 3 ex_values ex_noisy_oper ex_noisy_gates (SDense (basis [0; 0; 0])))
    as (out & A & _ & B & _);
    [apply draw_world_order|apply ex_noisy_sequence|discriminate|apply ex_noisy_usable|apply ex_noisy_dense|apply ex_noisy_ok|split; reflexivity|].
  eauto.
Qed.
