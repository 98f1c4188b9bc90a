(** * C123: negative qubit indices count from the last qubit.

    The model is in Signed.v, the vocabulary in Spec.v, GateSpec.v, PropSpec.v and SignedSpec.v.  The property holds for state vectors.
    It fails for density matrices, for grouped gates and for noisy gates.  Every theorem is followed by an example that meets its hypotheses. *)
From Coq Require Import String List Arith ZArith Bool Reals Lia Lra Permutation Sorting.Sorted.
From Verif Require Import Cplx Py Ndarray OperatorUtils ApplyOperator Sparse Matrices Noise Gates Apply Signed
  Spec GateSpec PropSpec SignedSpec ApplyThm SignedThm SignedThm2 SignedThm3 Examples.
Import ListNotations.
Local Open Scope nat_scope.

(** state vectors: a circuit with negative indices gives the result of the circuit with the qubits they stand for *)
Theorem C123_state_vectors_partial : forall w n vals ot mg gs a,
    gs <> [] -> Forall (fun g => Forall (is_index n) (indices_of g)) gs -> Forall (usable n vals) (map (resolved n) gs) -> Forall dense_gate (map (resolved n) gs) ->
    Forall noiseless (map (resolved n) gs) -> Forall (has_operation ot) (map (resolved n) gs) -> is_state n a ->
    apply_gates_z w (SDense a) gs vals ot false mg = apply_gates w (SDense a) (GMany (map (resolved n) gs)) vals ot false mg.
Proof. exact c123_vectors. Qed.
Print Assumptions C123_state_vectors_partial.
(** a three-qubit circuit: H on the last qubit, X on qubit -3 controlled by qubit -1, RX(1/2) on qubit 1 *)
Definition ex_signed : list zgate :=
  [mkZGate (gH (TInt 0) no_control None false) [(-1)%Z] None; mkZGate (gX (TInt 0) no_control None false) [(-3)%Z] (Some [(-1)%Z]);
   mkZGate (RX (PNum (1 / 2)) (TInt 0) no_control None false) [1%Z] None].
Example ex_signed_meaning : map (resolved 3) ex_signed = [gH (TInt 2) no_control None false; mkGate KPrim "X" [0] (CTup [QInt 2]) None false (PName "") 0; RX (PNum (1 / 2)) (TInt 1) no_control None false].
Proof. reflexivity. Qed.
Example ex_signed_usable : Forall (usable 3 []) (map (resolved 3) ex_signed).
Proof.
  apply Forall_cons; [|apply Forall_cons; [|apply Forall_cons; [|apply Forall_nil]]].
  - exists H_matrix, [], [2]; split; [eapply gm_fixed; simpl; eauto 10|constructor|reflexivity|]. split; [repeat constructor; simpl; intuition|repeat constructor].
  - exists X_matrix, [2], [0]; split; [eapply gm_fixed; simpl; eauto 10|apply (cq_ints [2])|reflexivity|]. split; [repeat constructor; simpl; intuition; discriminate|repeat constructor].
  - exists (RX_matrix (1 / 2 + 0)), [], [1]; split; [eapply gm_rotation with (name := "X"%string); simpl; eauto 10; constructor|constructor|reflexivity|]. split; [repeat constructor; simpl; intuition|repeat constructor].
Qed.
Example C123_state_vectors_example : forall w mg,
    apply_gates_z w (SDense (zero_state 3)) ex_signed [] UNITARY false mg = apply_gates w (SDense (zero_state 3)) (GMany (map (resolved 3) ex_signed)) [] UNITARY false mg.
Proof.
  intros w mg. apply C123_state_vectors_partial; [discriminate| |exact ex_signed_usable| | | |split; reflexivity].
  - do 3 (apply Forall_cons; [repeat (apply Forall_cons || apply Forall_nil); unfold is_index; simpl; lia|]). apply Forall_nil.
  - do 3 (apply Forall_cons; [reflexivity|]). apply Forall_nil.
  - do 3 (apply Forall_cons; [reflexivity|]). apply Forall_nil.
  - do 3 (apply Forall_cons; [intro Q; discriminate Q|]). apply Forall_nil.
Qed.
(** state vectors: an index outside -n .. n-1 raises ValueError; two indices of a gate that stand for the same qubit raise TypeError *)
Theorem C123_bad_indices_raise : forall w n m vals ot gr mg g a, is_state n a -> usable m vals (moved g) -> dense_gate (moved g) -> noiseless (moved g) -> has_operation ot (moved g) ->
    (~ Forall (is_index n) (indices_of g) -> apply_gates_z w (SDense a) [g] vals ot gr mg = Err ValueError) /\
    (Forall (is_index n) (indices_of g) -> ~ NoDup (map (qubit_of n) (indices_of g)) -> apply_gates_z w (SDense a) [g] vals ot gr mg = Err TypeError).
Proof. exact c123_errors. Qed.
Print Assumptions C123_bad_indices_raise.
Example C123_bad_indices_example : forall w,
    apply_gates_z w (SDense (zero_state 2)) [mkZGate (gX (TInt 0) no_control None false) [(-3)%Z] None] [] UNITARY false false = Err ValueError /\
    apply_gates_z w (SDense (zero_state 2)) [mkZGate (gX (TInt 0) no_control None false) [(-1)%Z] (Some [1%Z])] [] UNITARY false false = Err TypeError.
Proof.
  intro w. split; eapply (C123_bad_indices_raise w 2 2).
  - split; reflexivity.
  - exists X_matrix, [], [0]; split; [eapply gm_fixed; simpl; eauto 10|constructor|reflexivity|]. split; [repeat constructor; simpl; intuition|repeat constructor].
  - reflexivity.
  - reflexivity.
  - intro Q; discriminate Q.
  - intro Q. inversion Q as [|? ? [Q1 _] _]; subst. simpl in Q1. lia.
  - split; reflexivity.
  - exists X_matrix, [0], [1]; split; [eapply gm_fixed; simpl; eauto 10|apply (cq_ints [0])|reflexivity|]. split; [repeat constructor; simpl; intuition; discriminate|repeat constructor].
  - reflexivity.
  - reflexivity.
  - intro Q; discriminate Q.
  - repeat (apply Forall_cons || apply Forall_nil); unfold is_index; simpl; lia.
  - cbv. intro Q. inversion Q as [|? ? Q1 _]; subst. apply Q1. left; reflexivity.
Qed.
(** without negative indices, the programs with integer and with natural indices agree: every state, noise, grouping, merging *)
Theorem C123_non_negative_indices : forall w n s gs vals ot gr mg, (match s with SSparse _ => False | _ => True end) -> Forall (fun g => Forall (fun i => (0 <= i)%Z) (indices_of g)) gs ->
    apply_gates_z w s gs vals ot gr mg = apply_gates w s (GMany (map (resolved n) gs)) vals ot gr mg.
Proof. exact c123_natural. Qed.
Print Assumptions C123_non_negative_indices.
Example C123_non_negative_example : forall w, apply_gates_z w (SDM rho00) [mkZGate (gX (TInt 0) no_control None false) [1%Z] (Some [0%Z])] [] UNITARY true true =
    apply_gates w (SDM rho00) (GMany [mkGate KPrim "X" [1] (CTup [QInt 0]) None false (PName "") 0]) [] UNITARY true true.
Proof. intro w. apply (C123_non_negative_indices w 2); [exact Logic.I|]. repeat (apply Forall_cons || apply Forall_nil); lia. Qed.

(** density matrices: what the code does with a negative index.  If the indices, followed by the other qubits in the order in which the set lists them,
    increase, then the gate acts on the first qubits, whatever the indices are; otherwise it raises TypeError *)
Theorem C123_density_matrices : forall w n vals ot gr mg g rho, set_order (set_iter w) -> is_density n rho ->
    Forall (is_index n) (indices_of g) -> Exists (fun i => (i < 0)%Z) (indices_of g) -> usable n vals (resolved n g) -> dense_gate (resolved n g) -> noiseless (resolved n g) -> has_operation ot (resolved n g) ->
    (increasing (indices_of g ++ map Z.of_nat (set_iter w (outside n (indices_of g)))) ->
       apply_gates_z w (SDM rho) [g] vals ot gr mg = apply_gates w (SDM rho) (GMany [moved g]) vals ot gr mg) /\
    (~ increasing (indices_of g ++ map Z.of_nat (set_iter w (outside n (indices_of g)))) ->
       apply_gates_z w (SDM rho) [g] vals ot gr mg = Err TypeError).
Proof. exact c123_density. Qed.
Print Assumptions C123_density_matrices.
(** two-qubit SWAP on (-2, -1) of three qubits acts on qubits 0 and 1; on (-1, -2) it raises *)
Example C123_density_example : forall rho, is_density 3 rho ->
    apply_gates_z inc_world (SDM rho) [mkZGate (SWAP (TTup [0; 0]) no_control None false) [(-2)%Z; (-1)%Z] None] [] UNITARY false false =
      apply_gates inc_world (SDM rho) (GMany [SWAP (TTup [0; 1]) no_control None false]) [] UNITARY false false /\
    apply_gates_z inc_world (SDM rho) [mkZGate (SWAP (TTup [0; 0]) no_control None false) [(-1)%Z; (-2)%Z] None] [] UNITARY false false = Err TypeError.
Proof.
  assert (U : forall a b, ((a = 1 /\ b = 2) \/ (a = 2 /\ b = 1)) -> usable 3 [] (SWAP (TTup [a; b]) no_control None false)).
  { intros a b H. exists SWAP_matrix, [], [a; b]; split; [eapply gm_SWAP; simpl; eauto|constructor|reflexivity|]. destruct H as [[-> ->]|[-> ->]]; (split; [repeat constructor; simpl; intuition; discriminate|repeat constructor]). }
  intros rho HR. split.
  - apply (C123_density_matrices inc_world 3 [] UNITARY false false (mkZGate (SWAP (TTup [0; 0]) no_control None false) [(-2)%Z; (-1)%Z] None) rho inc_world_order HR);
      [repeat (apply Forall_cons || apply Forall_nil); unfold is_index; simpl; lia|apply Exists_cons_hd; lia|apply U; auto|reflexivity|reflexivity|intro Q; discriminate Q|].
    cbv -[Z.lt]. repeat (apply SSorted_cons || apply SSorted_nil || apply Forall_cons || apply Forall_nil); lia.
  - apply (C123_density_matrices inc_world 3 [] UNITARY false false (mkZGate (SWAP (TTup [0; 0]) no_control None false) [(-1)%Z; (-2)%Z] None) rho inc_world_order HR);
      [repeat (apply Forall_cons || apply Forall_nil); unfold is_index; simpl; lia|apply Exists_cons_hd; lia|apply U; auto|reflexivity|reflexivity|intro Q; discriminate Q|].
    intro Q. inversion Q as [|? ? _ Q2]; subst. inversion Q2; subst. lia.
Qed.
(** the full property is false: X on qubit -1 of |00> flips the last qubit of the state vector and the first qubit of the density matrix *)
Theorem C123_density_matrices_refuted : forall w vals gr mg, set_iter w [0; 1] = [0; 1] -> exists r1 r2,
    is_density 2 rho00 /\ usable 2 vals (resolved 2 X_last) /\ resolved 2 X_last = gX (TInt 1) no_control None false /\
    apply_gates_z w (SDM rho00) [X_last] vals UNITARY gr mg = Ok (SDM r1) /\
    apply_gates_z w (SDense ket00) [X_last] vals UNITARY gr mg = Ok (SDense r2) /\
    rho_entry r1 [1; 0] [1; 0] = C1 /\ rho_entry r1 [0; 1] [0; 1] = C0 /\ amp r2 [1; 0] = C0 /\ amp r2 [0; 1] = C1.
Proof. exact c123_refuted. Qed.
Print Assumptions C123_density_matrices_refuted.
Example C123_refuted_example : set_iter inc_world [0; 1] = [0; 1].
Proof. reflexivity. Qed.
(** with [group_gates], X on qubit 0 followed by Z on qubit -1 of a single qubit are exchanged *)
Theorem C123_grouping_refuted : forall w vals mg, exists r1 r2,
    is_state 1 ket0 /\ Forall (usable 1 vals) (map (resolved 1) X_Z_last) /\ map (resolved 1) X_Z_last = [gX (TInt 0) no_control None false; gZ (TInt 0) no_control None false] /\
    apply_gates_z w (SDense ket0) X_Z_last vals UNITARY true mg = Ok (SDense r1) /\
    apply_gates_z w (SDense ket0) X_Z_last vals UNITARY false mg = Ok (SDense r2) /\
    amp r1 [1] = C1 /\ amp r2 [1] = RtoC (-1).
Proof. exact c123_group_refuted. Qed.
Print Assumptions C123_grouping_refuted.
(** a gate with noise and a negative target raises, on every state *)
Theorem C123_noise_refuted : forall w s gs g x xs vals ot gr mg, In g gs -> noise (zfields g) = Some (x :: xs) -> Exists (fun i => (i < 0)%Z) (ztarget g) -> exists e, apply_gates_z w s gs vals ot gr mg = Err e.
Proof. exact c123_noise. Qed.
Print Assumptions C123_noise_refuted.
Example C123_noise_example : exists x, noise (gX (TInt 0) no_control (Some [mkNoise BITFLIP (PFloat (1 / 2))]) false) = Some [x].
Proof. eexists; reflexivity. Qed.
