(** * C16-C19: matrices ([tensor]) of gates and composites against their action on states.

    The vocabulary is in Spec.v, GateSpec.v and PropSpec.v.  Every theorem is followed by an example that meets
    its hypotheses. *)
From Coq Require Import List String Arith Bool Reals Lia Lra Permutation Sorted.
From Verif Require Import Cplx Py Ndarray OperatorUtils ApplyOperator Sparse Matrices Noise Gates Apply Composite Api
  Spec GateSpec PropSpec TensorThm EvolThm Examples EvolExamples OwnTensorThm.
Import ListNotations.
Local Open Scope nat_scope.

(** C16 *)
Theorem C16_tensor_is_action : forall w n psi g vals K fs,
    is_state n psi -> ordered_gate w n vals g K -> noiseless g -> Permutation fs (seq 0 n) ->
    exists m out,
      gate_tensor w g vals (Some fs) = Ok m /\
      apply_gates w (SDense psi) (GOne g) vals UNITARY false true = Ok (SDense out) /\
      is_matrix n m /\ is_state n out /\
      veq n (amp out) (apply_kernel n (entry m) (amp psi)).
Proof. exact c16_ordered. Qed.
Print Assumptions C16_tensor_is_action.
(** Hamiltonian evolution on qubits 0 and 2 of three, controlled by 1 *)
Example C16_example : exists m out,
    gate_tensor evol_world (HamiltonianEvolution (TTup [0; 2]) (IInt 1)) (evolution_values ham01 1) (Some [2; 0; 1]) = Ok m /\
    apply_gates evol_world (SDense (basis [0; 1; 1])) (GOne (HamiltonianEvolution (TTup [0; 2]) (IInt 1)))
      (evolution_values ham01 1) UNITARY false true = Ok (SDense out) /\
    is_matrix 3 m /\ is_state 3 out /\ veq 3 (amp out) (apply_kernel 3 (entry m) (amp (basis [0; 1; 1]))).
Proof.
  eapply C16_tensor_is_action; [ex_side| |reflexivity|].
  - do 2 eexists. split; [apply ham_unitary; reflexivity|]. split; [apply (ham01_exponential)|].
    split; [apply (cq_ints [1])|]. split; [ex_side|]. split; [repeat constructor; lia|reflexivity].
  - apply (Permutation_trans (l' := [0; 2; 1])); repeat constructor.
Qed.

(** without [full_support] the tensor is over the qubits of the gate, in increasing order *)
Theorem C16_tensor_over_its_own_qubits : forall w n psi g vals K,
    is_state n psi -> ordered_gate w n vals g K -> noiseless g ->
    exists s m out,
      gate_support g = Ok s /\ gate_tensor w g vals None = Ok m /\
      apply_gates w (SDense psi) (GOne g) vals UNITARY false true = Ok (SDense out) /\
      valid_qubits n s /\ is_matrix (List.length s) m /\ is_state n out /\
      veq n (amp out) (apply_kernel n (gate_op (entry m) [] s) (amp psi)).
Proof. exact c16_own. Qed.
Print Assumptions C16_tensor_over_its_own_qubits.
Example C16_own_example : exists s m out,
    gate_support (HamiltonianEvolution (TTup [0; 2]) (IInt 1)) = Ok s /\
    gate_tensor evol_world (HamiltonianEvolution (TTup [0; 2]) (IInt 1)) (evolution_values ham01 1) None = Ok m /\
    apply_gates evol_world (SDense (basis [0; 1; 1])) (GOne (HamiltonianEvolution (TTup [0; 2]) (IInt 1)))
      (evolution_values ham01 1) UNITARY false true = Ok (SDense out) /\
    valid_qubits 3 s /\ is_matrix (List.length s) m /\ is_state 3 out /\ veq 3 (amp out) (apply_kernel 3 (gate_op (entry m) [] s) (amp (basis [0; 1; 1]))).
Proof.
  eapply C16_tensor_over_its_own_qubits; [ex_side| |reflexivity].
  do 2 eexists. split; [apply ham_unitary; reflexivity|]. split; [apply (ham01_exponential)|].
  split; [apply (cq_ints [1])|]. split; [ex_side|]. split; [repeat constructor; lia|reflexivity].
Qed.

(** with a [full_support] that contains the qubits of the gate, it is over those qubits, in increasing order *)
Theorem C16_tensor_over_some_qubits : forall w n psi g vals K s fs,
    is_state n psi -> ordered_gate w n vals g K -> noiseless g -> gate_support g = Ok s -> incl s fs -> valid_qubits n fs ->
    exists m out,
      gate_tensor w g vals (Some fs) = Ok m /\
      apply_gates w (SDense psi) (GOne g) vals UNITARY false true = Ok (SDense out) /\
      is_matrix (List.length fs) m /\ is_state n out /\
      veq n (amp out) (apply_kernel n (gate_op (entry m) [] (sorted fs)) (amp psi)).
Proof. exact c16_sub. Qed.
Print Assumptions C16_tensor_over_some_qubits.
Example C16_sub_example : exists m out,
    gate_tensor evol_world (HamiltonianEvolution (TTup [0; 2]) (IInt 1)) (evolution_values ham01 1) (Some [4; 0; 2; 1]) = Ok m /\
    apply_gates evol_world (SDense (basis [0; 1; 1; 0; 1])) (GOne (HamiltonianEvolution (TTup [0; 2]) (IInt 1)))
      (evolution_values ham01 1) UNITARY false true = Ok (SDense out) /\
    is_matrix 4 m /\ is_state 5 out /\ veq 5 (amp out) (apply_kernel 5 (gate_op (entry m) [] [0; 1; 2; 4]) (amp (basis [0; 1; 1; 0; 1]))).
Proof.
  eapply (C16_tensor_over_some_qubits evol_world 5 _ (HamiltonianEvolution (TTup [0; 2]) (IInt 1)) _ _ [0; 1; 2] [4; 0; 2; 1]); [ex_side| |reflexivity|reflexivity| |ex_side].
  - do 2 eexists. split; [apply ham_unitary; reflexivity|]. split; [apply (ham01_exponential)|].
    split; [apply (cq_ints [1])|]. split; [ex_side|]. split; [repeat constructor; lia|reflexivity].
  - intros q [<-|[<-|[<-|[]]]]; simpl; tauto.
Qed.

(** C17: proved for the gates of the library; the code violates it for Hamiltonian evolution *)
Theorem C17_library_tensor_is_action_partial : forall w n psi g vals fs,
    is_state n psi -> usable n vals g -> dense_gate g -> noiseless g -> Permutation fs (seq 0 n) ->
    exists m out,
      gate_tensor w g vals (Some fs) = Ok m /\
      apply_gates w (SDense psi) (GOne g) vals UNITARY false true = Ok (SDense out) /\
      is_matrix n m /\ is_state n out /\
      veq n (amp out) (apply_kernel n (entry m) (amp psi)).
Proof. exact c16_library. Qed.
Print Assumptions C17_library_tensor_is_action_partial.
Theorem C17_any_target_order_refuted : forall w, exponential_of (expm w) 2 (minus_i ham01) ->
    let g := HamiltonianEvolution (TTup [1; 0]) no_control in
    exists m out,
      is_state 2 ket10 /\ hermitian 2 (entry ham01) /\
      gate_tensor w g (evolution_values ham01 1) (Some [0; 1]) = Ok m /\
      apply_gates w (SDense ket10) (GOne g) (evolution_values ham01 1) UNITARY false true = Ok (SDense out) /\
      amp out [1; 0] = Copp C1 /\ apply_kernel 2 (entry m) (amp ket10) [1; 0] = C1.
Proof. exact c17_refuted. Qed.
Print Assumptions C17_any_target_order_refuted.
Example C17_example : exists m out,
    gate_tensor ex_world (SWAP (TTup [2; 0]) (IInt 1) None false) [] (Some [0; 1; 2]) = Ok m /\
    apply_gates ex_world (SDense (basis [0; 1; 1])) (GOne (SWAP (TTup [2; 0]) (IInt 1) None false)) [] UNITARY false true
      = Ok (SDense out) /\
    is_matrix 3 m /\ is_state 3 out /\ veq 3 (amp out) (apply_kernel 3 (entry m) (amp (basis [0; 1; 1]))).
Proof.
  apply C17_library_tensor_is_action_partial; [ex_side| |reflexivity|reflexivity|apply Permutation_refl].
  do 3 eexists; split; [apply gm_SWAP; reflexivity|apply (cq_ints [1])|reflexivity|ex_side].
Qed.
Example C17_refuted_hypothesis : exponential_of (expm evol_world) 2 (minus_i ham01).
Proof. exact ham01_exponential. Qed.

(** without control qubits and without [full_support], the tensor is the matrix of the gate over its targets as they are listed *)
Theorem C17_tensor_over_its_own_qubits : forall w n psi g vals u,
    is_state n psi -> unitary_of w g vals = Ok (MD u) -> is_matrix (List.length (target g)) u -> control_qubits (control g) [] -> valid_qubits n (target g) -> noiseless g ->
    exists m out,
      gate_tensor w g vals None = Ok m /\
      apply_gates w (SDense psi) (GOne g) vals UNITARY false true = Ok (SDense out) /\
      is_matrix (List.length (target g)) m /\ is_state n out /\
      veq n (amp out) (apply_kernel n (gate_op (entry m) [] (target g)) (amp psi)).
Proof. exact c17_own. Qed.
Print Assumptions C17_tensor_over_its_own_qubits.
Example C17_own_example : exists m out,
    gate_tensor evol_world (HamiltonianEvolution (TTup [2; 0]) no_control) (evolution_values ham01 1) None = Ok m /\
    apply_gates evol_world (SDense (basis [0; 1; 1])) (GOne (HamiltonianEvolution (TTup [2; 0]) no_control)) (evolution_values ham01 1) UNITARY false true = Ok (SDense out) /\
    is_matrix 2 m /\ is_state 3 out /\ veq 3 (amp out) (apply_kernel 3 (gate_op (entry m) [] [2; 0]) (amp (basis [0; 1; 1]))).
Proof.
  eapply (C17_tensor_over_its_own_qubits evol_world 3 _ (HamiltonianEvolution (TTup [2; 0]) no_control)); [ex_side|apply ham_unitary; reflexivity|apply (ham01_exponential)|apply cq_default|ex_side|reflexivity].
Qed.
(** with [full_support], the tensor of a Hamiltonian evolution is the matrix of the evolution with its targets sorted *)
Theorem C17_tensor_of_evolution_sorts_the_targets : forall w n psi ts c cs vals u fs,
    is_state n psi -> unitary_of w (HamiltonianEvolution (TTup ts) c) vals = Ok (MD u) -> is_matrix (List.length ts) u ->
    control_qubits (parse_control c) cs -> valid_qubits n (cs ++ ts) -> Permutation fs (seq 0 n) ->
    exists m out,
      gate_tensor w (HamiltonianEvolution (TTup ts) c) vals (Some fs) = Ok m /\
      apply_gates w (SDense psi) (GOne (HamiltonianEvolution (TTup (sorted ts)) c)) vals UNITARY false true = Ok (SDense out) /\
      is_matrix n m /\ is_state n out /\
      veq n (amp out) (apply_kernel n (entry m) (amp psi)).
Proof. exact c17_sorted. Qed.
Print Assumptions C17_tensor_of_evolution_sorts_the_targets.
Example C17_sorted_example : exists m out,
    gate_tensor evol_world (HamiltonianEvolution (TTup [2; 0]) (IInt 1)) (evolution_values ham01 1) (Some [0; 1; 2]) = Ok m /\
    apply_gates evol_world (SDense (basis [0; 1; 1])) (GOne (HamiltonianEvolution (TTup (sorted [2; 0])) (IInt 1))) (evolution_values ham01 1) UNITARY false true = Ok (SDense out) /\
    is_matrix 3 m /\ is_state 3 out /\ veq 3 (amp out) (apply_kernel 3 (entry m) (amp (basis [0; 1; 1]))).
Proof.
  eapply (C17_tensor_of_evolution_sorts_the_targets evol_world 3 _ [2; 0] (IInt 1) [1]);
    [ex_side|apply (ham_unitary evol_world (HamiltonianEvolution (TTup [2; 0]) (IInt 1))); reflexivity|apply (ham01_exponential)|apply (cq_ints [1])|ex_side|apply Permutation_refl].
Qed.

(** C18: the tensor of a sequence is the matrix of the reversed sequence; of the sequence itself when the
    operations commute *)
Theorem C18_tensor_is_reversed_action_partial : forall w n vals l Ks fs psi,
    set_order (set_iter w) -> l <> [] -> Forall2 (denotes w n vals false) l Ks -> Permutation fs (seq 0 n) -> is_state n psi ->
    exists m out,
      tensor w vals (OSeq l) (Some fs) = Ok m /\ is_matrix n m /\
      call w vals (OSeq (rev l)) (Some (SDense psi)) = Ok (Some (SDense out)) /\ is_state n out /\
      veq n (amp out) (apply_kernel n (entry m) (amp psi)).
Proof. exact c18_reversed. Qed.
Print Assumptions C18_tensor_is_reversed_action_partial.
Theorem C18_commuting_tensor_is_action_partial : forall w n vals l Ks fs psi,
    set_order (set_iter w) -> l <> [] -> Forall2 (denotes w n vals false) l Ks -> commuting n Ks ->
    Permutation fs (seq 0 n) -> is_state n psi ->
    exists m out,
      tensor w vals (OSeq l) (Some fs) = Ok m /\ is_matrix n m /\
      call w vals (OSeq l) (Some (SDense psi)) = Ok (Some (SDense out)) /\ is_state n out /\
      veq n (amp out) (apply_kernel n (entry m) (amp psi)).
Proof. exact c18_commuting. Qed.
Print Assumptions C18_commuting_tensor_is_action_partial.
Theorem C18_tensor_is_action_refuted : forall w vals, set_order (set_iter w) -> exists m out,
    (exists KX KZ, denotes w 1 vals true XZ (kprod 1 [KX; KZ])) /\
    is_state 1 (mkArr [2] [C1; C0]) /\
    tensor w vals XZ (Some [0]) = Ok m /\
    call w vals XZ (Some (SDense (mkArr [2] [C1; C0]))) = Ok (Some (SDense out)) /\
    amp out [1] = Copp C1 /\ apply_kernel 1 (entry m) (amp (mkArr [2] [C1; C0])) [1] = C1.
Proof. exact c18_refuted. Qed.
Print Assumptions C18_tensor_is_action_refuted.
Example C18_example : exists m out,
    tensor ex_world [] (OSeq [OGate (gX (TInt 0) no_control None false); OGate (gZ (TInt 1) (IInt 0) None false)]) (Some [0; 1]) = Ok m /\
    is_matrix 2 m /\
    call ex_world [] (OSeq [OGate (gZ (TInt 1) (IInt 0) None false); OGate (gX (TInt 0) no_control None false)])
      (Some (SDense (basis [0; 1]))) = Ok (Some (SDense out)) /\ is_state 2 out /\
    veq 2 (amp out) (apply_kernel 2 (entry m) (amp (basis [0; 1]))).
Proof.
  eapply (C18_tensor_is_reversed_action_partial ex_world 2 []
           [OGate (gX (TInt 0) no_control None false); OGate (gZ (TInt 1) (IInt 0) None false)]);
    [apply ex_world_order|discriminate| |apply Permutation_refl|ex_side].
  constructor; [|constructor; [|constructor]];
    (eapply den_gate; [split; [eapply gm_fixed; simpl; eauto 10| | |]|reflexivity|reflexivity]);
    try reflexivity; [apply cq_default|ex_side|apply (cq_ints [0])|ex_side].
Qed.
Example C18_commuting_example :
  let KZ q := gate_op Z_matrix [] [q] in commuting 2 [KZ 0; KZ 1].
Proof.
  cbv zeta. repeat constructor. intros x y Hx Hy; simpl in Hx, Hy.
  repeat (destruct Hx as [<-|Hx]; [repeat (destruct Hy as [<-|Hy]; [ex_calc|]); contradiction|]); contradiction.
Qed.

(** C19 *)
Theorem C19_add_scale_tensors : forall w n vals o K fs psi,
    set_order (set_iter w) -> denotes w n vals false o K -> Permutation fs (seq 0 n) -> is_state n psi ->
    exists m out,
      tensor w vals o (Some fs) = Ok m /\ is_matrix n m /\ keq n (entry m) K /\
      call w vals o (Some (SDense psi)) = Ok (Some (SDense out)) /\ is_state n out /\
      veq n (amp out) (apply_kernel n (entry m) (amp psi)).
Proof. exact c19_agree. Qed.
Print Assumptions C19_add_scale_tensors.
Example C19_example : exists m out,
    let o := OScale [OAdd [OGate (gX (TInt 0) no_control None false);
                           OScale [OGate (RX (PName "a") (TInt 1) (IInt 0) None false)] (PNum 3)]] (PName "b") in
    tensor ex_world ex_values o (Some [0; 1]) = Ok m /\
    call ex_world ex_values o (Some (SDense (basis [0; 1]))) = Ok (Some (SDense out)) /\
    veq 2 (amp out) (apply_kernel 2 (entry m) (amp (basis [0; 1]))).
Proof.
  assert (D : exists K, denotes ex_world 2 ex_values false
    (OScale [OAdd [OGate (gX (TInt 0) no_control None false);
                   OScale [OGate (RX (PName "a") (TInt 1) (IInt 0) None false)] (PNum 3)]] (PName "b")) K).
  { eexists. eapply den_scale; [|reflexivity]. apply den_add; [discriminate|]. constructor; [|constructor; [|constructor]].
    - eapply den_gate; [split; [eapply gm_fixed; simpl; eauto 10|apply cq_default|reflexivity|ex_side]|reflexivity|reflexivity].
    - eapply den_scale; [|reflexivity].
      eapply den_gate; [split; [eapply gm_rotation with (R_ := RX_matrix); simpl; eauto; eexists; split; reflexivity
                               |apply (cq_ints [0])|reflexivity|ex_side]|reflexivity|reflexivity]. }
  destruct D as (K & D).
  destruct (C19_add_scale_tensors ex_world 2 ex_values _ K [0; 1] (basis [0; 1]) ex_world_order D)
    as (m & out & E & _ & _ & E' & _ & V); [apply Permutation_refl|ex_side|exists m, out; auto].
Qed.
(** with a [full_support] that contains the qubits of the operations, and without one *)
Theorem C19_tensors_over_some_qubits : forall w n vals o K s fs psi,
    set_order (set_iter w) -> denotes w n vals false o K -> support w o = Ok s -> incl s fs -> valid_qubits n fs -> is_state n psi ->
    exists m out,
      tensor w vals o (Some fs) = Ok m /\ is_matrix (List.length fs) m /\
      call w vals o (Some (SDense psi)) = Ok (Some (SDense out)) /\ is_state n out /\
      veq n (amp out) (apply_kernel n (gate_op (entry m) [] (sorted fs)) (amp psi)).
Proof. exact c19_sub. Qed.
Print Assumptions C19_tensors_over_some_qubits.
Theorem C19_tensors_over_their_own_qubits : forall w n vals o K psi,
    set_order (set_iter w) -> denotes w n vals false o K -> (forall g, o <> OGate g) -> is_state n psi ->
    exists s m out,
      support w o = Ok s /\ tensor w vals o None = Ok m /\ valid_qubits n s /\ is_matrix (List.length s) m /\
      call w vals o (Some (SDense psi)) = Ok (Some (SDense out)) /\ is_state n out /\
      veq n (amp out) (apply_kernel n (gate_op (entry m) [] (sorted s)) (amp psi)).
Proof. exact c19_own. Qed.
Print Assumptions C19_tensors_over_their_own_qubits.
Definition sum13 : oper := OScale [OAdd [OGate (gX (TInt 1) no_control None false); OScale [OGate (RX (PName "a") (TInt 3) (IInt 1) None false)] (PNum 3)]] (PName "b").
Example sum13_denotes : exists K, denotes ex_world 5 ex_values false sum13 K.
Proof.
  eexists. eapply den_scale; [|reflexivity]. apply den_add; [discriminate|]. constructor; [|constructor; [|constructor]].
  - eapply den_gate; [split; [eapply gm_fixed; simpl; eauto 10|apply cq_default|reflexivity|ex_side]|reflexivity|reflexivity].
  - eapply den_scale; [|reflexivity].
    eapply den_gate; [split; [eapply gm_rotation with (R_ := RX_matrix); simpl; eauto; eexists; split; reflexivity
                             |apply (cq_ints [1])|reflexivity|ex_side]|reflexivity|reflexivity].
Qed.
Example C19_sub_example : exists m out,
    tensor ex_world ex_values sum13 (Some [3; 4; 1]) = Ok m /\ is_matrix 3 m /\
    call ex_world ex_values sum13 (Some (SDense (basis [0; 1; 0; 1; 1]))) = Ok (Some (SDense out)) /\ is_state 5 out /\
    veq 5 (amp out) (apply_kernel 5 (gate_op (entry m) [] [1; 3; 4]) (amp (basis [0; 1; 0; 1; 1]))).
Proof.
  destruct sum13_denotes as (K & D). assert (ES : exists s, support ex_world sum13 = Ok s) by (eexists; reflexivity). destruct ES as (s & ES).
  apply (C19_tensors_over_some_qubits ex_world 5 ex_values sum13 K s [3; 4; 1]); [exact ex_world_order|exact D|exact ES| |ex_side|ex_side].
  vm_compute in ES. injection ES as <-. intros q I. simpl in *. tauto.
Qed.
Example C19_own_example : exists s m out,
    support ex_world sum13 = Ok s /\ tensor ex_world ex_values sum13 None = Ok m /\ valid_qubits 5 s /\ is_matrix (List.length s) m /\
    call ex_world ex_values sum13 (Some (SDense (basis [0; 1; 0; 1; 1]))) = Ok (Some (SDense out)) /\ is_state 5 out /\
    veq 5 (amp out) (apply_kernel 5 (gate_op (entry m) [] (sorted s)) (amp (basis [0; 1; 0; 1; 1]))).
Proof.
  destruct sum13_denotes as (K & D). apply (C19_tensors_over_their_own_qubits ex_world 5 ex_values sum13 K); [exact ex_world_order|exact D|discriminate|ex_side].
Qed.
