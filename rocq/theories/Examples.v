(** * Concrete objects and tactics for the examples beside the theorems *)
From Coq Require Import String List Arith Bool Reals Lia Lra Permutation Sorted.
From Verif Require Import Cplx Py PyFacts Ndarray NdFacts OperatorUtils ApplyOperator Sparse Matrices Noise Gates Apply Composite
  Spec SpecFacts ApplyFacts DmFacts GateSpec PropSpec NoiseSpec SampleSpec ExpectSpec ShotsSpec AlgebraFacts ExpectThm2 ShotsThm.
Import ListNotations.
Local Open Scope nat_scope.

(** the basis state of a bitstring *)
Definition basis (b : list nat) : arr :=
  build (repeat 2 (List.length b)) (fun x => if list_eq_dec Nat.eq_dec x b then C1 else C0).
Definition add_scaled (a : C) (psi : arr) (b : C) (phi : arr) : arr :=
  build (shape psi) (fun x => Cadd (Cmul a (get psi x)) (Cmul b (get phi x))).
Lemma amp_add_scaled : forall n a psi b phi x, is_state n psi -> In x (bitstrings n) ->
    amp (add_scaled a psi b phi) x = Cadd (Cmul a (amp psi x)) (Cmul b (amp phi x)).
Proof.
  intros n a psi b phi x [S W] Hx; unfold amp, add_scaled; rewrite get_build; [reflexivity|].
  rewrite S; apply bitstrings_inb; exact Hx.
Qed.

(** the maximally mixed state, up to normalisation *)
Definition mixed (n : nat) : arr :=
  build (repeat 2 (2 * n)) (fun v => if list_eq_dec Nat.eq_dec (firstn n v) (skipn n v) then C1 else C0).
Lemma mixed_density : forall n, is_density n (mixed n).
Proof. intro n; split; [reflexivity|apply wf_build]. Qed.
Lemma mixed_entry : forall n, keq n (rho_entry (mixed n)) kid.
Proof.
  intros n x y Hx Hy; unfold rho_entry, mixed, kid.
  rewrite get_build by (apply bitstrings_inb, bits_2n; eauto 6).
  pose proof (bitstrings_length _ _ Hx) as L.
  assert (E1 : firstn n (x ++ y) = x) by (subst n; rewrite firstn_app, firstn_all, Nat.sub_diag; simpl; apply app_nil_r).
  assert (E2 : skipn n (x ++ y) = y) by (subst n; rewrite skipn_app, skipn_all, Nat.sub_diag; reflexivity).
  rewrite E1, E2; reflexivity.
Qed.
Lemma mixed_hermitian : forall n, hermitian n (rho_entry (mixed n)).
Proof. intro n; eapply hermitian_ext; [apply keq_sym, mixed_entry|apply kadj_id]. Qed.
Lemma Cnorm2_nonneg' : forall z, (0 <= Cnorm2 z)%R.
Proof. intros [a b]; unfold Cnorm2; simpl; nra. Qed.
Lemma mixed_positive : forall n, positive n (rho_entry (mixed n)).
Proof.
  intros n; eapply positive_ext; [apply keq_sym, mixed_entry|].
  intro f; unfold qform; rewrite apply_kernel_id, inner_norm2; simpl; split; [|reflexivity].
  apply rsum_nonneg; intros; apply Cnorm2_nonneg'.
Qed.

(** a world: sets are iterated in decreasing order *)
Definition ex_world : world :=
  mkWorld (fun l => rev (sorted (dedup l))) (fun a => a) (fun _ => ([], mkArr [] [])) (fun a => a) (fun _ _ _ => []).
Lemma ex_world_order : set_order (set_iter ex_world).
Proof.
  intro l; simpl; split.
  - apply NoDup_rev, sorted_NoDup, dedup_NoDup.
  - intro x; rewrite <- in_rev, sorted_In, dedup_In; tauto.
Qed.

(** a three-qubit circuit: RY(a) on 2, H on 0, RX(0.5) on 2, PHASE(b) on 1 controlled by 2 and 0 *)
Definition ex_values : values := [("a", VNum 1); ("b", VNum 2)]%string%R.
Definition ex_circuit : list gate :=
  [RY (PName "a") (TInt 2) no_control None false;
   gH (TInt 0) no_control None false;
   RX (PNum (1 / 2)) (TInt 2) no_control None false;
   PHASE (PName "b") (TInt 1) (ITup [QInt 2; QInt 0]) None false]%string.

Ltac ex_nodup := repeat (constructor; [simpl; intuition (try discriminate; try lia)|]); constructor.
Ltac ex_side :=
  first [ split; [reflexivity|reflexivity]
        | apply cq_none | apply cq_default | apply cq_ints | apply (cq_ints [_]) | apply (cq_ints [_; _])
        | split; [ex_nodup|repeat constructor] ].
Ltac ex_calc := lazy -[Rplus Rmult Ropp Rminus IZR cos sin sqrt Rdiv Rinv PI]; repeat split; f_equal; try lra; try ring.

Lemma ex_circuit_usable : Forall (usable 3 ex_values) ex_circuit.
Proof.
  repeat constructor.
  - do 3 eexists; split; [eapply gm_rotation with (R_ := RY_matrix); simpl; eauto; eexists; split; reflexivity|apply cq_default|reflexivity|ex_side].
  - do 3 eexists; split; [eapply gm_fixed; simpl; eauto 10|apply cq_default|reflexivity|ex_side].
  - do 3 eexists; split; [eapply gm_rotation with (R_ := RX_matrix); simpl; eauto; reflexivity|apply cq_default|reflexivity|ex_side].
  - do 3 eexists; split; [eapply gm_PHASE; simpl; eauto; eexists; split; reflexivity|apply (cq_ints [2; 0])|reflexivity|ex_side].
Qed.
Lemma ex_circuit_dense : Forall dense_gate ex_circuit.
Proof. repeat constructor. Qed.
Lemma ex_circuit_noiseless : Forall noiseless ex_circuit.
Proof. repeat constructor. Qed.

(** a world whose generator always draws the last outcome *)
Definition draw_world : world :=
  mkWorld (fun l => rev (sorted (dedup l))) (fun a => a) (fun _ => ([], mkArr [] [])) (fun a => a)
    (fun key p k => repeat (List.length p - 1) k).
Lemma draw_world_order : set_order (set_iter draw_world).
Proof. exact ex_world_order. Qed.
Lemma ex_circuit_denotes : forall w, exists K, denotes w 3 ex_values true (OQC 3 (map OGate ex_circuit) []) K.
Proof.
  intro w. assert (H : exists Ks, Forall2 (denotes w 3 ex_values true) (map OGate ex_circuit) Ks).
  { generalize ex_circuit_usable ex_circuit_dense ex_circuit_noiseless. generalize ex_circuit as gs.
    induction gs as [|g gs IH]; intros FU FD FN; [exists []; constructor|].
    inversion FU as [|? ? (M & cs & ts & G)]; inversion FD; inversion FN; subst. destruct IH as (Ks & F); auto.
    exists (gate_op M cs ts :: Ks). cbn [map]. constructor; [|exact F]. apply den_gate; assumption. }
  destruct H as (Ks & F). exists (kprod 3 Ks). apply den_circuit; [left; reflexivity|exact F].
Qed.
(** a noisy circuit on three qubits, as nested sequences *)
Definition ex_noisy_gates : list gate :=
  [RX (PName "a") (TInt 1) no_control None false;
   gH (TInt 0) (IInt 2) (Some [mkNoise BITFLIP (PFloat (1 / 4)); mkNoise AMPLITUDE_DAMPING (PFloat (1 / 2))]) false;
   gX (TInt 2) no_control None false]%string%R.
Definition ex_noisy_oper : oper :=
  match ex_noisy_gates with
  | [a; b; c] => OQC 3 [OSeq [OGate a; OSeq []]; OSeq [OSeq [OGate b]; OGate c]] []
  | _ => OSeq []
  end.
Lemma ex_noisy_usable : Forall (usable 3 ex_values) ex_noisy_gates.
Proof.
  constructor; [|constructor; [|constructor; [|constructor]]].
  - do 3 eexists; split; [eapply gm_rotation with (R_ := RX_matrix); simpl; eauto; eexists; split; reflexivity|apply cq_default|reflexivity|ex_side].
  - do 3 eexists; split; [eapply gm_fixed; simpl; eauto 10|apply (cq_ints [2])|reflexivity|ex_side].
  - do 3 eexists; split; [eapply gm_fixed; simpl; eauto 10|apply cq_default|reflexivity|ex_side].
Qed.
Lemma ex_noisy_dense : Forall dense_gate ex_noisy_gates.
Proof. repeat constructor. Qed.
Lemma draw_world_choice : choice_contract draw_world.
Proof.
  intros key p k NE; simpl; split; [apply repeat_length|]. apply Forall_forall; intros i Hi; apply repeat_spec in Hi; subst i.
  destruct p; [congruence|simpl; lia].
Qed.
Lemma ex_noisy_sequence : sequence_of ex_noisy_oper ex_noisy_gates.
Proof.
  unfold ex_noisy_oper, ex_noisy_gates. match goal with |- sequence_of (OQC _ [OSeq [OGate ?a; _]; OSeq [OSeq [OGate ?b]; OGate ?c]] _) _ =>
    apply (so_qc 3 _ [] [[a]; [b; c]]); constructor; [apply (so_seq _ [[a]; []])|constructor; [apply (so_seq _ [[b]; [c]])|constructor]] end.
  - constructor; [constructor|constructor; [apply (so_seq [] []); constructor|constructor]].
  - constructor; [apply (so_seq _ [[_]]); repeat constructor|constructor; [constructor|constructor]].
Qed.
Lemma ex_noisy_ok : Forall noise_ok ex_noisy_gates.
Proof.
  constructor; [exact Logic.I|constructor; [|constructor; [exact Logic.I|constructor]]].
  split; [reflexivity|]. constructor; [|constructor; [|constructor]]; (split; [exact Logic.I|]); unfold valid_parameter, is_prob; simpl; lra.
Qed.


(** a world: sets are iterated in increasing order *)
Definition inc_world : world :=
  mkWorld (fun l => sorted (dedup l)) (fun a => a) (fun _ => ([], mkArr [] [])) (fun a => a)
    (fun key p k => repeat (List.length p - 1) k).
Lemma inc_world_order : set_order (set_iter inc_world).
Proof.
  intro l; simpl; split.
  - apply sorted_NoDup, dedup_NoDup.
  - intro x; rewrite sorted_In, dedup_In; tauto.
Qed.
(** an observable on three qubits: b Z(2) + (X(0) + X(1) controlled by 0) *)
Definition ex_obs : list oper :=
  [OScale [OGate (gZ (TInt 2) no_control None false)] (PName "b");
   OAdd [OGate (gX (TInt 0) no_control None false); OGate (gX (TInt 1) (IInt 0) None false)]]%string.
Definition ex_obs_op : op :=
  ksum [kscale (RtoC 2) (gate_op Z_matrix [] [2]); ksum [gate_op X_matrix [] [0]; gate_op X_matrix [0] [1]]].
Lemma ex_obs_on : forall w sq, observable_on w 3 ex_values sq ex_obs ex_obs_op.
Proof.
  intros w sq. exists [kscale (RtoC 2) (gate_op Z_matrix [] [2]); ksum [gate_op X_matrix [] [0]; gate_op X_matrix [0] [1]]].
  split; [discriminate|split; [|reflexivity]]. constructor; [|constructor; [|constructor]].
  - apply den_scale; [|reflexivity]. apply den_gate; [|reflexivity|reflexivity]. split; [eapply gm_fixed; simpl; eauto 10|apply cq_default|reflexivity|ex_side].
  - apply den_add; [discriminate|]. constructor; [|constructor; [|constructor]]; (apply den_gate; [|reflexivity|reflexivity]).
    + split; [eapply gm_fixed; simpl; eauto 10|apply cq_default|reflexivity|ex_side].
    + split; [eapply gm_fixed; simpl; eauto 10|apply (cq_ints [0])|reflexivity|ex_side].
Qed.
Lemma ex_obs_ready : density_ready inc_world 3 ex_values ex_obs ex_obs_op.
Proof.
  split; [apply ex_obs_on|]. intros s E. assert (E' : s = [0; 1; 2]) by (cbv in E; congruence). subst s.
  repeat (constructor; [|repeat constructor; lia]). constructor.
Qed.
Lemma ex_values_flat : flat_values ex_values.
Proof. left; reflexivity. Qed.
Lemma ex_circuit_sequence : sequence_of (OQC 3 (map OGate ex_circuit) []) ex_circuit.
Proof.
  replace ex_circuit with (List.concat (map (fun g => [g]) ex_circuit)) at 2 by reflexivity. apply so_qc.
  unfold ex_circuit; cbn [map]; repeat constructor.
Qed.
Lemma ex_circuit_ok : Forall noise_ok ex_circuit.
Proof. repeat constructor. Qed.
Lemma ex_basis : is_state 3 (basis [0; 0; 0]).
Proof. split; reflexivity. Qed.

(** a world that diagonalises the Pauli matrices Z and X *)
Definition pauli_world : world :=
  mkWorld (fun l => sorted (dedup l)) (fun a => a) (fun m => (pm1, if Req_EM_T (re (get m [0; 0])) 1 then VZ else VX)) (fun a => a)
    (fun key p k => repeat (List.length p - 1) k).
Lemma pauli_world_order : set_order (set_iter pauli_world).
Proof. exact inc_world_order. Qed.
Lemma pauli_world_choice : choice_contract pauli_world.
Proof. exact draw_world_choice. Qed.
Lemma pauli_world_Z : diagonalised pauli_world 1 oZ pm1 VZ.
Proof.
  split; [|split; [exact VZ_matrix|split; [exact VZ_basis|split; [exact VZ_matrix|exact VZ_inv]]]].
  intros m _ E. cbn [eigh pauli_world]. f_equal. change (get m [0; 0]) with (entry m [0] [0]). rewrite (E [0] [0]) by (simpl; tauto).
  destruct Req_EM_T as [|N]; [reflexivity|]. exfalso; apply N. lazy -[Rplus Rmult Ropp Rminus IZR]; ring.
Qed.
Lemma pauli_world_X : diagonalised pauli_world 1 oX pm1 VX.
Proof.
  split; [|split; [exact VX_matrix|split; [exact VX_basis|split; [exact VX_matrix|exact VX_inv]]]].
  intros m _ E. cbn [eigh pauli_world]. f_equal. change (get m [0; 0]) with (entry m [0] [0]). rewrite (E [0] [0]) by (simpl; tauto).
  destruct Req_EM_T as [N|]; [|reflexivity]. exfalso. revert N. lazy -[Rplus Rmult Ropp Rminus IZR]; lra.
Qed.
Lemma x0_usable : usable 1 [] (gX q0 no_control None false).
Proof.
  exists X_matrix, [], [0]. split; [eapply gm_fixed; simpl; eauto 10|apply cq_default|reflexivity|apply valid_one; lia].
Qed.
Lemma x0_sequence : sequence_of (OpSequence [x0_gate]) [gX q0 no_control None false].
Proof. apply (so_seq [x0_gate] [[gX q0 no_control None false]]). apply Forall2_cons; [apply so_gate|apply Forall2_nil]. Qed.
