(** * C81 - C94: physical laws of circuits.

    The vocabulary is in Spec.v, GateSpec.v, PropSpec.v, NoiseSpec.v, SampleSpec.v, ExpectSpec.v, GpsrSpec.v, StructSpec.v and
    PhysSpec.v.  Every theorem is followed by an example that meets its hypotheses. *)
From Coq Require Import String List Arith Bool Reals Lia Lra ZArith Permutation.
From Verif Require Import Cplx Py Ndarray OperatorUtils ApplyOperator Sparse Matrices Noise Gates Apply Composite Conversion Shots Gpsr Api
  Spec GateSpec PropSpec NoiseSpec SampleSpec ExpectSpec GpsrSpec StructSpec PhysSpec SpecFacts NdFacts AlgebraFacts NoiseThm SeqThm ShotsSpec ExpectThm2 ShotsThm GpsrThm
  PhysThm PhysThm2 PhysThm3 PhysThm4 PhysThm5 PhysThm6 PhysThm7 PhysThm8 PhysThm9 GenThm ShotsThm2 GpsrThm2 GpsrThm3 ExpectThm ApplyFacts DmFacts Examples StructSpec PhysSpec.
Import ListNotations.
Local Open Scope nat_scope.

Example noisy_runnable : runnable 3 ex_values ex_noisy_oper ex_noisy_gates.
Proof. split; [exact ex_noisy_sequence|]. split; [discriminate|]. split; [exact ex_noisy_usable|]. split; [exact ex_noisy_dense|exact ex_noisy_ok]. Qed.
Example pure_runnable : runnable 3 ex_values (OQC 3 (map OGate ex_circuit) []) ex_circuit.
Proof. split; [exact ex_circuit_sequence|]. split; [discriminate|]. split; [exact ex_circuit_usable|]. split; [exact ex_circuit_dense|exact ex_circuit_ok]. Qed.
Example noisy_readable : forall st, readable inc_world 3 ex_values st ex_noisy_gates ex_obs ex_obs_op.
Proof. intro st. split; [exists true; exact (ex_obs_on inc_world true)|]. intros _. exact ex_obs_ready. Qed.
Example flat_sequence : forall gs, sequence_of (OpSequence (map OGate gs)) gs.
Proof.
  intro gs. replace gs with (List.concat (map (fun g => [g]) gs)) at 2 by (induction gs as [|g gs IH]; [reflexivity|cbn; rewrite IH; reflexivity]).
  apply so_seq. induction gs as [|g gs IH]; cbn [map]; constructor; [constructor|exact IH].
Qed.

(** C81: gates outside the light cone of the measured qubits are invisible *)
Theorem C81_light_cone : forall w n vals c c' gs gs' st l K mode key, set_order (set_iter w) -> flat_values vals ->
    runnable n vals c gs -> runnable n vals c' gs' -> state_of n st -> readable w n vals st gs l K -> light_cone (measures l) gs gs' -> exact_mode mode ->
    exists e, expectation w st c [l] vals mode 0 key = Ok [e] /\ expectation w st c' [l] vals mode 0 key = Ok [e].
Proof. exact c81_light_cone. Qed.
Print Assumptions C81_light_cone.
(** three gates on four qubits, one of them noisy; Z is measured on qubit 0; the gates on 2 and 3 can be left out *)
Definition cone_gates : list gate :=
  [gH (TInt 1) no_control None false; gX (TInt 3) (IInt 2) (Some [mkNoise BITFLIP (PFloat (1 / 4))]) false; gX (TInt 0) (IInt 1) None false; gY (TInt 2) no_control None false]%R.
Definition cone_kept : list gate := [gH (TInt 1) no_control None false; gX (TInt 0) (IInt 1) None false].
Lemma one_control : forall a cs, control_qubits (CTup [QInt a]) cs -> cs = [a].
Proof. intros a cs H. inversion H as [Q|Q|cs' Q Q']; subst; try discriminate. destruct cs as [|b [|? ?]]; try discriminate. injection Q as ->. reflexivity. Qed.
Lemma default_control : forall cs, control_qubits (CTup [QNone]) cs -> cs = [].
Proof. intros cs H. inversion H as [Q|Q|cs' Q Q']; subst; try reflexivity. destruct cs; discriminate. Qed.
Lemma z0_measures : forall q, measures z0_obs q -> q = 0.
Proof.
  intros q (o & g & [<-|[]] & [<-|[]] & cs & HC & I). apply default_control in HC. subst cs. destruct I as [<-|[]]. reflexivity.
Qed.
Example C81_example : light_cone (measures z0_obs) cone_gates cone_kept /\
    Forall (usable 4 []) cone_gates /\ Forall dense_gate cone_gates /\ Forall noise_ok cone_gates.
Proof.
  split; [|split; [|split]].
  - apply (cone_drop _ [_; _; _] _ (gY (TInt 2) no_control None false)).
    { intros q HO HM. apply z0_measures in HM. subst q. destruct HO as (cs & HC & I). apply default_control in HC. subst cs. destruct I as [Q|[]]; discriminate. }
    apply (cone_keep _ [_; _] [_] (gX (TInt 0) (IInt 1) None false)). apply (cone_drop _ [_] _ (gX (TInt 3) (IInt 2) _ false)).
    { assert (OC : forall q, occupies (gX (TInt 0) (IInt 1) None false) q -> q < 2) by (intros q (cs & HC & I); apply one_control in HC; subst cs; destruct I as [<-|[<-|[]]]; lia).
      intros q HO HM. assert (q < 2) by (destruct HM as [HM|HM]; [apply z0_measures in HM; lia|apply OC, HM]).
      destruct HO as (cs & HC & I). apply one_control in HC. subst cs. destruct I as [<-|[<-|[]]]; lia. }
    apply (cone_keep _ [] []). apply cone_nil.
  - unfold cone_gates. repeat (apply Forall_cons; [do 3 eexists; split; [eapply gm_fixed; simpl; eauto 10|first [apply cq_default|apply (cq_ints [_])]|reflexivity|ex_side]|]). apply Forall_nil.
  - repeat (apply Forall_cons; [reflexivity|]); apply Forall_nil.
  - apply Forall_cons; [exact Logic.I|]. apply Forall_cons; [|repeat (apply Forall_cons; [exact Logic.I|]); apply Forall_nil].
    split; [reflexivity|]. apply Forall_cons; [|apply Forall_nil]. split; [exact Logic.I|]. unfold valid_parameter, is_prob; simpl; lra.
Qed.

(** C82: linearity in the initial state *)
Theorem C82_superposition : forall w n vals c gs psi phi chi a b, set_order (set_iter w) -> runnable n vals c gs -> Forall noiseless gs ->
    is_state n psi -> is_state n phi -> is_state n chi ->
    (forall x, In x (bitstrings n) -> amp chi x = Cadd (Cmul a (amp psi x)) (Cmul b (amp phi x))) ->
    exists psi' phi' chi', run w c (SDense psi) vals = Ok (Some (SDense psi')) /\ run w c (SDense phi) vals = Ok (Some (SDense phi')) /\
      run w c (SDense chi) vals = Ok (Some (SDense chi')) /\
      forall x, In x (bitstrings n) -> amp chi' x = Cadd (Cmul a (amp psi' x)) (Cmul b (amp phi' x)).
Proof. exact circuit_superposition. Qed.
Print Assumptions C82_superposition.
Example C82_superposition_example : let chi := add_scaled Ci (basis [0; 0; 0]) (RtoC 2) (basis [1; 0; 1]) in
    is_state 3 chi /\ forall x, In x (bitstrings 3) -> amp chi x = Cadd (Cmul Ci (amp (basis [0; 0; 0]) x)) (Cmul (RtoC 2) (amp (basis [1; 0; 1]) x)).
Proof. split; [split; reflexivity|]. intros x Hx. apply (amp_add_scaled 3); [split; reflexivity|exact Hx]. Qed.
Theorem C82_mixture : forall w n vals c gs r1 r2 r3 a b, set_order (set_iter w) -> runnable n vals c gs ->
    is_density n r1 -> is_density n r2 -> is_density n r3 ->
    keq n (rho_entry r3) (kadd (kscale a (rho_entry r1)) (kscale b (rho_entry r2))) ->
    exists o1 o2 o3, run w c (SDM r1) vals = Ok (Some (SDM o1)) /\ run w c (SDM r2) vals = Ok (Some (SDM o2)) /\
      run w c (SDM r3) vals = Ok (Some (SDM o3)) /\ keq n (rho_entry o3) (kadd (kscale a (rho_entry o1)) (kscale b (rho_entry o2))).
Proof. exact c82_mixture. Qed.
Print Assumptions C82_mixture.
Theorem C82_mixture_expectation : forall w n vals c gs r1 r2 r3 p q obs Ks mode key, set_order (set_iter w) -> flat_values vals -> runnable n vals c gs ->
    is_density n r1 -> is_density n r2 -> is_density n r3 ->
    keq n (rho_entry r3) (kadd (kscale (RtoC p) (rho_entry r1)) (kscale (RtoC q) (rho_entry r2))) ->
    obs <> [] -> Forall2 (density_ready w n vals) obs Ks -> exact_mode mode ->
    exists e1 e2, expectation w (SDM r1) c obs vals mode 0 key = Ok e1 /\ expectation w (SDM r2) c obs vals mode 0 key = Ok e2 /\
      length e1 = length obs /\ length e2 = length obs /\
      expectation w (SDM r3) c obs vals mode 0 key = Ok (map (fun e => (p * fst e + q * snd e)%R) (combine e1 e2)).
Proof. exact c82_mixture_mean. Qed.
Print Assumptions C82_mixture_expectation.
(** a third of the identity plus two thirds of |000><000| *)
Example C82_mixture_example : let zero := basis [0; 0; 0; 0; 0; 0] in let rho := add_scaled (RtoC (1 / 3)) (mixed 3) (RtoC (2 / 3)) zero in
    is_density 3 zero /\ is_density 3 rho /\
    keq 3 (rho_entry rho) (kadd (kscale (RtoC (1 / 3)) (rho_entry (mixed 3))) (kscale (RtoC (2 / 3)) (rho_entry zero))) /\
    density_ready inc_world 3 ex_values ex_obs ex_obs_op.
Proof.
  split; [split; reflexivity|]. split; [split; reflexivity|]. split; [|exact ex_obs_ready]. intros x y Hx Hy.
  apply (amp_add_scaled 6); [split; [reflexivity|apply wf_build]|]. apply (bits_2n 3). eauto 6.
Qed.

(** C83: states with the same density matrix are indistinguishable, e.g. states that differ by a phase, or a state and density_mat of it *)
Theorem C83_same_density_same_observations : forall w n vals c gs st st', set_order (set_iter w) -> flat_values vals -> runnable n vals c gs ->
    state_of n st -> state_of n st' -> keq n (density_of st) (density_of st') ->
    (forall obs Ks mode key, obs <> [] -> Forall2 (readable w n vals st gs) obs Ks -> Forall2 (readable w n vals st' gs) obs Ks -> exact_mode mode ->
       exists es, expectation w st c obs vals mode 0 key = Ok es /\ expectation w st' c obs vals mode 0 key = Ok es) /\
    (forall k, choice_contract w -> 1 <= n -> (1 <= k)%Z ->
       exists counts, fst (sample w st c vals k) = Ok counts /\ fst (sample w st' c vals k) = Ok counts) /\
    exists out out', run w c st vals = Ok (Some out) /\ run w c st' vals = Ok (Some out') /\ keq n (density_of out) (density_of out').
Proof. exact c83_indistinguishable. Qed.
Print Assumptions C83_same_density_same_observations.
Theorem C83_global_phase : forall w n vals c gs psi psi' t, set_order (set_iter w) -> runnable n vals c gs -> Forall noiseless gs -> is_state n psi -> is_state n psi' ->
    (forall x, In x (bitstrings n) -> amp psi' x = Cmul (Cexpi t) (amp psi x)) ->
    keq n (density_of (SDense psi)) (density_of (SDense psi')) /\
    exists out out', run w c (SDense psi) vals = Ok (Some (SDense out)) /\ run w c (SDense psi') vals = Ok (Some (SDense out')) /\
      forall x, In x (bitstrings n) -> amp out' x = Cmul (Cexpi t) (amp out x).
Proof. exact c83_phase. Qed.
Print Assumptions C83_global_phase.
Theorem C83_density_mat : forall n psi, is_state n psi ->
    exists rho, density_mat psi = Ok rho /\ is_density n rho /\ keq n (density_of (SDense psi)) (density_of (SDM rho)).
Proof. exact pure_density_same. Qed.
Print Assumptions C83_density_mat.
Example C83_example : exists rho, density_mat (basis [0; 1; 0]) = Ok rho /\ is_density 3 rho /\ keq 3 (density_of (SDense (basis [0; 1; 0]))) (density_of (SDM rho)).
Proof. apply C83_density_mat. split; reflexivity. Qed.

(** C84: running a circuit in two parts *)
Theorem C84_composition : forall w n vals c c1 c2 gs1 gs2 st, set_order (set_iter w) -> runnable n vals c1 gs1 -> runnable n vals c2 gs2 ->
    sequence_of c (gs1 ++ gs2) -> state_of n st ->
    exists mid out, run w c1 st vals = Ok (Some mid) /\ run w c2 mid vals = Ok (Some out) /\ run w c st vals = Ok (Some out) /\
      apply_gates w st (GMany (gs1 ++ gs2)) vals UNITARY false true = Ok out /\
      (flat_values vals -> forall obs Ks mode key, obs <> [] -> Forall2 (readable w n vals st (gs1 ++ gs2)) obs Ks -> exact_mode mode ->
         exists es, expectation w mid c2 obs vals mode 0 key = Ok es /\ expectation w st c obs vals mode 0 key = Ok es).
Proof. exact c84_compose. Qed.
Print Assumptions C84_composition.
Example C84_example : runnable 3 ex_values ex_noisy_oper ex_noisy_gates /\ runnable 3 ex_values (OQC 3 (map OGate ex_circuit) []) ex_circuit /\
    sequence_of (OSeq [ex_noisy_oper; OQC 3 (map OGate ex_circuit) []]) (ex_noisy_gates ++ ex_circuit).
Proof.
  split; [exact noisy_runnable|split; [exact pure_runnable|]].
  replace (ex_noisy_gates ++ ex_circuit) with (List.concat [ex_noisy_gates; ex_circuit]) by (cbn; rewrite ?app_nil_r; reflexivity). apply so_seq.
  constructor; [exact ex_noisy_sequence|constructor; [exact ex_circuit_sequence|constructor]].
Qed.

(** C85: an expectation is at most the sum of the absolute values of the coefficients *)
Theorem C85_expectation_bound : forall w n vals c gs st l K bs mode key, set_order (set_iter w) -> flat_values vals -> runnable n vals c gs -> state_of n st -> physical n st ->
    readable w n vals st gs l K -> Forall2 (magnitude n vals) l bs -> exact_mode mode ->
    exists e, expectation w st c [l] vals mode 0 key = Ok [e] /\ (- total bs <= e <= total bs)%R.
Proof. exact c85_bound. Qed.
Print Assumptions C85_expectation_bound.
Example C85_example : Forall2 (magnitude 3 ex_values) ex_obs [Rabs 2 * 1; total [1; 1]]%R /\ total [Rabs 2 * 1; total [1; 1]]%R = 4%R.
Proof.
  assert (SG : forall g, usable 3 ex_values g -> dense_gate g -> magnitude 3 ex_values (OGate g) 1).
  { intros g U D. apply (mag_seq 3 ex_values (OGate g) [g]); [constructor|constructor; [exact U|constructor]|constructor; [exact D|constructor]]. }
  split.
  - constructor; [|constructor; [|constructor]].
    + apply mag_scale; [reflexivity|]. apply SG; [|reflexivity]. do 3 eexists; split; [eapply gm_fixed; simpl; eauto 10|apply cq_default|reflexivity|ex_side].
    + apply mag_add. constructor; [|constructor; [|constructor]].
      { apply SG; [|reflexivity]. do 3 eexists; split; [eapply gm_fixed; simpl; eauto 10|apply cq_default|reflexivity|ex_side]. }
      apply SG; [|reflexivity]. do 3 eexists; split; [eapply gm_fixed; simpl; eauto 10|apply (cq_ints [0])|reflexivity|ex_side].
  - unfold total. simpl. rewrite Rabs_right by lra. ring.
Qed.

(** C86: what happens on some qubits depends only on their reduced state *)
Theorem C86_reduced_state : forall w m k vals c gs st st', set_order (set_iter w) -> runnable m vals c gs -> state_of m st -> state_of (m + k) st' ->
    keq m (density_of st) (reduced k (density_of st')) ->
    (exists out out', run w c st vals = Ok (Some out) /\ run w c st' vals = Ok (Some out') /\ keq m (density_of out) (reduced k (density_of out'))) /\
    forall l K mode key, flat_values vals -> readable w m vals st gs l K -> readable w m vals st' gs l K -> exact_mode mode ->
      exists e, expectation w st c [l] vals mode 0 key = Ok [e] /\ expectation w st' c [l] vals mode 0 key = Ok [e].
Proof. exact c86_reduced. Qed.
Print Assumptions C86_reduced_state.
(** in particular idle qubits in a product state do not matter *)
Theorem C86_product_state : forall m k psi phi chi, is_state m psi -> is_state k phi -> norm2 k (amp phi) = 1%R ->
    (forall x e, In x (bitstrings m) -> In e (bitstrings k) -> amp chi (x ++ e) = Cmul (amp psi x) (amp phi e)) ->
    keq m (density_of (SDense psi)) (reduced k (density_of (SDense chi))).
Proof. exact product_reduced. Qed.
Print Assumptions C86_product_state.
Example C86_example : keq 1 (density_of (SDense (basis [1]))) (reduced 2 (density_of (SDense (basis [1; 0; 1])))).
Proof.
  apply (C86_product_state 1 2 (basis [1]) (basis [0; 1])); try (split; reflexivity).
  - lazy -[Rplus Rmult Ropp Rminus IZR]; ring.
  - intros x e Hx He. simpl in Hx, He. repeat match goal with H : _ \/ _ |- _ => destruct H end; subst; try contradiction; ex_calc.
Qed.

(** C87: the labels of qubits do not matter *)
Theorem C87_relabelling : forall n f w vals c gs st st', permutes n f -> set_order (set_iter w) -> runnable n vals c gs -> state_of n st -> state_of n st' -> renamed n f st st' ->
    (exists out out', run w c st vals = Ok (Some out) /\ run w (rename f c) st' vals = Ok (Some out') /\ renamed n f out out') /\
    forall l K mode key, flat_values vals -> readable w n vals st gs l K -> (forall g, In g (flat_map all_gates l) -> usable n vals g /\ dense_gate g) ->
      (mixes st gs -> increasing_support w (map (rename f) l)) -> exact_mode mode ->
      exists e, expectation w st c [l] vals mode 0 key = Ok [e] /\ expectation w st' (rename f c) [map (rename f) l] vals mode 0 key = Ok [e].
Proof. exact c87_relabel. Qed.
Print Assumptions C87_relabelling.
Definition rotate3 (q : nat) : nat := match q with 0 => 1 | 1 => 2 | 2 => 0 | _ => q end.
Example C87_example : permutes 3 rotate3 /\ renamed 3 rotate3 (SDense (basis [1; 0; 0])) (SDense (basis [0; 1; 0])) /\ increasing_support inc_world (map (rename rotate3) ex_obs).
Proof.
  split; [split; [ex_nodup|repeat constructor]|]. split.
  - intros x Hx. simpl in Hx. repeat match goal with H : _ \/ _ |- _ => destruct H end; subst; try contradiction; reflexivity.
  - intros s E. assert (E' : s = [0; 1; 2]) by (cbv in E; congruence). subst s. repeat (constructor; [|repeat constructor; lia]). constructor.
Qed.

(** C88: full turns *)
Theorem C88_full_turn : forall w n vals c gs st name x, set_order (set_iter w) -> runnable n vals c gs -> state_of n st ->
    lookup vals name = Ok (VNum x) -> turning gs name ->
    (forall obs Ks mode key, obs <> [] -> flat_values vals -> flat_values (at_value vals name (x + 2 * PI)) ->
       Forall2 (readable w n vals st gs) obs Ks -> Forall2 (readable w n (at_value vals name (x + 2 * PI)) st gs) obs Ks -> exact_mode mode ->
       exists es, expectation w st c obs vals mode 0 key = Ok es /\ expectation w st c obs (at_value vals name (x + 2 * PI)) mode 0 key = Ok es) /\
    (forall k, choice_contract w -> 1 <= n -> (1 <= k)%Z ->
       exists counts, fst (sample w st c vals k) = Ok counts /\ fst (sample w st c (at_value vals name (x + 2 * PI)) k) = Ok counts) /\
    exists out out', run w c st vals = Ok (Some out) /\ run w c st (at_value vals name (x + 2 * PI)) = Ok (Some out') /\
      match out, out' with
      | SDM a, SDM b => a = b
      | SDense a, SDense b => exists s, (s = 1 \/ s = -1)%R /\ forall y, In y (bitstrings n) -> amp b y = Cmul (RtoC s) (amp a y)
      | _, _ => False
      end.
Proof. exact c88_turn. Qed.
Print Assumptions C88_full_turn.
Theorem C88_double_turn : forall w n vals c gs st name x, set_order (set_iter w) -> runnable n vals c gs -> state_of n st ->
    lookup vals name = Ok (VNum x) ->
    exists out, run w c st vals = Ok (Some out) /\ run w c st (at_value vals name (x + 4 * PI)) = Ok (Some out).
Proof. exact c88_double_turn. Qed.
Print Assumptions C88_double_turn.
(** the hypothesis on controlled rotations is necessary *)
Theorem C88_controlled_rotations_see_a_full_turn : forall w key, exists n vals g st obs x,
    usable n vals g /\ dense_gate g /\ noiseless g /\ state_of n st /\ physical n st /\ lookup vals "a" = Ok (VNum x) /\
    exists e e', expectation w st (OpSequence [OGate g]) obs vals AD 0 key = Ok [e] /\
      expectation w st (OpSequence [OGate g]) obs (at_value vals "a" (x + 2 * PI)) AD 0 key = Ok [e'] /\ e <> e'.
Proof. exact c88_refuted. Qed.
Print Assumptions C88_controlled_rotations_see_a_full_turn.
Example C88_example : turning ex_circuit "a" /\ turning ex_circuit "b" /\ lookup ex_values "a" = Ok (VNum 1).
Proof.
  split; [|split; [|reflexivity]]; intros g H N; simpl in H; repeat (destruct H as [<-|H]; [first [right; reflexivity|exfalso; cbv in N; intuition discriminate|left; split; [reflexivity|split; [simpl; tauto|apply cq_default]]]|]); destruct H.
Qed.

(** C89: the order of the controls, and of the targets of SWAP, does not matter *)
Theorem C89_control_order_and_swap : forall w n vals c c' gs gs' st, set_order (set_iter w) -> runnable n vals c gs -> sequence_of c' gs' -> Forall2 same_gate gs gs' -> state_of n st ->
    exists out, run w c st vals = Ok (Some out) /\ run w c' st vals = Ok (Some out).
Proof. exact c89_same. Qed.
Print Assumptions C89_control_order_and_swap.
Example C89_example : same_gate (gX (TInt 3) (ITup [QInt 2; QInt 0; QInt 1]) None false) (gX (TInt 3) (ITup [QInt 0; QInt 1; QInt 2]) None false) /\
    same_gate (SWAP (TTup [0; 2]) (IInt 1) None false) (SWAP (TTup [2; 0]) (IInt 1) None false).
Proof.
  split; [|apply same_swap]. apply (same_controls (gX (TInt 3) (ITup [QInt 2; QInt 0; QInt 1]) None false) [2; 0; 1] [0; 1; 2]); [apply (cq_ints [2; 0; 1])|].
  eapply perm_trans; [apply Permutation.perm_swap|]. apply perm_skip, Permutation.perm_swap.
Qed.

(** C90: noise=() is no noise for every observation, but the output is a DensityMatrix *)
Theorem C90_empty_noise_observations_partial : forall w n vals c c' gs st, set_order (set_iter w) -> runnable n vals c gs -> sequence_of c' (map drop_empty_noise gs) -> state_of n st ->
    (exists out out', run w c st vals = Ok (Some out) /\ run w c' st vals = Ok (Some out') /\ keq n (density_of out) (density_of out')) /\
    (forall obs Ks mode key, flat_values vals -> obs <> [] -> Forall2 (readable w n vals st gs) obs Ks -> exact_mode mode ->
       exists es, expectation w st c obs vals mode 0 key = Ok es /\ expectation w st c' obs vals mode 0 key = Ok es) /\
    (forall k, choice_contract w -> 1 <= n -> (1 <= k)%Z ->
       exists counts, fst (sample w st c vals k) = Ok counts /\ fst (sample w st c' vals k) = Ok counts).
Proof. exact c90_observed. Qed.
Print Assumptions C90_empty_noise_observations_partial.
Theorem C90_empty_noise_refuted : forall w n vals g psi, set_order (set_iter w) -> usable n vals g -> dense_gate g -> noise g = Some [] -> length (target g) = 1 -> is_state n psi ->
    exists rho phi, run w (OpSequence [OGate g]) (SDense psi) vals = Ok (Some (SDM rho)) /\
      run w (OpSequence [OGate (drop_empty_noise g)]) (SDense psi) vals = Ok (Some (SDense phi)).
Proof. exact c90_refuted. Qed.
Print Assumptions C90_empty_noise_refuted.
Example C90_example : noise (gX (TInt 0) no_control (Some []) false) = Some [] /\ drop_empty_noise (gX (TInt 0) no_control (Some []) false) = gX (TInt 0) no_control None false /\
    usable 1 [] (gX (TInt 0) no_control (Some []) false).
Proof.
  split; [reflexivity|split; [reflexivity|]]. do 3 eexists; split; [eapply gm_fixed; simpl; eauto 10|apply cq_default|reflexivity|apply valid_one; lia].
Qed.

(** C91: a list of observables is evaluated observable by observable *)
Theorem C91_observables_are_independent : forall w st c obs vals mode key es, unsampled mode ->
    (expectation w st c obs vals mode 0 key = Ok es <-> obs <> [] /\ Forall2 (fun l e => expectation w st c [l] vals mode 0 key = Ok [e]) obs es).
Proof. exact c92_each. Qed.
Print Assumptions C91_observables_are_independent.
Example C91_example : unsampled ADJOINT /\ exists e, expectation inc_world (SDM (mixed 3)) ex_noisy_oper [ex_obs; ex_obs] ex_values GPSR 0 0 = Ok [e; e].
Proof.
  split; [right; right; reflexivity|]. eexists. apply (exact_spec inc_world 3 ex_values ex_noisy_oper ex_noisy_gates (SDM (mixed 3)) [ex_obs; ex_obs] [ex_obs_op; ex_obs_op]).
  - exact inc_world_order.
  - exact ex_values_flat.
  - exact noisy_runnable.
  - apply mixed_density.
  - discriminate.
  - repeat (constructor; [apply noisy_readable|]). constructor.
  - constructor.
Qed.

(** C92: the eigenvalues a rotation reports are those of its generator, and the gap is their smallest difference; the
    generator is what the derivative of the gate at 0 says it is.  With two or more controls, and for PHASE, the list is
    not the spectrum of the generator. *)
Theorem C92_generators : forall n cs t, 
    (forall nm R_ G, In (nm, R_, G) rotations -> kderiv n (fun s => gate_op (R_ s) cs [t]) 0 (kscale minus_half_i (controlled_generator G cs [t]))) /\
    kderiv n (fun s => gate_op (PHASE_matrix s) cs [t]) 0 (kscale minus_half_i (controlled_generator PHASE_generator cs [t])).
Proof. exact c92_generator. Qed.
Print Assumptions C92_generators.
Theorem C92_eigenvalues_partial : forall g nm R_ G cs, dense_gate g -> generator_name g = nm -> In (nm, R_, G) rotations -> control_qubits (control g) cs -> length cs <= 1 ->
    exists es V, eigenvals_generator g = Ok es /\ eigenbasis (S (length cs)) (controlled_generator G (seq 0 (length cs)) [length cs]) es V.
Proof. exact c92_eigenvalues. Qed.
Print Assumptions C92_eigenvalues_partial.
Theorem C92_spectral_gap_partial : forall g nm R_ G, dense_gate g -> generator_name g = nm -> In (nm, R_, G) rotations ->
    exists es d, eigenvals_generator g = Ok es /\ spectral_gap g = Ok d /\ smallest_gap es d.
Proof. exact c92_gap. Qed.
Print Assumptions C92_spectral_gap_partial.
Theorem C92_many_controls_refuted : forall g nm R_ G cs, dense_gate g -> generator_name g = nm -> In (nm, R_, G) rotations -> control_qubits (control g) cs -> 2 <= length cs ->
    exists es, eigenvals_generator g = Ok es /\ forall K V, ~ eigenbasis (S (length cs)) K es V.
Proof. exact c92_many_controls_refuted. Qed.
Print Assumptions C92_many_controls_refuted.
Theorem C92_phase_refuted : forall p t ns, let g := PHASE p (TInt t) no_control ns false in
    exists es, eigenvals_generator g = Ok es /\ (forall V, ~ eigenbasis 1 PHASE_generator es V) /\ spectral_gap g = Ok 0%R.
Proof. exact c92_phase_refuted. Qed.
Print Assumptions C92_phase_refuted.
Example C92_example : exists es V,
    eigenvals_generator (RY (PName "t") (TInt 1) (IInt 0) None false) = Ok es /\ eigenbasis 2 (controlled_generator Y_matrix [0] [1]) es V.
Proof.
  apply (C92_eigenvalues_partial (RY (PName "t") (TInt 1) (IInt 0) None false) "Y"%string RY_matrix Y_matrix [0]);
    [reflexivity|reflexivity|simpl; tauto|apply (cq_ints [0])|simpl; lia].
Qed.
Example C92_many_controls : exists es, eigenvals_generator (RX (PName "t") (TInt 2) (ITup [QInt 0; QInt 1]) None false) = Ok es /\ forall K V, ~ eigenbasis 3 K es V.
Proof.
  apply (C92_many_controls_refuted (RX (PName "t") (TInt 2) (ITup [QInt 0; QInt 1]) None false) "X"%string RX_matrix X_matrix [0; 1]);
    [reflexivity|reflexivity|simpl; tauto|apply (cq_ints [0; 1])|simpl; lia].
Qed.

(** C93: the effect of the noise of the last gate on the Pauli expectations of its qubit *)
Theorem C93_noise_attenuates : forall w n vals c c' gs g i q st P mode key,
    set_order (set_iter w) -> flat_values vals -> runnable n vals c (gs ++ [g]) -> sequence_of c' (gs ++ [add_noise i g]) -> target g = [q] ->
    well_typed i -> valid_parameter i -> state_of n st -> physical n st -> exact_mode mode ->
    exists v, expectation w st c [pauli_observable P q] vals mode 0 key = Ok [v] /\
      expectation w st c' [pauli_observable P q] vals mode 0 key = Ok [attenuated i P v].
Proof. exact c93_attenuation. Qed.
Print Assumptions C93_noise_attenuates.
Definition bell_gates : list gate := [gH (TInt 0) no_control None false; gX (TInt 1) (IInt 0) None false].
Example bell_usable : Forall (usable 2 []) bell_gates.
Proof.
  apply Forall_cons; [|apply Forall_cons; [|apply Forall_nil]]; do 3 eexists; (split; [eapply gm_fixed; simpl; eauto 10| |reflexivity|]).
  - apply cq_default.
  - apply valid_one; lia.
  - apply (cq_ints [0]).
  - split; [ex_nodup|]. repeat constructor; lia.
Qed.
Example bell_runnable : runnable 2 [] (OpSequence (map OGate bell_gates)) bell_gates.
Proof.
  split; [apply flat_sequence|]. split; [discriminate|]. split; [exact bell_usable|]. split; repeat constructor.
Qed.
Example bell_input : state_of 2 (SDense (basis [0; 0])) /\ physical 2 (SDense (basis [0; 0])).
Proof. split; [split; reflexivity|]. lazy -[Rplus Rmult Ropp Rminus IZR]; ring. Qed.
Example C93_example : exists v,
    expectation ex_world (SDense (basis [0; 0])) (OpSequence (map OGate bell_gates)) [pauli_observable PZ 1] [] AD 0 0 = Ok [v] /\
    expectation ex_world (SDense (basis [0; 0]))
      (OpSequence (map OGate [gH (TInt 0) no_control None false; gX (TInt 1) (IInt 0) (Some [mkNoise AMPLITUDE_DAMPING (PFloat (1 / 4))]) false]))
      [pauli_observable PZ 1] [] AD 0 0 = Ok [attenuated (mkNoise AMPLITUDE_DAMPING (PFloat (1 / 4))) PZ v].
Proof.
  apply (C93_noise_attenuates ex_world 2 [] (OpSequence (map OGate bell_gates)) _ [gH (TInt 0) no_control None false] (gX (TInt 1) (IInt 0) None false)).
  - exact ex_world_order.
  - left; reflexivity.
  - exact bell_runnable.
  - apply (flat_sequence [gH (TInt 0) no_control None false; gX (TInt 1) (IInt 0) (Some [mkNoise AMPLITUDE_DAMPING (PFloat (1 / 4))]) false]).
  - reflexivity.
  - exact Logic.I.
  - unfold valid_parameter, is_prob; simpl; lra.
  - apply bell_input.
  - apply bell_input.
  - constructor.
Qed.

(** C94: observables that are diagonal in the computational basis can be read off the samples: for Z, and in general *)
Theorem C94_samples_give_Z_expectation : forall w n vals c gs st q mode key k,
    set_order (set_iter w) -> flat_values vals -> runnable n vals c gs -> state_of n st -> physical n st -> q < n -> (1 <= k)%Z -> exact_mode mode ->
    exists v p counts, expectation w st c [pauli_observable PZ q] vals mode 0 key = Ok [v] /\ is_distribution p /\
      forall Om, fair_sampling Om 0 p (Z.to_nat k) ->
        Forall (fun qc => fst (sample (with_choice w (snd qc)) st c vals k) = Ok (counts (snd qc))) Om /\
        expected Om (fun ch => signs q (counts ch)) = v.
Proof. exact c94_z. Qed.
Print Assumptions C94_samples_give_Z_expectation.
Theorem C94_samples_give_diagonal_expectations : forall w n vals c gs st l K mode key k,
    set_order (set_iter w) -> flat_values vals -> runnable n vals c gs -> state_of n st -> physical n st -> 1 <= n -> (1 <= k)%Z ->
    readable w n vals st gs l K -> diagonal_op n K -> exact_mode mode ->
    exists v p counts, expectation w st c [l] vals mode 0 key = Ok [v] /\ is_distribution p /\
      forall Om, fair_sampling Om 0 p (Z.to_nat k) ->
        Forall (fun qc => fst (sample (with_choice w (snd qc)) st c vals k) = Ok (counts (snd qc))) Om /\
        expected Om (fun ch => read_off K (counts ch)) = v.
Proof. exact c94_read_off. Qed.
Print Assumptions C94_samples_give_diagonal_expectations.
Example C94_example : exists v p counts,
    expectation ex_world (SDense (basis [0; 0])) (OpSequence (map OGate bell_gates)) [pauli_observable PZ 1] [] AD 0 0 = Ok [v] /\ is_distribution p /\
    forall Om, fair_sampling Om 0 p 7 ->
      Forall (fun qc => fst (sample (with_choice ex_world (snd qc)) (SDense (basis [0; 0])) (OpSequence (map OGate bell_gates)) [] 7) = Ok (counts (snd qc))) Om /\
      expected Om (fun ch => signs 1 (counts ch)) = v.
Proof.
  apply (C94_samples_give_Z_expectation ex_world 2 [] (OpSequence (map OGate bell_gates)) bell_gates (SDense (basis [0; 0])) 1 AD 0 7%Z); try lia.
  - exact ex_world_order.
  - left; reflexivity.
  - exact bell_runnable.
  - apply bell_input.
  - apply bell_input.
  - constructor.
Qed.
(** fair generators exist for every distribution *)
Example C94_fair : forall p, is_distribution p -> exists Om, fair_sampling Om 0 p 7.
Proof. intros p H. destruct (fair_draws_exist 0 p 7 H) as (Om & F & _). exists Om; exact F. Qed.
