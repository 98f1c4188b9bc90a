(** * The algebra of noise channels *)
From Coq Require Import String List Arith Bool Reals Lia Lra ZArith Permutation Sorted Nsatz.
From Verif Require Import Cplx Py PyFacts Ndarray OperatorUtils Sparse Matrices Noise Gates Apply Composite Conversion Shots Gpsr Api
  Spec SpecFacts Deriv GateSpec PropSpec NoiseSpec SampleSpec ExpectSpec GpsrSpec GateFacts CircuitFacts AlgebraFacts ApplyThm GateThm TensorFacts TensorThm
  KrausThm NoiseThm NoiseThm2 SeqThm SampleThm ShotsSpec ShotsThm ExpectThm ExpectThm2 GpsrFacts GpsrThm StructSpec PhysSpec PhysThm PhysThm3 PhysThm8 NoiseLawSpec.
Import ListNotations.
Local Open Scope list_scope.
Local Open Scope nat_scope.

(** ** channels act on the block of one qubit *)
Definition block (q : nat) (r : op) (x y : list nat) : op := fun a b => r (overwrite x [q] a) (overwrite y [q] b).
Lemma sandwich_block : forall n q A r x y, q < n -> In x (bitstrings n) -> In y (bitstrings n) ->
    sandwiched n (ctrl_kernel A [] [q]) r x y = sandwiched 1 A (block q r x y) (bits_at x [q]) (bits_at y [q]).
Proof.
  intros n q A r x y Hq Hx Hy. unfold sandwiched at 1.
  assert (L : forall u v, In u (bitstrings n) -> kmul n (ctrl_kernel A [] [q]) r u v = csum (bitstrings 1) (fun z => Cmul (A (bits_at u [q]) z) (r (overwrite u [q] z) v))).
  { intros u v Hu. change (apply_kernel n (ctrl_kernel A [] [q]) (fun z => r z v) u = csum (bitstrings 1) (fun z => Cmul (A (bits_at u [q]) z) (r (overwrite u [q] z) v))).
    rewrite ctrl_kernel_action by exact Hu. reflexivity. }
  set (B := kmul n (ctrl_kernel A [] [q]) r) in *.
  transitivity (csum (bitstrings 1) (fun z => Cmul (B x (overwrite y [q] z)) (Cconj (A (bits_at y [q]) z)))).
  - transitivity (Cconj (apply_kernel n (ctrl_kernel A [] [q]) (fun v => Cconj (B x v)) y)).
    + unfold kmul at 1, apply_kernel. rewrite csum_conj. apply csum_ext. intros v Hv. unfold kadj. rewrite Cconj_mul, Cconj_invol. ring.
    + rewrite ctrl_kernel_action by exact Hy. unfold ctrl_action, gate_action; cbn [bits_at map all_ones forallb length]. rewrite csum_conj. apply csum_ext. intros z Hz.
      rewrite Cconj_mul, Cconj_invol. ring.
  - unfold sandwiched, kmul at 1. apply csum_ext. intros z Hz. unfold kadj. f_equal. rewrite L by exact Hx. reflexivity.
Qed.
Definition channel1 (ks : list arr) (b : op) : op := ksum (map (fun K => sandwiched 1 (entry K) b) ks).
Lemma sandwiched_ext1 : forall A b b', keq 1 b b' -> keq 1 (sandwiched 1 A b) (sandwiched 1 A b').
Proof. intros A b b' E. unfold sandwiched. apply kmul_ext; [apply kmul_ext; [apply keq_refl|exact E]|apply keq_refl]. Qed.
Lemma channel1_ext : forall ks b b', keq 1 b b' -> keq 1 (channel1 ks b) (channel1 ks b').
Proof. intros ks b b' E. unfold channel1. apply ksum_keq. induction ks as [|K ks IH]; constructor; [apply sandwiched_ext1; exact E|exact IH]. Qed.
Lemma kraus_block : forall n q ks r x y, q < n -> In x (bitstrings n) -> In y (bitstrings n) ->
    kraus_sum n q ks r x y = channel1 ks (block q r x y) (bits_at x [q]) (bits_at y [q]).
Proof.
  intros n q ks r x y Hq Hx Hy. unfold kraus_sum, channel1. induction ks as [|K ks IH]; [reflexivity|]. cbn [map ksum]. unfold kadd. rewrite IH.
  rewrite (sandwich_block n q _ r x y Hq Hx Hy). reflexivity.
Qed.
Lemma bits1_in : forall n x q, q < n -> In x (bitstrings n) -> In (bits_at x [q]) (bitstrings 1).
Proof. intros n x q Hq Hx. exact (bits_at_bits n x [q] Hx). Qed.
Lemma block_kraus : forall n q ks r x y, q < n -> In x (bitstrings n) -> In y (bitstrings n) ->
    keq 1 (block q (kraus_sum n q ks r) x y) (channel1 ks (block q r x y)).
Proof.
  intros n q ks r x y Hq Hx Hy a b Ha Hb. unfold block at 1.
  assert (V : valid_qubits n [q]) by (apply valid_one; exact Hq).
  pose proof (bitstrings_length 1 a Ha) as La. pose proof (bitstrings_length 1 b Hb) as Lb.
  rewrite kraus_block; [|exact Hq|apply overwrite_bits; assumption|apply overwrite_bits; assumption].
  rewrite !(bits_at_overwrite_same n) by (auto using bitstrings_length). apply channel1_ext; auto.
  intros c d Hc Hd. unfold block. rewrite !overwrite_overwrite by (auto; apply (bitstrings_length 1); assumption). reflexivity.
Qed.
Definition fold1 (l : list noise_inst) (b : op) : op := fold_left (fun b i => channel1 (kraus_of i) b) l b.
Lemma fold1_ext : forall l b b', keq 1 b b' -> keq 1 (fold1 l b) (fold1 l b').
Proof. induction l as [|i l IH]; intros b b' E; [exact E|]. cbn [fold1 fold_left]. apply IH, channel1_ext, E. Qed.
Lemma fold_block : forall n q l r x y, q < n -> In x (bitstrings n) -> In y (bitstrings n) ->
    fold_left (fun r i => kraus_sum n q (kraus_of i) r) l r x y = fold1 l (block q r x y) (bits_at x [q]) (bits_at y [q]).
Proof.
  intros n q l; induction l as [|i l IH]; intros r x y Hq Hx Hy.
  - cbn [fold_left fold1]. unfold block. rewrite !overwrite_self; [reflexivity| |]; intros k [<-|[]]; rewrite (bitstrings_length n) by assumption; exact Hq.
  - cbn [fold_left]. rewrite IH by assumption. change (fold1 (i :: l) (block q r x y)) with (fold1 l (channel1 (kraus_of i) (block q r x y))). apply fold1_ext; [|eapply bits1_in; eassumption|eapply bits1_in; eassumption]. apply block_kraus; assumption.
Qed.
Lemma fold_law : forall n q l l', q < n -> (forall b, keq 1 (fold1 l b) (fold1 l' b)) -> forall r,
    keq n (fold_left (fun r i => kraus_sum n q (kraus_of i) r) l r) (fold_left (fun r i => kraus_sum n q (kraus_of i) r) l' r).
Proof. intros n q l l' Hq E r x y Hx Hy. rewrite !fold_block by assumption. apply E; eapply bits1_in; eassumption. Qed.
(** ** the laws on one qubit *)
Definition accepted (i : noise_inst) : Prop := well_typed i /\ valid_parameter i.
Definition docd (i : noise_inst) (b : op) : op := match documented_channel i b with Some D => D | None => b end.
Lemma channel1_doc : forall i b, accepted i -> keq 1 (channel1 (kraus_of i) b) (docd i b).
Proof.
  intros i b [T V]. destruct (c26_valid i T V) as (ks & E & _). destruct (c27_documented i ks b E) as (D & ED & K). unfold kraus_of, docd. rewrite E, ED. exact K.
Qed.
Lemma accept_float : forall t p, accepted (mkNoise t (PFloat p)) -> is_prob p.
Proof. intros t p [T V]. destruct t; cbn in T, V; try contradiction; exact V. Qed.
Lemma accept_pauli : forall px py pz, accepted (pauli_channel px py pz) <-> (0 <= px /\ 0 <= py /\ 0 <= pz /\ px + py + pz <= 1)%R.
Proof.
  intros px py pz. unfold accepted, pauli_channel, well_typed, valid_parameter; cbn [ntype error_probability length fold_right]. split.
  - intros [_ [F S]]. inversion F as [|? ? A F1]; inversion F1 as [|? ? B F2]; inversion F2 as [|? ? D F3]; subst. unfold is_prob in *. lra.
  - intros (A & B & D & S). split; [lia|]. unfold is_prob. split; [repeat apply Forall_cons; try apply Forall_nil; lra|lra].
Qed.
Lemma accept_gad : forall p r, accepted (generalized_amplitude_damping p r) <-> is_prob p /\ is_prob r.
Proof.
  intros p r. unfold accepted, generalized_amplitude_damping, well_typed, valid_parameter; cbn [ntype error_probability length firstn]. split.
  - intros [_ F]. inversion F as [|? ? A F1]; inversion F1 as [|? ? B F2]; subst. split; assumption.
  - intros [A B]. split; [lia|]. repeat apply Forall_cons; try apply Forall_nil; assumption.
Qed.
Lemma accept_bitflip : forall p, accepted (bitflip p) <-> is_prob p. Proof. intro p; split; [apply accept_float|intro H; split; [exact Logic.I|exact H]]. Qed.
Lemma accept_phaseflip : forall p, accepted (phaseflip p) <-> is_prob p. Proof. intro p; split; [apply accept_float|intro H; split; [exact Logic.I|exact H]]. Qed.
Lemma accept_depolarizing : forall p, accepted (depolarizing p) <-> is_prob p. Proof. intro p; split; [apply accept_float|intro H; split; [exact Logic.I|exact H]]. Qed.
Lemma accept_amplitude : forall p, accepted (amplitude_damping p) <-> is_prob p. Proof. intro p; split; [apply accept_float|intro H; split; [exact Logic.I|exact H]]. Qed.
Lemma accept_phase : forall p, accepted (phase_damping p) <-> is_prob p. Proof. intro p; split; [apply accept_float|intro H; split; [exact Logic.I|exact H]]. Qed.
Ltac acc_norm := repeat match goal with
  | H : Forall accepted _ |- _ => inversion H; subst; clear H
  | H : accepted (bitflip _) |- _ => apply accept_bitflip in H
  | H : accepted (phaseflip _) |- _ => apply accept_phaseflip in H
  | H : accepted (depolarizing _) |- _ => apply accept_depolarizing in H
  | H : accepted (amplitude_damping _) |- _ => apply accept_amplitude in H
  | H : accepted (phase_damping _) |- _ => apply accept_phase in H
  | H : accepted (pauli_channel _ _ _) |- _ => apply accept_pauli in H
  | H : accepted (generalized_amplitude_damping _ _) |- _ => apply accept_gad in H
  end.
Ltac acc_goal := first [apply accept_bitflip|apply accept_phaseflip|apply accept_depolarizing|apply accept_amplitude|apply accept_phase|apply accept_pauli|apply accept_gad].
Lemma law_accepted : forall l l', noise_law l l' -> Forall accepted l -> Forall accepted l'.
Proof.
  intros l l' H F. destruct H; acc_norm; repeat match goal with H : _ /\ _ |- _ => destruct H end; repeat (apply Forall_cons; [|]); try apply Forall_nil; try assumption;
    acc_goal; unfold is_prob in *; repeat split; try nra; try lra.
  all: assert (P0 : (0 <= p0)%R) by (unfold p0; lra); assert (Q0 : (0 <= q0)%R) by (unfold q0; lra);
    assert (PS : (p0 + px + py + pz = 1)%R) by (unfold p0; ring); assert (QS : (q0 + qx + qy + qz = 1)%R) by (unfold q0; ring); clearbody p0 q0.
  1-3: repeat apply Rplus_le_le_0_compat; apply Rmult_le_pos; assumption.
  assert (E : ((p0 + px + py + pz) * (q0 + qx + qy + qz) = 1)%R) by (rewrite PS, QS; ring).
  assert (0 <= p0 * q0 + px * qx + py * qy + pz * qz)%R by (repeat apply Rplus_le_le_0_compat; apply Rmult_le_pos; assumption). lra.
Qed.
Lemma sqrt_prod : forall p q, is_prob p -> is_prob q -> sqrt (1 - (p + q - p * q)) = (sqrt (1 - p) * sqrt (1 - q))%R.
Proof. intros p q [A B] [D E]. rewrite <- sqrt_mult by lra. f_equal. ring. Qed.
Lemma sqrt_flip : forall p, (p <= / 2)%R -> sqrt (1 - 4 * p * (1 - p)) = (1 - 2 * p)%R.
Proof. intros p H. replace (1 - 4 * p * (1 - p))%R with ((1 - 2 * p) * (1 - 2 * p))%R by ring. apply sqrt_square. lra. Qed.
(** every channel acts on the entries [a b; c d] by six real numbers *)
Record shape : Type := mkShape { s_aa : R; s_ad : R; s_da : R; s_dd : R; s_b : R; s_c : R }.
Definition act (s : shape) (r : op) : op :=
  entrywise (fun a b c d => mat2 (Cadd (Cmul (RtoC (s_aa s)) a) (Cmul (RtoC (s_ad s)) d)) (Cadd (Cmul (RtoC (s_b s)) b) (Cmul (RtoC (s_c s)) c))
                                 (Cadd (Cmul (RtoC (s_c s)) b) (Cmul (RtoC (s_b s)) c)) (Cadd (Cmul (RtoC (s_da s)) a) (Cmul (RtoC (s_dd s)) d))) r.
Definition pauli_shape (px py pz : R) : shape :=
  mkShape (1 - px - py) (px + py) (px + py) (1 - px - py) (1 - px - py - 2 * pz) (px - py).
Definition shape_of (i : noise_inst) : shape :=
  match ntype i, error_probability i with
  | BITFLIP, PFloat p => pauli_shape p 0 0
  | PHASEFLIP, PFloat p => pauli_shape 0 0 p
  | DEPOLARIZING, PFloat p => pauli_shape (p / 3) (p / 3) (p / 3)
  | PAULI_CHANNEL, PTuple (px :: py :: pz :: _) => pauli_shape px py pz
  | AMPLITUDE_DAMPING, PFloat p => mkShape 1 p 0 (1 - p) (sqrt (1 - p)) 0
  | PHASE_DAMPING, PFloat p => mkShape 1 0 0 1 (sqrt (1 - p)) 0
  | GENERALIZED_AMPLITUDE_DAMPING, PTuple (p :: r :: _) => mkShape (1 - (1 - p) * r) (p * r) ((1 - p) * r) (1 - p * r) (sqrt (1 - r)) 0
  | _, _ => mkShape 1 0 0 1 1 0
  end.
Definition after (s2 s1 : shape) : shape :=
  mkShape (s_aa s2 * s_aa s1 + s_ad s2 * s_da s1) (s_aa s2 * s_ad s1 + s_ad s2 * s_dd s1)
          (s_da s2 * s_aa s1 + s_dd s2 * s_da s1) (s_da s2 * s_ad s1 + s_dd s2 * s_dd s1)
          (s_b s2 * s_b s1 + s_c s2 * s_c s1) (s_b s2 * s_c s1 + s_c s2 * s_b s1).
Ltac four b := destruct (b (0 :: nil) (0 :: nil)) as [a1 a2], (b (0 :: nil) (1 :: nil)) as [b1 b2], (b (1 :: nil) (0 :: nil)) as [c1 c2], (b (1 :: nil) (1 :: nil)) as [d1 d2].
Lemma docd_shape : forall i b, accepted i -> keq 1 (docd i b) (act (shape_of i) b).
Proof.
  intros [t [p|l]] b [T V] x y Hx Hy; destruct t; cbn in T; try contradiction; try (destruct l as [|px [|py [|pz l]]]; cbn in T; try lia);
  unfold docd, documented_channel, shape_of, act, pauli_shape; cbn [ntype error_probability s_aa s_ad s_da s_dd s_b s_c];
  unfold ksum, sandwiched, kmul, kadj, kscale, entrywise, Cn, mat2, X_matrix, Y_matrix, Z_matrix; bits1 Hx; bits1 Hy; cbn [bitstrings map app csum fold_right mat2 X_matrix Y_matrix Z_matrix];
  four b; apply C_ext; simpl; field.
Qed.
Lemma act_after : forall s2 s1 b, keq 1 (act s2 (act s1 b)) (act (after s2 s1) b).
Proof.
  intros s2 s1 b x y Hx Hy. unfold act, after, entrywise; cbn [s_aa s_ad s_da s_dd s_b s_c]. bits1 Hx; bits1 Hy; cbn [mat2]; unfold RtoC; four b; apply C_ext; simpl; ring.
Qed.
Lemma docd_ext : forall i b b', accepted i -> keq 1 b b' -> keq 1 (docd i b) (docd i b').
Proof.
  intros i b b' A E. eapply keq_trans; [apply keq_sym, channel1_doc, A|]. eapply keq_trans; [apply channel1_ext, E|apply channel1_doc, A].
Qed.
Lemma fold1_one : forall i b, accepted i -> keq 1 (fold1 [i] b) (act (shape_of i) b).
Proof. intros i b A. eapply keq_trans; [apply channel1_doc, A|apply docd_shape, A]. Qed.
Lemma fold1_two : forall i j b, accepted i -> accepted j -> keq 1 (fold1 [i; j] b) (act (after (shape_of j) (shape_of i)) b).
Proof.
  intros i j b A B. cbn [fold1 fold_left]. eapply keq_trans; [apply channel1_ext; eapply keq_trans; [apply channel1_doc, A|apply docd_shape, A]|].
  eapply keq_trans; [apply channel1_doc, B|]. eapply keq_trans; [apply docd_shape, B|apply act_after].
Qed.
Definition law_shape (l : list noise_inst) : shape :=
  match l with [i] => shape_of i | [i; j] => after (shape_of j) (shape_of i) | _ => mkShape 1 0 0 1 1 0 end.
Lemma fold1_shape : forall l b, Forall accepted l -> length l = 1 \/ length l = 2 -> keq 1 (fold1 l b) (act (law_shape l) b).
Proof.
  intros [|i [|j [|k l]]] b F [L|L]; try discriminate L; acc_norm; [apply fold1_one|apply fold1_two]; assumption.
Qed.
Lemma law_length : forall l l', noise_law l l' -> (length l = 1 \/ length l = 2) /\ (length l' = 1 \/ length l' = 2).
Proof. intros l l' H; destruct H; cbn; auto. Qed.
Lemma law_shapes : forall l l', noise_law l l' -> Forall accepted l -> law_shape l = law_shape l'.
Proof.
  intros l l' H F. destruct H; acc_norm; repeat match goal with H : pauli_type _ |- _ => destruct H | H : decay _ |- _ => destruct H end; acc_norm;
    repeat match goal with H : _ /\ _ |- _ => destruct H end;
    unfold law_shape, shape_of, after, pauli_shape, bitflip, phaseflip, depolarizing, pauli_channel, amplitude_damping, phase_damping, generalized_amplitude_damping;
    cbn [ntype error_probability s_aa s_ad s_da s_dd s_b s_c]; rewrite ?sqrt_prod, ?sqrt_flip by assumption; f_equal; try (unfold p0, q0); try field.
Qed.
Lemma law_fold : forall l l', noise_law l l' -> Forall accepted l -> forall b, keq 1 (fold1 l b) (fold1 l' b).
Proof.
  intros l l' H F b. destruct (law_length l l' H) as [L L']. eapply keq_trans; [apply fold1_shape; assumption|]. rewrite (law_shapes l l' H F).
  apply keq_sym, fold1_shape; [apply (law_accepted l l' H F)|exact L'].
Qed.
(** ** whole circuits *)
Lemma same_everything : forall w vals c c' gs gs' st out, sequence_of c gs -> sequence_of c' gs' ->
    run w c st vals = Ok (Some out) -> run w c' st vals = Ok (Some out) ->
    apply_gates w st (GMany gs) vals UNITARY false true = Ok out -> apply_gates w st (GMany gs') vals UNITARY false true = Ok out ->
    (forall k, fst (sample w st c vals k) = fst (sample w st c' vals k)) /\
    (flat_values vals -> forall obs mode shots key, expectation w st c obs vals mode shots key = expectation w st c' obs vals mode shots key).
Proof.
  intros w vals c c' gs gs' st out S S' R R' A A'. split.
  - intro k. unfold sample. unfold run in R, R'. rewrite R, R'. destruct (Z.ltb k 1); [reflexivity|]. destruct (num_qubits out) as [n|]; [|reflexivity].
    destruct (square_dm out n); reflexivity.
  - intros FV obs mode shots key. unfold expectation. pose proof (sequence_iter c gs S) as I. pose proof (sequence_iter c' gs' S') as I'.
    assert (RF : run_flat w st c vals = run_flat w st c' vals) by (unfold run_flat; rewrite I, I'; cbn [bind]; congruence).
    assert (AD : ad_expectation w st c obs vals = ad_expectation w st c' obs vals).
    { unfold ad_expectation. rewrite (values_routed vals vals vals) by (right; auto). cbn [bind fst snd]. rewrite RF. reflexivity. }
    assert (AJ : adjoint_expectation w st c obs vals = adjoint_expectation w st c' obs vals).
    { unfold adjoint_expectation, adjoint_single. rewrite RF. reflexivity. }
    rewrite I, I', AD, AJ. cbn [bind]. unfold finite_shots, analytical_expectation. rewrite A, A'. reflexivity.
Qed.
Lemma with_noise_usable : forall n vals l l' g, usable n vals (with_noise l g) -> usable n vals (with_noise l' g).
Proof.
  intros n vals i i' g (M & cs & ts & [HM HC HT HV]). exists M, cs, ts. split; [|exact HC|exact HT|exact HV].
  inversion HM; subst; [eapply gm_fixed|eapply gm_SWAP|eapply gm_rotation|eapply gm_PHASE]; eauto.
Qed.
Lemma step_law : forall n vals g q pre post l l' r, target g = [q] -> q < n -> noise_law l l' -> Forall accepted l ->
    keq n (step n vals (with_noise (pre ++ l ++ post) g) r) (step n vals (with_noise (pre ++ l' ++ post) g) r).
Proof.
  intros n vals g q pre post l l' r T Hq NL FA. unfold step. change (mat_of vals (with_noise (pre ++ l ++ post) g)) with (mat_of vals g).
  change (mat_of vals (with_noise (pre ++ l' ++ post) g)) with (mat_of vals g). cbn [with_noise target control noise]. rewrite T. unfold channels. cbn [hd].
  rewrite !fold_left_app. set (r1 := fold_left _ pre _).
  assert (E : forall m a b, keq n a b -> keq n (fold_left (fun r i => kraus_sum n q (kraus_of i) r) m a) (fold_left (fun r i => kraus_sum n q (kraus_of i) r) m b)).
  { induction m as [|i m IH]; intros a b K; [exact K|]. cbn [fold_left]. apply IH, kraus_sum_ext, K. }
  apply E. apply fold_law; [exact Hq|]. apply law_fold; assumption.
Qed.
Lemma c100_noise_laws : forall w n vals c c' gs1 g gs2 pre post l l' st,
    set_order (set_iter w) -> noise_law l l' ->
    runnable n vals c (gs1 ++ with_noise (pre ++ l ++ post) g :: gs2) -> sequence_of c' (gs1 ++ with_noise (pre ++ l' ++ post) g :: gs2) -> state_of n st ->
    runnable n vals c' (gs1 ++ with_noise (pre ++ l' ++ post) g :: gs2) /\
    (exists out, run w c st vals = Ok (Some out) /\ run w c' st vals = Ok (Some out)) /\
    (forall k, fst (sample w st c vals k) = fst (sample w st c' vals k)) /\
    (flat_values vals -> forall obs mode shots key, expectation w st c obs vals mode shots key = expectation w st c' obs vals mode shots key).
Proof.
  intros w n vals c c' gs1 g gs2 pre post l l' st SO NL RN HS' HT. pose proof RN as (HS & NE & FU & FD & FN).
  apply Forall_app in FU as [FU1 FU2]. apply Forall_app in FD as [FD1 FD2]. apply Forall_app in FN as [FN1 FN2].
  inversion FU2 as [|? ? U FU3]; inversion FD2 as [|? ? D FD3]; inversion FN2 as [|? ? N FN3]; subst.
  unfold noise_ok in N. cbn [with_noise noise target] in N. destruct N as [T N]. apply Forall_app in N as [Np N]. apply Forall_app in N as [Nl Nq].
  destruct (target g) as [|q [|q' tl]] eqn:TQ; try discriminate T.
  assert (Hq : q < n). { destruct U as (M & cs & ts & HG). pose proof (go_qubits _ _ _ _ _ _ HG) as [_ B]. pose proof (go_target _ _ _ _ _ _ HG) as TT. cbn [with_noise target] in TT. rewrite TQ in TT. subst ts. apply Forall_app in B as [_ B]. inversion B; subst; assumption. }
  assert (RN' : runnable n vals c' (gs1 ++ with_noise (pre ++ l' ++ post) g :: gs2)).
  { split; [exact HS'|split; [destruct gs1; discriminate|split; [|split]]]; apply Forall_app; (split; [assumption|]); (apply Forall_cons; [|assumption]).
    - eapply with_noise_usable; exact U.
    - exact D.
    - unfold noise_ok. cbn [with_noise noise target]. rewrite TQ. split; [reflexivity|]. apply Forall_app. split; [exact Np|]. apply Forall_app. split; [|exact Nq].
      exact (law_accepted l l' NL Nl). }
  split; [exact RN'|].
  destruct (output_spec w n vals c _ st SO RN HT) as (out & E1 & _ & E2 & S1 & K1 & M1 & _).
  destruct (output_spec w n vals c' _ st SO RN' HT) as (out' & E1' & _ & E2' & S1' & K1' & M1' & _).
  assert (Q : out = out').
  { apply (state_eq n); auto.
    - eapply keq_trans; [exact K1|]. eapply keq_trans; [|apply keq_sym; exact K1']. rewrite !evolve_app. cbn [evolve]. apply evolve_ext. eapply step_law; eassumption.
    - apply M1. right. exists (with_noise (pre ++ l ++ post) g). split; [apply in_or_app; right; left; reflexivity|discriminate].
    - apply M1'. right. exists (with_noise (pre ++ l' ++ post) g). split; [apply in_or_app; right; left; reflexivity|discriminate]. }
  subst out'. split; [eauto|]. eapply same_everything; eauto.
Qed.
(** ** Pauli noise as random Pauli errors *)
Definition error_op (n q : nat) (e : option pauli_kind) (r : op) : op :=
  match e with None => r | Some P => sandwiched n (ctrl_kernel (pauli_op P) [] [q]) r end.
Lemma pauli_unravel : forall n q i r, q < n -> pauli_type i -> accepted i ->
    keq n (kraus_sum n q (kraus_of i) r) (ksum (map (fun e => kscale (RtoC (fst e)) (error_op n q (snd e) r)) (error_weights i))).
Proof.
  intros n q i r Hq PT A x y Hx Hy. rewrite kraus_block by assumption.
  rewrite (channel1_doc i (block q r x y) A) by (eapply bits1_in; eassumption).
  assert (B : block q r x y (bits_at x [q]) (bits_at y [q]) = r x y).
  { unfold block. rewrite !overwrite_self; [reflexivity| |]; intros k [<-|[]]; rewrite (bitstrings_length n) by assumption; exact Hq. }
  destruct PT; unfold docd, documented_channel, error_weights, bitflip, phaseflip, depolarizing, pauli_channel; cbn [ntype error_probability map fst snd ksum error_op];
    unfold kadd, kscale; rewrite !(sandwich_block n q) by assumption; rewrite ?B; reflexivity.
Qed.
Lemma evolve_ksum : forall {A} n vals gs (f : A -> R) (r : A -> op) l,
    keq n (evolve n vals gs (ksum (map (fun a => kscale (RtoC (f a)) (r a)) l))) (ksum (map (fun a => kscale (RtoC (f a)) (evolve n vals gs (r a))) l)).
Proof.
  intros A n vals gs f r l. destruct (linear_evolve n vals gs) as (L1 & L2 & L3 & L4). induction l as [|a l IH]; cbn [map ksum].
  - assert (Z : keq n (fun _ _ => C0) (kscale C0 (fun _ _ => C0))) by (intros x y _ _; unfold kscale; ring).
    eapply keq_trans; [apply L1; exact Z|]. eapply keq_trans; [apply L3|]. intros x y _ _. unfold kscale. ring.
  - eapply keq_trans; [apply L2|]. intros x y Hx Hy. unfold kadd. rewrite (L3 (RtoC (f a)) (r a) x y Hx Hy), (IH x y Hx Hy). reflexivity.
Qed.
Lemma mean_scaled_sum : forall {A} n K (f : A -> R) (r : A -> op) l,
    mean_density n K (ksum (map (fun a => kscale (RtoC (f a)) (r a)) l)) = rsum l (fun a => (f a * mean_density n K (r a))%R).
Proof.
  intros A n K f r l. rewrite mean_density_sum. apply rsum_ext. intros a _. unfold mean_density.
  rewrite (ktrace_ext n (kmul n K (kscale (RtoC (f a)) (r a))) (kscale (RtoC (f a)) (kmul n K (r a)))); [rewrite ktrace_scale; simpl; ring|].
  apply kmul_kscale_r.
Qed.
Lemma error_evolve : forall n vals q e r, evolve n vals (error_gates q e) r = error_op n q e r.
Proof. intros n vals q [[]|] r; reflexivity. Qed.
Lemma error_usable : forall n vals q e, q < n -> Forall (usable n vals) (error_gates q e) /\ Forall dense_gate (error_gates q e) /\ Forall noise_ok (error_gates q e).
Proof.
  intros n vals q e Hq. destruct e as [P|]; [|repeat constructor]. destruct P; (split; [|split; repeat constructor]); (apply Forall_cons; [|apply Forall_nil]);
    do 3 eexists; (split; [eapply gm_fixed; simpl; eauto 10|apply cq_default|reflexivity|apply valid_one; exact Hq]).
Qed.
Lemma c101_unravel : forall w n vals c gs1 g gs2 i q cs st l K mode key,
    set_order (set_iter w) -> flat_values vals -> pauli_type i -> target g = [q] ->
    runnable n vals c (gs1 ++ add_noise i g :: gs2) ->
    Forall2 (fun e c' => sequence_of c' (gs1 ++ g :: error_gates q (snd e) ++ gs2)) (error_weights i) cs ->
    state_of n st -> readable w n vals st (gs1 ++ add_noise i g :: gs2) l K -> exact_mode mode ->
    exists vs, Forall2 (fun c' v => expectation w st c' [l] vals mode 0 key = Ok [v]) cs vs /\
      expectation w st c [l] vals mode 0 key = Ok [weighted (error_weights i) vs].
Proof.
  intros w n vals c gs1 g gs2 i q cs st l K mode key SO FV PT T RN F2 HT RD EM. pose proof RN as (HS & NE & FU & FD & FN).
  apply Forall_app in FU as [FU1 FU2]. apply Forall_app in FD as [FD1 FD2]. apply Forall_app in FN as [FN1 FN2].
  inversion FU2 as [|? ? U FU3]; inversion FD2 as [|? ? D FD3]; inversion FN2 as [|? ? N FN3]; subst.
  assert (Hq : q < n). { destruct U as (M & qs & ts & HG). pose proof (go_qubits _ _ _ _ _ _ HG) as [_ B]. pose proof (go_target _ _ _ _ _ _ HG) as TT. cbn [add_noise target] in TT. rewrite T in TT. subst ts. apply Forall_app in B as [_ B]. inversion B; subst; assumption. }
  unfold noise_ok in N. cbn [add_noise noise target] in N. rewrite T in N. destruct N as [_ N]. apply Forall_app in N as [Ng Ni]. inversion Ni as [|? ? A _]; subst.
  assert (Ug : usable n vals g). { destruct U as (M & qs & ts & [HM HC HT' HV]). exists M, qs, ts. split; [|exact HC|exact HT'|exact HV]. inversion HM; subst; [eapply gm_fixed|eapply gm_SWAP|eapply gm_rotation|eapply gm_PHASE]; eauto. }
  assert (Ngk : noise_ok g). { unfold noise_ok. destruct (noise g); [|exact Logic.I]. rewrite T. split; [reflexivity|exact Ng]. }
  set (r0 := density_of st). set (r1 := step n vals g (evolve n vals gs1 r0)).
  set (V := fun e : R * option pauli_kind => mean_density n K (evolve n vals gs2 (error_op n q (snd e) r1))).
  exists (map V (error_weights i)). split.
  - clear RN NE. induction F2 as [|e c' es cs' S F2 IH]; [constructor|]. cbn [map]. constructor; [|apply IH].
    assert (RN : runnable n vals c' (gs1 ++ g :: error_gates q (snd e) ++ gs2)).
    { destruct (error_usable n vals q (snd e) Hq) as (E1 & E2 & E3). split; [exact S|]. split; [destruct gs1; discriminate|].
      split; [|split]; (apply Forall_app; split; [assumption|]); (apply Forall_cons; [assumption|]); (apply Forall_app; split; assumption). }
    rewrite (exact_spec w n vals c' (gs1 ++ g :: error_gates q (snd e) ++ gs2) st [l] [K] mode key SO FV RN HT); [|discriminate| |exact EM].
    + cbn [map]. do 2 f_equal. rewrite evolve_app. cbn [evolve]. rewrite evolve_app, error_evolve. reflexivity.
    + constructor; [|constructor]. destruct RD as [RS RM]. split; [exact RS|]. intros _. apply RM. right. exists (add_noise i g). split; [apply in_or_app; right; left; reflexivity|discriminate].
  - rewrite (exact_spec w n vals c (gs1 ++ add_noise i g :: gs2) st [l] [K] mode key SO FV RN HT); [|discriminate|constructor; [exact RD|constructor]|exact EM]. cbn [map]. do 2 f_equal. rewrite evolve_app. cbn [evolve].
    destruct (c26_valid i (proj1 A) (proj2 A)) as (ks & EK & _). rewrite (step_add_noise n vals i ks g q _ T EK). fold r0. fold r1.
    pose proof (pauli_unravel n q i r1 Hq PT A) as PU. unfold kraus_of in PU. rewrite EK in PU.
    rewrite (mean_density_ext n K K _ (ksum (map (fun e => kscale (RtoC (fst e)) (evolve n vals gs2 (error_op n q (snd e) r1))) (error_weights i))) (keq_refl n K)).
    + rewrite mean_scaled_sum. unfold weighted. clear F2 PU. induction (error_weights i) as [|e es IH]; [reflexivity|]. cbn [map rsum combine fold_right fst snd]. rewrite IH. reflexivity.
    + eapply keq_trans; [apply evolve_ext; exact PU|]. apply (evolve_ksum n vals gs2 fst (fun e => error_op n q (snd e) r1)).
Qed.
