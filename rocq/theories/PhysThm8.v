(** * The effect of noise on Pauli observables *)
From Coq Require Import String List Arith Bool Reals Lia Lra ZArith Permutation Sorted Nsatz.
From Verif Require Import Cplx Py PyFacts Ndarray OperatorUtils Sparse Matrices Noise Gates Apply Composite Conversion Shots Gpsr Api
  Spec SpecFacts Deriv GateSpec PropSpec NoiseSpec SampleSpec ExpectSpec GpsrSpec GateFacts CircuitFacts AlgebraFacts ApplyThm GateThm TensorFacts TensorThm
  KrausThm NoiseThm NoiseThm2 SeqThm SampleThm ShotsSpec ShotsThm ExpectThm ExpectThm2 GpsrFacts GpsrThm StructSpec PhysSpec PhysThm PhysThm3.
Import ListNotations.
Local Open Scope list_scope.
Local Open Scope nat_scope.

Definition pauli_op (P : pauli_kind) : op := match P with PX => X_matrix | PY => Y_matrix | PZ => Z_matrix end.
(** the channel seen from the observable: a multiple of the operator plus a multiple of the identity *)
Definition factors (i : noise_inst) (P : pauli_kind) : R * R := ((attenuated i P 1 - attenuated i P 0)%R, attenuated i P 0).
Lemma attenuated_factors : forall i P v, attenuated i P v = (fst (factors i P) * v + snd (factors i P))%R.
Proof.
  intros [t [p|l]] P v; unfold factors, attenuated; cbn [ntype error_probability fst snd]; destruct t, P; try ring; destruct l as [|? [|? [|? ?]]]; ring.
Qed.
Lemma dual_channel : forall i ks P, kraus i = Ok ks ->
    keq 1 (ksum (map (fun K => kmul 1 (kmul 1 (kadj (entry K)) (pauli_op P)) (entry K)) ks))
          (kadd (kscale (RtoC (fst (factors i P))) (pauli_op P)) (kscale (RtoC (snd (factors i P))) kid)).
Proof.
  intros i ks P E. destruct (kraus_ok_valid i ks E) as [T V].
  destruct i as [ty [p|l]]; destruct ty; cbn in T; try contradiction; cbn in E, V;
    unfold BitFlip, PhaseFlip, Depolarizing, AmplitudeDamping, PhaseDamping in E;
    try (rewrite (proj2 (bad_prob_spec p) V) in E; injection E as <-).
  6: { destruct l as [|px [|py [|pz l]]]; cbn in T; try lia. pose proof V as V0. apply pauli_valid in V0; destruct V0 as [V1 V2].
       unfold PauliChannel in E; rewrite V1, V2 in E; injection E as <-. destruct V as [V S].
       inversion V as [|? ? Px V3]; inversion V3 as [|? ? Py V4]; inversion V4 as [|? ? Pz V5]; subst.
       pose proof (sum_probs_nonneg l V5) as S0. cbn [fold_right] in S. clear V V3 V4 V5 V1 V2.
       intros x y Hx Hy; destruct P; unfold pauli_op, factors, attenuated, kadd, kscale, ksum, map, kmul, kadj, kid; cbn [ntype error_probability fst snd]; bits1 Hx; bits1 Hy; cbn [bitstrings map app csum fold_right];
       unfold m_I, m_X, m_Y, m_Z; rewrite !entry_sq by (simpl; tauto); sqrt_facts; apply C_ext; simpl; nsatz. }
  6: { destruct l as [|p [|r l]]; cbn in T; try lia. cbn in E, V. inversion V as [|? ? Vp V']; inversion V' as [|? ? Vr _]; subst.
       rewrite (proj2 (bad_prob_spec p) Vp), (proj2 (bad_prob_spec r) Vr) in E; injection E as <-. clear V V'.
       intros x y Hx Hy; destruct P; unfold pauli_op, factors, attenuated, kadd, kscale, ksum, map, kmul, kadj, kid; cbn [ntype error_probability fst snd]; bits1 Hx; bits1 Hy; cbn [bitstrings map app csum fold_right];
       rewrite !entry_sq by (simpl; tauto); sqrt_facts; apply C_ext; simpl; nsatz. }
  all: intros x y Hx Hy; destruct P; unfold pauli_op, factors, attenuated, kadd, kscale, ksum, map, kmul, kadj, kid; cbn [ntype error_probability fst snd]; bits1 Hx; bits1 Hy; cbn [bitstrings map app csum fold_right];
       unfold m_I, m_X, m_Y, m_Z; rewrite ?entry_sq, ?entry_matrix2 by (simpl; tauto); sqrt_facts; apply C_ext; simpl; try nra; nsatz.
Qed.
Lemma conjugated_kernel : forall n q A P, q < n ->
    keq n (kmul n (kmul n (kadj (ctrl_kernel A [] [q])) (ctrl_kernel P [] [q])) (ctrl_kernel A [] [q])) (ctrl_kernel (kmul 1 (kmul 1 (kadj A) P) A) [] [q]).
Proof.
  intros n q A P Hq. assert (V : valid_qubits n ([] ++ [q])) by (apply valid_one; exact Hq).
  rewrite (ctrl_kernel_adj n _ [] [q] V). eapply keq_trans; [apply kmul_ext; [apply (ctrl_kernel_mul n _ _ [] [q] V)|apply keq_refl]|].
  eapply keq_trans; [apply (ctrl_kernel_mul n _ _ [] [q] V)|]. apply keq_refl.
Qed.
Lemma dual_kraus : forall n q ks P r, q < n ->
    mean_density n (ctrl_kernel P [] [q]) (kraus_sum n q ks r) =
    mean_density n (ctrl_kernel (ksum (map (fun K => kmul 1 (kmul 1 (kadj (entry K)) P) (entry K)) ks)) [] [q]) r.
Proof.
  intros n q ks P r Hq. unfold kraus_sum. rewrite mean_density_sum.
  transitivity (mean_density n (ksum (map (fun K => ctrl_kernel (kmul 1 (kmul 1 (kadj (entry K)) P) (entry K)) [] [q]) ks)) r).
  - rewrite mean_ksum, map_map. unfold total. induction ks as [|K ks IH]; [reflexivity|]. cbn [map rsum]. rewrite IH. f_equal.
    unfold mean_density. f_equal. rewrite (ktrace_ext n _ (kmul n (kmul n (ctrl_kernel P [] [q]) (kmul n (ctrl_kernel (entry K) [] [q]) r)) (kadj (ctrl_kernel (entry K) [] [q])))).
    + rewrite ktrace_cyclic. apply ktrace_ext. eapply keq_trans; [|apply kmul_ext; [apply conjugated_kernel; exact Hq|apply keq_refl]].
      rewrite !kmul_assoc. apply keq_refl.
    + unfold sandwiched. rewrite !kmul_assoc. apply keq_refl.
  - apply mean_density_ext; [|apply keq_refl]. apply keq_sym.
    apply (ksum_map_map n (fun K => kmul 1 (kmul 1 (kadj (entry K)) P) (entry K)) (fun A => ctrl_kernel A [] [q]) ks); [intros; apply ctrl_kernel_add|apply ctrl_kernel_zero].
Qed.
Lemma dual_pauli : forall n q i ks P r, q < n -> kraus i = Ok ks -> ktrace n r = C1 ->
    mean_density n (ctrl_kernel (pauli_op P) [] [q]) (kraus_sum n q ks r) = attenuated i P (mean_density n (ctrl_kernel (pauli_op P) [] [q]) r).
Proof.
  intros n q i ks P r Hq E T. rewrite (dual_kraus n q ks (pauli_op P) r Hq), attenuated_factors.
  rewrite (mean_density_ext n _ (ksum [kscale (RtoC (fst (factors i P))) (ctrl_kernel (pauli_op P) [] [q]); kscale (RtoC (snd (factors i P))) kid]) r r); [|
    |apply keq_refl].
  - rewrite mean_ksum. unfold total. cbn [map rsum]. rewrite !mean_kscale. replace (mean_density n kid r) with 1%R; [ring|].
    unfold mean_density. rewrite (ktrace_ext n _ r (kmul_id_l n r)), T. reflexivity.
  - assert (V : valid_qubits n [q]) by (apply valid_one; exact Hq).
    eapply keq_trans; [apply ctrl_kernel_ext; exact (dual_channel i ks P E)|]. eapply keq_trans; [apply ctrl_kernel_add|]. intros x y Hx Hy. cbn [ksum].
    unfold kadd. rewrite (GpsrFacts.ctrl_kernel_kscale n (RtoC (fst (factors i P))) (pauli_op P) [q] x y Hx Hy), (GpsrFacts.ctrl_kernel_kscale n (RtoC (snd (factors i P))) kid [q] x y Hx Hy).
    unfold kscale. rewrite (ctrl_kernel_id n [] [q] V x y Hx Hy). ring.
Qed.
(** ** whole circuits *)
Lemma add_noise_usable : forall n vals i g, usable n vals g -> usable n vals (add_noise i g).
Proof.
  intros n vals i g (M & cs & ts & [HM HC HT HV]). exists M, cs, ts. split; [|exact HC|exact HT|exact HV].
  inversion HM; subst; [eapply gm_fixed|eapply gm_SWAP|eapply gm_rotation|eapply gm_PHASE]; eauto.
Qed.
Lemma step_add_noise : forall n vals i ks g q r, target g = [q] -> kraus i = Ok ks -> step n vals (add_noise i g) r = kraus_sum n q ks (step n vals g r).
Proof.
  intros n vals i ks g q r T E. unfold step. change (mat_of vals (add_noise i g)) with (mat_of vals g). cbn [add_noise target control noise]. rewrite T.
  unfold channels. cbn [hd]. rewrite fold_left_app. cbn [fold_left]. unfold kraus_of at 1. rewrite E. destruct (noise g); reflexivity.
Qed.
Lemma pauli_on : forall w n vals P q, q < n -> observable_on w n vals false (pauli_observable P q) (ksum [ctrl_kernel (pauli_op P) [] [q]]).
Proof.
  intros w n vals P q Hq. exists [gate_op (pauli_op P) [] [q]]. split; [discriminate|split; [|reflexivity]]. constructor; [|constructor].
  destruct P; (apply den_gate; [|reflexivity|reflexivity]); (split; [eapply gm_fixed; simpl; eauto 10|apply cq_default|reflexivity|apply valid_one; exact Hq]).
Qed.
Lemma pauli_increasing : forall w P q, set_order (set_iter w) -> increasing_support w (pauli_observable P q).
Proof.
  intros w P q SO s E. assert (Q : support w (OObs (pauli_observable P q)) = Ok (set_iter w [q])) by (destruct P; reflexivity). rewrite Q in E; injection E as <-.
  destruct (SO [q]) as [ND HI]. destruct (set_iter w [q]) as [|a [|b l]]; [constructor|constructor; constructor|].
  assert (A : a = q) by (destruct (proj1 (HI a) (or_introl eq_refl)) as [->|[]]; reflexivity). assert (B : b = q) by (destruct (proj1 (HI b) (or_intror (or_introl eq_refl))) as [->|[]]; reflexivity).
  subst. inversion ND as [|? ? N _]; subst. elim N; left; reflexivity.
Qed.
Lemma pauli_readable : forall w n vals st gs P q, set_order (set_iter w) -> q < n -> readable w n vals st gs (pauli_observable P q) (ksum [ctrl_kernel (pauli_op P) [] [q]]).
Proof.
  intros w n vals st gs P q SO Hq. split; [exists false; apply pauli_on; exact Hq|]. intros _. split; [apply pauli_on; exact Hq|apply pauli_increasing; exact SO].
Qed.
Lemma c93_attenuation : forall w n vals c c' gs g i q st P mode key,
    set_order (set_iter w) -> flat_values vals -> runnable n vals c (gs ++ [g]) -> sequence_of c' (gs ++ [add_noise i g]) -> target g = [q] ->
    well_typed i -> valid_parameter i -> state_of n st -> physical n st -> exact_mode mode ->
    exists v, expectation w st c [pauli_observable P q] vals mode 0 key = Ok [v] /\
      expectation w st c' [pauli_observable P q] vals mode 0 key = Ok [attenuated i P v].
Proof.
  intros w n vals c c' gs g i q st P mode key SO FV RN HS' T WT VP HT PH EM.
  destruct (c26_valid i WT VP) as (ks & EK & _). pose proof RN as (HS & NE & FU & FD & FN). apply Forall_app in FU as [FU1 FU2]. apply Forall_app in FD as [FD1 FD2]. apply Forall_app in FN as [FN1 FN2].
  inversion FU2 as [|? ? U _]; inversion FD2 as [|? ? D _]; inversion FN2 as [|? ? N _]; subst.
  assert (Hq : q < n). { destruct U as (M & cs & ts & HG). pose proof (go_qubits _ _ _ _ _ _ HG) as [_ B]. rewrite (go_target _ _ _ _ _ _ HG) in T. subst ts. apply Forall_app in B as [_ B]. inversion B; subst; assumption. }
  assert (RN' : runnable n vals c' (gs ++ [add_noise i g])).
  { split; [exact HS'|split; [destruct gs; discriminate|split; [|split]]]; apply Forall_app; (split; [assumption|]); (apply Forall_cons; [|apply Forall_nil]).
    - apply add_noise_usable; exact U.
    - exact D.
    - unfold noise_ok. cbn [add_noise noise target]. rewrite T. split; [reflexivity|]. apply Forall_app. split; [|constructor; [split; assumption|constructor]].
      unfold noise_ok in N. destruct (noise g); [apply N|constructor]. }
  pose proof (pauli_readable w n vals st (gs ++ [g]) P q SO Hq) as R1. pose proof (pauli_readable w n vals st (gs ++ [add_noise i g]) P q SO Hq) as R2.
  eexists. split; [apply (exact_spec w n vals c (gs ++ [g]) st [pauli_observable P q] [ksum [ctrl_kernel (pauli_op P) [] [q]]]); auto; discriminate|].
  rewrite (exact_spec w n vals c' (gs ++ [add_noise i g]) st [pauli_observable P q] [ksum [ctrl_kernel (pauli_op P) [] [q]]] mode key) by (auto; discriminate).
  cbn [map]. do 2 f_equal. apply (physical_density n st HT) in PH as [Pos Tr].
  destruct (evolve_physical n vals (gs ++ [g]) _ (proj1 (proj2 (proj2 RN))) (proj2 (proj2 (proj2 (proj2 RN)))) Pos Tr) as [_ T1].
  assert (K1 : keq n (ksum [ctrl_kernel (pauli_op P) [] [q]]) (ctrl_kernel (pauli_op P) [] [q])) by (intros x y _ _; cbn [ksum]; ring).
  rewrite !(mean_density_ext n _ _ _ _ K1 (keq_refl _ _)). rewrite !evolve_app in *. cbn [evolve] in *. rewrite (step_add_noise n vals i ks g q _ T EK). apply dual_pauli; assumption.
Qed.
