(** * Noise: Kraus operators and documented channels (C25-C27) *)
From Coq Require Import String List Arith Bool Reals Lia Lra Nsatz Permutation.
From Verif Require Import Cplx Py PyFacts Ndarray NdFacts NdPerm OperatorUtils ApplyOperator
  Spec SpecFacts ApplyFacts DmFacts ExpandFacts Sparse Matrices Noise Gates Apply Composite
  GateSpec PropSpec NoiseSpec GateFacts CircuitFacts AlgebraFacts GroupFacts ApplyThm TensorFacts TensorThm GateThm.
Import ListNotations.
Local Open Scope nat_scope.

(** ** validation *)
Lemma bad_prob_spec : forall p, bad_prob p = false <-> is_prob p.
Proof.
  intro p; unfold bad_prob, gtb, ltb, is_prob. destruct (Rgt_dec p 1), (Rlt_dec p 0); simpl; split; intro H; try discriminate; lra.
Qed.
Lemma bad_prob_true : forall p, bad_prob p = true <-> ~ is_prob p.
Proof. intro p; rewrite <- bad_prob_spec; destruct (bad_prob p); split; congruence. Qed.
Lemma existsb_bad : forall l, existsb bad_prob l = false <-> Forall is_prob l.
Proof.
  induction l as [|p l IH]; simpl; [split; auto|]. rewrite Bool.orb_false_iff, bad_prob_spec, IH.
  split; [intros [A B]; constructor; auto|intro H; inversion H; auto].
Qed.
Lemma fold_left_Rplus : forall l a, (fold_left Rplus l a = a + fold_right Rplus 0 l)%R.
Proof. induction l as [|x l IH]; intro a; simpl; [lra|rewrite IH; lra]. Qed.
Lemma sum_probs_nonneg : forall l, Forall is_prob l -> (0 <= fold_right Rplus 0 l)%R.
Proof. induction 1 as [|x l H F IH]; simpl; [lra|unfold is_prob in H; lra]. Qed.
Lemma gtb_spec : forall a b, gtb a b = false <-> (a <= b)%R.
Proof. intros a b; unfold gtb; destruct (Rgt_dec a b); split; intro H; try discriminate; lra. Qed.

Lemma pauli_valid : forall l, gtb (fold_left Rplus l 0%R) 1 = false /\ existsb bad_prob l = false <->
    Forall is_prob l /\ is_prob (fold_right Rplus 0%R l).
Proof.
  intro l; rewrite gtb_spec, fold_left_Rplus, existsb_bad, Rplus_0_l; split; intros [A B].
  - pose proof (sum_probs_nonneg l B); repeat split; auto.
  - unfold is_prob in B; split; [lra|assumption].
Qed.

Ltac one_prob := match goal with |- context [bad_prob ?p] =>
  let B := fresh "B" in destruct (bad_prob p) eqn:B; [apply bad_prob_true in B|apply bad_prob_spec in B] end.

Lemma c26_valid : forall i, well_typed i -> valid_parameter i ->
    exists ks, kraus i = Ok ks /\ ks <> [] /\ Forall (is_matrix 1) ks.
Proof.
  assert (SM : forall a x y z t, is_matrix 1 (sq a (matrix [[x; y]; [z; t]]))) by (intros; split; reflexivity).
  intros [ty [p|l]] T V; destruct ty; cbn in T, V; try contradiction; unfold kraus; cbn [ntype error_probability].
  - unfold BitFlip; rewrite (proj2 (bad_prob_spec p) V). eexists; split; [reflexivity|split; [discriminate|]]. repeat constructor; apply SM.
  - unfold PhaseFlip; rewrite (proj2 (bad_prob_spec p) V). eexists; split; [reflexivity|split; [discriminate|]]. repeat constructor; apply SM.
  - unfold Depolarizing; rewrite (proj2 (bad_prob_spec p) V). eexists; split; [reflexivity|split; [discriminate|]]. repeat constructor; apply SM.
  - unfold AmplitudeDamping; rewrite (proj2 (bad_prob_spec p) V). eexists; split; [reflexivity|split; [discriminate|]]. repeat constructor; apply matrix2_is.
  - unfold PhaseDamping; rewrite (proj2 (bad_prob_spec p) V). eexists; split; [reflexivity|split; [discriminate|]]. repeat constructor; apply matrix2_is.
  - apply pauli_valid in V; destruct V as [V1 V2]. unfold PauliChannel; rewrite V1, V2.
    destruct l as [|px [|py [|pz l]]]; cbn in T; try lia. eexists; split; [reflexivity|split; [discriminate|]]. repeat constructor; apply SM.
  - destruct l as [|p [|r l]]; cbn in T; try lia. cbn [firstn] in V; inversion V as [|? ? Vp V']; inversion V' as [|? ? Vr _]; subst.
    unfold GeneralizedAmplitudeDamping; rewrite (proj2 (bad_prob_spec p) Vp), (proj2 (bad_prob_spec r) Vr).
    eexists; split; [reflexivity|split; [discriminate|]]. repeat constructor; apply SM.
Qed.
Lemma c26_invalid : forall i, well_typed i -> (kraus i = Err ValueError <-> ~ valid_parameter i).
Proof.
  intros i T; split.
  - intros E V. destruct (c26_valid i T V) as (ks & E' & _); congruence.
  - intro NV. destruct i as [ty [p|l]]; destruct ty; cbn in T, NV; try contradiction; unfold kraus; cbn [ntype error_probability];
      try (unfold BitFlip, PhaseFlip, Depolarizing, AmplitudeDamping, PhaseDamping; rewrite (proj2 (bad_prob_true p) NV); reflexivity).
    + unfold PauliChannel. destruct (gtb (fold_left Rplus l 0%R) 1) eqn:G; [reflexivity|].
      destruct (existsb bad_prob l) eqn:X; [reflexivity|]. exfalso; apply NV, pauli_valid; auto.
    + destruct l as [|p [|r l]]; cbn in T; try lia. unfold GeneralizedAmplitudeDamping.
      one_prob; [reflexivity|]. one_prob; [reflexivity|]. exfalso; apply NV; constructor; [exact B|constructor; [exact B0|constructor]].
Qed.
(** whatever is accepted, is valid *)
Lemma kraus_ok_valid : forall i ks, kraus i = Ok ks -> well_typed i /\ valid_parameter i.
Proof.
  intros i ks E. assert (T : well_typed i).
  { destruct i as [ty [p|l]]; destruct ty; cbn in *; auto; try discriminate.
    - unfold PauliChannel in E. destruct (gtb _ _); [discriminate|]. destruct (existsb bad_prob l); [discriminate|]. destruct l as [|? [|? [|? l]]]; try discriminate; simpl; lia.
    - destruct l as [|? [|? l]]; try discriminate; simpl; lia. }
  split; [exact T|]. destruct i as [ty [p|l]]; destruct ty; cbn in T; try contradiction; cbn in E |- *;
    try (unfold BitFlip, PhaseFlip, Depolarizing, AmplitudeDamping, PhaseDamping in E; destruct (bad_prob p) eqn:B;
         [discriminate|apply bad_prob_spec; exact B]).
  - apply pauli_valid. unfold PauliChannel in E. destruct (gtb _ _); [discriminate|]. destruct (existsb bad_prob l); [discriminate|auto].
  - destruct l as [|p [|r l]]; cbn in T; try lia. cbn in E |- *.
    destruct (bad_prob p) eqn:B; [discriminate|]. destruct (bad_prob r) eqn:B'; [discriminate|].
    constructor; [|constructor; [|constructor]]; apply bad_prob_spec; assumption.
Qed.

(** ** Kraus operators *)
Lemma entry_matrix2 : forall a b c d x y, In x (bitstrings 1) -> In y (bitstrings 1) ->
    entry (matrix [[a; b]; [c; d]]) x y = mat2 a b c d x y.
Proof. intros; apply matrix2_entry; assumption. Qed.
Lemma entry_sq : forall p a b c d x y, In x (bitstrings 1) -> In y (bitstrings 1) ->
    entry (sq p (matrix [[a; b]; [c; d]])) x y = Cmul (RtoC (sqrt p)) (mat2 a b c d x y).
Proof. intros p a b c d x y Hx Hy; bits1 Hx; bits1 Hy; reflexivity. Qed.

Ltac sqrt_facts := repeat match goal with
  | |- context [sqrt ?e] => let s := fresh "s" in let H := fresh "Hs" in
      assert (H : (sqrt e * sqrt e = e)%R) by (apply sqrt_sqrt; unfold is_prob in *; lra);
      set (s := sqrt e) in *; clearbody s
  end.

Lemma c25_trace_preserving : forall i ks, kraus i = Ok ks ->
    Forall (is_matrix 1) ks /\
    keq 1 (ksum (map (fun K => kmul 1 (kadj (entry K)) (entry K)) ks)) kid.
Proof.
  intros i ks E. destruct (kraus_ok_valid i ks E) as [T V].
  split; [destruct (c26_valid i T V) as (ks' & E' & _ & F); congruence|].
  destruct i as [ty [p|l]]; destruct ty; cbn in T; try contradiction; cbn in E, V;
    unfold BitFlip, PhaseFlip, Depolarizing, AmplitudeDamping, PhaseDamping in E;
    try (rewrite (proj2 (bad_prob_spec p) V) in E; injection E as <-).
  6: { destruct l as [|px [|py [|pz l]]]; cbn in T; try lia. pose proof V as V0. apply pauli_valid in V0; destruct V0 as [V1 V2].
       unfold PauliChannel in E; rewrite V1, V2 in E; injection E as <-. destruct V as [V S].
       inversion V as [|? ? Px V3]; inversion V3 as [|? ? Py V4]; inversion V4 as [|? ? Pz V5]; subst.
       pose proof (sum_probs_nonneg l V5) as S0. cbn [fold_right] in S. clear V V3 V4 V5 V1 V2.
       intros x y Hx Hy; unfold ksum, map, kmul, kadj, kid; bits1 Hx; bits1 Hy; cbn [bitstrings map app csum fold_right];
       unfold m_I, m_X, m_Y, m_Z; rewrite !entry_sq by (simpl; tauto); sqrt_facts; apply C_ext; simpl; nra. }
  6: { destruct l as [|p [|r l]]; cbn in T; try lia. cbn in E, V. inversion V as [|? ? Vp V']; inversion V' as [|? ? Vr _]; subst.
       rewrite (proj2 (bad_prob_spec p) Vp), (proj2 (bad_prob_spec r) Vr) in E; injection E as <-. clear V V'.
       intros x y Hx Hy; unfold ksum, map, kmul, kadj, kid; bits1 Hx; bits1 Hy; cbn [bitstrings map app csum fold_right];
       rewrite !entry_sq by (simpl; tauto); sqrt_facts; apply C_ext; simpl; nsatz. }
  all: intros x y Hx Hy; unfold ksum, map, kmul, kadj, kid; bits1 Hx; bits1 Hy; cbn [bitstrings map app csum fold_right];
       unfold m_I, m_X, m_Y, m_Z; rewrite ?entry_sq, ?entry_matrix2 by (simpl; tauto); sqrt_facts; apply C_ext; simpl; nra.
Qed.

(** ** the documented channels *)
Lemma ksum_keq : forall n l l', Forall2 (keq n) l l' -> keq n (ksum l) (ksum l').
Proof.
  intros n l l' F; induction F as [|A B l l' E F IH]; [apply keq_refl|]. intros x y Hx Hy; simpl; rewrite (E x y Hx Hy), (IH x y Hx Hy); reflexivity.
Qed.
Lemma c27_documented : forall i ks rho, kraus i = Ok ks ->
    exists D, documented_channel i rho = Some D /\
      keq 1 (ksum (map (fun K => sandwiched 1 (entry K) rho) ks)) D.
Proof.
  intros i ks rho E. destruct (kraus_ok_valid i ks E) as [T V].
  destruct i as [ty [p|l]]; destruct ty; cbn in T; try contradiction; cbn in E, V;
    unfold BitFlip, PhaseFlip, Depolarizing, AmplitudeDamping, PhaseDamping in E;
    try (rewrite (proj2 (bad_prob_spec p) V) in E; injection E as <-);
    try (eexists; split; [reflexivity|]).
  6: { destruct l as [|px [|py [|pz l]]]; cbn in T; try lia. pose proof V as V0. apply pauli_valid in V0; destruct V0 as [V1 V2].
       unfold PauliChannel in E; rewrite V1, V2 in E; injection E as <-. destruct V as [V S].
       inversion V as [|? ? Px V3]; inversion V3 as [|? ? Py V4]; inversion V4 as [|? ? Pz V5]; subst.
       pose proof (sum_probs_nonneg l V5) as S0. cbn [fold_right] in S. clear V V3 V4 V5 V1 V2.
       eexists; split; [reflexivity|].
       intros x y Hx Hy; unfold ksum, map, sandwiched, kmul, kadj, kscale; bits1 Hx; bits1 Hy; cbn [bitstrings map app csum fold_right];
       unfold m_I, m_X, m_Y, m_Z; rewrite !entry_sq by (simpl; tauto);
       destruct (rho (0 :: nil) (0 :: nil)) as [a1 a2], (rho (0 :: nil) (1 :: nil)) as [b1 b2], (rho (1 :: nil) (0 :: nil)) as [c1 c2], (rho (1 :: nil) (1 :: nil)) as [d1 d2];
       sqrt_facts; apply C_ext; simpl; nsatz. }
  6: { destruct l as [|p [|r l]]; cbn in T; try lia. cbn in E, V. inversion V as [|? ? Vp V']; inversion V' as [|? ? Vr _]; subst.
       rewrite (proj2 (bad_prob_spec p) Vp), (proj2 (bad_prob_spec r) Vr) in E; injection E as <-. clear V V'.
       eexists; split; [reflexivity|].
       intros x y Hx Hy; unfold ksum, map, sandwiched, kmul, kadj, kscale, entrywise; bits1 Hx; bits1 Hy; cbn [bitstrings map app csum fold_right];
       rewrite !entry_sq by (simpl; tauto);
       destruct (rho (0 :: nil) (0 :: nil)) as [a1 a2], (rho (0 :: nil) (1 :: nil)) as [b1 b2], (rho (1 :: nil) (0 :: nil)) as [c1 c2], (rho (1 :: nil) (1 :: nil)) as [d1 d2];
       sqrt_facts; apply C_ext; simpl; nsatz. }
  all: intros x y Hx Hy; unfold ksum, map, sandwiched, kmul, kadj, kscale, entrywise; bits1 Hx; bits1 Hy; cbn [bitstrings map app csum fold_right];
       unfold m_I, m_X, m_Y, m_Z; rewrite ?entry_sq, ?entry_matrix2 by (simpl; tauto);
       destruct (rho (0 :: nil) (0 :: nil)) as [a1 a2], (rho (0 :: nil) (1 :: nil)) as [b1 b2], (rho (1 :: nil) (0 :: nil)) as [c1 c2], (rho (1 :: nil) (1 :: nil)) as [d1 d2];
       sqrt_facts; apply C_ext; simpl; nsatz.
Qed.
