(** * Derivatives of gate application (C24), Hamiltonian evolution (C76, C17) *)
From Coq Require Import String List Arith Bool Reals Lia Lra Permutation Sorted.
From Verif Require Import Cplx Py PyFacts Ndarray NdFacts NdPerm OperatorUtils ApplyOperator
  Spec SpecFacts Deriv ApplyFacts DmFacts ExpandFacts Sparse Matrices Noise Gates Apply Composite
  GateSpec PropSpec GateFacts CircuitFacts AlgebraFacts TensorFacts TensorThm ApplyThm GateThm.
Import ListNotations.
Local Open Scope nat_scope.

(** ** derivative of a controlled operator *)
Lemma ctrl_kernel_deriv : forall n M D cs ts t, kderiv (length ts) M t D ->
    kderiv n (fun s => ctrl_kernel (M s) cs ts) t
      (fun x y => if all_ones (bits_at x cs) then ctrl_kernel D [] ts x y else C0).
Proof.
  intros n M D cs ts t H x y Hx Hy; unfold ctrl_kernel; cbn [bits_at map all_ones forallb].
  destruct (all_ones (bits_at x cs)); [|apply Cderiv_const].
  apply (Cderiv_csum (bitstrings (length ts)) (fun z s => Cmul (M s (bits_at x ts) z) (kid (overwrite x ts z) y))).
  intros z Hz; apply Cderiv_scale_r, H; [apply (bits_at_bits n); exact Hx|exact Hz].
Qed.
Lemma apply_kernel_deriv : forall n K D f t x, kderiv n K t D -> In x (bitstrings n) ->
    Cderiv (fun s => apply_kernel n (K s) f x) t (apply_kernel n D f x).
Proof.
  intros n K D f t x H Hx; unfold apply_kernel.
  apply (Cderiv_csum (bitstrings n) (fun y s => Cmul (K s x y) (f y))). intros y Hy; apply Cderiv_scale_r, H; assumption.
Qed.

(** ** C24 *)
Lemma c24_phase : forall w n psi g (V : R -> values) b t cs,
    is_state n psi -> gclass g = KPhase -> dense_gate g -> noiseless g -> List.length (target g) = 1 ->
    control_qubits (control g) cs -> cs = [] -> valid_qubits n (target g) ->
    (forall s, angle (V s) g (s + b)%R) ->
    exists out dout,
      (forall s, apply_gates w (SDense psi) (GOne g) (V s) UNITARY false true = Ok (SDense (out s))) /\
      apply_gates w (SDense psi) (GOne g) (V t) JACOBIAN false true = Ok (SDense dout) /\ is_state n dout /\
      forall x, In x (bitstrings n) -> Cderiv (fun s => amp (out s) x) t (amp dout x).
Proof.
  intros w n psi g V b t cs HS K D N L HC -> HV A.
  destruct (phase_family w g V b K D A) as [HU HJ].
  assert (OU : forall s, opk w UNITARY (V s) n g (ctrl_kernel (entry (phase_matrix (s + b))) [] (target g))).
  { intro s; exists (phase_matrix (s + b)), []; cbn [operator_of]; repeat split; try apply HV; auto;
      try (rewrite L; reflexivity). }
  assert (OJ : opk w JACOBIAN (V t) n g (ctrl_kernel (entry (phase_jacobian (t + b))) [] (target g))).
  { exists (phase_jacobian (t + b)), []; cbn [operator_of]; repeat split; try apply HV; auto; try (rewrite L; reflexivity). }
  set (out := fun s => match apply_gates w (SDense psi) (GOne g) (V s) UNITARY false true with Ok (SDense r) => r | _ => psi end).
  assert (HO : forall s, apply_gates w (SDense psi) (GOne g) (V s) UNITARY false true = Ok (SDense (out s)) /\
                 veq n (amp (out s)) (apply_kernel n (ctrl_kernel (entry (phase_matrix (s + b))) [] (target g)) (amp psi))).
  { intro s; destruct (apply_gate_dense w n (V s) UNITARY false true g _ psi N (OU s) HS) as (r & E & _ & Ar).
    unfold out; rewrite E; auto. }
  destruct (apply_gate_dense w n (V t) JACOBIAN false true g _ psi N OJ HS) as (dout & Ed & Sd & Ad).
  exists out, dout; split; [intro s; apply HO|split; [exact Ed|split; [exact Sd|]]].
  intros x Hx; rewrite (Ad x Hx).
  eapply Cderiv_ext; [intro s; symmetry; apply HO; exact Hx|].
  apply apply_kernel_deriv; [|exact Hx].
  eapply kderiv_eq; [|apply (ctrl_kernel_deriv n (fun s => entry (phase_matrix (s + b))) (entry (phase_jacobian (t + b))) [])].
  - intros u v _ _; reflexivity.
  - rewrite L, phase_jacobian_eq.
    eapply kderiv_ext; [|eapply kderiv_eq; [|apply (PHASE_deriv t b)]].
    + intro s; cbv beta; rewrite phase_matrix_eq; apply keq_sym, matrix2_entry.
    + apply keq_sym, matrix2_entry.
Qed.

Lemma c24_refuted : forall w t, exists out dout,
    is_state 2 ket00 /\
    (forall s, usable 2 [] (PHASE (PNum s) (TInt 1) (IInt 0) None false)) /\
    (forall s, apply_gates w (SDense ket00) (GOne (PHASE (PNum s) (TInt 1) (IInt 0) None false)) [] UNITARY false true
               = Ok (SDense (out s))) /\
    apply_gates w (SDense ket00) (GOne (PHASE (PNum t) (TInt 1) (IInt 0) None false)) [] JACOBIAN false true = Ok (SDense dout) /\
    Cderiv (fun s => amp (out s) [0; 0]) t C0 /\ amp dout [0; 0] = C1.
Proof.
  intros w t.
  assert (HS : is_state 2 ket00) by (split; reflexivity).
  assert (US : forall s, usable 2 [] (PHASE (PNum s) (TInt 1) (IInt 0) None false)).
  { intro s. apply (parametric_usable 2 [] PHASE (PNum s) 1 (IInt 0) [0]); [simpl; tauto|exact Logic.I|apply (cq_ints [0])|].
    split; [repeat (constructor; [simpl; intuition discriminate|]); constructor|repeat constructor]. }
  assert (OU : forall ot s u, (ot = UNITARY /\ u = phase_matrix (s + 0)) \/ (ot = JACOBIAN /\ u = phase_jacobian (s + 0)) ->
                opk w ot [] 2 (PHASE (PNum s) (TInt 1) (IInt 0) None false) (ctrl_kernel (entry u) [0] [1])).
  { intros ot s u H; exists u, [0].
    split; [destruct H as [[-> ->]|[-> ->]]; reflexivity|]. split; [destruct H as [[-> ->]|[-> ->]]; split; reflexivity|].
    split; [apply (cq_ints [0])|]. split; [|apply keq_refl].
    split; [repeat (constructor; [simpl; intuition discriminate|]); constructor|repeat constructor]. }
  set (out := fun s => match apply_gates w (SDense ket00) (GOne (PHASE (PNum s) (TInt 1) (IInt 0) None false)) [] UNITARY false true
                       with Ok (SDense r) => r | _ => ket00 end).
  assert (K0 : forall M, apply_kernel 2 (ctrl_kernel M [0] [1]) (amp ket00) [0; 0] = C1).
  { intro M. rewrite (ctrl_kernel_action 2) by (simpl; tauto). reflexivity. }
  assert (HO : forall s, apply_gates w (SDense ket00) (GOne (PHASE (PNum s) (TInt 1) (IInt 0) None false)) [] UNITARY false true
                         = Ok (SDense (out s)) /\ amp (out s) [0; 0] = C1).
  { intro s; destruct (apply_gate_dense w 2 [] UNITARY false true (PHASE (PNum s) (TInt 1) (IInt 0) None false) _ ket00 eq_refl
                         (OU UNITARY s (phase_matrix (s + 0)) (or_introl (Logic.conj eq_refl eq_refl))) HS) as (r & E & _ & Ar).
    unfold out; rewrite E; split; [reflexivity|]. rewrite Ar by (simpl; tauto). apply K0. }
  destruct (apply_gate_dense w 2 [] JACOBIAN false true (PHASE (PNum t) (TInt 1) (IInt 0) None false) _ ket00 eq_refl
              (OU JACOBIAN t (phase_jacobian (t + 0)) (or_intror (Logic.conj eq_refl eq_refl))) HS) as (dout & Ed & Sd & Ad).
  exists out, dout; split; [exact HS|split; [exact US|split; [intro s; apply HO|split; [exact Ed|split]]]].
  - eapply Cderiv_ext; [intro s; symmetry; apply HO|apply Cderiv_const].
  - rewrite Ad by (simpl; tauto); apply K0.
Qed.

(** ** C76 *)
Lemma exponential_unitary : forall e k a, exponential_of e k a -> keq k (kadj (entry a)) (kscale (RtoC (-1)) (entry a)) ->
    let U := fun t => entry (e (scale (RtoC t) a)) in
    (forall t, unitary k (U t)) /\ (forall s t, keq k (U (s + t)%R) (kmul k (U s) (U t))).
Proof.
  intros e k a (Ma & Me & E0 & DE) HA U.
  assert (U0 : keq k (U 0%R) kid) by exact E0.
  assert (DS : forall s t, kderiv k (fun r => U (r + s)%R) t (kmul k (entry a) (U (t + s)%R))).
  { intros s t x y Hx Hy. eapply Cderiv_ext; [|eapply Cderiv_eq; [|apply (Cderiv_affine (fun r => U r x y) 1 s t)]].
    - intro r; cbv beta; rewrite Rmult_1_l; reflexivity.
    - shelve.
    - rewrite Rmult_1_l; apply DE; assumption.
    Unshelve. cbv beta. change (RtoC 1) with C1. apply Cmul_1_l. }
  assert (GC : forall s t t', keq k (kmul k (kadj (U t)) (U (t + s)%R)) (kmul k (kadj (U t')) (U (t' + s)%R))).
  { intros s. apply (kderiv_zero_const k (fun t => kmul k (kadj (U t)) (U (t + s)%R))). intro t.
    eapply kderiv_eq; [|apply kderiv_mul; [apply kderiv_adj, DE|apply DS]].
    fold (U t). rewrite kadj_mul, HA, kmul_kscale_r, kmul_kscale_l, kmul_assoc.
    intros x y Hx Hy; unfold kadd, kscale; apply C_ext; simpl; ring. }
  assert (U1 : forall t, keq k (kmul k (kadj (U t)) (U t)) kid).
  { intro t. specialize (GC 0%R t 0%R). rewrite !Rplus_0_r in GC. rewrite GC, U0, kadj_id, kmul_id_l; reflexivity. }
  assert (HU : forall t, unitary k (U t)).
  { assert (UM : forall t, keq k (kadj (U t)) (U (- t)%R)).
    { intro t; specialize (GC (- t)%R t 0%R). rewrite Rplus_opp_r, Rplus_0_l, U0, kmul_id_r, kadj_id, kmul_id_l in GC; exact GC. }
    intro t; split; [apply U1|]. rewrite UM. rewrite <- (U1 (- t)%R), UM, Ropp_involutive; reflexivity. }
  split; [exact HU|]. intros s t.
  specialize (GC t s 0%R). rewrite Rplus_0_l, U0, kadj_id, kmul_id_l in GC.
  rewrite <- GC, <- kmul_assoc. rewrite (proj2 (HU s)), kmul_id_l; reflexivity.
Qed.

Lemma ham_matrix : forall h t s, map_arr (fun z => Cmul z (Cmul (Copp Ci) (RtoC (t + s)))) h = scale (RtoC (t + s)) (minus_i h).
Proof.
  intros h t s; unfold minus_i, scale, map_arr; cbn [shape data]; f_equal. rewrite map_map; apply map_ext; intro z; ring.
Qed.
Lemma ham_unitary : forall w g h t, gclass g = KHam ->
    unitary_of w g (evolution_values h t) = Ok (MD (expm w (scale (RtoC (t + shift g)) (minus_i h)))).
Proof. intros w g h t K; unfold unitary_of; rewrite K, <- ham_matrix; reflexivity. Qed.
Lemma minus_i_adj : forall k h, is_matrix k h -> hermitian k (entry h) ->
    keq k (kadj (entry (minus_i h))) (kscale (RtoC (-1)) (entry (minus_i h))).
Proof.
  intros k h HM HH. destruct (scale_matrix k (Copp Ci) h HM) as [_ E]. unfold minus_i; rewrite E.
  intros x y Hx Hy; specialize (HH x y Hx Hy); unfold kadj, kscale in *. rewrite Cconj_mul, HH. apply C_ext; simpl; ring.
Qed.

Lemma c76_evolution : forall w n psi h ts c cs,
    is_state n psi -> is_matrix (List.length ts) h -> hermitian (List.length ts) (entry h) ->
    exponential_of (expm w) (List.length ts) (minus_i h) ->
    control_qubits (parse_control c) cs -> valid_qubits n (cs ++ ts) ->
    let g := HamiltonianEvolution (TTup ts) c in
    exists out : R -> arr -> arr,
      (forall t phi, is_state n phi ->
         apply_gates w (SDense phi) (GOne g) (evolution_values h t) UNITARY false true = Ok (SDense (out t phi)) /\
         is_state n (out t phi) /\ norm2 n (amp (out t phi)) = norm2 n (amp phi)) /\
      veq n (amp (out 0%R psi)) (amp psi) /\
      (forall s t, veq n (amp (out t (out s psi))) (amp (out (s + t)%R psi))).
Proof.
  intros w n psi h ts c cs HS HM HH HE HC HV g.
  destruct (exponential_unitary _ _ _ HE (minus_i_adj _ _ HM HH)) as [UU UA].
  destruct HE as (Ma & Me & E0 & _).
  set (u := fun t => expm w (scale (RtoC (t + 0)) (minus_i h))).
  assert (OU : forall t, opk w UNITARY (evolution_values h t) n g (ctrl_kernel (entry (u t)) cs ts)).
  { intro t; exists (u t), cs; cbn [operator_of]. rewrite (ham_unitary w g h t eq_refl).
    repeat split; try apply HV; try apply Me; try assumption. }
  assert (KU : forall t, unitary n (ctrl_kernel (entry (u t)) cs ts)).
  { intro t; apply ctrl_kernel_unitary; [exact HV|apply UU]. }
  set (out := fun t phi => match apply_gates w (SDense phi) (GOne g) (evolution_values h t) UNITARY false true with
                           Ok (SDense r) => r | _ => phi end).
  assert (HO : forall t phi, is_state n phi ->
     apply_gates w (SDense phi) (GOne g) (evolution_values h t) UNITARY false true = Ok (SDense (out t phi)) /\
     is_state n (out t phi) /\ veq n (amp (out t phi)) (apply_kernel n (ctrl_kernel (entry (u t)) cs ts) (amp phi))).
  { intros t phi Hp; destruct (apply_gate_dense w n _ UNITARY false true g _ phi eq_refl (OU t) Hp) as (r & E & Sr & Ar).
    unfold out; rewrite E; auto. }
  assert (EU : forall t, keq (List.length ts) (entry (u t)) (entry (expm w (scale (RtoC t) (minus_i h))))).
  { intro t; unfold u; rewrite Rplus_0_r; reflexivity. }
  exists out; split; [|split].
  - intros t phi Hp; destruct (HO t phi Hp) as (E & Sr & Ar). repeat split; try assumption; try apply Sr.
    assert (NI := unitary_inner n _ (amp phi) (amp phi) (KU t)).
    rewrite <- (inner_ext n _ _ _ _ Ar Ar) in NI. rewrite !inner_norm2 in NI. apply RtoC_inj; exact NI.
  - destruct (HO 0%R psi HS) as (E & Sr & Ar). rewrite Ar.
    etransitivity; [apply apply_kernel_ext; [|apply veq_refl]|apply apply_kernel_id].
    eapply keq_trans; [apply ctrl_kernel_ext; eapply keq_trans; [apply EU|exact E0]|].
    apply ctrl_kernel_id, (valid_app_r n cs); exact HV.
  - intros s t. destruct (HO s psi HS) as (_ & Ss & As). destruct (HO t _ Ss) as (_ & St & At).
    destruct (HO (s + t)%R psi HS) as (_ & Sst & Ast). rewrite At, As, Ast, <- apply_kernel_mul.
    apply apply_kernel_ext; [|apply veq_refl]. rewrite ctrl_kernel_mul by exact HV.
    apply ctrl_kernel_ext. rewrite !EU. rewrite (Rplus_comm s t). symmetry; apply UA.
Qed.

(** ** C17 *)
(** the hamiltonian pi |01><01| *)
Definition ham01 : arr :=
  build [4; 4] (fun v => if (Nat.eqb (nth 0 v 0) 1 && Nat.eqb (nth 1 v 0) 1)%bool then RtoC PI else C0).
Definition ket10 : arr := mkArr [2; 2] [C0; C0; C1; C0].

Lemma exponential_diagonal : forall e k a d, exponential_of e k a ->
    (forall x, In x (bitstrings k) -> forall y, In y (bitstrings k) -> entry a x y = Cmul (Cmul (Copp Ci) (RtoC (d x))) (kid x y)) ->
    forall t, keq k (entry (e (scale (RtoC t) a))) (fun x y => Cmul (Cexpi (- (d x * t))) (kid x y)).
Proof.
  intros e k a d (Ma & Me & E0 & DE) HD t x y Hx Hy.
  set (f := fun s => Cmul (Cexpi (d x * s)) (entry (e (scale (RtoC s) a)) x y)).
  assert (F : forall s, Cderiv f s C0).
  { intro s. eapply Cderiv_eq; [|apply Cderiv_mul; [|apply DE; assumption]].
    - shelve.
    - eapply Cderiv_ext; [|apply (Cderiv_affine Cexpi (d x) 0 s), Cderiv_expi]. intro r; cbv beta; rewrite Rplus_0_r; reflexivity.
    Unshelve. cbv beta. rewrite Rplus_0_r. unfold kmul.
    rewrite (csum_ext _ _ (fun z => Cmul (kid x z) (Cmul (Cmul (Copp Ci) (RtoC (d x))) (entry (e (scale (RtoC s) a)) z y)))).
    + rewrite csum_kid_l by exact Hx. ring.
    + intros z Hz. rewrite HD by assumption. ring. }
  assert (E := Cderiv_zero_const f F t 0%R). unfold f in E.
  rewrite Rmult_0_r, Cexpi_0, (E0 x y Hx Hy), Cmul_1_l in E.
  cbv beta. rewrite <- E. assert (N := Cexpi_add (- (d x * t)) (d x * t)). rewrite Rplus_opp_l, Cexpi_0 in N.
  transitivity (Cmul C1 (entry (e (scale (RtoC t) a)) x y)); [symmetry; apply Cmul_1_l|rewrite N; ring].
Qed.

Lemma c17_refuted : forall w, exponential_of (expm w) 2 (minus_i ham01) ->
    let g := HamiltonianEvolution (TTup [1; 0]) no_control in
    exists m out,
      is_state 2 ket10 /\ hermitian 2 (entry ham01) /\
      gate_tensor w g (evolution_values ham01 1) (Some [0; 1]) = Ok m /\
      apply_gates w (SDense ket10) (GOne g) (evolution_values ham01 1) UNITARY false true = Ok (SDense out) /\
      amp out [1; 0] = Copp C1 /\ apply_kernel 2 (entry m) (amp ket10) [1; 0] = C1.
Proof.
  intros w HE g.
  set (d := fun x : list nat => if list_eq_dec Nat.eq_dec x [0; 1] then PI else 0%R).
  assert (HS : is_state 2 ket10) by (split; reflexivity).
  assert (HH : forall x y, In x (bitstrings 2) -> In y (bitstrings 2) -> entry ham01 x y = Cmul (RtoC (d x)) (kid x y)).
  { intros x y Hx Hy; bits2 Hx; bits2 Hy; unfold d, kid; simpl; unfold entry, get; cbn; apply C_ext; simpl; ring. }
  assert (HD : forall x, In x (bitstrings 2) -> forall y, In y (bitstrings 2) ->
               entry (minus_i ham01) x y = Cmul (Cmul (Copp Ci) (RtoC (d x))) (kid x y)).
  { intros x Hx y Hy. destruct (scale_matrix 2 (Copp Ci) ham01) as [_ E]; [split; [reflexivity|apply wf_build]|].
    unfold minus_i; rewrite (E x y Hx Hy); unfold kscale; rewrite HH by assumption; ring. }
  assert (ED := exponential_diagonal _ _ _ d HE HD (1 + 0)%R).
  destruct HE as (Ma & Me & E0 & _).
  set (u := expm w (scale (RtoC (1 + 0)) (minus_i ham01))) in *.
  assert (EU : unitary_of w g (evolution_values ham01 1) = Ok (MD u)) by (apply (ham_unitary w g ham01 1 eq_refl)).
  assert (HV : valid_qubits 2 ([] ++ [1; 0])).
  { split; [repeat (constructor; [simpl; intuition discriminate|]); constructor|repeat constructor]. }
  assert (OU : opk w UNITARY (evolution_values ham01 1) 2 g (ctrl_kernel (entry u) [] [1; 0])).
  { exists u, []; cbn [operator_of]; rewrite EU. repeat split; try apply (Me (1 + 0)%R); try apply HV. apply cq_default. }
  destruct (apply_gate_dense w 2 _ UNITARY false true g _ ket10 eq_refl OU HS) as (out & Eo & So & Ao).
  destruct (gate_tensor_full w 2 g (evolution_values ham01 1) u [] [0; 1] EU (Me (1 + 0)%R)) as (m & Em & Mm & Km);
    [apply cq_default|exact HV|apply Permutation_refl|].
  exists m, out. split; [exact HS|]. split; [|split; [exact Em|split; [exact Eo|]]].
  - intros x y Hx Hy; unfold kadj; rewrite !HH by assumption. rewrite Cconj_mul, Cconj_R, kid_conj, (kid_sym y x).
    unfold kid; destruct (list_eq_dec Nat.eq_dec x y) as [->|]; [reflexivity|ring].
  - assert (B : forall b : list nat, b = [1; 0] -> In b (bitstrings 2)) by (intros b ->; simpl; tauto).
    split.
    + rewrite Ao, (ctrl_kernel_action 2) by (simpl; tauto). unfold ctrl_action; cbn [bits_at map all_ones forallb].
      unfold gate_action. rewrite (csum_single _ [0; 1]); [|apply bitstrings_NoDup|simpl; tauto|].
      * cbn [bits_at map nth]. rewrite ED by (simpl; tauto). unfold d; simpl.
        replace (- (PI * (1 + 0)))%R with (- PI)%R by ring. unfold Cexpi; rewrite cos_neg, sin_neg, cos_PI, sin_PI.
        unfold amp, get; cbn. apply C_ext; simpl; ring.
      * intros z Hz NE. cbn [bits_at map nth]. rewrite ED by (simpl in *; tauto). rewrite kid_ne by congruence. ring.
    + rewrite (apply_kernel_ext 2 _ _ _ _ Km (veq_refl 2 (amp ket10))), (ctrl_kernel_action 2) by (simpl; tauto).
      change (sorted (target g)) with [0; 1].
      unfold ctrl_action; cbn [bits_at map all_ones forallb].
      unfold gate_action. rewrite (csum_single _ [1; 0]); [|apply bitstrings_NoDup|simpl; tauto|].
      * cbn [bits_at map nth]. rewrite ED by (simpl; tauto). unfold d; simpl.
        rewrite Rmult_0_l, Ropp_0, Cexpi_0. unfold amp, get; cbn. apply C_ext; simpl; ring.
      * intros z Hz NE. cbn [bits_at map nth]. rewrite ED by (simpl in *; tauto). rewrite kid_ne by congruence. ring.
Qed.
