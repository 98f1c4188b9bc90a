(** * Generators of parametric gates and their eigenvalues *)
From Coq Require Import String List Arith Bool Reals Lia Lra ZArith Permutation.
From Verif Require Import Cplx Py PyFacts Ndarray OperatorUtils Sparse Matrices Noise Gates Apply Composite
  Spec SpecFacts Deriv GateSpec PropSpec NoiseSpec SampleSpec ExpectSpec ShotsSpec GpsrSpec GateFacts CircuitFacts AlgebraFacts GateThm EvolThm GpsrFacts GpsrThm StructSpec PhysSpec.
Import ListNotations.
Local Open Scope nat_scope.

(** ** the generator is the derivative at 0 *)
Lemma rotk_deriv_0 : forall G, kderiv 1 (rotk G) 0 (kscale minus_half_i G).
Proof.
  intros G x y Hx Hy. eapply Cderiv_eq; [|apply rotk_deriv_entry]. unfold kscale, minus_half_i. replace (0 / 2)%R with 0%R by lra. rewrite sin_0, cos_0. apply C_ext; simpl; field.
Qed.
Lemma rotation_deriv : forall nm R_ G, In (nm, R_, G) rotations -> kderiv 1 R_ 0 (kscale minus_half_i G).
Proof.
  intros nm R_ G I x y Hx Hy. eapply Cderiv_ext; [|apply (rotk_deriv_0 G x y Hx Hy)]. intro s. symmetry.
  destruct I as [E|[E|[E|[]]]]; injection E as <- <- <-; [apply RX_rotk|apply RY_rotk|apply RZ_rotk]; assumption.
Qed.
Lemma phase_deriv : kderiv 1 PHASE_matrix 0 (kscale minus_half_i PHASE_generator).
Proof.
  intros x y Hx Hy. bits1 Hx; bits1 Hy; unfold PHASE_matrix, PHASE_generator, kscale, mat2;
    try (eapply Cderiv_eq; [|apply Cderiv_const]; ring). eapply Cderiv_eq; [|apply Cderiv_expi]. unfold Cexpi, minus_half_i. rewrite cos_0, sin_0. apply C_ext; simpl; field.
Qed.
Lemma controlled_deriv : forall n R_ G cs ts c, length ts = 1 -> kderiv 1 R_ 0 (kscale c G) -> kderiv n (fun t => gate_op (R_ t) cs ts) 0 (kscale c (controlled_generator G cs ts)).
Proof.
  intros n R_ G cs ts c L H. rewrite <- L in H. intros x y Hx Hy. eapply Cderiv_eq; [|apply (ctrl_kernel_deriv n R_ (kscale c G) cs ts 0 H x y Hx Hy)].
  unfold kscale, controlled_generator. destruct (all_ones (bits_at x cs)); [|ring]. unfold ctrl_kernel. cbn [bits_at map all_ones forallb]. rewrite <- csum_scale_l.
  apply csum_ext; intros z Hz. ring.
Qed.
Lemma c92_generator : forall n cs t, 
    (forall nm R_ G, In (nm, R_, G) rotations -> kderiv n (fun s => gate_op (R_ s) cs [t]) 0 (kscale minus_half_i (controlled_generator G cs [t]))) /\
    kderiv n (fun s => gate_op (PHASE_matrix s) cs [t]) 0 (kscale minus_half_i (controlled_generator PHASE_generator cs [t])).
Proof.
  intros n cs t. split; [intros nm R_ G I|]; apply controlled_deriv; try reflexivity; [eapply rotation_deriv, I|apply phase_deriv].
Qed.

(** ** eigenvalues *)
(** a number of modulus 1 / sqrt 2 *)
Definition hh : C := mkC (1 / 2) (1 / 2).
Definition eigvecs (G : op) : op :=
  if Req_EM_T (re (G [0] [0])) 1 then X_matrix
  else if Req_EM_T (re (G [0] [1])) 1 then mat2 hh hh (Copp hh) hh else mat2 hh hh (Cmul (Copp Ci) hh) (Cmul Ci hh).
Lemma eigvecs_X : eigvecs X_matrix = mat2 hh hh (Copp hh) hh.
Proof. unfold eigvecs. cbn. destruct (Req_EM_T 0 1) as [Q|_]; [lra|]. destruct (Req_EM_T 1 1) as [_|Q]; [reflexivity|lra]. Qed.
Lemma eigvecs_Y : eigvecs Y_matrix = mat2 hh hh (Cmul (Copp Ci) hh) (Cmul Ci hh).
Proof. unfold eigvecs. cbn. destruct (Req_EM_T 0 1) as [Q|_]; [lra|]. destruct (Req_EM_T (-0) 1) as [Q|_]; [lra|reflexivity]. Qed.
Lemma eigvecs_Z : eigvecs Z_matrix = X_matrix.
Proof. unfold eigvecs. cbn. destruct (Req_EM_T 1 1) as [_|Q]; [reflexivity|lra]. Qed.
Ltac entries := intros x y Hx Hy; cbn [bitstrings flat_map map app] in Hx, Hy;
  repeat (destruct Hx as [<-|Hx]; [|]); try (exfalso; exact Hx); repeat (destruct Hy as [<-|Hy]; [|]); try (exfalso; exact Hy); apply C_ext; lazy -[Rplus Rmult Ropp Rminus IZR Rdiv Rinv]; field.
Lemma plain_basis : forall nm R_ G, In (nm, R_, G) rotations -> eigenbasis 1 (controlled_generator G [] [0]) [-1; 1]%R (eigvecs G).
Proof.
  intros nm R_ G I. split; [reflexivity|].
  destruct I as [E|[E|[E|[]]]]; injection E as <- <- <-; rewrite ?eigvecs_X, ?eigvecs_Y, ?eigvecs_Z; (split; [split|]); entries.
Qed.
Lemma controlled_basis : forall nm R_ G, In (nm, R_, G) rotations -> eigenbasis 2 (controlled_generator G [0] [1]) [0; 0; -1; 1]%R (ctrl_kernel (eigvecs G) [0] [1]).
Proof.
  intros nm R_ G I. split; [reflexivity|].
  destruct I as [E|[E|[E|[]]]]; injection E as <- <- <-; rewrite ?eigvecs_X, ?eigvecs_Y, ?eigvecs_Z; (split; [split|]); entries.
Qed.
Lemma eigenvals_rotation : forall g nm R_ G, generator_name g = nm -> In (nm, R_, G) rotations ->
    eigenvals_generator g = Ok (if is_controlled (control g) then [0; 0; -1; 1]%R else [-1; 1]%R).
Proof.
  intros g nm R_ G E I. unfold eigenvals_generator. rewrite E. destruct I as [Q|[Q|[Q|[]]]]; injection Q as <- _ _; cbn [String.eqb Ascii.eqb Bool.eqb orb bind]; destruct (is_controlled (control g)); reflexivity.
Qed.
Lemma controlled_some : forall c cs, control_qubits c cs -> is_controlled c = match cs with [] => false | _ => true end.
Proof. intros c cs H. destruct H as [| |[|x cs']]; reflexivity. Qed.
Lemma c92_eigenvalues : forall g nm R_ G cs, dense_gate g -> generator_name g = nm -> In (nm, R_, G) rotations -> control_qubits (control g) cs -> length cs <= 1 ->
    exists es V, eigenvals_generator g = Ok es /\ eigenbasis (S (length cs)) (controlled_generator G (seq 0 (length cs)) [length cs]) es V.
Proof.
  intros g nm R_ G cs _ E I HC L. rewrite (eigenvals_rotation g nm R_ G E I), (controlled_some _ _ HC). destruct cs as [|c [|? ?]]; [| |simpl in L; lia].
  - eexists _, _. split; [reflexivity|]. apply (plain_basis nm R_ G I).
  - eexists _, _. split; [reflexivity|]. apply (controlled_basis nm R_ G I).
Qed.
Lemma c92_many_controls_refuted : forall g nm R_ G cs, dense_gate g -> generator_name g = nm -> In (nm, R_, G) rotations -> control_qubits (control g) cs -> 2 <= length cs ->
    exists es, eigenvals_generator g = Ok es /\ forall K V, ~ eigenbasis (S (length cs)) K es V.
Proof.
  intros g nm R_ G cs _ E I HC L. rewrite (eigenvals_rotation g nm R_ G E I), (controlled_some _ _ HC). destruct cs as [|c cs]; [simpl in L; lia|]. eexists; split; [reflexivity|].
  intros K V (Q & _). destruct cs as [|d cs]; [simpl in L; lia|]. cbn [length Nat.pow] in Q. pose proof (Nat.pow_nonzero 2 (length cs)) as P. destruct (2 ^ length cs); [lia|]. lia.
Qed.
Lemma c92_phase_refuted : forall p t ns, let g := PHASE p (TInt t) no_control ns false in
    exists es, eigenvals_generator g = Ok es /\ (forall V, ~ eigenbasis 1 PHASE_generator es V) /\ spectral_gap g = Ok 0%R.
Proof.
  intros p t ns g. exists [1; 1]%R. split; [reflexivity|split].
  - intros V (_ & (_ & U) & E). assert (K : keq 1 PHASE_generator kid).
    { eapply keq_trans; [apply keq_sym, kmul_id_r|]. eapply keq_trans; [apply kmul_ext; [apply keq_refl|apply keq_sym, U]|]. eapply keq_trans; [apply keq_sym, kmul_assoc|].
      eapply keq_trans; [apply kmul_ext; [exact E|apply keq_refl]|]. eapply keq_trans; [|exact U]. apply kmul_ext; [|apply keq_refl]. eapply keq_trans; [|apply kmul_id_r]. apply kmul_ext; [apply keq_refl|].
      intros x y Hx Hy. unfold diag_op, kid. destruct (list_eq_dec Nat.eq_dec x y); [|reflexivity]. bits1 Hx; reflexivity. }
    specialize (K [0] [0] ltac:(simpl; tauto) ltac:(simpl; tauto)). apply (f_equal re) in K. cbn in K. lra.
  - unfold spectral_gap. cbn [eigenvals_generator g PHASE generator_name bind]. cbn -[unique2 Req_EM_T].
    replace (1 - 1)%R with 0%R by ring. rewrite Rabs_R0. unfold unique2, rmin. cbn [fold_left]. assert (M : Rmin 0 0 = 0%R) by (apply Rmin_left; lra). rewrite !M. cbn [filter].
    destruct (Req_EM_T 0 0) as [_|Q]; [|lra]. cbn [bind fst snd]. destruct (Req_EM_T 0 0) as [_|Q]; [reflexivity|lra].
Qed.
Lemma gap_plain : forall g nm R_ G, generator_name g = nm -> In (nm, R_, G) rotations -> is_controlled (control g) = false -> spectral_gap g = Ok 2%R.
Proof.
  intros g nm R_ G E I C. unfold spectral_gap. rewrite (eigenvals_rotation g nm R_ G E I), C. cbn [bind length seq flat_map map app nth Nat.leb].
  replace (Rabs (-1 - -1))%R with 0%R by (replace (-1 - -1)%R with 0%R by ring; symmetry; apply Rabs_R0).
  replace (Rabs (-1 - 1))%R with 2%R by (replace (-1 - 1)%R with (- (2))%R by ring; rewrite Rabs_Ropp, Rabs_right; lra).
  replace (Rabs (1 - 1))%R with 0%R by (replace (1 - 1)%R with 0%R by ring; symmetry; apply Rabs_R0).
  rewrite unique_gap; cbn [bind fst snd]. destruct (Req_EM_T 0 0) as [_|Q]; [|lra]. destruct (Req_EM_T 2 0) as [Q|_]; [lra|reflexivity].
Qed.
Lemma gap_controlled : forall g nm R_ G, generator_name g = nm -> In (nm, R_, G) rotations -> is_controlled (control g) = true -> spectral_gap g = Ok 1%R.
Proof.
  intros g nm R_ G E I C. unfold spectral_gap. rewrite (eigenvals_rotation g nm R_ G E I), C. cbn [bind length seq flat_map map app nth Nat.leb].
  replace (Rabs (-1 - -1))%R with 0%R by (replace (-1 - -1)%R with 0%R by ring; symmetry; apply Rabs_R0).
  replace (Rabs (-1 - 1))%R with 2%R by (replace (-1 - 1)%R with (- (2))%R by ring; rewrite Rabs_Ropp, Rabs_right; lra).
  replace (Rabs (1 - 1))%R with 0%R by (replace (1 - 1)%R with 0%R by ring; symmetry; apply Rabs_R0).
  replace (Rabs (0 - 0))%R with 0%R by (replace (0 - 0)%R with 0%R by ring; symmetry; apply Rabs_R0).
  replace (Rabs (0 - -1))%R with 1%R by (rewrite Rabs_right; lra). replace (Rabs (0 - 1))%R with 1%R by (replace (0 - 1)%R with (- (1))%R by ring; rewrite Rabs_Ropp, Rabs_right; lra).
  unfold unique2, rmin. cbn [fold_left].
  assert (M0 : Rmin 0 0 = 0%R) by (apply Rmin_left; lra). assert (M1 : Rmin 0 1 = 0%R) by (apply Rmin_left; lra). assert (M2 : Rmin 0 2 = 0%R) by (apply Rmin_left; lra).
  repeat rewrite ?M0, ?M1, ?M2. cbn [filter]. destruct (Req_EM_T 0 0) as [_|Q]; [|lra]. destruct (Req_EM_T 1 0) as [Q|_]; [lra|]. destruct (Req_EM_T 2 0) as [Q|_]; [lra|]. cbn [fold_left].
  assert (N1 : Rmin 1 1 = 1%R) by (apply Rmin_left; lra). assert (N2 : Rmin 1 2 = 1%R) by (apply Rmin_left; lra). repeat rewrite ?N1, ?N2. cbn [bind fst snd].
  destruct (Req_EM_T 0 0) as [_|Q]; [|lra]. destruct (Req_EM_T 1 0) as [Q|_]; [lra|reflexivity].
Qed.
Lemma c92_gap : forall g nm R_ G, dense_gate g -> generator_name g = nm -> In (nm, R_, G) rotations ->
    exists es d, eigenvals_generator g = Ok es /\ spectral_gap g = Ok d /\ smallest_gap es d.
Proof.
  intros g nm R_ G _ E I. rewrite (eigenvals_rotation g nm R_ G E I). destruct (is_controlled (control g)) eqn:C; [rewrite (gap_controlled g nm R_ G E I C)|rewrite (gap_plain g nm R_ G E I C)];
    do 2 eexists; (split; [reflexivity|split; [reflexivity|split; [lra|split]]]).
  - exists 1%R, 0%R. split; [simpl; tauto|split; [simpl; tauto|]]. rewrite Rabs_right; lra.
  - intros a b Ha Hb N. simpl in Ha, Hb. unfold Rabs. destruct (Rcase_abs (a - b)); repeat (destruct Ha as [<-|Ha]; [|]); try contradiction; repeat (destruct Hb as [<-|Hb]; [|]); try contradiction; lra.
  - exists 1%R, (-1)%R. split; [simpl; tauto|split; [simpl; tauto|]]. rewrite Rabs_right; lra.
  - intros a b Ha Hb N. simpl in Ha, Hb. unfold Rabs. destruct (Rcase_abs (a - b)); repeat (destruct Ha as [<-|Ha]; [|]); try contradiction; repeat (destruct Hb as [<-|Hb]; [|]); try contradiction; lra.
Qed.

(** ** the jacobian of a rotation is its derivative exactly at full turns *)
Lemma rotation_jacobian : forall w vals tgt c ns rot G t, In (rot, G) [(RX, X_matrix); (RY, Y_matrix); (RZ, Z_matrix)] ->
    exists J, jacobian_of w (rot (PNum t) tgt c ns false) vals = Ok (MD J) /\
      keq 1 (entry J) (fun x y => Cmul (Cmul (RtoC (-1 / 2)) (Cadd (if list_eq_dec Nat.eq_dec x y then RtoC (sin (t / 2)) else C0) (Cmul Ci (RtoC (cos (t / 2)))))) (G x y)).
Proof.
  intros w vals tgt c ns rot G t I. replace (t / 2)%R with ((t + 0) / 2)%R by lra. simpl in I; destruct I as [I|[I|[I|[]]]]; injection I as <- <-.
  - change (jacobian_of w (RX (PNum t) tgt c ns false) vals) with (let! u := jacobian_of_generator m_X (t + 0) in Ok (MD u)).
    unfold jacobian_of_generator. generalize (cos ((t + 0) / 2)) (sin ((t + 0) / 2)); intros a b. eexists; split; [reflexivity|].
    intros x y Hx Hy. bits1 Hx; bits1 Hy; unfold entry, get; cbn; apply C_ext; simpl; ring.
  - change (jacobian_of w (RY (PNum t) tgt c ns false) vals) with (let! u := jacobian_of_generator m_Y (t + 0) in Ok (MD u)).
    unfold jacobian_of_generator. generalize (cos ((t + 0) / 2)) (sin ((t + 0) / 2)); intros a b. eexists; split; [reflexivity|].
    intros x y Hx Hy. bits1 Hx; bits1 Hy; unfold entry, get; cbn; apply C_ext; simpl; ring.
  - change (jacobian_of w (RZ (PNum t) tgt c ns false) vals) with (let! u := jacobian_of_generator m_Z (t + 0) in Ok (MD u)).
    unfold jacobian_of_generator. generalize (cos ((t + 0) / 2)) (sin ((t + 0) / 2)); intros a b. eexists; split; [reflexivity|].
    intros x y Hx Hy. bits1 Hx; bits1 Hy; unfold entry, get; cbn; apply C_ext; simpl; ring.
Qed.
Lemma c23_rotations : forall w vals tgt c ns rot G t, In (rot, G) [(RX, X_matrix); (RY, Y_matrix); (RZ, Z_matrix)] ->
    exists U J, (forall s, unitary_of w (rot (PNum s) tgt c ns false) vals = Ok (MD (U s))) /\
      jacobian_of w (rot (PNum t) tgt c ns false) vals = Ok (MD J) /\
      (kderiv 1 (fun s => entry (U s)) t (entry J) <-> sin (t / 2) = 0%R).
Proof.
  intros w vals tgt c ns rot G t I. destruct (c21_rotations w vals rot G tgt c ns I) as (U & HU & _).
  assert (HK : forall a, keq 1 (entry (U a)) (rotk G a)).
  { intro a; destruct (rotation_unitary w vals rot G a tgt c ns I) as (u & E & HM & HK). rewrite (proj1 (HU a)) in E; injection E as <-; exact HK. }
  destruct (rotation_jacobian w vals tgt c ns rot G t I) as (J & EJ & KJ). exists U, J. split; [intro s; apply HU|split; [exact EJ|]]. split.
  - intro D.
    assert (Q : forall x y, In x (bitstrings 1) -> In y (bitstrings 1) -> Cmul (Cmul (RtoC (-1 / 2)) (Cadd (if list_eq_dec Nat.eq_dec x y then RtoC (sin (t / 2)) else C0) (Cmul Ci (RtoC (cos (t / 2)))))) (G x y) =
       Cadd (Cmul (RtoC (- sin (t / 2) / 2)) (kid x y)) (Cmul (Cmul (Copp Ci) (RtoC (cos (t / 2) / 2))) (G x y))).
    { intros x y Hx Hy. rewrite <- (KJ x y Hx Hy). eapply Cderiv_unique; [apply (D x y Hx Hy)|]. eapply Cderiv_ext; [|eapply Cderiv_eq; [|apply (rotk_deriv_entry G t x y)]]; [intro s; symmetry; apply HK; assumption|].
      apply C_ext; simpl; field. }
    assert (B0 : In [0] (bitstrings 1)) by (simpl; tauto). assert (B1 : In [1] (bitstrings 1)) by (simpl; tauto).
    pose proof (f_equal re (Q [1] [1] B1 B1)) as P. simpl in I; destruct I as [I|[I|[I|[]]]]; injection I as <- <-; cbn in P; lra.
  - intros S x y Hx Hy. eapply Cderiv_ext; [intro s; symmetry; apply HK; assumption|]. eapply Cderiv_eq; [|apply (rotk_deriv_entry G t x y)].
    rewrite (KJ x y Hx Hy), S. unfold kid. simpl in I; destruct I as [I|[I|[I|[]]]]; injection I as <- <-; bits1 Hx; bits1 Hy; cbn; apply C_ext; simpl; field.
Qed.
