(** * Bounds on expectation values *)
From Coq Require Import String List Arith Bool Reals Lia Lra ZArith.
From Verif Require Import Cplx Py PyFacts Ndarray OperatorUtils Sparse Matrices Noise Gates Apply Composite Conversion Shots Gpsr Api
  Spec SpecFacts Deriv GateSpec PropSpec NoiseSpec SampleSpec ExpectSpec GpsrSpec GateFacts CircuitFacts AlgebraFacts ApplyThm GateThm TensorFacts TensorThm
  KrausThm NoiseThm NoiseThm2 SeqThm SampleThm ShotsSpec ShotsThm ExpectThm ExpectThm2 GpsrFacts GpsrThm StructSpec PhysSpec PhysThm.
Import ListNotations.
Local Open Scope nat_scope.

(** ** positive operators *)
Definition two (a : C) (x : list nat) (b : C) (y : list nat) : vec := fun z => Cadd (Cmul a (kid z x)) (Cmul b (kid z y)).
Lemma qform_two : forall n A a x b y, In x (bitstrings n) -> In y (bitstrings n) ->
    qform n A (two a x b y) =
      Cadd (Cmul (Cconj a) (Cadd (Cmul a (A x x)) (Cmul b (A x y)))) (Cmul (Cconj b) (Cadd (Cmul a (A y x)) (Cmul b (A y y)))).
Proof.
  intros n A a x b y Hx Hy. unfold qform, inner_product.
  assert (E : forall u, apply_kernel n A (two a x b y) u = Cadd (Cmul a (A u x)) (Cmul b (A u y))).
  { intro u. rewrite <- (apply_kernel_delta n A u x Hx), <- (apply_kernel_delta n A u y Hy). unfold apply_kernel, two. rewrite <- !csum_scale_l, <- csum_add.
    apply csum_ext; intros; ring. }
  rewrite (csum_ext _ _ (fun u => Cadd (Cmul (Cmul (Cconj a) (Cadd (Cmul a (A u x)) (Cmul b (A u y)))) (kid u x))
                                       (Cmul (Cmul (Cconj b) (Cadd (Cmul a (A u x)) (Cmul b (A u y)))) (kid u y)))).
  - rewrite csum_add, (csum_kid_r n x _ Hx), (csum_kid_r n y _ Hy). reflexivity.
  - intros u _. rewrite E. unfold two. rewrite Cconj_add, !Cconj_mul, !kid_conj. ring.
Qed.
Lemma positive_diagonal : forall n A x, positive n A -> In x (bitstrings n) -> (0 <= re (A x x))%R /\ im (A x x) = 0%R.
Proof.
  intros n A x P Hx. destruct (P (two C1 x C0 x)) as [P1 P2]. rewrite (qform_two n A C1 x C0 x Hx Hx) in P1, P2. simpl in P1, P2.
  destruct (A x x) as [u v]. simpl in *. split; lra.
Qed.
Lemma positive_hermitian : forall n A, positive n A -> hermitian n A.
Proof.
  intros n A P x y Hx Hy. unfold kadj.
  destruct (positive_diagonal n A x P Hx) as [_ X], (positive_diagonal n A y P Hy) as [_ Y].
  destruct (P (two C1 x C1 y)) as [_ P2]. rewrite (qform_two n A C1 x C1 y Hx Hy) in P2.
  destruct (P (two C1 x Ci y)) as [_ P3]. rewrite (qform_two n A C1 x Ci y Hx Hy) in P3. simpl in P2, P3.
  destruct (A x x), (A y y), (A x y), (A y x). simpl in *. unfold Cconj; simpl. f_equal; lra.
Qed.
Lemma positive_trace : forall n A, positive n A -> (0 <= re (ktrace n A))%R.
Proof.
  intros n A P. unfold ktrace. assert (H : forall x, In x (bitstrings n) -> (0 <= re (A x x))%R) by (intros x Hx; apply (positive_diagonal n A x P Hx)).
  induction (bitstrings n) as [|x l IH]; [simpl; lra|]. cbn [csum]. assert (H1 := H x (or_introl eq_refl)). assert (H2 := IH (fun y Hy => H y (or_intror Hy))).
  simpl. lra.
Qed.
Lemma ktrace_adj : forall n A, ktrace n (kadj A) = Cconj (ktrace n A).
Proof. intros n A. unfold ktrace, kadj. rewrite csum_conj. reflexivity. Qed.
Lemma ktrace_scale : forall n c A, ktrace n (kscale c A) = Cmul c (ktrace n A).
Proof. intros n c A. unfold ktrace, kscale. apply csum_scale_l. Qed.

(** Re tr (U rho) is at most 1 in absolute value *)
Lemma unitary_mean : forall n U r, unitary n U -> positive n r -> ktrace n r = C1 -> (Rabs (mean_density n U r) <= 1)%R.
Proof.
  intros n U r [U1 U2] P T. assert (HH := positive_hermitian n r P).
  assert (Key : forall s, (s * s = 1)%R -> (0 <= 2 - 2 * (s * mean_density n U r))%R).
  { intros s Hs. set (A := kadd kid (kscale (RtoC (- s)) U)).
    assert (PA := positive_trace n _ (positive_conjugation n A r P)).
    assert (E : keq n (kmul n (kmul n A r) (kadj A))
                  (kadd (kadd r (kscale (RtoC (- s)) (kmul n U r))) (kscale (RtoC (- s)) (kadd (kmul n r (kadj U)) (kscale (RtoC (- s)) (kmul n (kmul n U r) (kadj U))))))).
    { assert (EA : keq n (kadj A) (kadd kid (kscale (RtoC (- s)) (kadj U)))).
      { intros x y Hx Hy. unfold kadj, A, kadd, kscale. rewrite Cconj_add, Cconj_mul, kid_conj, (kid_sym y x). f_equal. f_equal. unfold RtoC, Cconj; simpl; f_equal; ring. }
      rewrite EA. unfold A. rewrite kmul_kadd_l, kmul_id_l, kmul_kscale_l, kmul_kadd_r, kmul_id_r, kmul_kscale_r, kmul_kadd_l, kmul_kscale_l. apply keq_refl. }
    rewrite (ktrace_ext n _ _ E) in PA. rewrite !ktrace_add, !ktrace_scale, !ktrace_add, !ktrace_scale, T in PA.
    assert (T1 : ktrace n (kmul n (kmul n U r) (kadj U)) = C1).
    { rewrite ktrace_cyclic, <- T. apply ktrace_ext. rewrite <- kmul_assoc, U1. apply kmul_id_l. }
    assert (T2 : ktrace n (kmul n r (kadj U)) = Cconj (ktrace n (kmul n U r))).
    { rewrite <- ktrace_adj. apply ktrace_ext. rewrite kadj_mul. apply kmul_ext; [|apply keq_refl]. apply keq_sym, HH. }
    rewrite T1, T2 in PA. unfold mean_density. destruct (ktrace n (kmul n U r)) as [u v]. simpl in PA |- *. nra. }
  apply Rabs_le. generalize (Key 1%R ltac:(lra)) (Key (-1)%R ltac:(lra)). lra.
Qed.

(** ** sums of multiples of gates *)
Lemma sequence_unitary : forall w n vals sq o K, denotes w n vals sq o K -> forall gs, sequence_of o gs -> Forall (usable n vals) gs -> Forall dense_gate gs -> unitary n K.
Proof.
  intros w n vals sq.
  assert (LIST : forall l Ks, Forall2 (fun o K => forall gs, sequence_of o gs -> Forall (usable n vals) gs -> Forall dense_gate gs -> unitary n K) l Ks ->
    forall gss, Forall2 sequence_of l gss -> Forall (usable n vals) (List.concat gss) -> Forall dense_gate (List.concat gss) -> unitary n (kprod n Ks)).
  { intros l Ks F. induction F as [|o K l Ks H F IH]; intros gss G FU FD; [apply unitary_kid|]. inversion G as [|? gs ? gss' G1 G2]; subst.
    cbn [List.concat] in FU, FD. apply Forall_app in FU as [FU1 FU2], FD as [FD1 FD2]. cbn [kprod]. apply unitary_kmul; [eapply IH|eapply H]; eassumption. }
  apply (denotes_induction w n vals sq (fun o K => forall gs, sequence_of o gs -> Forall (usable n vals) gs -> Forall dense_gate gs -> unitary n K)).
  - intros g M cs ts HG _ _ gs _ _ _. apply (gate_op_unitary _ _ _ _ _ _ HG).
  - intros g K (u & cs & E & Mu & GC & GV & _ & ->) _ gs HS FU FD. inversion HS; subst. inversion FU as [|? ? (M & cs' & ts & HG) _]; subst.
    inversion FD as [|? ? HD _]; subst. destruct HG as [GM GC' GT GV']. destruct (unitary_of_ok w vals g M GM HD) as (u' & E' & _ & KU).
    rewrite E in E'; injection E' as <-. assert (HU := gate_op_unitary n vals g M cs (target g) (Build_gate_on n vals g M cs (target g) GM GC eq_refl GV)).
    assert (EE : keq n (gate_op (entry u) cs (target g)) (gate_op M cs (target g))) by (apply ctrl_kernel_ext; exact KU).
    destruct HU as [A1 A2]. split; rewrite EE; assumption.
  - intros l Ks _ _ gs HS. inversion HS.
  - intros o K p c _ _ gs HS. inversion HS.
  - intros l Ks p c _ _ _ gs HS. inversion HS.
  - intros l Ks _ F gs HS FU FD. inversion HS; subst. eapply LIST; eassumption.
  - intros m l fp Ks _ F gs HS FU FD. inversion HS; subst. eapply LIST; eassumption.
Qed.
Lemma mean_ksum : forall n Ks r, mean_density n (ksum Ks) r = total (map (fun K => mean_density n K r) Ks).
Proof.
  intros n Ks r. induction Ks as [|K Ks IH]; unfold total in *.
  - cbn [ksum map rsum]. unfold mean_density. change (fun _ _ : list nat => C0) with kzero. rewrite (ktrace_ext n _ _ (kmul_zero_l n r)). unfold ktrace, kzero. rewrite csum_zero; auto.
  - cbn [ksum map rsum]. rewrite <- IH. unfold mean_density. change (fun x y => Cadd (K x y) (ksum Ks x y)) with (kadd K (ksum Ks)).
    rewrite (ktrace_ext n _ _ (kmul_kadd_l n K (ksum Ks) r)), ktrace_add. reflexivity.
Qed.
Lemma mean_kscale : forall n c K r, mean_density n (kscale (RtoC c) K) r = (c * mean_density n K r)%R.
Proof. intros n c K r. unfold mean_density. rewrite (ktrace_ext n _ _ (kmul_kscale_l n (RtoC c) K r)), ktrace_scale. simpl. ring. Qed.
Lemma sum_bound : forall n vals r l Ks, Forall2 (fun o K => forall b, magnitude n vals o b -> (Rabs (mean_density n K r) <= b)%R) l Ks ->
    forall bs, Forall2 (magnitude n vals) l bs -> (Rabs (mean_density n (ksum Ks) r) <= total bs)%R.
Proof.
  intros n vals r l Ks F bs G. rewrite mean_ksum. revert bs G. unfold total. induction F as [|o K l Ks H F IH]; intros bs G; inversion G as [|? b ? bs' G1 G2]; subst; cbn [map rsum].
  - rewrite Rabs_R0. lra.
  - eapply Rle_trans; [apply Rabs_triang|]. apply Rplus_le_compat; auto.
Qed.
Lemma denotes_bound : forall w n vals sq r, positive n r -> ktrace n r = C1 -> forall o K, denotes w n vals sq o K -> forall b, magnitude n vals o b ->
    (Rabs (mean_density n K r) <= b)%R.
Proof.
  intros w n vals sq r P T.
  assert (SEQ : forall o K, denotes w n vals sq o K -> forall gs, sequence_of o gs -> Forall (usable n vals) gs -> Forall dense_gate gs -> (Rabs (mean_density n K r) <= 1)%R).
  { intros o K D gs HS FU FD. apply unitary_mean; auto. eapply sequence_unitary; eassumption. }
  intros o K D. pose proof (denotes_induction w n vals sq (fun o K => denotes w n vals sq o K /\ forall b, magnitude n vals o b -> (Rabs (mean_density n K r) <= b)%R)) as IND.
  refine (proj2 (IND _ _ _ _ _ _ _ o K D)); clear IND D o K.
  - intros g M cs ts HG HD HN. assert (D : denotes w n vals sq (OGate g) (gate_op M cs ts)) by (constructor; assumption). split; [exact D|]. intros b HB. inversion HB; subst. eapply SEQ; eassumption.
  - intros g K HG HN. assert (D : denotes w n vals sq (OGate g) K) by (apply den_matrix; assumption). split; [exact D|]. intros b HB. inversion HB; subst. eapply SEQ; eassumption.
  - intros l Ks NE F. split; [constructor; [exact NE|eapply F2_impl; [|exact F]; intros ? ? [? ?]; assumption]|]. intros b HB. inversion HB as [? gs HS| | |? bs HF]; subst; [inversion HS|].
    eapply sum_bound; [|exact HF]. eapply F2_impl; [|exact F]. intros ? ? [? ?]; assumption.
  - intros o K p c [D H] E. split; [constructor; assumption|]. intros b HB. inversion HB as [? gs HS|? ? c' b' E' HB'|? gs ? c' E' HS FU FD|]; subst; [inversion HS| |]; rewrite E in E'; injection E' as <-; rewrite mean_kscale, Rabs_mult.
    + apply Rmult_le_compat_l; [apply Rabs_pos|auto].
    + rewrite <- (Rmult_1_r (Rabs c)) at 2. apply Rmult_le_compat_l; [apply Rabs_pos|]. inversion HS as [|? gss FG|]; subst. inversion FG as [|? gs' ? ? G1 G2]; subst. inversion G2; subst.
      cbn [List.concat] in FU, FD. rewrite app_nil_r in FU, FD. eapply SEQ; eassumption.
  - intros l Ks p c ES F E. assert (F' : Forall2 (denotes w n vals sq) l Ks) by (eapply F2_impl; [|exact F]; intros ? ? [? ?]; assumption).
    split; [apply den_multiple; assumption|]. intros b HB. inversion HB as [? gs HS|o ? c' b' E' HB'|? gs ? c' E' HS FU FD|]; subst; [inversion HS| |]; rewrite E in E'; injection E' as <-; rewrite mean_kscale, Rabs_mult.
    + apply Rmult_le_compat_l; [apply Rabs_pos|]. inversion F as [|? K ? ? [_ H] F0]; subst. inversion F0; subst. cbn [kprod].
      rewrite (mean_density_ext n _ K r r (kmul_id_l n K) (keq_refl n r)). auto.
    + rewrite <- (Rmult_1_r (Rabs c)) at 2. apply Rmult_le_compat_l; [apply Rabs_pos|]. apply (SEQ (OSeq l) (kprod n Ks)) with gs; try assumption. apply den_seq; assumption.
  - intros l Ks ES F. assert (D : denotes w n vals sq (OSeq l) (kprod n Ks)) by (constructor; [exact ES|eapply F2_impl; [|exact F]; intros ? ? [? ?]; assumption]).
    split; [exact D|]. intros b HB. inversion HB; subst. eapply SEQ; eassumption.
  - intros m l fp Ks ES F. assert (D : denotes w n vals sq (OQC m l fp) (kprod n Ks)) by (constructor; [exact ES|eapply F2_impl; [|exact F]; intros ? ? [? ?]; assumption]).
    split; [exact D|]. intros b HB. inversion HB; subst. eapply SEQ; eassumption.
Qed.
Lemma evolve_physical : forall n vals gs r, Forall (usable n vals) gs -> Forall noise_ok gs -> positive n r -> ktrace n r = C1 ->
    positive n (evolve n vals gs r) /\ ktrace n (evolve n vals gs r) = C1.
Proof.
  intros n vals gs r FU FN P T. destruct (preserved_run n vals gs r _ (evolve_run n vals gs FU FN r)) as (T' & _ & P'). split; [auto|congruence].
Qed.
Lemma c85_bound : forall w n vals c gs st l K bs mode key, set_order (set_iter w) -> flat_values vals -> runnable n vals c gs -> state_of n st -> physical n st ->
    readable w n vals st gs l K -> Forall2 (magnitude n vals) l bs -> exact_mode mode ->
    exists e, expectation w st c [l] vals mode 0 key = Ok [e] /\ (- total bs <= e <= total bs)%R.
Proof.
  intros w n vals c gs st l K bs mode key SO FV RN HT PH HR HB EM. exists (mean_density n K (evolve n vals gs (density_of st))). split.
  - apply (exact_spec w n vals c gs st [l] [K]); auto; discriminate.
  - apply (physical_density n st HT) in PH as [P T]. destruct RN as (_ & _ & FU & _ & FN). destruct (evolve_physical n vals gs _ FU FN P T) as [P' T'].
    destruct HR as [(sq & Ks & NE & F & ->) _]. assert (B : (Rabs (mean_density n (ksum Ks) (evolve n vals gs (density_of st))) <= total bs)%R).
    { eapply sum_bound; [|exact HB]. eapply F2_impl; [|exact F]. intros o K D b. eapply denotes_bound; eassumption. }
    generalize (Rle_abs (mean_density n (ksum Ks) (evolve n vals gs (density_of st)))) (Rle_abs (- mean_density n (ksum Ks) (evolve n vals gs (density_of st)))).
    rewrite Rabs_Ropp. lra.
Qed.
