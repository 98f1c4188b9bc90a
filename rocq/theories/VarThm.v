(** * Positive operators are mixtures of pure states; the variational principle *)
From Coq Require Import String List Arith Bool Reals Lia Lra ZArith Permutation.
From Verif Require Import Cplx Py PyFacts Ndarray NdFacts OperatorUtils Sparse Matrices Noise Gates Apply Composite Conversion Shots Gpsr Api
  Spec SpecFacts Deriv GateSpec PropSpec NoiseSpec SampleSpec ExpectSpec GpsrSpec GateFacts CircuitFacts AlgebraFacts ApplyThm GateThm TensorFacts TensorThm
  KrausThm NoiseThm NoiseThm2 SeqThm SampleThm ShotsSpec ShotsThm ExpectThm ExpectThm2 GpsrFacts GpsrThm StructSpec PhysSpec PhysThm PhysThm3 NoiseLawThm VarSpec.
Import ListNotations.
Local Open Scope nat_scope.

Definition pure (f : vec) : op := fun x y => Cmul (f x) (Cconj (f y)).
Lemma apply_pure : forall n v f x, apply_kernel n (pure v) f x = Cmul (v x) (inner_product n v f).
Proof. intros n v f x. unfold apply_kernel, pure, inner_product. rewrite <- csum_scale_l. apply csum_ext; intros; ring. Qed.
Lemma inner_conj : forall n f g, inner_product n f g = Cconj (inner_product n g f).
Proof. intros n f g. unfold inner_product. rewrite csum_conj. apply csum_ext; intros x _. rewrite Cconj_mul, Cconj_invol. ring. Qed.
Lemma qform_pure : forall n v f, qform n (pure v) f = RtoC (Cnorm2 (inner_product n v f)).
Proof.
  intros n v f. unfold qform. transitivity (Cmul (inner_product n f v) (inner_product n v f)).
  - unfold inner_product at 1. rewrite (csum_ext _ _ (fun x => Cmul (Cmul (Cconj (f x)) (v x)) (inner_product n v f))) by (intros; rewrite apply_pure; ring).
    rewrite csum_scale_r. reflexivity.
  - rewrite inner_conj. apply Cmul_conj.
Qed.
Lemma qform_scale : forall n c A f, qform n (kscale c A) f = Cmul c (qform n A f).
Proof.
  intros n c A f. unfold qform, inner_product. rewrite <- csum_scale_l. apply csum_ext; intros x _.
  unfold apply_kernel, kscale. rewrite <- !csum_scale_l. apply csum_ext; intros; ring.
Qed.

(** moving a vector along a basis vector *)
Lemma qform_shift : forall n A f t x, hermitian n A -> In x (bitstrings n) ->
    qform n A (fun z => Cadd (f z) (Copp (Cmul t (kid z x)))) =
      Cadd (Cadd (qform n A f) (Copp (Cadd (Cmul t (Cconj (apply_kernel n A f x))) (Cmul (Cconj t) (apply_kernel n A f x))))) (Cmul (Cmul (Cconj t) t) (A x x)).
Proof.
  intros n A f t x HA Hx.
  assert (EK : forall u, apply_kernel n A (fun z => Cadd (f z) (Copp (Cmul t (kid z x)))) u = Cadd (apply_kernel n A f u) (Copp (Cmul t (A u x)))).
  { intro u. rewrite <- (apply_kernel_delta n A u x Hx). unfold apply_kernel.
    rewrite (csum_ext _ _ (fun y => Cadd (Cmul (A u y) (f y)) (Cmul (Copp t) (Cmul (A u y) (kid y x))))) by (intros; ring). rewrite csum_add, csum_scale_l. ring. }
  unfold qform, inner_product.
  rewrite (csum_ext _ _ (fun u => Cadd (Cadd (Cmul (Cconj (f u)) (apply_kernel n A f u)) (Cmul (Copp t) (Cmul (Cconj (f u)) (A u x))))
     (Cmul (Cmul (Copp (Cconj t)) (Cadd (apply_kernel n A f u) (Copp (Cmul t (A u x))))) (kid u x)))).
  - rewrite !csum_add, csum_scale_l, (csum_kid_r n x (fun u => Cmul (Copp (Cconj t)) (Cadd (apply_kernel n A f u) (Copp (Cmul t (A u x))))) Hx).
    assert (EC : csum (bitstrings n) (fun u => Cmul (Cconj (f u)) (A u x)) = Cconj (apply_kernel n A f x)).
    { unfold apply_kernel. rewrite csum_conj. apply csum_ext; intros u Hu. rewrite Cconj_mul. pose proof (HA u x Hu Hx) as E. unfold kadj in E. rewrite <- E. ring. }
    rewrite EC. ring.
  - intros u _. rewrite EK. rewrite Cconj_add. replace (Cconj (Copp (Cmul t (kid u x)))) with (Copp (Cmul (Cconj t) (kid u x))).
    + ring.
    + rewrite <- (kid_conj u x) at 1. unfold Cconj, Copp, Cmul, kid. destruct (list_eq_dec Nat.eq_dec u x); simpl; f_equal; ring.
Qed.

(** a positive operator is a sum of pure states *)
Lemma positive_zero : forall n A, positive n A -> (forall x, In x (bitstrings n) -> A x x = C0) -> keq n A (fun _ _ => C0).
Proof.
  intros n A P Z x y Hx Hy. pose proof (positive_hermitian n A P x y Hx Hy) as H. unfold kadj in H.
  assert (Q : forall a, (0 <= re (Cadd (Cmul a (A x y)) (Cconj (Cmul a (A x y)))))%R).
  { intro a. destruct (P (two C1 x a y)) as [Q _]. rewrite (qform_two n A C1 x a y Hx Hy), (Z x Hx), (Z y Hy) in Q.
    replace (A y x) with (Cconj (A x y)) in Q by (rewrite <- H; apply Cconj_invol).
    match type of Q with (0 <= re ?u)%R => replace (Cadd (Cmul a (A x y)) (Cconj (Cmul a (A x y)))) with u end; [exact Q|]. rewrite Cconj_mul.
    unfold Cadd, Cmul, Cconj, C1, C0. simpl. f_equal; ring. }
  pose proof (Q C1) as Q1. pose proof (Q (RtoC (-1))) as Q2. pose proof (Q Ci) as Q3. pose proof (Q (Copp Ci)) as Q4.
  destruct (A x y) as [u v]. cbn in *. unfold C0. f_equal; lra.
Qed.
Lemma decompose : forall n l A, positive n A -> (forall x, In x (bitstrings n) -> ~ In x l -> A x x = C0) -> exists vs, keq n A (ksum (map pure vs)).
Proof.
  intros n l. induction l as [|x l IH]; intros A P Z.
  - exists []. apply positive_zero; [exact P|]. intros y Hy. apply Z; [exact Hy|intros []].
  - destruct (in_dec (list_eq_dec Nat.eq_dec) x (bitstrings n)) as [Hx|Nx]; [|apply IH; [exact P|]; intros y Hy N; apply Z; [exact Hy|]; intros [->|I]; contradiction].
    destruct (positive_diagonal n A x P Hx) as [D1 D2]. destruct (Req_dec (re (A x x)) 0) as [E0|N0].
    + apply IH; [exact P|]. intros y Hy N. destruct (list_eq_dec Nat.eq_dec x y) as [<-|NE]; [destruct (A x x); cbn in *; unfold C0; congruence|]. apply Z; [exact Hy|]. intros [->|I]; contradiction.
    + set (a := re (A x x)) in *. assert (Pa : (0 < a)%R) by lra. assert (AX : A x x = RtoC a) by (unfold a; destruct (A x x); cbn in *; unfold RtoC; congruence).
      set (v := fun y => Cmul (RtoC (/ sqrt a)) (A y x)).
      assert (SS : (sqrt a * sqrt a = a)%R) by (apply sqrt_sqrt; lra). assert (SN : sqrt a <> 0%R) by (intro E; rewrite E in SS; lra).
      assert (SI : (/ sqrt a * / sqrt a = / a)%R) by (rewrite <- SS at 3; field; exact SN).
      set (B := kadd A (kscale (RtoC (-1)) (pure v))).
      assert (HB : forall f, qform n B f = qform n A (fun z => Cadd (f z) (Copp (Cmul (Cmul (RtoC (/ a)) (apply_kernel n A f x)) (kid z x))))).
      { intro f. rewrite (qform_shift n A f _ x (positive_hermitian n A P) Hx), AX. unfold B. rewrite qform_add, qform_scale, qform_pure.
        assert (EI : inner_product n v f = Cmul (RtoC (/ sqrt a)) (apply_kernel n A f x)).
        { unfold inner_product, apply_kernel, v. rewrite <- csum_scale_l. apply csum_ext; intros y Hy. rewrite Cconj_mul.
          pose proof (positive_hermitian n A P x y Hx Hy) as E. unfold kadj in E. rewrite E. unfold RtoC, Cconj, Cmul; simpl; f_equal; ring. }
        rewrite EI, Cnorm2_mul. generalize (apply_kernel n A f x) as s. intro s. destruct s as [s1 s2]. generalize (qform n A f). intros [q1 q2].
        unfold Cnorm2, Cadd, Copp, Cmul, Cconj, RtoC. cbn [re im]. replace (/ sqrt a * / sqrt a + 0 * 0)%R with (/ a)%R by lra. f_equal; field; lra. }
      assert (PB : positive n B) by (intro f; rewrite HB; apply P).
      destruct (IH B PB) as (vs & E).
      * intros y Hy N. destruct (positive_diagonal n B y PB Hy) as [B1 B2].
        assert (BY : re (B y y) = (re (A y y) - / a * Cnorm2 (A y x))%R).
        { unfold B, kadd, kscale, pure, v. rewrite Cconj_mul. destruct (A y y) as [p q], (A y x) as [s t]. unfold Cnorm2, Cadd, Cmul, Cconj, RtoC. cbn [re im]. rewrite <- SI. ring. }
        assert (R0 : re (B y y) = 0%R).
        { destruct (list_eq_dec Nat.eq_dec x y) as [<-|NE].
          - rewrite BY, AX. unfold Cnorm2, RtoC. cbn [re im]. field. lra.
          - rewrite (Z y Hy) in BY by (intros [->|I]; contradiction). cbn [re C0] in BY. assert (0 <= / a * Cnorm2 (A y x))%R by (apply Rmult_le_pos; [left; apply Rinv_0_lt_compat; exact Pa|apply Cnorm2_nonneg]).
            rewrite BY in B1 |- *. clear - B1 H. lra. }
        destruct (B y y); cbn in *; unfold C0; congruence.
      * exists (v :: vs). intros y z Hy Hz. cbn [map ksum]. rewrite <- (E y z Hy Hz). unfold B, kadd, kscale. generalize (A y z), (pure v y z). intros [p q] [s t]. unfold Cadd, Cmul, RtoC; cbn; f_equal; ring.
Qed.
Lemma positive_pure : forall n A, positive n A -> exists vs, keq n A (ksum (map pure vs)).
Proof. intros n A P. apply (decompose n (bitstrings n) A P). intros x Hx N. contradiction. Qed.

(** ** means and traces of mixtures *)
Lemma mean_vectors : forall n K r vs, keq n r (ksum (map pure vs)) -> mean_density n K r = rsum vs (fun v => re (qform n K v)).
Proof.
  intros n K r vs E. rewrite (mean_density_ext n K K _ _ (keq_refl n K) E), mean_density_sum. apply rsum_ext; intros v _. apply mean_pure_density.
Qed.
Lemma qform_id : forall n f, qform n kid f = RtoC (norm2 n f).
Proof. intros n f. unfold qform. rewrite <- inner_norm2. apply inner_ext; [apply veq_refl|]. intros x Hx. apply apply_kernel_id. exact Hx. Qed.
Lemma trace_mean : forall n r, re (ktrace n r) = mean_density n kid r.
Proof. intros n r. unfold mean_density. f_equal. apply ktrace_ext, keq_sym, kmul_id_l. Qed.
Lemma trace_vectors : forall n r vs, keq n r (ksum (map pure vs)) -> re (ktrace n r) = rsum vs (norm2 n).
Proof. intros n r vs E. rewrite trace_mean, (mean_vectors n kid r vs E). apply rsum_ext; intros v _. rewrite qform_id. reflexivity. Qed.
Lemma lower_mean : forall n K E r, bounded_below n K E -> positive n r -> ktrace n r = C1 -> (E <= mean_density n K r)%R.
Proof.
  intros n K E r B P T. destruct (positive_pure n r P) as (vs & EV). rewrite (mean_vectors n K r vs EV).
  pose proof (trace_vectors n r vs EV) as N. rewrite T in N. cbn in N. replace E with (E * rsum vs (norm2 n))%R by (rewrite <- N; ring). rewrite <- rsum_scale.
  apply rsum_le. intros v _. apply B.
Qed.
Lemma upper_mean : forall n K E r, bounded_above n K E -> positive n r -> ktrace n r = C1 -> (mean_density n K r <= E)%R.
Proof.
  intros n K E r B P T. destruct (positive_pure n r P) as (vs & EV). rewrite (mean_vectors n K r vs EV).
  pose proof (trace_vectors n r vs EV) as N. rewrite T in N. cbn in N. replace E with (E * rsum vs (norm2 n))%R by (rewrite <- N; ring). rewrite <- rsum_scale.
  apply rsum_le. intros v _. apply B.
Qed.

(** ** the minimum is attained by eigenstates only *)
Lemma apply_ksum : forall {A} n (f : A -> op) l g x, apply_kernel n (ksum (map f l)) g x = csum l (fun a => apply_kernel n (f a) g x).
Proof.
  intros A n f l g x. induction l as [|a l IH]; cbn [map ksum csum].
  - unfold apply_kernel. apply csum_zero. intros; ring.
  - rewrite <- IH. unfold apply_kernel. rewrite <- csum_add. apply csum_ext; intros; ring.
Qed.
Lemma rsum_zero_all : forall {A} (f : A -> R) l, (forall a, In a l -> (0 <= f a)%R) -> rsum l f = 0%R -> forall a, In a l -> f a = 0%R.
Proof.
  intros A f l. induction l as [|b l IH]; intros N Z a I; [destruct I|]. cbn [rsum] in Z. pose proof (N b (or_introl eq_refl)) as N1.
  assert (N2 : (0 <= rsum l f)%R) by (apply rsum_nonneg; intros; apply N; right; assumption). destruct I as [<-|I]; [lra|]. apply IH; [intros; apply N; right; assumption|lra|exact I].
Qed.
Lemma qform_ksum : forall {A} n (f : A -> op) l g, re (qform n (ksum (map f l)) g) = rsum l (fun a => re (qform n (f a) g)).
Proof.
  intros A n f l g. induction l as [|a l IH]; cbn [map ksum rsum].
  - unfold qform, inner_product, apply_kernel. rewrite csum_zero; [reflexivity|]. intros x _. rewrite csum_zero; [ring|intros; ring].
  - rewrite <- IH. change (fun x y => Cadd (f a x y) (ksum (map f l) x y)) with (kadd (f a) (ksum (map f l))). rewrite qform_add. reflexivity.
Qed.
Lemma positive_kernel : forall n A f, positive n A -> re (qform n A f) = 0%R -> veq n (apply_kernel n A f) (fun _ => C0).
Proof.
  intros n A f P Z x Hx. destruct (positive_pure n A P) as (vs & EV). rewrite (apply_kernel_ext n A _ f f EV (veq_refl n f) x Hx), apply_ksum.
  apply csum_zero. intros v I. rewrite apply_pure. rewrite (qform_ext n A _ f EV), qform_ksum in Z.
  assert (ZV : Cnorm2 (inner_product n v f) = 0%R).
  { transitivity (re (qform n (pure v) f)); [rewrite qform_pure; reflexivity|]. refine (rsum_zero_all _ vs _ Z v I). intros a _. rewrite qform_pure. apply Cnorm2_nonneg. }
  rewrite (Cnorm2_eq0 _ ZV). ring.
Qed.
Lemma hermitian_real : forall n A f, hermitian n A -> im (qform n A f) = 0%R.
Proof.
  intros n A f H. assert (E : qform n A f = Cconj (qform n A f)).
  { unfold qform at 2. rewrite <- inner_conj. transitivity (inner_product n (apply_kernel n (kadj A) f) f); [apply inner_adj|].
    apply inner_ext; [apply apply_kernel_ext; [exact H|apply veq_refl]|apply veq_refl]. }
  destruct (qform n A f) as [p q]. unfold Cconj in E. cbn in *. injection E as E. lra.
Qed.
Definition shifted (K : op) (E : R) : op := kadd K (kscale (RtoC (- E)) kid).
Lemma qform_shifted : forall n K E f, re (qform n (shifted K E) f) = (re (qform n K f) - E * norm2 n f)%R.
Proof. intros n K E f. unfold shifted. rewrite qform_add, qform_scale, qform_id. simpl. ring. Qed.
Lemma shifted_positive : forall n K E, hermitian n K -> bounded_below n K E -> positive n (shifted K E).
Proof.
  intros n K E H B f. split; [rewrite qform_shifted; specialize (B f); lra|]. unfold shifted. rewrite qform_add, qform_scale, qform_id. simpl.
  rewrite (hermitian_real n K f H). ring.
Qed.
Lemma kmul_pure : forall n A v x y, kmul n A (pure v) x y = Cmul (apply_kernel n A v x) (Cconj (v y)).
Proof. intros n A v x y. unfold kmul, pure, apply_kernel. rewrite <- csum_scale_r. apply csum_ext; intros; ring. Qed.
Lemma kmul_ksum_r : forall {A} n (K : op) (f : A -> op) l x y, kmul n K (ksum (map f l)) x y = csum l (fun a => kmul n K (f a) x y).
Proof.
  intros A n K f l x y. induction l as [|a l IH]; cbn [map ksum csum].
  - unfold kmul. apply csum_zero. intros; ring.
  - rewrite <- IH. unfold kmul. rewrite <- csum_add. apply csum_ext; intros; ring.
Qed.
Lemma minimum_eigen : forall n K E r, hermitian n K -> bounded_below n K E -> positive n r -> ktrace n r = C1 ->
    (mean_density n K r = E <-> keq n (kmul n K r) (kscale (RtoC E) r)).
Proof.
  intros n K E r H B P T. destruct (positive_pure n r P) as (vs & EV). pose proof (trace_vectors n r vs EV) as N. rewrite T in N. cbn in N. split.
  - intro M. rewrite (mean_vectors n K r vs EV) in M.
    assert (Z : rsum vs (fun v => re (qform n (shifted K E) v)) = 0%R).
    { rewrite (rsum_ext _ _ (fun v => re (qform n K v) + (- E) * norm2 n v)%R) by (intros; rewrite qform_shifted; ring). rewrite rsum_add, rsum_scale, <- N, M. ring. }
    pose proof (shifted_positive n K E H B) as PS.
    assert (AV : forall v, In v vs -> veq n (apply_kernel n (shifted K E) v) (fun _ => C0)).
    { intros v I. apply positive_kernel; [exact PS|]. refine (rsum_zero_all _ vs _ Z v I). intros a _. apply PS. }
    assert (KZ : keq n (kmul n (shifted K E) r) (fun _ _ => C0)).
    { intros x y Hx Hy. rewrite (kmul_ext n _ _ _ _ (keq_refl n _) EV x y Hx Hy), kmul_ksum_r. apply csum_zero. intros v I. rewrite kmul_pure, (AV v I x Hx). ring. }
    intros x y Hx Hy. specialize (KZ x y Hx Hy). unfold shifted in KZ. rewrite (kmul_kadd_l n _ _ _ x y Hx Hy) in KZ. unfold kadd in KZ. rewrite (kmul_kscale_l n _ _ _ x y Hx Hy) in KZ.
    unfold kscale in KZ |- *. rewrite (kmul_id_l n r x y Hx Hy) in KZ. destruct (kmul n K r x y) as [a b], (r x y) as [c d]. unfold Cadd, Cmul, RtoC, C0 in *. cbn in *. injection KZ as K1 K2. f_equal; lra.
  - intro KE. unfold mean_density. rewrite (ktrace_ext n _ _ KE), ktrace_scale, T. simpl. ring.
Qed.
Lemma eigen_density : forall n K E s, state_of n s -> physical n s -> (eigenstate n K E s <-> keq n (kmul n K (density_of s)) (kscale (RtoC E) (density_of s))).
Proof.
  intros n K E s HS PH. destruct s as [a|b|a]; cbn [eigenstate density_of state_of physical] in *; [|destruct HS|reflexivity].
  change (pure_density a) with (pure (amp a)). split.
  - intros V x y Hx Hy. rewrite kmul_pure, (V x Hx). unfold kscale, pure. ring.
  - intros V. assert (Q : forall x y, In x (bitstrings n) -> In y (bitstrings n) -> Cmul (Cadd (apply_kernel n K (amp a) x) (Copp (Cmul (RtoC E) (amp a x)))) (Cconj (amp a y)) = C0).
    { intros x y Hx Hy. specialize (V x y Hx Hy). rewrite kmul_pure in V. unfold kscale, pure in V.
      transitivity (Cadd (Cmul (apply_kernel n K (amp a) x) (Cconj (amp a y))) (Copp (Cmul (RtoC E) (Cmul (amp a x) (Cconj (amp a y)))))); [ring|]. rewrite V. ring. }
    intros x Hx. set (d := Cadd (apply_kernel n K (amp a) x) (Copp (Cmul (RtoC E) (amp a x)))) in *.
    assert (D : Cmul d C1 = C0).
    { transitivity (Cmul d (inner_product n (amp a) (amp a))); [rewrite inner_norm2, PH; reflexivity|]. unfold inner_product. rewrite <- csum_scale_l. apply csum_zero. intros y Hy.
      transitivity (Cmul (Cmul d (Cconj (amp a y))) (amp a y)); [ring|]. assert (Q' : Cmul d (Cconj (amp a y)) = C0) by exact (Q x y Hx Hy). rewrite Q'. ring. }
    assert (D0 : d = C0) by (rewrite <- D; ring). transitivity (Cadd d (Cmul (RtoC E) (amp a x))); [unfold d; ring|]. rewrite D0. ring.
Qed.

(** ** the variational principle *)
Lemma c109_variational : forall w n vals c gs st l K lo hi mode key, set_order (set_iter w) -> flat_values vals -> runnable n vals c gs -> state_of n st -> physical n st ->
    readable w n vals st gs l K -> bounded_below n K lo -> bounded_above n K hi -> exact_mode mode ->
    exists e, expectation w st c [l] vals mode 0 key = Ok [e] /\ (lo <= e <= hi)%R.
Proof.
  intros w n vals c gs st l K lo hi mode key SO FV RN HT PH HR BL BH EM. exists (mean_density n K (evolve n vals gs (density_of st))). split.
  - apply (exact_spec w n vals c gs st [l] [K]); auto; discriminate.
  - apply (physical_density n st HT) in PH as [P T]. destruct RN as (_ & _ & FU & _ & FN). destruct (evolve_physical n vals gs _ FU FN P T) as [P' T'].
    split; [apply lower_mean|apply upper_mean]; assumption.
Qed.
Lemma c109_minimum : forall w n vals c gs st l K E mode key, set_order (set_iter w) -> flat_values vals -> runnable n vals c gs -> state_of n st -> physical n st ->
    readable w n vals st gs l K -> hermitian n K -> bounded_below n K E -> exact_mode mode ->
    exists out, run w c st vals = Ok (Some out) /\
      (expectation w st c [l] vals mode 0 key = Ok [E] <-> eigenstate n K E out).
Proof.
  intros w n vals c gs st l K E mode key SO FV RN HT PH HR HK BL EM.
  destruct (output_spec w n vals c gs st SO RN HT) as (out & R1 & _ & _ & So & KE & _). exists out. split; [exact R1|].
  pose proof (exact_spec w n vals c gs st [l] [K] mode key SO FV RN HT ltac:(discriminate) ltac:(auto) EM) as ES. cbn [map] in ES. rewrite ES.
  apply (physical_density n st HT) in PH as [P T]. destruct RN as (_ & _ & FU & _ & FN). destruct (evolve_physical n vals gs _ FU FN P T) as [P' T'].
  assert (PO : physical n out) by (apply (physical_density n out So); split; [eapply positive_ext; [apply keq_sym; exact KE|exact P']|rewrite (ktrace_ext n _ _ KE); exact T']).
  rewrite (eigen_density n K E out So PO), <- (mean_density_ext n K K _ _ (keq_refl n K) KE).
  apply (physical_density n out So) in PO as [PO TO]. rewrite <- (minimum_eigen n K E _ HK BL PO TO). split; [intro Q; injection Q as Q; exact Q|intros ->; reflexivity].
Qed.
Lemma eigenvalues_bounded : forall n K ev V lo hi, eigenbasis n K ev V -> bounded_below n K lo -> bounded_above n K hi -> forall e, In e ev -> (lo <= e <= hi)%R.
Proof.
  intros n K ev V lo hi EB BL BH e I. rewrite <- (own_eigenvalues n K ev V EB) in I. unfold eigenvalues_in in I. apply in_map_iff in I as (y & <- & Hy).
  assert (N : norm2 n (fun x => V x y) = 1%R).
  { destruct EB as (_ & [U1 _] & _). specialize (U1 y y Hy Hy). assert (Q : RtoC (norm2 n (fun x => V x y)) = C1).
    { rewrite <- inner_norm2. transitivity (kmul n (kadj V) V y y); [reflexivity|]. rewrite U1. unfold kid. destruct (list_eq_dec Nat.eq_dec y y); [reflexivity|congruence]. }
    apply (f_equal re) in Q. exact Q. }
  specialize (BL (fun x => V x y)). specialize (BH (fun x => V x y)). rewrite N in BL, BH. lra.
Qed.
Lemma c109_shots : forall w n vals c gs st l K ev V lo hi mode k key, set_order (set_iter w) -> choice_contract w -> runnable n vals c gs -> state_of n st ->
    observable_on w n vals false l K -> diagonalised w n K ev V -> bounded_below n K lo -> bounded_above n K hi -> exact_mode mode -> (0 < k)%Z ->
    exists e, expectation w st c [l] vals mode k key = Ok [e] /\ (lo <= e <= hi)%R.
Proof.
  intros w n vals c gs st l K ev V lo hi mode k key SO CC (HS & NE & FU & FD & FN) HT HO HD BL BH EM Hk.
  destruct (c50_single w n vals c gs st l K ev V mode k key SO CC HS NE FU FD FN HT HO HD ltac:(destruct EM; auto) Hk) as (out & _ & _ & E & _ & _ & a & b & Ia & Ib & [L1 L2]).
  eexists; split; [exact E|]. pose proof (eigenvalues_bounded n K ev (entry V) lo hi (proj1 (proj2 (proj2 HD))) BL BH) as EB. pose proof (EB a Ia). pose proof (EB b Ib).
  split; [eapply Rle_trans; [apply H|exact L1]|eapply Rle_trans; [exact L2|apply H0]].
Qed.

(** ** density matrices as mixtures *)
Definition vec_state (n : nat) (f : vec) : arr := build (repeat 2 n) f.
Lemma vec_state_is : forall n f, is_state n (vec_state n f).
Proof. intros n f. split; [reflexivity|apply wf_build]. Qed.
Lemma vec_state_amp : forall n f, veq n (amp (vec_state n f)) f.
Proof. intros n f x Hx. unfold amp, vec_state. rewrite get_build; [reflexivity|]. apply (proj1 (bitstrings_inb n x)); exact Hx. Qed.
Definition normed (n : nat) (v : vec) : R * arr :=
  if Req_EM_T (norm2 n v) 0 then (0%R, vec_state n (fun x => kid x (repeat 0 n))) else (norm2 n v, vec_state n (fun x => Cmul (RtoC (/ sqrt (norm2 n v))) (v x))).
Lemma zeros_in : forall n, In (repeat 0 n) (bitstrings n).
Proof. induction n as [|n IH]; [left; reflexivity|]. cbn [repeat bitstrings]. apply in_or_app. left. apply in_map, IH. Qed.
Lemma norm2_zero : forall n v, norm2 n v = 0%R -> veq n v (fun _ => C0).
Proof. intros n v Z x Hx. apply Cnorm2_eq0. refine (rsum_zero_all (fun x => Cnorm2 (v x)) _ _ Z x Hx). intros; apply Cnorm2_nonneg. Qed.
Lemma norm2_scale : forall n a v, norm2 n (fun x => Cmul (RtoC a) (v x)) = (a * a * norm2 n v)%R.
Proof. intros n a v. unfold norm2. rewrite <- rsum_scale. apply rsum_ext; intros x _. rewrite Cnorm2_mul. unfold Cnorm2, RtoC; cbn [re im]. ring. Qed.
Lemma normed_ok : forall n v, let pa := normed n v in
    ((0 <= fst pa)%R /\ is_state n (snd pa) /\ norm2 n (amp (snd pa)) = 1%R) /\ fst pa = norm2 n v /\ keq n (pure v) (kscale (RtoC (fst pa)) (density_of (SDense (snd pa)))).
Proof.
  intros n v. unfold normed. assert (NN : (0 <= norm2 n v)%R) by (apply rsum_nonneg; intros; apply Cnorm2_nonneg). destruct (Req_EM_T (norm2 n v) 0) as [Z|NZ]; cbn [fst snd].
  - split; [split; [lra|split; [apply vec_state_is|]]|split; [symmetry; exact Z|]].
    + rewrite (norm2_ext n _ _ (vec_state_amp n _)). assert (Q : RtoC (norm2 n (fun x => kid x (repeat 0 n))) = C1); [|apply (f_equal re) in Q; exact Q].
      rewrite <- inner_norm2. unfold inner_product. rewrite (csum_kid_r n (repeat 0 n) (fun x => Cconj (kid x (repeat 0 n))) (zeros_in n)). rewrite kid_conj. unfold kid.
      destruct (list_eq_dec Nat.eq_dec (repeat 0 n) (repeat 0 n)); [reflexivity|congruence].
    + intros x y Hx Hy. unfold pure. rewrite (norm2_zero n v Z x Hx). unfold kscale. change (RtoC 0) with C0. ring.
  - assert (P : (0 < norm2 n v)%R) by lra. assert (SS : (sqrt (norm2 n v) * sqrt (norm2 n v) = norm2 n v)%R) by (apply sqrt_sqrt; lra).
    assert (SN : sqrt (norm2 n v) <> 0%R) by (intro E; rewrite E in SS; lra). split; [split; [exact NN|split; [apply vec_state_is|]]|split; [reflexivity|]].
    + rewrite (norm2_ext n _ _ (vec_state_amp n _)), norm2_scale. rewrite <- SS at 3. field. exact SN.
    + intros x y Hx Hy. unfold kscale, pure. cbn [density_of]. unfold pure_density. rewrite (vec_state_amp n _ x Hx), (vec_state_amp n _ y Hy), Cconj_mul.
      replace (Cmul (v x) (Cconj (v y))) with (Cmul (RtoC (norm2 n v * (/ sqrt (norm2 n v) * / sqrt (norm2 n v)))) (Cmul (v x) (Cconj (v y)))).
      * generalize (/ sqrt (norm2 n v))%R, (norm2 n v), (v x), (v y). intros p q [a b] [c d]. unfold Cmul, Cconj, RtoC; cbn [re im]; f_equal; ring.
      * replace (norm2 n v * (/ sqrt (norm2 n v) * / sqrt (norm2 n v)))%R with 1%R; [change (RtoC 1) with C1; ring|]. rewrite <- SS at 1. field. exact SN.
Qed.
Lemma mixture_exists : forall n r, positive n r -> ktrace n r = C1 -> exists ens, mixture_of n r ens.
Proof.
  intros n r P T. destruct (positive_pure n r P) as (vs & EV). exists (map (normed n) vs). split; [|split].
  - apply Forall_forall. intros pa I. apply in_map_iff in I as (v & <- & _). apply (normed_ok n v).
  - rewrite rsum_map'. rewrite (rsum_ext _ _ (norm2 n)) by (intros v _; apply (normed_ok n v)). rewrite <- (trace_vectors n r vs EV), T. reflexivity.
  - eapply keq_trans; [exact EV|]. rewrite map_map. clear EV. induction vs as [|v vs IH]; [apply keq_refl|]. cbn [map ksum]. intros x y Hx Hy.
    rewrite (IH x y Hx Hy). f_equal. destruct (normed_ok n v) as (_ & _ & E). exact (E x y Hx Hy).
Qed.
Lemma map_nth_seq : forall {A} (l : list A) d, map (fun i => nth i l d) (seq 0 (length l)) = l.
Proof. intros A l d. induction l as [|x l IH]; [reflexivity|]. cbn [length seq map nth]. f_equal. rewrite <- seq_shift, map_map. exact IH. Qed.
Lemma c110_mixture : forall n st, state_of n st -> physical n st -> exists ens, mixture_of n (density_of st) ens.
Proof. intros n st HT PH. apply (physical_density n st HT) in PH as [P T]. apply mixture_exists; assumption. Qed.
Lemma c110_expectation : forall w n vals c gs rho ens obs Ks mode key, set_order (set_iter w) -> flat_values vals -> runnable n vals c gs -> is_density n rho ->
    mixture_of n (rho_entry rho) ens -> obs <> [] -> Forall2 (density_ready w n vals) obs Ks -> exact_mode mode ->
    exists f : arr -> list R,
      (forall pa, In pa ens -> expectation w (SDense (snd pa)) c obs vals mode 0 key = Ok (f (snd pa))) /\
      expectation w (SDM rho) c obs vals mode 0 key = Ok (map (fun i => rsum ens (fun pa => fst pa * nth i (f (snd pa)) 0)%R) (seq 0 (length obs))).
Proof.
  intros w n vals c gs rho ens obs Ks mode key SO FV RN D (FE & _ & ME) NO F EM.
  assert (FR : forall st, Forall2 (readable w n vals st gs) obs Ks).
  { intro st. eapply F2_impl; [|exact F]. intros l K HK. split; [exists false; apply HK|auto]. }
  exists (fun psi => map (fun K => mean_density n K (evolve n vals gs (density_of (SDense psi)))) Ks). split.
  - intros pa I. rewrite Forall_forall in FE. destruct (FE pa I) as (_ & S & _). apply exact_spec; auto.
  - rewrite (exact_spec w n vals c gs (SDM rho) obs Ks mode key SO FV RN D NO (FR _) EM). f_equal. rewrite (F2_len F).
    rewrite <- (map_nth_seq Ks kid) at 1. rewrite map_map. apply map_ext_in. intros i Hi. apply in_seq in Hi.
    assert (E : keq n (evolve n vals gs (rho_entry rho)) (ksum (map (fun pa => kscale (RtoC (fst pa)) (evolve n vals gs (density_of (SDense (snd pa))))) ens))).
    { eapply keq_trans; [apply evolve_ext; exact ME|]. apply (evolve_ksum n vals gs fst (fun pa => density_of (SDense (snd pa)))). }
    cbn [density_of]. rewrite (mean_density_ext n _ _ _ _ (keq_refl n _) E), mean_scaled_sum. apply rsum_ext. intros pa _. f_equal.
    rewrite (nth_indep _ 0%R (mean_density n kid (evolve n vals gs (density_of (SDense (snd pa)))))) by (rewrite map_length; lia). rewrite (map_nth (fun K => mean_density n K (evolve n vals gs (density_of (SDense (snd pa)))))). reflexivity.
Qed.
Lemma c110_output : forall w n vals c gs st, set_order (set_iter w) -> runnable n vals c gs -> state_of n st -> physical n st ->
    exists out ens, run w c st vals = Ok (Some out) /\ mixture_of n (density_of out) ens.
Proof.
  intros w n vals c gs st SO RN HT PH. destruct (output_spec w n vals c gs st SO RN HT) as (out & R1 & _ & _ & So & KE & _). exists out.
  apply (physical_density n st HT) in PH as [P T]. destruct RN as (_ & _ & FU & _ & FN). destruct (evolve_physical n vals gs _ FU FN P T) as [P' T'].
  destruct (mixture_exists n (density_of out)) as (ens & M); [eapply positive_ext; [apply keq_sym; exact KE|exact P']|rewrite (ktrace_ext n _ _ KE); exact T'|]. exists ens. auto.
Qed.
