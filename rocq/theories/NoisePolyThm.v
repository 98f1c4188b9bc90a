(** * Proofs for C131: expectations are polynomials in the error probability *)
From Coq Require Import String List Arith Bool Reals Lia Lra ZArith.
From Verif Require Import Cplx Py PyFacts Ndarray OperatorUtils Sparse Matrices Noise Gates Apply Composite Conversion Shots Gpsr Api
  Spec SpecFacts Deriv GateSpec PropSpec NoiseSpec SampleSpec ExpectSpec GpsrSpec GateFacts CircuitFacts AlgebraFacts ApplyThm GateThm TensorFacts TensorThm
  KrausThm NoiseThm NoiseThm2 SeqThm SampleThm ShotsSpec ShotsThm ShotsThm2 ExpectThm ExpectThm2 GpsrFacts GpsrThm GpsrThm2 StructSpec StructThm3 PhysSpec PhysThm PhysThm2 PhysThm3 PhysThm8 NoiseLawSpec NoiseLawThm
  HeisSpec VarSpec FreqSpec StableSpec ContractSpec NoisePolySpec.
From Verif Require Import StableThm VarThm ContractThm.
Import ListNotations.
Local Open Scope list_scope.
Local Open Scope nat_scope.

(** ** polynomials of operators *)
Definition peval (As : list op) (p : R) : op := fold_right (fun A acc => kadd A (kscale (RtoC p) acc)) kzero As.
Definition lin (n : nat) (L : op -> op) : Prop :=
  (forall A B, keq n A B -> keq n (L A) (L B)) /\ (forall A B, keq n (L (kadd A B)) (kadd (L A) (L B))) /\ (forall c A, keq n (L (kscale c A)) (kscale c (L A))).
Lemma linear_lin : forall n L, linear n L -> lin n L.
Proof. intros n L (L1 & L2 & L3 & _). split; [exact L1|split; [exact L2|exact L3]]. Qed.
Lemma peval_linear : forall n L, lin n L -> forall As p, keq n (L (peval As p)) (peval (map L As) p).
Proof.
  intros n L (L1 & L2 & L3) As p. induction As as [|A As IH].
  - cbn [peval fold_right map]. apply (keq_trans n _ (L (kscale C0 kzero))).
    + apply L1. intros x y _ _. unfold kscale, kzero. ring.
    + eapply keq_trans; [apply L3|]. intros x y _ _. unfold kscale, kzero. apply Cmul_0_l.
  - cbn [peval fold_right map]. fold (peval As p). fold (peval (map L As) p). eapply keq_trans; [apply L2|]. apply kadd_ext; [apply keq_refl|].
    eapply keq_trans; [apply L3|]. intros x y Hx Hy. unfold kscale. rewrite (IH x y Hx Hy). reflexivity.
Qed.
Fixpoint pmix (L0 L1 : op -> op) (prev : op) (As : list op) : list op :=
  match As with [] => [prev] | A :: As' => kadd (L0 A) prev :: pmix L0 L1 (L1 A) As' end.
Lemma pmix_length : forall L0 L1 As prev, length (pmix L0 L1 prev As) = S (length As).
Proof. intros L0 L1 As. induction As as [|A As IH]; intro prev; [reflexivity|]. cbn [pmix length]. rewrite IH. reflexivity. Qed.
Lemma pmix_eval : forall n L0 L1, lin n L0 -> lin n L1 -> forall As prev p,
    keq n (peval (pmix L0 L1 prev As) p) (kadd prev (kadd (L0 (peval As p)) (kscale (RtoC p) (L1 (peval As p))))).
Proof.
  intros n L0 L1 H0 H1 As. induction As as [|A As IH]; intros prev p.
  - intros x y Hx Hy. unfold kadd, kscale. rewrite (peval_linear n L0 H0 [] p x y Hx Hy), (peval_linear n L1 H1 [] p x y Hx Hy). cbn. unfold kadd, kscale, kzero. ring.
  - intros x y Hx Hy.
    change (Cadd (Cadd (L0 A x y) (prev x y)) (Cmul (RtoC p) (peval (pmix L0 L1 (L1 A) As) p x y)) =
            Cadd (prev x y) (Cadd (L0 (peval (A :: As) p) x y) (Cmul (RtoC p) (L1 (peval (A :: As) p) x y)))).
    rewrite (IH (L1 A) p x y Hx Hy), (peval_linear n L0 H0 (A :: As) p x y Hx Hy), (peval_linear n L1 H1 (A :: As) p x y Hx Hy).
    pose proof (peval_linear n L0 H0 As p x y Hx Hy) as F0. pose proof (peval_linear n L1 H1 As p x y Hx Hy) as F1.
    change (Cadd (Cadd (L0 A x y) (prev x y)) (Cmul (RtoC p) (Cadd (L1 A x y) (Cadd (L0 (peval As p) x y) (Cmul (RtoC p) (L1 (peval As p) x y))))) =
            Cadd (prev x y) (Cadd (Cadd (L0 A x y) (Cmul (RtoC p) (peval (map L0 As) p x y))) (Cmul (RtoC p) (Cadd (L1 A x y) (Cmul (RtoC p) (peval (map L1 As) p x y)))))).
    rewrite F0, F1. ring.
Qed.

(** ** channels *)
Definition lact (q : nat) (s : shape) (r : op) : op := fun x y => act s (block q r x y) (bits_at x [q]) (bits_at y [q]).
Lemma channel_lact : forall n q i r, q < n -> accepted i -> keq n (kraus_sum n q (kraus_of i) r) (lact q (shape_of i) r).
Proof.
  intros n q i r Hq A x y Hx Hy. rewrite (kraus_block n q _ r x y Hq Hx Hy). pose proof (bits1_in n x q Hq Hx) as Bx. pose proof (bits1_in n y q Hq Hy) as By.
  rewrite (channel1_doc i _ A _ _ Bx By). apply docd_shape; assumption.
Qed.
Definition saffine (s t : shape) (p : R) : shape :=
  mkShape (s_aa s + p * s_aa t) (s_ad s + p * s_ad t) (s_da s + p * s_da t) (s_dd s + p * s_dd t) (s_b s + p * s_b t) (s_c s + p * s_c t).
Lemma lact_affine : forall n q s t p r, q < n -> keq n (lact q (saffine s t p) r) (kadd (lact q s r) (kscale (RtoC p) (lact q t r))).
Proof.
  intros n q s t p r Hq x y Hx Hy. pose proof (bits1_in n x q Hq Hx) as Bx. pose proof (bits1_in n y q Hq Hy) as By. unfold lact, kadd, kscale. generalize dependent (bits_at x [q]). generalize dependent (bits_at y [q]).
  intros b By a Bx. set (B := block q r x y). clearbody B. unfold act, saffine, entrywise. cbn [s_aa s_ad s_da s_dd s_b s_c].
  simpl in Bx, By. destruct Bx as [<-|[<-|[]]], By as [<-|[<-|[]]]; cbn [mat2]; apply C_ext; simpl; ring.
Qed.
Lemma lact_lin : forall n q s, q < n -> lin n (lact q s).
Proof.
  intros n q s Hq. split; [|split].
  - intros A B E x y Hx Hy. unfold lact, act, entrywise, block.
    assert (O : forall a b, In a (bitstrings 1) -> In b (bitstrings 1) -> A (overwrite x [q] a) (overwrite y [q] b) = B (overwrite x [q] a) (overwrite y [q] b)).
    { intros a b Ha Hb. apply E; apply (overwrite_bits n); auto. }
    rewrite !O by (simpl; auto). reflexivity.
  - intros A B x y Hx Hy. pose proof (bits1_in n x q Hq Hx) as Bx. pose proof (bits1_in n y q Hq Hy) as By. unfold lact, kadd at 2, act, entrywise, block. generalize dependent (bits_at x [q]). generalize dependent (bits_at y [q]).
    intros b By a Bx. simpl in Bx, By. destruct Bx as [<-|[<-|[]]], By as [<-|[<-|[]]]; cbn [mat2]; unfold kadd; ring.
  - intros c A x y Hx Hy. pose proof (bits1_in n x q Hq Hx) as Bx. pose proof (bits1_in n y q Hq Hy) as By. unfold lact, kscale at 2, act, entrywise, block. generalize dependent (bits_at x [q]). generalize dependent (bits_at y [q]).
    intros b By a Bx. simpl in Bx, By. destruct Bx as [<-|[<-|[]]], By as [<-|[<-|[]]]; cbn [mat2]; unfold kscale; ring.
Qed.
Definition zshape : shape := mkShape 0 0 0 0 0 0.
Lemma family_shape : forall f, noise_family 1 f -> exists s t, forall p, shape_of (f p) = saffine s t p.
Proof.
  intros f H. inversion H; subst.
  - exists (pauli_shape a 0 0), (mkShape (- b) b b (- b) (- b) b). intro p. unfold shape_of, bitflip, pauli_shape, saffine; cbn [ntype error_probability s_aa s_ad s_da s_dd s_b s_c]; f_equal; ring.
  - exists (pauli_shape 0 0 a), (mkShape 0 0 0 0 (- 2 * b) 0). intro p. unfold shape_of, phaseflip, pauli_shape, saffine; cbn [ntype error_probability s_aa s_ad s_da s_dd s_b s_c]; f_equal; ring.
  - exists (pauli_shape (a / 3) (a / 3) (a / 3)), (mkShape (- (2 * b / 3)) (2 * b / 3) (2 * b / 3) (- (2 * b / 3)) (- (4 * b / 3)) 0). intro p. unfold shape_of, depolarizing, pauli_shape, saffine; cbn [ntype error_probability s_aa s_ad s_da s_dd s_b s_c]; f_equal; field.
  - exists (pauli_shape a a' a''), (mkShape (- b - b') (b + b') (b + b') (- b - b') (- b - b' - 2 * b'') (b - b')). intro p. unfold shape_of, pauli_channel, pauli_shape, saffine; cbn [ntype error_probability s_aa s_ad s_da s_dd s_b s_c]; f_equal; ring.
  - exists (shape_of (generalized_amplitude_damping a r)), (mkShape (b * r) (b * r) (- (b * r)) (- (b * r)) 0 0). intro p. unfold shape_of, generalized_amplitude_damping, saffine; cbn [ntype error_probability s_aa s_ad s_da s_dd s_b s_c]; f_equal; ring.
Qed.
Lemma family_channel : forall n q m f, noise_family m f -> q < n -> forall As, exists Bs, length Bs = length As + m /\ forall p, accepted (f p) -> keq n (kraus_sum n q (kraus_of (f p)) (peval As p)) (peval Bs p).
Proof.
  intros n q m f H Hq As. assert (M : m = 0 \/ m = 1) by (inversion H; auto). destruct M as [->| ->].
  - inversion H as [i E|? ?|? ?|? ?|? ? ? ? ? ?|? ? ?]. exists (map (kraus_sum n q (kraus_of i)) As). split; [rewrite map_length; lia|]. intros p _. apply peval_linear, linear_lin, linear_kraus.
  - destruct (family_shape f H) as (s & t & E). exists (pmix (lact q s) (lact q t) kzero As). split; [rewrite pmix_length; lia|]. intros p A.
    eapply keq_trans; [apply channel_lact; assumption|]. rewrite E. eapply keq_trans; [apply lact_affine; exact Hq|]. apply keq_sym. eapply keq_trans; [apply pmix_eval; apply lact_lin; exact Hq|]. apply kadd_zero_l.
Qed.
Lemma family_fold : forall n q ms fs, Forall2 noise_family ms fs -> q < n -> forall As, exists Bs, length Bs = length As + list_sum ms /\
    forall p, Forall accepted (map (fun f => f p) fs) -> keq n (fold_left (fun r i => kraus_sum n q (kraus_of i) r) (map (fun f => f p) fs) (peval As p)) (peval Bs p).
Proof.
  intros n q ms fs F Hq. induction F as [|m f ms fs H F IH]; intro As; [exists As; split; [cbn; lia|intros; apply keq_refl]|].
  destruct (family_channel n q m f H Hq As) as (Bs & L & E). destruct (IH Bs) as (Cs & L' & E'). exists Cs. split; [unfold list_sum in *; cbn [fold_right]; lia|].
  intros p A. cbn [map] in A |- *. inversion A as [|? ? A1 A2]; subst. cbn [fold_left]. eapply keq_trans; [|apply E'; exact A2].
  assert (G : forall l a b, keq n a b -> keq n (fold_left (fun r i => kraus_sum n q (kraus_of i) r) l a) (fold_left (fun r i => kraus_sum n q (kraus_of i) r) l b)).
  { induction l as [|i l IHl]; intros a b K; [exact K|]. cbn [fold_left]. apply IHl, kraus_sum_ext, K. }
  apply G, E, A1.
Qed.
Lemma family_step : forall n vals m g, gate_family m g -> forall As, exists Bs, length Bs = length As + m /\
    forall p, usable n vals (g p) -> noise_ok (g p) -> keq n (step n vals (g p) (peval As p)) (peval Bs p).
Proof.
  intros n vals m g H As. destruct H as [g|g ms fs F].
  - exists (map (step n vals g) As). split; [rewrite map_length; lia|]. intros p _ _. apply peval_linear, linear_lin, linear_step.
  - set (q := hd 0 (target g)). set (U := gate_op (mat_of vals g) (ctrl_of (control g)) (target g)).
    destruct (lt_dec q n) as [Hq|Hq].
    + destruct (family_fold n q ms fs F Hq (map (sandwiched n U) As)) as (Bs & L & E). exists Bs. split; [rewrite L, map_length; lia|]. intros p HU HN.
      unfold noise_ok in HN. cbn [with_noise noise target] in HN. destruct HN as [_ HN].
      change (step n vals (with_noise (map (fun f => f p) fs) g) (peval As p)) with (fold_left (fun r i => kraus_sum n q (kraus_of i) r) (map (fun f => f p) fs) (sandwiched n U (peval As p))).
      eapply keq_trans; [|apply E; exact HN].
      apply (fun K => proj1 (linear_channels n [q] (Some (map (fun f => f p) fs))) _ _ K). apply peval_linear, linear_lin, linear_sandwich.
    + exists (repeat kzero (length As + list_sum ms)). split; [apply repeat_length|]. intros p (M & cs & ts & HG) HN. elim Hq.
      unfold noise_ok in HN. cbn [with_noise noise target] in HN. destruct HN as [T _]. pose proof (go_target _ _ _ _ _ _ HG) as TT. cbn [with_noise target] in TT.
      pose proof (go_qubits _ _ _ _ _ _ HG) as [_ B]. apply Forall_app in B as [_ B]. unfold q. rewrite TT in *. destruct ts as [|t [|? ?]]; try discriminate T. inversion B; assumption.
Qed.
Lemma family_evolve : forall n vals m gs, circuit_family m gs -> forall As, exists Bs, length Bs = length As + m /\
    forall p, Forall (usable n vals) (gs p) -> Forall noise_ok (gs p) -> keq n (evolve n vals (gs p) (peval As p)) (peval Bs p).
Proof.
  intros n vals m gs H. induction H as [|m g k gs HG H IH]; intro As; [exists As; split; [lia|intros; apply keq_refl]|].
  destruct (family_step n vals m g HG As) as (Bs & L & E). destruct (IH Bs) as (Cs & L' & E'). exists Cs. split; [lia|]. intros p FU FN. inversion FU as [|? ? U1 U2]; inversion FN as [|? ? N1 N2]; subst.
  cbn [evolve]. eapply keq_trans; [|apply E'; assumption]. apply evolve_ext, E; assumption.
Qed.
Lemma mean_peval : forall n K As p, mean_density n K (peval As p) = polynomial (map (mean_density n K) As) p.
Proof.
  intros n K As p. induction As as [|A As IH]; cbn [peval fold_right map polynomial].
  - unfold mean_density, ktrace. rewrite csum_zero; [reflexivity|]. intros x _. unfold kmul, kzero. apply csum_zero. intros; ring.
  - fold (peval As p). fold (polynomial (map (mean_density n K) As) p). rewrite <- IH, mean_density_add, mean_density_scale. reflexivity.
Qed.
Lemma family_mean : forall n vals m gs st K, circuit_family m gs -> exists coefs, length coefs = S m /\
    forall p, Forall (usable n vals) (gs p) -> Forall noise_ok (gs p) -> mean_density n K (evolve n vals (gs p) (density_of st)) = polynomial coefs p.
Proof.
  intros n vals m gs st K H. destruct (family_evolve n vals m gs H [density_of st]) as (Bs & L & E). exists (map (mean_density n K) Bs). split; [rewrite map_length, L; reflexivity|]. intros p FU FN.
  rewrite <- mean_peval. apply mean_density_ext; [apply keq_refl|]. eapply keq_trans; [|apply E; assumption]. apply evolve_ext. intros x y _ _. cbn [peval fold_right]. unfold kadd, kscale, kzero. ring.
Qed.
Lemma c131_expectation : forall w n vals m gs st l K mode key, set_order (set_iter w) -> flat_values vals -> circuit_family m gs -> state_of n st -> exact_mode mode ->
    exists coefs, length coefs = S m /\
      forall p c, runnable n vals c (gs p) -> readable w n vals st (gs p) l K -> expectation w st c [l] vals mode 0 key = Ok [polynomial coefs p].
Proof.
  intros w n vals m gs st l K mode key SO FV H S EM. destruct (family_mean n vals m gs st K H) as (coefs & L & E). exists coefs. split; [exact L|]. intros p c RN RD.
  rewrite (exact_spec w n vals c (gs p) st [l] [K] mode key SO FV RN S ltac:(discriminate) ltac:(constructor; [exact RD|constructor]) EM). cbn [map]. destruct RN as (_ & _ & FU & _ & FN). rewrite (E p FU FN). reflexivity.
Qed.
Lemma c131_outcomes : forall w n vals m gs st ev, set_order (set_iter w) -> circuit_family m gs -> state_of n st ->
    exists coefs, length coefs = S m /\
      forall p c, runnable n vals c (gs p) -> exists out, run w c st vals = Ok (Some out) /\ event_probability n ev out = polynomial coefs p.
Proof.
  intros w n vals m gs st ev SO H S. destruct (family_mean n vals m gs st (event_test ev) H) as (coefs & L & E). exists coefs. split; [exact L|]. intros p c RN.
  destruct (output_spec w n vals c (gs p) st SO RN S) as (out & R1 & _ & _ & So & KE & _). exists out. split; [exact R1|]. destruct RN as (_ & _ & FU & _ & FN). rewrite <- (E p FU FN).
  rewrite <- (mean_density_ext n (event_test ev) (event_test ev) _ _ (keq_refl n _) KE), event_test_mean. reflexivity.
Qed.

(** ** extrapolation *)
Lemma polynomial_power : forall coefs p, polynomial coefs p = fold_right Rplus 0%R (map (fun k => (nth k coefs 0 * p ^ k)%R) (seq 0 (length coefs))).
Proof.
  intros coefs p. induction coefs as [|a coefs IH]; [reflexivity|]. cbn [polynomial fold_right length seq map nth]. fold (polynomial coefs p). rewrite IH, <- seq_shift, map_map. cbn [nth]. f_equal; [simpl; ring|].
  generalize (seq 0 (length coefs)). intro ks. induction ks as [|k ks IHk]; cbn [map fold_right]; [ring|]. rewrite <- IHk. cbn [pow]. ring.
Qed.
Lemma weighted_polynomial : forall m ps ws p0 coefs, length coefs = S m -> extrapolates m ps ws p0 -> weighted_sum ws (map (polynomial coefs) ps) = polynomial coefs p0.
Proof.
  intros m ps ws p0 coefs L [LW H]. rewrite polynomial_power.
  transitivity (fold_right Rplus 0%R (map (fun k => (nth k coefs 0 * fold_right Rplus 0%R (map (fun pw => snd pw * fst pw ^ k) (combine ps ws)))%R) (seq 0 (length coefs)))).
  - clear H. unfold weighted_sum. revert ws LW. induction ps as [|p ps IH]; intros [|w ws] LW; try discriminate; cbn [combine map fold_right].
    + generalize (seq 0 (length coefs)). intro ks. induction ks as [|k ks IHk]; [reflexivity|]. cbn [map fold_right] in *. rewrite <- IHk. ring.
    + rewrite (IH ws) by (injection LW; auto). rewrite polynomial_power. cbn [fst snd]. generalize (seq 0 (length coefs)). intro ks.
      induction ks as [|k ks IHk]; cbn [map fold_right]; [ring|]. rewrite <- IHk. ring.
  - apply f_equal. apply map_ext_in. intros k Hk. apply in_seq in Hk. rewrite H by lia. reflexivity.
Qed.
Lemma c131_extrapolation : forall w n vals m gs cs st l K mode key ps ws p0, set_order (set_iter w) -> flat_values vals -> circuit_family m gs -> state_of n st -> exact_mode mode ->
    extrapolates m ps ws p0 -> (forall p, In p (p0 :: ps) -> runnable n vals (cs p) (gs p) /\ readable w n vals st (gs p) l K) ->
    exists es, Forall2 (fun p e => expectation w st (cs p) [l] vals mode 0 key = Ok [e]) ps es /\ expectation w st (cs p0) [l] vals mode 0 key = Ok [weighted_sum ws es].
Proof.
  intros w n vals m gs cs st l K mode key ps ws p0 SO FV H S EM EX RR. destruct (c131_expectation w n vals m gs st l K mode key SO FV H S EM) as (coefs & L & E). exists (map (polynomial coefs) ps). split.
  - assert (R2 : forall p, In p ps -> runnable n vals (cs p) (gs p) /\ readable w n vals st (gs p) l K) by (intros p Hp; apply RR; right; exact Hp). clear -E R2. induction ps as [|p ps IH]; constructor.
    + destruct (R2 p (or_introl eq_refl)) as [A B]. apply (E p (cs p) A B).
    + apply IH. intros q Hq. apply R2. right. exact Hq.
  - rewrite (weighted_polynomial m ps ws p0 coefs L EX). destruct (RR p0 (or_introl eq_refl)) as [A B]. apply (E p0 (cs p0) A B).
Qed.
