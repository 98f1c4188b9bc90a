(** * Proofs for C127: rounding errors add up at most linearly *)
From Coq Require Import String List Arith Bool ZArith Reals Lia Lra Setoid Morphisms.
From Verif Require Import Cplx Py Ndarray OperatorUtils ApplyOperator Sparse Matrices Noise Gates Apply Composite Shots Gpsr Api
  Spec GateSpec PropSpec NoiseSpec SampleSpec ShotsSpec ExpectSpec GpsrSpec PhysSpec VarSpec HeisSpec FreqSpec ContractSpec RoundSpec
  SpecFacts AlgebraFacts CircuitFacts GroupFacts ApplyThm ExpectThm ExpectThm2 GpsrFacts PhysThm VarThm ContractThm.
Import ListNotations.
Local Open Scope nat_scope.

(** a quadratic polynomial that is nowhere negative *)
Lemma discriminant : forall A B R, (0 <= A)%R -> (0 <= B)%R -> (forall t, 0 <= A + t * R + t * t * B)%R -> (R * R <= 4 * (A * B))%R.
Proof.
  intros A B R HA HB H. destruct (Req_dec B 0) as [->|NB].
  - destruct (Req_dec R 0) as [->|NR]; [lra|]. exfalso. specialize (H (- (A + 1) / R)%R). replace (- (A + 1) / R * R)%R with (- (A + 1))%R in H by (field; exact NR). lra.
  - assert (PB : (0 < B)%R) by lra. specialize (H (- R / (2 * B))%R).
    replace (A + - R / (2 * B) * R + - R / (2 * B) * (- R / (2 * B)) * B)%R with ((4 * (A * B) - R * R) * / (4 * B))%R in H by (field; lra).
    destruct (Rle_lt_dec (R * R) (4 * (A * B))) as [L|L]; [exact L|]. exfalso.
    assert (P : (0 < / (4 * B))%R) by (apply Rinv_0_lt_compat; lra). assert (Q : (0 < (R * R - 4 * (A * B)) * / (4 * B))%R) by (apply Rmult_lt_0_compat; [lra|exact P]). lra.
Qed.
Lemma abs_of_square : forall r a b, (0 <= a)%R -> (0 <= b)%R -> (r * r <= 4 * ((a * a) * (b * b)))%R -> (Rabs r <= 2 * (a * b))%R.
Proof.
  intros r a b HA HB H. assert (P : (0 <= a * b)%R) by (apply Rmult_le_pos; assumption). apply Rsqr_incr_0_var; [|lra]. rewrite <- Rsqr_abs. unfold Rsqr. lra.
Qed.
Lemma norm_nonneg : forall n f, (0 <= norm2 n f)%R.
Proof. intros n f. apply rsum_nonneg. intros. apply Cnorm2_nonneg. Qed.
(** a form between -b and b: its mixed term *)
Lemma form_cross : forall n K b u v, bounded_below n K (- b) -> bounded_above n K b -> (0 <= b)%R ->
    forall B, (forall s t, re (qform n K (fun x => Cadd (Cmul (RtoC s) (u x)) (Cmul (RtoC t) (v x)))) = (s * s * re (qform n K u) + t * t * re (qform n K v) + s * t * B)%R) ->
    (Rabs B <= 2 * (b * sqrt (norm2 n u) * sqrt (norm2 n v)))%R.
Proof.
  intros n K b u v BL BH Hb B HB. destruct (norm_combination n u v) as (N & HN).
  set (a := norm2 n u). set (d := norm2 n v). assert (PA : (0 <= a)%R) by apply norm_nonneg. assert (PD : (0 <= d)%R) by apply norm_nonneg.
  assert (D : (B * B <= 4 * ((b * a) * (b * d)))%R).
  { apply discriminant; [apply Rmult_le_pos; assumption|apply Rmult_le_pos; assumption|]. intro t.
    pose proof (BL (fun x => Cadd (Cmul (RtoC 1) (u x)) (Cmul (RtoC t) (v x)))) as L. pose proof (BH (fun x => Cadd (Cmul (RtoC 1) (u x)) (Cmul (RtoC (- t)) (v x)))) as H.
    rewrite HB, HN in L, H. fold a d in L, H. lra. }
  replace (b * sqrt a * sqrt d)%R with ((b * sqrt a) * sqrt d)%R by ring. apply abs_of_square; [apply Rmult_le_pos; [exact Hb|apply sqrt_pos]|apply sqrt_pos|].
  replace (b * sqrt a * (b * sqrt a) * (sqrt d * sqrt d))%R with ((b * b) * (sqrt a * sqrt a) * (sqrt d * sqrt d))%R by ring. rewrite !sqrt_sqrt by assumption. lra.
Qed.
Lemma kid_bounds : forall n, bounded_below n kid (- 1) /\ bounded_above n kid 1.
Proof. intro n. split; intro f; rewrite qform_id; cbn [re RtoC]; pose proof (norm_nonneg n f); lra. Qed.
(** the triangle inequality *)
Lemma norm_triangle : forall n u v w, veq n w (fun x => Cadd (u x) (v x)) -> (sqrt (norm2 n w) <= sqrt (norm2 n u) + sqrt (norm2 n v))%R.
Proof.
  intros n u v w E. destruct (real_combination n kid u v) as (B & HB). destruct (kid_bounds n) as [KL KH]. pose proof (form_cross n kid 1 u v KL KH ltac:(lra) B HB) as C. pose proof (Rle_abs B) as C2.
  specialize (HB 1%R 1%R). rewrite !qform_id in HB. cbn [re RtoC] in HB. assert (EW : norm2 n w = norm2 n (fun x => Cadd (Cmul (RtoC 1) (u x)) (Cmul (RtoC 1) (v x)))) by (apply norm2_ext; intros x Hx; rewrite (E x Hx); apply C_ext; simpl; ring).
  apply Rsqr_incr_0_var; [|apply Rplus_le_le_0_compat; apply sqrt_pos]. unfold Rsqr. rewrite sqrt_sqrt by apply norm_nonneg. rewrite EW, HB.
  pose proof (sqrt_sqrt _ (norm_nonneg n u)) as SU. pose proof (sqrt_sqrt _ (norm_nonneg n v)) as SV. lra.
Qed.
Lemma kernel_sub : forall n K f g x, apply_kernel n K (fun z => Csub (f z) (g z)) x = Csub (apply_kernel n K f x) (apply_kernel n K g x).
Proof.
  intros n K f g x. transitivity (apply_kernel n K (fun z => Cadd (Cmul C1 (f z)) (Cmul (Copp C1) (g z))) x).
  - unfold apply_kernel. apply csum_ext. intros y _. ring.
  - rewrite apply_kernel_linear. ring.
Qed.
Lemma unitary_distance : forall n U f g, unitary n U -> norm2 n (fun x => Csub (apply_kernel n U f x) (apply_kernel n U g x)) = norm2 n (fun x => Csub (f x) (g x)).
Proof.
  intros n U f g HU. rewrite <- (norm2_ext n (apply_kernel n U (fun z => Csub (f z) (g z)))) by (intros x _; apply kernel_sub).
  enough (E : RtoC (norm2 n (apply_kernel n U (fun z => Csub (f z) (g z)))) = RtoC (norm2 n (fun z => Csub (f z) (g z)))) by (injection E; auto).
  rewrite <- !inner_norm2. apply unitary_inner, HU.
Qed.
Lemma circuit_on_app : forall n vals gs1 gs2 U1 U2, circuit_on n vals gs1 U1 -> circuit_on n vals gs2 U2 ->
    exists U, circuit_on n vals (gs1 ++ gs2) U /\ forall f, veq n (apply_kernel n U f) (apply_kernel n U2 (apply_kernel n U1 f)).
Proof.
  intros n vals gs1 gs2 U1 U2 H1 H2. induction H1 as [|g gs M cs ts U HG HC IH]; cbn [app].
  - exists U2. split; [exact H2|]. intro f. apply apply_kernel_ext; [apply keq_refl|]. apply veq_sym, apply_kernel_id.
  - destruct IH as (V & HV & EV). exists (kmul n V (gate_op M cs ts)). split; [eapply circ_cons; eassumption|]. intro f.
    eapply veq_trans; [apply apply_kernel_mul|]. eapply veq_trans; [apply EV|]. apply apply_kernel_ext; [apply keq_refl|]. apply veq_sym, apply_kernel_mul.
Qed.

Lemma rounded_bound : forall w n vals delta k gs a c, rounded w n vals delta k gs a c -> Forall (usable n vals) gs -> Forall dense_gate gs -> Forall noiseless gs -> is_state n a ->
    is_state n c /\ exists U, circuit_on n vals gs U /\
    forall f, (sqrt (norm2 n (fun x => Csub (amp c x) (apply_kernel n U f x))) <= sqrt (norm2 n (fun x => Csub (amp a x) (f x))) + INR k * delta)%R.
Proof.
  intros w n vals delta k gs a c H. induction H as [a|k portion rest a b b' c NE E S D H IH]; intros FU FD FN HA.
  - split; [exact HA|]. exists kid. split; [constructor|]. intro f. rewrite <- (norm2_ext n (fun x => Csub (amp a x) (f x))).
    + cbn [INR]. lra.
    + intros x Hx. rewrite apply_kernel_id by exact Hx. reflexivity.
  - apply Forall_app in FU as [FU1 FU2]. apply Forall_app in FD as [FD1 FD2]. apply Forall_app in FN as [FN1 FN2].
    destruct (IH FU2 FD2 FN2 S) as (HC & U2 & C2 & B2). split; [exact HC|]. destruct (usable_circuit n vals portion FU1) as (U1 & C1).
    destruct (circuit_on_app n vals portion rest U1 U2 C1 C2) as (U & CU & EU). exists U. split; [exact CU|]. intro f.
    destruct (apply_gates_dense_any w n vals UNITARY false true portion U1 a NE FN1 ltac:(discriminate) (circuit_on_gseq w n vals portion U1 C1 FD1) HA) as (r & E' & SR & VR).
    rewrite E in E'. injection E' as <-. specialize (B2 (apply_kernel n U1 f)).
    rewrite (norm2_ext n (fun x => Csub (amp c x) (apply_kernel n U f x)) (fun x => Csub (amp c x) (apply_kernel n U2 (apply_kernel n U1 f) x))) by (intros x Hx; rewrite (EU f x Hx); reflexivity).
    assert (T : (sqrt (norm2 n (fun x => Csub (amp b' x) (apply_kernel n U1 f x))) <= delta + sqrt (norm2 n (fun x => Csub (amp a x) (f x))))%R).
    { eapply Rle_trans; [apply (norm_triangle n (fun x => Csub (amp b' x) (amp b x)) (fun x => Csub (amp b x) (apply_kernel n U1 f x))); intros x _; ring|]. apply Rplus_le_compat.
      - eapply Rle_trans; [|exact D]. unfold distance. apply Req_le. f_equal. apply rsum_ext. intros x _. unfold Cnorm2. simpl. ring.
      - rewrite (norm2_ext n (fun x => Csub (amp b x) (apply_kernel n U1 f x)) (fun x => Csub (apply_kernel n U1 (amp a) x) (apply_kernel n U1 f x))) by (intros x Hx; rewrite (VR x Hx); reflexivity).
        rewrite unitary_distance by (eapply circuit_unitary; exact C1). apply Rle_refl. }
    rewrite S_INR. lra.
Qed.

Lemma c127_states : forall w n vals circuit gs a0 a c delta eps k, set_order (set_iter w) -> runnable n vals circuit gs -> Forall noiseless gs ->
    is_state n a0 -> is_state n a -> (distance n a a0 <= eps)%R -> rounded w n vals delta k gs a c ->
    exists out, run w circuit (SDense a0) vals = Ok (Some (SDense out)) /\ (distance n c out <= eps + INR k * delta)%R.
Proof.
  intros w n vals circuit gs a0 a c delta eps k SO RN NN H0 HA D R. destruct (output_spec w n vals circuit gs (SDense a0) SO RN H0) as (out & E1 & _ & E2 & _).
  destruct RN as (_ & NE & FU & FD & _). destruct (rounded_bound w n vals delta k gs a c R FU FD NN HA) as (_ & U & CU & B). specialize (B (amp a0)).
  destruct (apply_gates_dense_any w n vals UNITARY false true gs U a0 NE NN ltac:(discriminate) (circuit_on_gseq w n vals gs U CU FD) H0) as (r & E3 & _ & VR). rewrite E2 in E3. injection E3 as ->.
  exists r. split; [exact E1|]. unfold distance in *. rewrite (norm2_ext n (fun x => Csub (amp c x) (amp r x)) (fun x => Csub (amp c x) (apply_kernel n U (amp a0) x))) by (intros x Hx; rewrite (VR x Hx); reflexivity). lra.
Qed.

Lemma rounded_output : forall w n vals circuit gs a0 a c delta eps k, set_order (set_iter w) -> runnable n vals circuit gs -> Forall noiseless gs ->
    is_state n a0 -> is_state n a -> (distance n a a0 <= eps)%R -> rounded w n vals delta k gs a c ->
    exists out, run w circuit (SDense a0) vals = Ok (Some (SDense out)) /\ (distance n c out <= eps + INR k * delta)%R /\ is_state n c /\ is_state n out /\
      norm2 n (amp out) = norm2 n (amp a0) /\ keq n (density_of (SDense out)) (evolve n vals gs (density_of (SDense a0))).
Proof.
  intros w n vals circuit gs a0 a c delta eps k SO RN NN H0 HA D R.
  destruct (c127_states w n vals circuit gs a0 a c delta eps k SO RN NN H0 HA D R) as (r & E & B). exists r. split; [exact E|split; [exact B|]].
  destruct (output_spec w n vals circuit gs (SDense a0) SO RN H0) as (out & E1 & _ & E2 & S2 & K2 & _). rewrite E in E1. injection E1 as <-.
  destruct RN as (_ & NE & FU & FD & _). destruct (rounded_bound w n vals delta k gs a c R FU FD NN HA) as (HC & U & CU & _). split; [exact HC|split; [exact S2|split; [|exact K2]]].
  destruct (apply_gates_dense_any w n vals UNITARY false true gs U a0 NE NN ltac:(discriminate) (circuit_on_gseq w n vals gs U CU FD) H0) as (r' & E3 & _ & VR). rewrite E2 in E3. injection E3 as <-.
  enough (X : RtoC (norm2 n (amp r)) = RtoC (norm2 n (amp a0))) by (injection X; auto). rewrite <- !inner_norm2, VR. apply unitary_inner. eapply circuit_unitary; exact CU.
Qed.
Lemma form_distance : forall n K b a r eta, bounded_below n K (- b) -> bounded_above n K b -> (0 <= b)%R -> norm2 n (amp r) = 1%R -> (distance n a r <= eta)%R ->
    (Rabs (mean_pure n K (amp a) - mean_pure n K (amp r)) <= b * (2 * eta + eta * eta))%R.
Proof.
  intros n K b a r eta BL BH Hb NR D. unfold mean_pure. fold (qform n K (amp a)). fold (qform n K (amp r)). unfold distance in D. set (d := fun x => Csub (amp a x) (amp r x)) in *.
  destruct (real_combination n K (amp r) d) as (B & HB). pose proof (form_cross n K b (amp r) d BL BH Hb B HB) as CR. rewrite NR, sqrt_1 in CR.
  specialize (HB 1%R 1%R). assert (E : re (qform n K (amp a)) = re (qform n K (fun x => Cadd (Cmul (RtoC 1) (amp r x)) (Cmul (RtoC 1) (d x))))).
  { refine (mean_pure_ext n K _ _ _). intros x Hx. unfold d. apply C_ext; simpl; ring. }
  rewrite E, HB. replace (1 * 1 * re (qform n K (amp r)) + 1 * 1 * re (qform n K d) + 1 * 1 * B - re (qform n K (amp r)))%R with (re (qform n K d) + B)%R by ring.
  eapply Rle_trans; [apply Rabs_triang|]. pose proof (BL d) as L1. pose proof (BH d) as L2. pose proof (norm_nonneg n d) as ND. pose proof (sqrt_sqrt _ ND) as SS. pose proof (sqrt_pos (norm2 n d)) as SP.
  set (s := sqrt (norm2 n d)) in *. assert (QQ : (norm2 n d <= eta * eta)%R) by (rewrite <- SS; apply Rmult_le_compat; assumption).
  assert (Q1 : (Rabs (re (qform n K d)) <= b * (eta * eta))%R).
  { apply Rle_trans with (b * norm2 n d)%R; [apply Rabs_le; split; lra|apply Rmult_le_compat_l; assumption]. }
  assert (Q2 : (b * 1 * s <= b * eta)%R) by (rewrite Rmult_1_r; apply Rmult_le_compat_l; assumption). lra.
Qed.
Lemma c127_expectation : forall w n vals circuit gs a0 a c delta eps k l K b mode key, set_order (set_iter w) -> flat_values vals -> runnable n vals circuit gs -> Forall noiseless gs ->
    is_state n a0 -> physical n (SDense a0) -> is_state n a -> (distance n a a0 <= eps)%R -> rounded w n vals delta k gs a c ->
    readable w n vals (SDense a0) gs l K -> bounded_below n K (- b) -> bounded_above n K b -> (0 <= b)%R -> exact_mode mode ->
    exists e, expectation w (SDense a0) circuit [l] vals mode 0 key = Ok [e] /\
      let eta := (eps + INR k * delta)%R in (Rabs (mean n K (SDense c) - e) <= b * (2 * eta + eta * eta))%R.
Proof.
  intros w n vals circuit gs a0 a c delta eps k l K b mode key SO FV RN NN H0 PH HA D R HR BL BH Hb EM.
  destruct (rounded_output w n vals circuit gs a0 a c delta eps k SO RN NN H0 HA D R) as (out & _ & DO & HC & HO & NO & KO).
  exists (mean_density n K (evolve n vals gs (density_of (SDense a0)))). split; [apply (exact_spec w n vals circuit gs (SDense a0) [l] [K]); auto; discriminate|]. cbn zeta.
  rewrite (mean_density_ext n K K _ (density_of (SDense out)) (keq_refl n K) (keq_sym _ _ _ KO)). rewrite <- (mean_density_of n K (SDense out) HO). cbn [mean].
  apply form_distance; try assumption. rewrite NO. exact PH.
Qed.
Lemma c127_outcomes : forall w n vals circuit gs a0 a c delta eps k ev, set_order (set_iter w) -> runnable n vals circuit gs -> Forall noiseless gs ->
    is_state n a0 -> physical n (SDense a0) -> is_state n a -> (distance n a a0 <= eps)%R -> rounded w n vals delta k gs a c ->
    exists out, run w circuit (SDense a0) vals = Ok (Some (SDense out)) /\
      let eta := (eps + INR k * delta)%R in (Rabs (event_probability n ev (SDense c) - event_probability n ev (SDense out)) <= 2 * eta + eta * eta)%R.
Proof.
  intros w n vals circuit gs a0 a c delta eps k ev SO RN NN H0 PH HA D R.
  destruct (rounded_output w n vals circuit gs a0 a c delta eps k SO RN NN H0 HA D R) as (out & E & DO & HC & HO & NO & KO). exists out. split; [exact E|]. cbn zeta.
  destruct (event_is_test n ev) as [TL TH].
  assert (B : (Rabs (mean_pure n (event_test ev) (amp c) - mean_pure n (event_test ev) (amp out)) <= 1 * (2 * (eps + INR k * delta) + (eps + INR k * delta) * (eps + INR k * delta)))%R).
  { apply form_distance; [|exact TH|lra|rewrite NO; exact PH|exact DO]. intro f. specialize (TL f). pose proof (norm_nonneg n f). lra. }
  change (mean_pure n (event_test ev) (amp c)) with (mean n (event_test ev) (SDense c)) in B. change (mean_pure n (event_test ev) (amp out)) with (mean n (event_test ev) (SDense out)) in B.
  rewrite !mean_density_of, !event_test_mean, Rmult_1_l in B by assumption. exact B.
Qed.
