(** * Proofs of C79, C80: expected value and variance of the finite-shot estimates. *)
From Coq Require Import String List Arith Bool Reals Lia Lra ZArith Permutation.
From Verif Require Import Cplx Py PyFacts Ndarray NdFacts Spec OperatorUtils SpecFacts ApplyOperator Sparse Noise Gates Apply Composite Conversion Shots Gpsr Api
  GateSpec PropSpec NoiseSpec SampleSpec ExpectSpec ShotsSpec AlgebraFacts GroupFacts TensorFacts TensorThm GateThm NoiseThm NoiseThm2 SampleThm SeqThm ExpectThm ExpectThm2 ShotsThm.
Import ListNotations.
Local Open Scope nat_scope.

(** ** the second moment *)
Lemma square_basis : forall n K ev V, eigenbasis n K ev V -> eigenbasis n (kmul n K K) (map (fun x => x * x)%R ev) V.
Proof.
  intros n K ev V (L & U & E). split; [rewrite map_length; exact L|split; [exact U|]].
  eapply keq_trans; [apply kmul_assoc|]. eapply keq_trans; [apply kmul_ext; [intros x y _ _; reflexivity|exact E]|].
  eapply keq_trans; [apply keq_sym; apply kmul_assoc|]. eapply keq_trans; [apply kmul_ext; [exact E|intros x y _ _; reflexivity]|].
  eapply keq_trans; [apply kmul_assoc|]. apply kmul_ext; [intros x y _ _; reflexivity|].
  intros x y Hx Hy. rewrite diag_apply by exact Hx. unfold diag_op. destruct (list_eq_dec Nat.eq_dec x y) as [<-|N]; [|ring].
  rewrite <- RtoC_mul. f_equal. rewrite (nth_indep (map _ ev) 0%R ((fun x => x * x)%R 0%R)).
  - rewrite (map_nth (fun x => (x * x)%R)). reflexivity.
  - rewrite map_length, L. apply binval_lt; exact Hx.
Qed.
Lemma second_moment : forall w n vals V ls Ks evs out, state_of n out -> jointly_measured w n vals V ls Ks evs ->
    Forall (fun K => weighted (outcome_distribution n (entry V) out) (map (fun x => x * x)%R (eigenvalues_in n (entry V) K)) = mean n (kmul n K K) out) Ks.
Proof.
  intros w n vals V ls Ks evs out So H. induction H as [|l K ev V' ls Ks evs HO HD (p & PP & PC) HJ IH]; constructor; [|exact IH].
  destruct HD as (_ & _ & HB & _). rewrite outcome_weights, weighted_bits by (unfold eigenvalues_in; rewrite !map_length; apply bitstrings_count).
  transitivity (mean_density n (kmul n K K) (density_of out)).
  - rewrite <- (aligned_mean n (kmul n K K) _ (entry V) (entry V') p (density_of out) (square_basis _ _ _ _ HB) PP PC). apply rsum_ext; intros z Hz. f_equal.
    unfold eigenvalues_in. rewrite map_map, nth_bits by exact Hz. rewrite <- weight_form, <- (aligned_weight n K ev (entry V) (entry V') p z HB PP PC Hz).
    assert (J := Permutation_in z (Permutation_sym PP) Hz). apply in_map_iff in J as (y & <- & Hy). rewrite !aligned_at by assumption.
    rewrite (nth_indep (map _ ev) 0%R ((fun x => x * x)%R 0%R)) by (rewrite map_length, (proj1 HB); apply binval_lt; exact Hy).
    rewrite (map_nth (fun x => (x * x)%R)). reflexivity.
  - destruct out as [a|b|a]; [|destruct So|reflexivity]. cbn [mean density_of]. unfold pure_density. apply mean_pure_density.
Qed.

(** ** expectations over a finite space *)
Lemma expected_ext : forall Om f g, Forall (fun qc => f (snd qc) = g (snd qc)) Om -> expected Om f = expected Om g.
Proof. intros Om f g F. unfold expected. apply rsum_ext. intros qc Hq. rewrite Forall_forall in F. rewrite (F qc Hq). reflexivity. Qed.
Lemma expected_scale : forall Om c f, expected Om (fun ch => c * f ch)%R = (c * expected Om f)%R.
Proof. intros Om c f. unfold expected. rewrite <- rsum_scale. apply rsum_ext; intros; ring. Qed.
Lemma expected_add : forall Om f g, expected Om (fun ch => f ch + g ch)%R = (expected Om f + expected Om g)%R.
Proof. intros Om f g. unfold expected. rewrite <- rsum_add. apply rsum_ext; intros; ring. Qed.
Lemma expected_sum : forall Om {A} (l : list A) (f : A -> sampler -> R), expected Om (fun ch => rsum l (fun x => f x ch)) = rsum l (fun x => expected Om (f x)).
Proof.
  intros Om A l f. induction l as [|a l IH]; cbn [rsum].
  - unfold expected. rewrite (rsum_ext _ _ (fun _ => (0 * 0)%R)) by (intros; ring). rewrite rsum_scale; ring.
  - rewrite expected_add, IH. reflexivity.
Qed.
Lemma expected_const : forall Om c, rsum Om fst = 1%R -> expected Om (fun _ => c) = c.
Proof. intros Om c H. unfold expected. rewrite (rsum_ext _ _ (fun qc => (c * fst qc)%R)) by (intros; ring). rewrite rsum_scale, H; ring. Qed.
Lemma expected_le : forall Om f g, Forall (fun qc => (0 <= fst qc)%R) Om -> (forall ch, (f ch <= g ch)%R) -> (expected Om f <= expected Om g)%R.
Proof.
  intros Om f g F H. unfold expected. apply rsum_le. intros qc Hq. rewrite Forall_forall in F. apply Rmult_le_compat_l; [apply F; exact Hq|apply H].
Qed.

(** the value at a draw as a sum of indicators *)
Lemma value_drawn : forall a key p k j (ch : sampler), length a = length p -> j < k -> length (ch key p k) = k -> Forall (fun i => i < length p) (ch key p k) ->
    nth (nth j (ch key p k) (length p)) a 0%R = rsum (seq 0 (length p)) (fun i => (nth i a 0 * drawn key p k j i ch)%R).
Proof.
  intros a key p k j ch LA Hj LC F. assert (B : nth j (ch key p k) (length p) < length p) by (rewrite Forall_forall in F; apply F; apply nth_In; lia).
  rewrite (rsum_single _ (nth j (ch key p k) (length p))); [unfold drawn; rewrite Nat.eqb_refl; ring|apply seq_NoDup|apply in_seq; lia|].
  intros y _ N. unfold drawn. destruct (Nat.eqb_spec (nth j (ch key p k) (length p)) y); [congruence|ring].
Qed.
Lemma weighted_seq : forall p a, length a = length p -> weighted p a = rsum (seq 0 (length p)) (fun i => (nth i p 0 * nth i a 0)%R).
Proof.
  unfold weighted. induction p as [|x p IH]; intros [|y a] L; cbn [length] in L; try discriminate; [reflexivity|].
  cbn [combine rsum length seq fst snd nth]. rewrite IH by lia. rewrite <- seq_shift, rsum_map'. reflexivity.
Qed.
Lemma draw_mean : forall Om key p k a j, fair_sampling Om key p k -> length a = length p -> j < k ->
    expected Om (fun ch => nth (nth j (ch key p k) (length p)) a 0%R) = weighted p a.
Proof.
  intros Om key p k a j (_ & _ & FC & FP) LA Hj.
  rewrite (expected_ext _ _ (fun ch => rsum (seq 0 (length p)) (fun i => (nth i a 0 * drawn key p k j i ch)%R))).
  - rewrite expected_sum, weighted_seq by exact LA. apply rsum_ext; intros i Hi. apply in_seq in Hi. rewrite expected_scale, FP by lia. ring.
  - eapply Forall_impl; [|exact FC]. intros qc [L F]. apply value_drawn; assumption.
Qed.
Lemma draw_product : forall Om key p k a j j', fair_sampling Om key p k -> independent_draws Om key p k -> length a = length p -> j < k -> j' < k -> j <> j' ->
    expected Om (fun ch => nth (nth j (ch key p k) (length p)) a 0 * nth (nth j' (ch key p k) (length p)) a 0)%R = (weighted p a * weighted p a)%R.
Proof.
  intros Om key p k a j j' (_ & _ & FC & FP) HI LA Hj Hj' N.
  rewrite (expected_ext _ _ (fun ch => rsum (seq 0 (length p)) (fun i => rsum (seq 0 (length p)) (fun i' => (nth i a 0 * nth i' a 0 * (drawn key p k j i ch * drawn key p k j' i' ch))%R)))).
  - rewrite expected_sum, weighted_seq by exact LA. rewrite <- rsum_scale. apply rsum_ext; intros i Hi. apply in_seq in Hi.
    rewrite expected_sum, Rmult_comm, <- rsum_scale. apply rsum_ext; intros i' Hi'. apply in_seq in Hi'.
    rewrite expected_scale, HI by lia. ring.
  - eapply Forall_impl; [|exact FC]. intros qc [L F]. rewrite !(value_drawn a) by assumption. symmetry.
    rewrite (rsum_ext _ (fun i => rsum _ _) (fun i => (rsum (seq 0 (length p)) (fun i => nth i a 0 * drawn key p k j' i (snd qc)) * (nth i a 0 * drawn key p k j i (snd qc)))%R)).
    + rewrite rsum_scale. ring.
    + intros i Hi. rewrite (Rmult_comm (rsum _ _)), <- rsum_scale. apply rsum_ext; intros; ring.
Qed.

(** ** the estimate *)
Lemma average_draws : forall a key p k (ch : sampler), length (ch key p k) = k -> Forall (fun i => i < length p) (ch key p k) ->
    average (values_at a (ch key p k)) = (/ INR k * rsum (seq 0 k) (fun j => nth (nth j (ch key p k) (length p)) a 0))%R.
Proof.
  intros a key p k ch L F. unfold average, values_at. rewrite map_length, L, rsum_map'. unfold Rdiv. rewrite Rmult_comm. f_equal.
  rewrite <- (rsum_map' (fun j => nth j (ch key p k) (length p)) (seq 0 k) (fun i => nth i a 0%R)). f_equal.
  rewrite <- L at 2. clear. generalize (length p); intro d. induction (ch key p k) as [|x l IH]; [reflexivity|].
  cbn [length seq map nth]. f_equal. rewrite <- seq_shift, map_map. exact IH.
Qed.
Lemma rsum_const : forall {A} (l : list A) c, rsum l (fun _ => c) = (INR (length l) * c)%R.
Proof. intros A l c. induction l as [|x l IH]; cbn [rsum length]; [cbn [INR]; ring|]. rewrite IH, S_INR; ring. Qed.
Lemma estimate_mean : forall Om key p k a, fair_sampling Om key p k -> length a = length p -> 0 < k ->
    expected Om (fun ch => average (values_at a (ch key p k))) = weighted p a.
Proof.
  intros Om key p k a HF LA Hk. assert (FC := proj1 (proj2 (proj2 HF))).
  rewrite (expected_ext _ _ (fun ch => (/ INR k * rsum (seq 0 k) (fun j => nth (nth j (ch key p k) (length p)) a 0))%R)).
  - rewrite expected_scale, expected_sum. rewrite (rsum_ext _ _ (fun _ => weighted p a)).
    + rewrite rsum_const, seq_length. field. apply not_0_INR; lia.
    + intros j Hj. apply in_seq in Hj. apply draw_mean; [exact HF|exact LA|lia].
  - eapply Forall_impl; [|exact FC]. intros qc [L F]. apply average_draws; assumption.
Qed.
Lemma estimate_variance : forall Om key p k a, fair_sampling Om key p k -> independent_draws Om key p k -> length a = length p -> 0 < k ->
    expected Om (fun ch => (average (values_at a (ch key p k)) - weighted p a) * (average (values_at a (ch key p k)) - weighted p a))%R
    = ((weighted p (map (fun x => x * x)%R a) - weighted p a * weighted p a) / INR k)%R.
Proof.
  intros Om key p k a HF HI LA Hk. assert (FC := proj1 (proj2 (proj2 HF))). assert (NK : INR k <> 0%R) by (apply not_0_INR; lia).
  set (m := weighted p a). set (m2 := weighted p (map (fun x => (x * x)%R) a)).
  pose (X j (ch : sampler) := nth (nth j (ch key p k) (length p)) a 0%R).
  rewrite (expected_ext _ _ (fun ch => (/ INR k * / INR k * rsum (seq 0 k) (fun j => rsum (seq 0 k) (fun j' => X j ch * X j' ch)) + (- (2 * m) * average (values_at a (ch key p k)) + m * m)))%R).
  - rewrite !expected_add, expected_scale, expected_scale, estimate_mean by assumption. fold m. rewrite expected_const by apply HF.
    rewrite expected_sum. rewrite (rsum_ext _ _ (fun _ => (INR k * (m * m) + (m2 - m * m))%R)).
    + rewrite rsum_const, seq_length. field; exact NK.
    + intros j Hj. assert (Hj' := Hj). apply in_seq in Hj'. rewrite expected_sum.
      rewrite (rsum_ext _ _ (fun j' => (m * m + (if Nat.eqb j' j then m2 - m * m else 0))%R)).
      * rewrite rsum_add, rsum_const, seq_length. f_equal. rewrite (rsum_single _ j); [rewrite Nat.eqb_refl; reflexivity|apply seq_NoDup|exact Hj|].
        intros y _ N. destruct (Nat.eqb_spec y j); [congruence|reflexivity].
      * intros j' Hq. apply in_seq in Hq. destruct (Nat.eqb_spec j' j) as [->|N].
        -- unfold m2. rewrite <- (draw_mean Om key p k _ j HF) by (rewrite ?map_length; lia). rewrite (Rplus_comm (m * m)). unfold Rminus. rewrite Rplus_assoc, Rplus_opp_l, Rplus_0_r.
           apply expected_ext. eapply Forall_impl; [|exact FC]. intros qc [L F]. unfold X.
           assert (B : nth j (snd qc key p k) (length p) < length p) by (rewrite Forall_forall in F; apply F; apply nth_In; lia).
           rewrite (nth_indep (map _ a) 0%R ((fun x => x * x)%R 0%R)) by (rewrite map_length; lia). rewrite (map_nth (fun x => (x * x)%R)). reflexivity.
        -- rewrite Rplus_0_r. unfold m. apply (draw_product Om key p k a j j' HF HI LA); lia.
  - eapply Forall_impl; [|exact FC]. intros [q ch] [L F]. cbn [snd] in *. rewrite (average_draws a key p k ch L F).
    assert (Q : rsum (seq 0 k) (fun j => rsum (seq 0 k) (fun j' => X j ch * X j' ch))%R = (rsum (seq 0 k) (fun j => X j ch) * rsum (seq 0 k) (fun j => X j ch))%R).
    { rewrite <- rsum_scale. apply rsum_ext; intros j _. rewrite Rmult_comm, <- rsum_scale. reflexivity. }
    rewrite Q. unfold X. ring.
Qed.
Lemma chebyshev : forall Om (f : sampler -> R) m eps, Forall (fun qc => (0 <= fst qc)%R) Om -> (0 < eps)%R ->
    (expected Om (fun ch => if Rle_dec eps (Rabs (f ch - m)) then 1 else 0) <= expected Om (fun ch => (f ch - m) * (f ch - m)) / (eps * eps))%R.
Proof.
  intros Om f m eps F He. assert (H2 : (0 < eps * eps)%R) by (apply Rmult_lt_0_compat; exact He).
  apply (Rmult_le_reg_r (eps * eps)); [exact H2|]. unfold Rdiv. rewrite Rmult_assoc, Rinv_l, Rmult_1_r by lra. rewrite Rmult_comm, <- expected_scale.
  apply expected_le; [exact F|]. intro ch. destruct (Rle_dec eps (Rabs (f ch - m))) as [Q|Q].
  - rewrite Rmult_1_r. replace ((f ch - m) * (f ch - m))%R with (Rabs (f ch - m) * Rabs (f ch - m))%R by (rewrite <- Rabs_mult; apply Rabs_pos_eq, Rle_0_sqr).
    apply Rmult_le_compat; lra.
  - rewrite Rmult_0_r. apply Rle_0_sqr.
Qed.

(** ** the functions of the model do not draw until the end *)
Lemma denotes_choice : forall w ch n vals sq o K, denotes w n vals sq o K -> denotes (with_choice w ch) n vals sq o K.
Proof.
  intros w ch n vals sq. apply (denotes_induction w n vals sq (fun o K => denotes (with_choice w ch) n vals sq o K)); intros; try (econstructor; eassumption).
Qed.
Lemma observable_choice : forall w ch n vals sq l K, observable_on w n vals sq l K -> observable_on (with_choice w ch) n vals sq l K.
Proof.
  intros w ch n vals sq l K (Ks & NE & F & E). exists Ks. split; [exact NE|split; [|exact E]].
  clear NE E. induction F; constructor; [apply denotes_choice; assumption|assumption].
Qed.
Lemma jointly_choice : forall w ch n vals V ls Ks evs, jointly_measured w n vals V ls Ks evs -> jointly_measured (with_choice w ch) n vals V ls Ks evs.
Proof.
  intros w ch n vals V ls Ks evs H. induction H; econstructor; [apply observable_choice; eassumption|eassumption|assumption|assumption].
Qed.
Lemma eigenvalues_length : forall n V K s, length (eigenvalues_in n V K) = length (outcome_distribution n V s).
Proof. intros. unfold eigenvalues_in, outcome_distribution. rewrite !map_length; reflexivity. Qed.

Lemma and_assoc_l : forall A B D : Prop, (A /\ B /\ D) <-> ((A /\ B) /\ D). Proof. tauto. Qed.
Lemma forall_and : forall {A} (P Q : A -> Prop), (forall a, P a /\ Q a) -> (forall a, P a) /\ (forall a, Q a). Proof. intros A P Q H; split; intro a; apply H. Qed.
Lemma any_choice : forall w n vals circuit gs st l K ev V ls Ks evs mode k key,
    set_order (set_iter w) -> sequence_of circuit gs -> gs <> [] ->
    Forall (usable n vals) gs -> Forall dense_gate gs -> Forall noise_ok gs -> state_of n st ->
    diagonalised w n K ev V -> jointly_measured w n vals V (l :: ls) (K :: Ks) (ev :: evs) ->
    mode = AD \/ mode = GPSR -> (0 < k)%Z ->
    exists out, run w circuit st vals = Ok (Some out) /\ state_of n out /\ apply_gates w st (GMany gs) vals UNITARY false true = Ok out /\
      (forall ch, finite_shots (with_choice w ch) st (GMany gs) (l :: ls) vals (Z.to_nat k) key
        = Ok (map (fun K => average (values_at (eigenvalues_in n (entry V) K) (ch key (outcome_distribution n (entry V) out) (Z.to_nat k)))) (K :: Ks))) /\
      (forall ch, expectation (with_choice w ch) st circuit (l :: ls) vals mode k key
        = Ok (map (fun K => average (values_at (eigenvalues_in n (entry V) K) (ch key (outcome_distribution n (entry V) out) (Z.to_nat k)))) (K :: Ks))) /\
      Forall (fun K => weighted (outcome_distribution n (entry V) out) (eigenvalues_in n (entry V) K) = mean n K out) (K :: Ks).
Proof.
  intros w n vals circuit gs st l K ev V ls Ks evs mode k key SO HQ NG FU FD FN HS HD HJ HM Hk.
  destruct (c51_value w n vals circuit gs st l K ev V ls Ks evs mode k key SO HQ NG FU FD FN HS HD HJ HM Hk) as (out & Er & Ea & So & _ & _ & _ & _ & M).
  exists out. split; [exact Er|split; [exact So|split; [exact Ea|]]]. rewrite and_assoc_l. split; [|exact M]. apply forall_and. intro ch.
  destruct (c51_value (with_choice w ch) n vals circuit gs st l K ev V ls Ks evs mode k key SO HQ NG FU FD FN HS HD (jointly_choice _ _ _ _ _ _ _ _ HJ) HM Hk) as (out' & _ & Ea' & _ & F & E & _).
  change (apply_gates w st (GMany gs) vals UNITARY false true = Ok out') in Ea'. rewrite Ea in Ea'. injection Ea' as <-. split; [exact F|exact E].
Qed.

(** C79, C80 *)
Lemma c79_unbiased : forall w n vals circuit gs st l K ev V ls Ks evs mode k key,
    set_order (set_iter w) -> sequence_of circuit gs -> gs <> [] ->
    Forall (usable n vals) gs -> Forall dense_gate gs -> Forall noise_ok gs -> state_of n st ->
    diagonalised w n K ev V -> jointly_measured w n vals V (l :: ls) (K :: Ks) (ev :: evs) ->
    mode = AD \/ mode = GPSR -> (0 < k)%Z ->
    exists out estimates, run w circuit st vals = Ok (Some out) /\
      (forall ch, expectation (with_choice w ch) st circuit (l :: ls) vals mode k key = Ok (estimates ch)) /\
      forall Om, fair_sampling Om key (outcome_distribution n (entry V) out) (Z.to_nat k) ->
      forall i, i < length (K :: Ks) -> expected Om (fun ch => nth i (estimates ch) 0%R) = mean n (nth i (K :: Ks) kid) out.
Proof.
  intros w n vals circuit gs st l K ev V ls Ks evs mode k key SO HQ NG FU FD FN HS HD HJ HM Hk.
  destruct (any_choice w n vals circuit gs st l K ev V ls Ks evs mode k key SO HQ NG FU FD FN HS HD HJ HM Hk) as (out & Er & So & _ & _ & E & M).
  eexists out, _. split; [exact Er|split; [exact E|]]. intros Om HF i Hi. cbv beta.
  rewrite (expected_ext _ _ (fun ch => average (values_at (eigenvalues_in n (entry V) (nth i (K :: Ks) kid)) (ch key (outcome_distribution n (entry V) out) (Z.to_nat k))))).
  - rewrite estimate_mean; [|exact HF|apply eigenvalues_length|lia]. rewrite Forall_forall in M. apply M, nth_In; exact Hi.
  - apply Forall_forall. intros qc _. rewrite (nth_map_lt _ _ _ _ kid) by exact Hi. reflexivity.
Qed.
Lemma c80_variance : forall w n vals circuit gs st l K ev V ls Ks evs mode k key,
    set_order (set_iter w) -> sequence_of circuit gs -> gs <> [] ->
    Forall (usable n vals) gs -> Forall dense_gate gs -> Forall noise_ok gs -> state_of n st ->
    diagonalised w n K ev V -> jointly_measured w n vals V (l :: ls) (K :: Ks) (ev :: evs) ->
    mode = AD \/ mode = GPSR -> (0 < k)%Z ->
    exists out estimates, run w circuit st vals = Ok (Some out) /\
      (forall ch, expectation (with_choice w ch) st circuit (l :: ls) vals mode k key = Ok (estimates ch)) /\
      forall Om, fair_sampling Om key (outcome_distribution n (entry V) out) (Z.to_nat k) -> independent_draws Om key (outcome_distribution n (entry V) out) (Z.to_nat k) ->
      forall i, i < length (K :: Ks) ->
      let A := nth i (K :: Ks) kid in
      let error ch := (nth i (estimates ch) 0 - mean n A out)%R in
      let variance := ((mean n (kmul n A A) out - mean n A out * mean n A out) / IZR k)%R in
      expected Om (fun ch => error ch * error ch)%R = variance /\
      forall eps, (0 < eps)%R -> (expected Om (fun ch => if Rle_dec eps (Rabs (error ch)) then 1 else 0) <= variance / (eps * eps))%R.
Proof.
  intros w n vals circuit gs st l K ev V ls Ks evs mode k key SO HQ NG FU FD FN HS HD HJ HM Hk.
  destruct (any_choice w n vals circuit gs st l K ev V ls Ks evs mode k key SO HQ NG FU FD FN HS HD HJ HM Hk) as (out & Er & So & _ & _ & E & M).
  assert (M2 := second_moment w n vals V _ _ _ out So HJ).
  eexists out, _. split; [exact Er|split; [exact E|]]. intros Om HF HI i Hi. cbv zeta.
  assert (V1 : expected Om (fun ch => (nth i (map (fun K => average (values_at (eigenvalues_in n (entry V) K) (ch key (outcome_distribution n (entry V) out) (Z.to_nat k)))) (K :: Ks)) 0 - mean n (nth i (K :: Ks) kid) out) *
       (nth i (map (fun K => average (values_at (eigenvalues_in n (entry V) K) (ch key (outcome_distribution n (entry V) out) (Z.to_nat k)))) (K :: Ks)) 0 - mean n (nth i (K :: Ks) kid) out))%R =
     ((mean n (kmul n (nth i (K :: Ks) kid) (nth i (K :: Ks) kid)) out - mean n (nth i (K :: Ks) kid) out * mean n (nth i (K :: Ks) kid) out) / IZR k)%R).
  { set (A := nth i (K :: Ks) kid). assert (IA : In A (K :: Ks)) by (apply nth_In; exact Hi).
    rewrite Forall_forall in M, M2. rewrite <- (M A IA), <- (M2 A IA). replace (IZR k) with (INR (Z.to_nat k)) by (rewrite INR_IZR_INZ, Z2Nat.id by lia; reflexivity).
    rewrite <- (estimate_variance Om key) by (first [assumption|apply eigenvalues_length|lia]). apply expected_ext. apply Forall_forall. intros qc _.
    rewrite (nth_map_lt _ _ _ _ kid) by exact Hi. reflexivity. }
  split; [exact V1|]. intros eps He. rewrite <- V1.
  apply (chebyshev Om (fun ch => nth i (map (fun K => average (values_at (eigenvalues_in n (entry V) K) (ch key (outcome_distribution n (entry V) out) (Z.to_nat k)))) (K :: Ks)) 0%R)); [apply HF|exact He].
Qed.

(** ** for every distribution there are fair independent draws *)
Fixpoint tuples (p : list R) (k : nat) : list (R * list nat) :=
  match k with
  | 0 => [(1%R, [])]
  | S k => flat_map (fun i => map (fun qt => ((nth i p 0 * fst qt)%R, i :: snd qt)) (tuples p k)) (seq 0 (length p))
  end.
Definition product_space (p : list R) (k : nat) : space := map (fun qt => (fst qt, fun _ _ _ => snd qt)) (tuples p k).
Lemma rsum_app : forall {A} (l m : list A) f, rsum (l ++ m) f = (rsum l f + rsum m f)%R.
Proof. intros A l m f. induction l as [|a l IH]; cbn [app rsum]; [ring|rewrite IH; ring]. Qed.
Lemma tuples_sum : forall p k (f : list nat -> R),
    rsum (tuples p (S k)) (fun qt => fst qt * f (snd qt))%R = rsum (seq 0 (length p)) (fun i => nth i p 0 * rsum (tuples p k) (fun qt => fst qt * f (i :: snd qt)))%R.
Proof.
  intros p k f. cbn [tuples]. induction (seq 0 (length p)) as [|i l IH]; [reflexivity|]. cbn [flat_map rsum]. rewrite rsum_app, IH. f_equal.
  rewrite rsum_map', <- rsum_scale. apply rsum_ext; intros; cbn [fst snd]; ring.
Qed.
Lemma rsum_nth : forall p, rsum (seq 0 (length p)) (fun i => nth i p 0%R) = rsum p (fun x => x).
Proof. induction p as [|x p IH]; [reflexivity|]. cbn [length seq rsum nth]. rewrite <- seq_shift, rsum_map'. f_equal. exact IH. Qed.
Lemma tuples_total : forall p k, is_distribution p -> rsum (tuples p k) fst = 1%R.
Proof.
  intros p k [_ HP]. rewrite (rsum_ext _ _ (fun qt => fst qt * (fun _ => 1) (snd qt))%R) by (intros; ring).
  induction k as [|k IH]; [cbn; ring|]. rewrite (tuples_sum p k (fun _ => 1%R)).
  rewrite (rsum_ext _ _ (fun i => nth i p 0%R)); [rewrite rsum_nth; exact HP|]. intros i Hi. rewrite IH; ring.
Qed.
Lemma tuples_ok : forall p k, is_distribution p -> Forall (fun qt => (0 <= fst qt)%R /\ length (snd qt) = k /\ Forall (fun i => i < length p) (snd qt)) (tuples p k).
Proof.
  intros p k [HN _]. induction k as [|k IH]; cbn [tuples].
  - constructor; [|constructor]. cbn [fst snd]. repeat split; [lra|constructor].
  - apply Forall_forall. intros x Hx. apply in_flat_map in Hx as (i & Hi & Hx). apply in_seq in Hi. apply in_map_iff in Hx as (qt & <- & Hq). cbn [fst snd length].
    rewrite Forall_forall in IH, HN. destruct (IH qt Hq) as (A & B & F). repeat split; [|lia|constructor; [lia|exact F]].
    apply Rmult_le_pos; [apply HN, nth_In; lia|exact A].
Qed.
Definition hit (d j i : nat) (t : list nat) : R := if Nat.eqb (nth j t d) i then 1%R else 0%R.
Lemma hit_first : forall p i (c : nat -> R), i < length p -> rsum (seq 0 (length p)) (fun x => nth x p 0 * (hit (length p) 0 i [x] * c x))%R = (nth i p 0 * c i)%R.
Proof.
  intros p i c Hi. rewrite (rsum_single _ i); [unfold hit; cbn [nth]; rewrite Nat.eqb_refl; ring|apply seq_NoDup|apply in_seq; lia|].
  intros y _ N. unfold hit; cbn [nth]. destruct (Nat.eqb_spec y i); [congruence|ring].
Qed.
Lemma tuples_hit : forall p k j i, is_distribution p -> j < k -> i < length p -> rsum (tuples p k) (fun qt => fst qt * hit (length p) j i (snd qt))%R = nth i p 0%R.
Proof.
  intros p k j i HP Hj Hi. revert j Hj. induction k as [|k IH]; intros j Hj; [lia|]. rewrite tuples_sum. destruct j as [|j].
  - rewrite (rsum_ext _ _ (fun x => nth x p 0 * (hit (length p) 0 i [x] * 1))%R); [rewrite hit_first by exact Hi; ring|].
    intros x Hx. f_equal. rewrite <- (tuples_total p k HP), <- rsum_scale. apply rsum_ext; intros. unfold hit; cbn [nth]; ring.
  - rewrite (rsum_ext _ _ (fun x => (nth i p 0 * nth x p 0)%R)); [rewrite rsum_scale, rsum_nth, (proj2 HP); ring|].
    intros x Hx. rewrite Rmult_comm. f_equal. rewrite <- (IH j) by lia. reflexivity.
Qed.
Lemma tuples_hit2 : forall p k j j' i i', is_distribution p -> j < k -> j' < k -> j <> j' -> i < length p -> i' < length p ->
    rsum (tuples p k) (fun qt => fst qt * (hit (length p) j i (snd qt) * hit (length p) j' i' (snd qt)))%R = (nth i p 0 * nth i' p 0)%R.
Proof.
  intros p k j j' i i' HP Hj Hj' N Hi Hi'. revert j j' Hj Hj' N. induction k as [|k IH]; intros j j' Hj Hj' N; [lia|].
  rewrite (tuples_sum p k (fun t => hit (length p) j i t * hit (length p) j' i' t)%R). destruct j as [|j], j' as [|j']; [lia| | |].
  - rewrite (rsum_ext _ _ (fun x => nth x p 0 * (hit (length p) 0 i [x] * nth i' p 0))%R); [rewrite hit_first by exact Hi; ring|].
    intros x Hx. f_equal. rewrite <- (tuples_hit p k j' i' HP) by lia. rewrite <- rsum_scale. apply rsum_ext; intros. unfold hit; cbn [nth]; ring.
  - rewrite (rsum_ext _ _ (fun x => nth x p 0 * (hit (length p) 0 i' [x] * nth i p 0))%R); [rewrite hit_first by exact Hi'; ring|].
    intros x Hx. f_equal. rewrite <- (tuples_hit p k j i HP) by lia. rewrite <- rsum_scale. apply rsum_ext; intros. unfold hit; cbn [nth]; ring.
  - rewrite (rsum_ext _ _ (fun x => (nth i p 0 * nth i' p 0 * nth x p 0)%R)); [rewrite rsum_scale, rsum_nth, (proj2 HP); ring|].
    intros x Hx. rewrite Rmult_comm. f_equal. rewrite <- (IH j j') by lia. reflexivity.
Qed.
Lemma fair_draws_exist : forall key p k, is_distribution p -> exists Om, fair_sampling Om key p k /\ independent_draws Om key p k.
Proof.
  intros key p k HP. exists (product_space p k). split; [split; [|split; [|split]]|].
  - unfold product_space. rewrite rsum_map'. apply tuples_total; exact HP.
  - unfold product_space. apply Forall_map. eapply Forall_impl; [|apply tuples_ok; exact HP]. intros qt H; apply H.
  - unfold product_space. apply Forall_map. eapply Forall_impl; [|apply tuples_ok; exact HP]. intros qt H; split; apply H.
  - intros j i Hj Hi. unfold expected, product_space. rewrite rsum_map'. apply (tuples_hit p k j i HP Hj Hi).
  - intros j j' i i' Hj Hj' N Hi Hi'. unfold expected, product_space. rewrite rsum_map'. apply (tuples_hit2 p k j j' i i' HP Hj Hj' N Hi Hi').
Qed.
Lemma c50_unbiased : forall w n vals circuit gs st l K ev V mode k key,
    set_order (set_iter w) -> sequence_of circuit gs -> gs <> [] ->
    Forall (usable n vals) gs -> Forall dense_gate gs -> Forall noise_ok gs -> state_of n st ->
    observable_on w n vals false l K -> diagonalised w n K ev V -> mode = AD \/ mode = GPSR -> (0 < k)%Z ->
    exists out estimate, run w circuit st vals = Ok (Some out) /\
      (forall ch, expectation (with_choice w ch) st circuit [l] vals mode k key = Ok [estimate ch]) /\
      forall Om, fair_sampling Om key (outcome_distribution n (entry V) out) (Z.to_nat k) -> expected Om estimate = mean n K out.
Proof.
  intros w n vals circuit gs st l K ev V mode k key SO HQ NG FU FD FN HS HO HD HM Hk.
  destruct (any_choice w n vals circuit gs st l K ev V [] [] [] mode k key SO HQ NG FU FD FN HS HD) as (out & Er & So & _ & _ & E & M); [|exact HM|exact Hk|].
  { econstructor; [exact HO|exact HD|apply same_columns_refl|constructor]. }
  eexists out, _. split; [exact Er|split; [exact E|]]. intros Om HF. cbv beta.
  rewrite estimate_mean; [|exact HF|apply eigenvalues_length|lia]. apply (Forall_inv M).
Qed.
(** with shots, both modes ask the generator, with the caller's key, for exactly [k] draws and average the eigenvalues at them *)
Lemma c46_shots : forall w n vals circuit gs st l K ev V mode k key,
    set_order (set_iter w) -> sequence_of circuit gs -> gs <> [] ->
    Forall (usable n vals) gs -> Forall dense_gate gs -> Forall noise_ok gs -> state_of n st ->
    observable_on w n vals false l K -> diagonalised w n K ev V -> mode = AD \/ mode = GPSR -> (0 < k)%Z ->
    exists out, run w circuit st vals = Ok (Some out) /\
      forall ch, expectation (with_choice w ch) st circuit [l] vals mode k key
        = Ok [average (values_at (eigenvalues_in n (entry V) K) (ch key (outcome_distribution n (entry V) out) (Z.to_nat k)))].
Proof.
  intros w n vals circuit gs st l K ev V mode k key SO HQ NG FU FD FN HS HO HD HM Hk.
  destruct (any_choice w n vals circuit gs st l K ev V [] [] [] mode k key SO HQ NG FU FD FN HS HD) as (out & Er & So & _ & _ & E & M); [|exact HM|exact Hk|].
  { econstructor; [exact HO|exact HD|apply same_columns_refl|constructor]. }
  exists out. split; [exact Er|exact E].
Qed.
