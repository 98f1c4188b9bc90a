(** * Samples and expectations agree *)
From Coq Require Import String List Arith Bool Reals Lia Lra ZArith Permutation.
From Verif Require Import Cplx Py PyFacts Ndarray OperatorUtils Sparse Matrices Noise Gates Apply Composite Conversion Shots Gpsr Api
  Spec SpecFacts Deriv GateSpec PropSpec NoiseSpec SampleSpec ExpectSpec GpsrSpec GateFacts CircuitFacts AlgebraFacts ApplyThm GateThm TensorFacts TensorThm
  KrausThm NoiseThm NoiseThm2 SeqThm SampleThm ShotsSpec ShotsThm ShotsThm2 ExpectThm ExpectThm2 GpsrFacts GpsrThm StructSpec PhysSpec PhysThm PhysThm3 PhysThm8.
Import ListNotations.
Local Open Scope nat_scope.

Lemma rsum_positive_only : forall {A} (c : A -> nat) (f : A -> R) l,
    rsum (map (fun x => (x, c x)) (filter (fun x => Nat.ltb 0 (c x)) l)) (fun xc => INR (snd xc) * f (fst xc))%R = rsum l (fun x => INR (c x) * f x)%R.
Proof.
  intros A c f l. rewrite rsum_map'. cbn [fst snd]. induction l as [|x l IH]; [reflexivity|]. cbn [filter rsum].
  destruct (Nat.ltb 0 (c x)) eqn:E; cbn [rsum]; rewrite IH; [reflexivity|]. apply Nat.ltb_ge in E. replace (c x) with 0 by lia. cbn [INR]. ring.
Qed.
Lemma rsum_counted : forall n (f : list nat -> R) draws, Forall (fun i => i < 2 ^ n) draws ->
    rsum (bitstrings n) (fun x => INR (occurrences draws x) * f x)%R = rsum draws (fun i => nth i (map f (bitstrings n)) 0%R).
Proof.
  intros n f draws F. induction draws as [|i draws IH].
  - cbn [rsum]. rewrite (rsum_ext _ _ (fun _ => 0%R)); [rewrite rsum_const; ring|]. intros x _. unfold occurrences. cbn. ring.
  - inversion F as [|? ? Hi F']; subst. cbn [rsum]. rewrite <- IH by exact F'.
    rewrite (rsum_ext _ _ (fun x => (if Nat.eqb (binval x) i then f x else 0) + INR (occurrences draws x) * f x)%R).
    + rewrite rsum_add. f_equal. assert (I : In i (map binval (bitstrings n))) by (rewrite binval_bitstrings; apply in_seq; lia).
      apply in_map_iff in I. destruct I as (x & E & Hx).
      rewrite (rsum_single _ x); [|apply bitstrings_NoDup|exact Hx|].
      * rewrite E, Nat.eqb_refl. subst i. symmetry. apply (nth_bits n f 0%R x Hx).
      * intros y Hy N. destruct (Nat.eqb_spec (binval y) i) as [Q|Q]; [|reflexivity]. elim N. apply (binval_inj n); congruence.
    + intros x _. unfold occurrences. cbn [count_occ]. destruct (Nat.eq_dec i (binval x)) as [<-|N].
      * rewrite Nat.eqb_refl, S_INR. ring.
      * destruct (Nat.eqb_spec (binval x) i); [congruence|]. ring.
Qed.
Lemma read_off_histogram : forall n K draws, Forall (fun i => i < 2 ^ n) draws -> read_off K (histogram n draws) = average (values_at (map (fun x => re (K x x)) (bitstrings n)) draws).
Proof.
  intros n K draws F. unfold read_off, average, values_at, histogram. rewrite map_length.
  rewrite (rsum_positive_only (occurrences draws) (fun x => re (K x x))), (rsum_counted n (fun x => re (K x x)) draws F). f_equal.
  - rewrite rsum_map'. reflexivity.
  - f_equal. rewrite (rsum_ext _ _ (fun xc => INR (snd xc) * (fun _ => 1%R) (fst xc))%R) by (intros; ring).
    rewrite (rsum_positive_only (occurrences draws) (fun _ => 1%R)), (rsum_counted n (fun _ => 1%R) draws F).
    rewrite (rsum_ext _ _ (fun _ => 1%R)); [rewrite rsum_const; ring|]. intros i Hi. rewrite Forall_forall in F.
    rewrite (nth_indep _ 0%R 1%R) by (rewrite map_length, bitstrings_count; apply F, Hi). change 1%R with ((fun _ : list nat => 1%R) []) at 2. rewrite map_nth. reflexivity.
Qed.
Lemma diagonal_mean : forall n K r, diagonal_op n K -> positive n r ->
    mean_density n K r = weighted (map (fun x => re (r x x)) (bitstrings n)) (map (fun x => re (K x x)) (bitstrings n)).
Proof.
  intros n K r D P. unfold weighted, mean_density, ktrace. rewrite re_csum_rsum.
  transitivity (rsum (bitstrings n) (fun x => re (r x x) * re (K x x))%R).
  - apply rsum_ext. intros x Hx. unfold kmul. rewrite (csum_single _ x); [|apply bitstrings_NoDup|exact Hx|].
    + destruct (positive_diagonal n r x P Hx) as [_ I]. cbn [Cmul re]. rewrite I. ring.
    + intros y Hy N. rewrite (D x y Hx Hy) by congruence. ring.
  - induction (bitstrings n) as [|x l IH]; [reflexivity|]. cbn [map combine rsum fst snd]. rewrite IH. reflexivity.
Qed.
Lemma c94_read_off : forall w n vals c gs st l K mode key k,
    set_order (set_iter w) -> flat_values vals -> runnable n vals c gs -> state_of n st -> physical n st -> 1 <= n -> (1 <= k)%Z ->
    readable w n vals st gs l K -> diagonal_op n K -> exact_mode mode ->
    exists v p counts, expectation w st c [l] vals mode 0 key = Ok [v] /\ is_distribution p /\
      forall Om, fair_sampling Om 0 p (Z.to_nat k) ->
        Forall (fun qc => fst (sample (with_choice w (snd qc)) st c vals k) = Ok (counts (snd qc))) Om /\
        expected Om (fun ch => read_off K (counts ch)) = v.
Proof.
  intros w n vals c gs st l K mode key k SO FV RN HT PH Hn Hk RD D EM. apply (physical_density n st HT) in PH as [Pos Tr].
  destruct (evolve_physical n vals gs _ (proj1 (proj2 (proj2 RN))) (proj2 (proj2 (proj2 (proj2 RN)))) Pos Tr) as [P1 T1].
  set (r := evolve n vals gs (density_of st)) in *. set (p := map (fun x => re (r x x)) (bitstrings n)).
  assert (L : length p = 2 ^ n) by (unfold p; rewrite map_length; apply bitstrings_count).
  exists (mean_density n K r), p, (fun ch => histogram n (ch 0 p (Z.to_nat k))). split; [|split].
  - apply (exact_spec w n vals c gs st [l] [K]); auto; discriminate.
  - split; [apply Forall_map, Forall_forall; intros x Hx; apply (positive_diagonal n r x P1 Hx)|]. unfold p. rewrite rsum_map', <- re_csum_rsum. fold (ktrace n r). rewrite T1. reflexivity.
  - intros Om FS. pose proof (proj1 (proj2 (proj2 FS))) as FC. split.
    + eapply Forall_impl; [|exact FC]. intros qc [_ F]. rewrite L in F. apply (sample_spec_at (with_choice w (snd qc)) n vals c gs st k); assumption.
    + rewrite (diagonal_mean n K r D P1). rewrite <- (estimate_mean Om 0 p (Z.to_nat k) _ FS); [|rewrite L, map_length; apply bitstrings_count|lia].
      apply expected_ext. eapply Forall_impl; [|exact FC]. intros qc [_ F]. apply read_off_histogram. rewrite <- L; exact F.
Qed.
(** ** Pauli Z *)
Lemma z_kernel : forall n q x y, q < n -> In x (bitstrings n) -> In y (bitstrings n) ->
    ctrl_kernel Z_matrix [] [q] x y = if list_eq_dec Nat.eq_dec x y then (if Nat.eqb (nth q x 0) 0 then C1 else RtoC (-1)) else C0.
Proof.
  intros n q x y Hq Hx Hy. assert (V : valid_qubits n [q]) by (apply valid_one; exact Hq). unfold ctrl_kernel. cbn [bits_at map all_ones forallb length].
  assert (Hb : In (bits_at x [q]) (bitstrings 1)) by (exact (bits_at_bits n x [q] Hx)).
  rewrite (csum_single _ (bits_at x [q])); [|apply bitstrings_NoDup|exact Hb|].
  - rewrite overwrite_self by (intros k [<-|[]]; rewrite (bitstrings_length _ _ Hx); exact Hq). unfold kid.
    cbn [bits_at map] in *. destruct (list_eq_dec Nat.eq_dec x y) as [E|E].
    + simpl in Hb. destruct Hb as [E0|[E0|[]]]; injection E0 as <-; apply C_ext; simpl; ring.
    + ring.
  - intros z Hz N. cbn [bits_at map] in *. simpl in Hb, Hz. destruct Hb as [Hb|[Hb|[]]], Hz as [Hz|[Hz|[]]]; rewrite <- Hb in *; subst z; try (elim N; reflexivity); apply C_ext; simpl; ring.
Qed.
Lemma c94_z : forall w n vals c gs st q mode key k,
    set_order (set_iter w) -> flat_values vals -> runnable n vals c gs -> state_of n st -> physical n st -> q < n -> (1 <= k)%Z -> exact_mode mode ->
    exists v p counts, expectation w st c [pauli_observable PZ q] vals mode 0 key = Ok [v] /\ is_distribution p /\
      forall Om, fair_sampling Om 0 p (Z.to_nat k) ->
        Forall (fun qc => fst (sample (with_choice w (snd qc)) st c vals k) = Ok (counts (snd qc))) Om /\
        expected Om (fun ch => signs q (counts ch)) = v.
Proof.
  intros w n vals c gs st q mode key k SO FV RN HT PH Hq Hk EM.
  pose proof (pauli_readable w n vals st gs PZ q SO Hq) as R1.
  assert (D : diagonal_op n (ksum [ctrl_kernel (pauli_op PZ) [] [q]])).
  { intros x y Hx Hy N. cbn [ksum pauli_op]. rewrite (z_kernel n q x y Hq Hx Hy). destruct (list_eq_dec Nat.eq_dec x y); [contradiction|ring]. }
  apply (physical_density n st HT) in PH as [Pos Tr].
  destruct (evolve_physical n vals gs _ (proj1 (proj2 (proj2 RN))) (proj2 (proj2 (proj2 (proj2 RN)))) Pos Tr) as [P1 T1].
  set (r := evolve n vals gs (density_of st)) in *. set (p := map (fun x => re (r x x)) (bitstrings n)).
  set (K := ksum [ctrl_kernel (pauli_op PZ) [] [q]]) in *.
  assert (L : length p = 2 ^ n) by (unfold p; rewrite map_length; apply bitstrings_count).
  exists (mean_density n K r), p, (fun ch => histogram n (ch 0 p (Z.to_nat k))). split; [|split].
  - apply (exact_spec w n vals c gs st [pauli_observable PZ q] [K]); auto; discriminate.
  - split; [apply Forall_map, Forall_forall; intros x Hx; apply (positive_diagonal n r x P1 Hx)|]. unfold p. rewrite rsum_map', <- re_csum_rsum. fold (ktrace n r). rewrite T1. reflexivity.
  - intros Om FS. pose proof (proj1 (proj2 (proj2 FS))) as FC. split.
    + eapply Forall_impl; [|exact FC]. intros qc [_ F]. rewrite L in F. apply (sample_spec_at (with_choice w (snd qc)) n vals c gs st k); try assumption; lia.
    + rewrite (diagonal_mean n K r D P1). rewrite <- (estimate_mean Om 0 p (Z.to_nat k) _ FS); [|rewrite L, map_length; apply bitstrings_count|lia].
      apply expected_ext. eapply Forall_impl; [|exact FC]. intros qc [_ F]. rewrite L in F. transitivity (read_off K (histogram n (snd qc 0 p (Z.to_nat k)))); [|apply read_off_histogram; exact F].
      unfold signs, read_off. f_equal. apply rsum_ext. intros [x m] H. cbn [fst snd]. f_equal.
      destruct (histogram_spec n _ F) as (_ & HI & _). destruct (HI x m H) as [Hx _]. unfold K. cbn [ksum pauli_op]. rewrite (z_kernel n q x x Hq Hx Hx).
      destruct (list_eq_dec Nat.eq_dec x x) as [_|N]; [|elim N; reflexivity]. destruct (Nat.eqb (nth q x 0) 0); cbn; ring.
Qed.
