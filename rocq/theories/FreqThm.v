(** * Frequencies of outcomes in samples (C119) *)
From Coq Require Import String List Arith Bool Reals Lia Lra ZArith Permutation.
From Verif Require Import Cplx Py PyFacts Ndarray OperatorUtils Sparse Matrices Noise Gates Apply Composite Conversion Shots Gpsr Api
  Spec SpecFacts Deriv GateSpec PropSpec NoiseSpec SampleSpec ExpectSpec GpsrSpec GateFacts CircuitFacts AlgebraFacts ApplyThm GateThm TensorFacts TensorThm
  KrausThm NoiseThm NoiseThm2 SeqThm SampleThm ShotsSpec ShotsThm ShotsThm2 ExpectThm ExpectThm2 GpsrFacts GpsrThm StructSpec PhysSpec PhysThm PhysThm3 PhysThm8 PhysThm9 HeisSpec FreqSpec.
Import ListNotations.
Local Open Scope nat_scope.

Definition event_op (ev : list nat -> bool) : op := fun x y => if list_eq_dec Nat.eq_dec x y then (if ev x then C1 else C0) else C0.
Definition indicator (ev : list nat -> bool) (x : list nat) : R := if ev x then 1%R else 0%R.
Lemma event_entry : forall ev x, re (event_op ev x x) = indicator ev x.
Proof. intros ev x. unfold event_op, indicator. destruct (list_eq_dec Nat.eq_dec x x) as [_|N]; [|elim N; reflexivity]. destruct (ev x); reflexivity. Qed.
Lemma frequency_read_off : forall ev counts, frequency ev counts = read_off (event_op ev) counts.
Proof.
  intros ev counts. unfold frequency, read_off. f_equal. induction counts as [|xc l IH]; [reflexivity|]. cbn [filter rsum]. rewrite event_entry. unfold indicator at 1.
  destruct (ev (fst xc)); cbn [rsum]; rewrite IH; ring.
Qed.
Lemma event_weight : forall n ev (f : list nat -> R), weighted (map f (bitstrings n)) (map (indicator ev) (bitstrings n)) = rsum (filter ev (bitstrings n)) f.
Proof.
  intros n ev f. unfold weighted. induction (bitstrings n) as [|x l IH]; [reflexivity|]. cbn [map combine rsum filter fst snd]. rewrite IH. unfold indicator at 1. destruct (ev x); cbn [rsum]; ring.
Qed.
Lemma average_nonneg : forall a draws, Forall (fun x => (0 <= x)%R) a -> (0 <= average (values_at a draws))%R.
Proof.
  intros a draws F. unfold average, values_at. rewrite rsum_map'. assert (N : (0 <= rsum draws (fun i => nth i a 0))%R).
  { induction draws as [|i l IH]; cbn [rsum]; [lra|]. assert (0 <= nth i a 0)%R by (destruct (nth_in_or_default i a 0%R) as [H| ->]; [rewrite Forall_forall in F; apply F, H|lra]). lra. }
  unfold Rdiv. destruct (Nat.eq_dec (length (map (fun i => nth i a 0%R) draws)) 0) as [->|NZ]; [cbn [INR]; rewrite Rinv_0; lra|]. apply Rmult_le_pos; [exact N|]. apply Rlt_le, Rinv_0_lt_compat, lt_0_INR. lia.
Qed.
Lemma expected_zero : forall Om f, Forall (fun qc => (0 <= fst qc)%R) Om -> (forall ch, (0 <= f ch)%R) -> expected Om f = 0%R -> Forall (fun qc => (0 < fst qc)%R -> f (snd qc) = 0%R) Om.
Proof.
  intros Om f F N E. unfold expected in E. induction F as [|qc Om H F IH]; constructor; cbn [rsum] in E.
  - assert (0 <= rsum Om (fun qc => fst qc * f (snd qc)))%R by (clear - F N; induction F; cbn [rsum]; [lra|]; pose proof (N (snd x)); nra). intro P. pose proof (N (snd qc)). nra.
  - apply IH. assert (0 <= rsum Om (fun qc => fst qc * f (snd qc)))%R by (clear - F N; induction F; cbn [rsum]; [lra|]; pose proof (N (snd x)); nra). pose proof (N (snd qc)). nra.
Qed.
Lemma c119_frequencies : forall w n vals c gs st k, set_order (set_iter w) -> runnable n vals c gs -> state_of n st -> physical n st -> 1 <= n -> (1 <= k)%Z ->
    exists out counts, run w c st vals = Ok (Some out) /\ is_distribution (map (outcome_probability out) (bitstrings n)) /\
      forall Om, fair_sampling Om 0 (map (outcome_probability out) (bitstrings n)) (Z.to_nat k) ->
        Forall (fun qc => fst (sample (with_choice w (snd qc)) st c vals k) = Ok (counts (snd qc))) Om /\
        forall ev, let p := event_probability n ev out in let f ch := frequency ev (counts ch) in
          expected Om f = p /\ (p = 0%R -> Forall (fun qc => (0 < fst qc)%R -> f (snd qc) = 0%R) Om) /\
          (independent_draws Om 0 (map (outcome_probability out) (bitstrings n)) (Z.to_nat k) ->
             expected Om (fun ch => (f ch - p) * (f ch - p))%R = (p * (1 - p) / IZR k)%R /\
             forall eps, (0 < eps)%R -> (off_by Om f p eps <= 1 / (4 * IZR k * (eps * eps)))%R).
Proof.
  intros w n vals c gs st k SO RN HT PH Hn Hk. apply (physical_density n st HT) in PH as [Pos Tr].
  destruct (evolve_physical n vals gs _ (proj1 (proj2 (proj2 RN))) (proj2 (proj2 (proj2 (proj2 RN)))) Pos Tr) as [P1 T1].
  destruct (output_spec w n vals c gs st SO RN HT) as (out & E & _ & _ & So & KD & _). exists out.
  set (r := evolve n vals gs (density_of st)) in *. set (pr := map (outcome_probability out) (bitstrings n)).
  assert (PE : pr = map (fun x => re (r x x)) (bitstrings n)) by (apply map_ext_in; intros x Hx; unfold outcome_probability; rewrite (KD x x Hx Hx); reflexivity).
  assert (L : length pr = 2 ^ n) by (unfold pr; rewrite map_length; apply bitstrings_count).
  exists (fun ch => histogram n (ch 0 pr (Z.to_nat k))). split; [exact E|]. split.
  { rewrite PE. split; [apply Forall_map, Forall_forall; intros x Hx; apply (positive_diagonal n r x P1 Hx)|]. rewrite rsum_map', <- re_csum_rsum. fold (ktrace n r). rewrite T1. reflexivity. }
  intros Om FS. pose proof (proj1 (proj2 (proj2 FS))) as FC. split.
  { eapply Forall_impl; [|exact FC]. intros qc [_ F]. rewrite L in F. rewrite PE in F |- *. apply (sample_spec_at (with_choice w (snd qc)) n vals c gs st k); assumption. }
  intros ev p f. set (a := map (indicator ev) (bitstrings n)).
  assert (LA : length a = length pr) by (rewrite L; unfold a; rewrite map_length; apply bitstrings_count).
  assert (EP : p = weighted pr a) by (unfold p, pr, a; rewrite event_weight; reflexivity).
  assert (EF : Forall (fun qc => f (snd qc) = average (values_at a (snd qc 0 pr (Z.to_nat k)))) Om).
  { eapply Forall_impl; [|exact FC]. intros qc [_ F]. unfold f. rewrite frequency_read_off, read_off_histogram by (rewrite <- L; exact F). unfold a. f_equal. f_equal. apply map_ext. apply event_entry. }
  assert (M : expected Om f = p).
  { rewrite EP, <- (estimate_mean Om 0 pr (Z.to_nat k) a FS LA) by lia. apply expected_ext. exact EF. }
  split; [exact M|]. split.
  { intro Z0. apply expected_zero; [apply FS| |congruence]. intro ch. unfold f, frequency. 
    set (h := histogram n _). clearbody h. assert (A : forall l : list (list nat * nat), (0 <= rsum l (fun xc => INR (snd xc)))%R) by (induction l as [|xc l IH]; cbn [rsum]; [lra|pose proof (pos_INR (snd xc)); lra]).
    unfold Rdiv. destruct (Req_dec (rsum h (fun xc => INR (snd xc))) 0) as [->|NZ]; [rewrite Rinv_0; lra|]. apply Rmult_le_pos; [apply A|]. apply Rlt_le, Rinv_0_lt_compat. pose proof (A h). lra. }
  intro ID. assert (V : expected Om (fun ch => (f ch - p) * (f ch - p))%R = (p * (1 - p) / IZR k)%R).
  { rewrite (expected_ext _ _ (fun ch => (average (values_at a (ch 0%nat pr (Z.to_nat k))) - p) * (average (values_at a (ch 0%nat pr (Z.to_nat k))) - p))%R) by (eapply Forall_impl; [|exact EF]; intros qc X; rewrite X; reflexivity).
    rewrite EP, (estimate_variance Om 0 pr (Z.to_nat k) a FS ID LA) by lia. rewrite INR_IZR_INZ, Z2Nat.id by lia. f_equal.
    assert (SQ : map (fun x => x * x)%R a = a) by (unfold a; rewrite map_map; apply map_ext; intro x; unfold indicator; destruct (ev x); ring). rewrite SQ. ring. }
  split; [exact V|]. intros eps He. eapply Rle_trans; [apply (chebyshev Om f p eps (proj1 (proj2 FS)) He)|]. rewrite V. assert (IZR k >= 1)%R by (apply Rle_ge; apply (IZR_le 1 k); exact Hk).
  replace (1 / (4 * IZR k * (eps * eps)))%R with (1 / 4 / IZR k / (eps * eps))%R by (field; lra). unfold Rdiv. apply Rmult_le_compat_r; [apply Rlt_le, Rinv_0_lt_compat; nra|]. apply Rmult_le_compat_r; [apply Rlt_le, Rinv_0_lt_compat; lra|].
  pose proof (Rle_0_sqr (p - 1 / 2)) as Q. unfold Rsqr in Q. lra.
Qed.
