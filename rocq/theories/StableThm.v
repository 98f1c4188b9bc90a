(** * Expectations change little under small changes of the angles and small noise (C118) *)
From Coq Require Import String List Arith Bool Reals Lia Lra ZArith.
From Verif Require Import Cplx Py PyFacts Ndarray OperatorUtils Sparse Matrices Noise Gates Apply Composite Conversion Shots Gpsr Api
  Spec SpecFacts Deriv GateSpec PropSpec NoiseSpec SampleSpec ExpectSpec GpsrSpec GateFacts CircuitFacts AlgebraFacts ApplyThm GateThm TensorFacts TensorThm
  KrausThm NoiseThm NoiseThm2 SeqThm SampleThm ShotsSpec ShotsThm ShotsThm2 ExpectThm ExpectThm2 GpsrFacts GpsrThm StructSpec StructThm3 PhysSpec PhysThm PhysThm2 PhysThm3 PhysThm8 TrigSpec TrigThm NoiseLawSpec NoiseLawThm StableSpec.
From Verif Require VarThm.
Import ListNotations.
Local Open Scope list_scope.
Local Open Scope nat_scope.

(** ** functions with two tones *)
Lemma quarter_sin : exists u, (sin (PI / 4) = u /\ cos (PI / 4) = u /\ u * u = / 2 /\ 0 < u)%R.
Proof.
  exists (1 / sqrt 2)%R. split; [exact sin_PI4|split; [exact cos_PI4|]]. assert (S : (sqrt 2 * sqrt 2 = 2)%R) by (apply sqrt_sqrt; lra). assert (P : (0 < sqrt 2)%R) by (apply sqrt_lt_R0; lra).
  split; [|apply Rdiv_lt_0_compat; lra]. field_simplify; [|lra]. rewrite <- Rsqr_pow2, Rsqr_sqrt by lra. field.
Qed.
Lemma abs_le_inv : forall a b, (Rabs a <= b -> - b <= a <= b)%R.
Proof. intros a b H. pose proof (Rle_abs a). pose proof (Rle_abs (- a)) as X. rewrite Rabs_Ropp in X. lra. Qed.
Lemma tones_slope : forall A P Q B D M, (forall t, Rabs (A + P * cos (t / 2) + Q * sin (t / 2) + B * cos t + D * sin t) <= M)%R ->
    forall t, (Rabs (- (P / 2) * sin (t / 2) + Q / 2 * cos (t / 2) - B * sin t + D * cos t) <= M)%R.
Proof.
  intros A P Q B D M H t. destruct quarter_sin as (u & Su & Cu & U2 & U0).
  assert (E1 : forall t, (cos ((t + PI / 2) / 2) = (cos (t / 2) - sin (t / 2)) * u /\ sin ((t + PI / 2) / 2) = (sin (t / 2) + cos (t / 2)) * u)%R).
  { intro x. replace ((x + PI / 2) / 2)%R with (x / 2 + PI / 4)%R by field. rewrite cos_plus, sin_plus, Su, Cu. split; ring. }
  assert (E2 : forall t, (cos ((t - PI / 2) / 2) = (cos (t / 2) + sin (t / 2)) * u /\ sin ((t - PI / 2) / 2) = (sin (t / 2) - cos (t / 2)) * u)%R).
  { intro x. replace ((x - PI / 2) / 2)%R with (x / 2 - PI / 4)%R by field. rewrite cos_minus, sin_minus, Su, Cu. split; ring. }
  assert (G1 : forall t, (cos (t + PI / 2) = - sin t /\ sin (t + PI / 2) = cos t)%R) by (intro x; rewrite cos_plus, sin_plus, cos_PI2, sin_PI2; split; ring).
  assert (G2 : forall t, (cos (t - PI / 2) = sin t /\ sin (t - PI / 2) = - cos t)%R) by (intro x; rewrite cos_minus, sin_minus, cos_PI2, sin_PI2; split; ring).
  assert (K1 : forall t, (cos (t + 3 * (PI / 2)) = sin t /\ sin (t + 3 * (PI / 2)) = - cos t)%R).
  { intro x. replace (x + 3 * (PI / 2))%R with (x + PI / 2 + PI)%R by field. rewrite neg_cos, neg_sin. destruct (G1 x) as [-> ->]. split; ring. }
  assert (K2 : forall t, (cos (t - 3 * (PI / 2)) = - sin t /\ sin (t - 3 * (PI / 2)) = cos t)%R).
  { intro x. destruct (K1 (x - 3 * (PI / 2))%R) as [Q1 Q2]. replace (x - 3 * (PI / 2) + 3 * (PI / 2))%R with x in * by ring. split; lra. }
  assert (F1 : forall t, (cos ((t + 3 * (PI / 2)) / 2) = (- cos (t / 2) - sin (t / 2)) * u /\ sin ((t + 3 * (PI / 2)) / 2) = (cos (t / 2) - sin (t / 2)) * u)%R).
  { intro x. replace ((x + 3 * (PI / 2)) / 2)%R with ((x / 2 + PI / 4) + PI / 2)%R by field. destruct (G1 (x / 2 + PI / 4)%R) as [-> ->]. rewrite cos_plus, sin_plus, Su, Cu. split; ring. }
  assert (F2 : forall t, (cos ((t - 3 * (PI / 2)) / 2) = (sin (t / 2) - cos (t / 2)) * u /\ sin ((t - 3 * (PI / 2)) / 2) = (- cos (t / 2) - sin (t / 2)) * u)%R).
  { intro x. replace ((x - 3 * (PI / 2)) / 2)%R with ((x / 2 - PI / 4) - PI / 2)%R by field. destruct (G2 (x / 2 - PI / 4)%R) as [-> ->]. rewrite cos_minus, sin_minus, Su, Cu. split; ring. }
  pose proof (H (t + PI / 2)%R) as H1. pose proof (H (t - PI / 2)%R) as H2. pose proof (H (t + 3 * (PI / 2))%R) as H3. pose proof (H (t - 3 * (PI / 2))%R) as H4.
  destruct (E1 t) as [X1 X2]; rewrite X1, X2 in H1. destruct (E2 t) as [X3 X4]; rewrite X3, X4 in H2. destruct (F1 t) as [X5 X6]; rewrite X5, X6 in H3. destruct (F2 t) as [X7 X8]; rewrite X7, X8 in H4.
  destruct (G1 t) as [Y1 Y2]; rewrite Y1, Y2 in H1. destruct (G2 t) as [Y3 Y4]; rewrite Y3, Y4 in H2. destruct (K1 t) as [Y5 Y6]; rewrite Y5, Y6 in H3. destruct (K2 t) as [Y7 Y8]; rewrite Y7, Y8 in H4.
  clear - H1 H2 H3 H4 U2 U0. set (c := cos (t / 2)) in *. set (s := sin (t / 2)) in *. set (C := cos t) in *. set (S := sin t) in *. clearbody c s C S.
  set (d1 := (/ 4 + u / 4)%R). set (d2 := (/ 4 - u / 4)%R).
  assert (D1 : (0 <= d1)%R) by (unfold d1; lra). assert (D2 : (0 <= d2)%R) by (unfold d2; nra).
  match type of H1 with (Rabs ?a <= M)%R => set (f1 := a) in * end. match type of H2 with (Rabs ?a <= M)%R => set (f2 := a) in * end.
  match type of H3 with (Rabs ?a <= M)%R => set (f3 := a) in * end. match type of H4 with (Rabs ?a <= M)%R => set (f4 := a) in * end.
  assert (E : (- (P / 2) * s + Q / 2 * c - B * S + D * C = d1 * (f1 - f2) - d2 * (f3 - f4))%R).
  { unfold f1, f2, f3, f4, d1, d2. assert (U3 : (u * u * 2 = 1)%R) by lra.
    transitivity ((- (P / 2) * s + Q / 2 * c) * (u * u * 2) - B * S + D * C)%R; [rewrite U3; ring|field]. }
  rewrite E.
  assert (B1 : (- M <= f1 <= M)%R) by (apply abs_le_inv; exact H1). assert (B2 : (- M <= f2 <= M)%R) by (apply abs_le_inv; exact H2).
  assert (B3 : (- M <= f3 <= M)%R) by (apply abs_le_inv; exact H3). assert (B4 : (- M <= f4 <= M)%R) by (apply abs_le_inv; exact H4).
  assert (DS : (d1 + d2 = / 2)%R) by (unfold d1, d2; field). clearbody f1 f2 f3 f4 d1 d2. apply Rabs_le. split; nra.
Qed.
Lemma tones_lipschitz : forall A P Q B D M, (forall t, Rabs (A + P * cos (t / 2) + Q * sin (t / 2) + B * cos t + D * sin t) <= M)%R ->
    forall t s, (Rabs ((A + P * cos (t / 2) + Q * sin (t / 2) + B * cos t + D * sin t) - (A + P * cos (s / 2) + Q * sin (s / 2) + B * cos s + D * sin s)) <= M * Rabs (t - s))%R.
Proof.
  intros A P Q B D M H t s. set (f := fun t => (A + P * cos (t / 2) + Q * sin (t / 2) + B * cos t + D * sin t)%R).
  set (f' := fun t => (- (P / 2) * sin (t / 2) + Q / 2 * cos (t / 2) - B * sin t + D * cos t)%R).
  assert (DF : forall x, derivable_pt_lim f x (f' x)).
  { intro x. unfold f, f'. assert (DH : derivable_pt_lim (fun t => t / 2)%R x (/ 2)%R).
    { replace (/ 2)%R with (1 * / 2 + x * 0)%R by field. unfold Rdiv. apply (derivable_pt_lim_mult id (fct_cte (/ 2)%R)); [apply derivable_pt_lim_id|apply derivable_pt_lim_const]. }
    assert (DC : derivable_pt_lim (fun t => cos (t / 2)%R) x (- sin (x / 2) * / 2)%R) by (apply (derivable_pt_lim_comp (fun t => t / 2)%R cos); [exact DH|apply derivable_pt_lim_cos]).
    assert (DS : derivable_pt_lim (fun t => sin (t / 2)%R) x (cos (x / 2) * / 2)%R) by (apply (derivable_pt_lim_comp (fun t => t / 2)%R sin); [exact DH|apply derivable_pt_lim_sin]).
    replace (- (P / 2) * sin (x / 2) + Q / 2 * cos (x / 2) - B * sin x + D * cos x)%R with (0 + P * (- sin (x / 2) * / 2) + Q * (cos (x / 2) * / 2) + B * (- sin x) + D * cos x)%R by field.
    apply (derivable_pt_lim_plus (fun t => A + P * cos (t / 2) + Q * sin (t / 2) + B * cos t)%R (fun t => D * sin t)%R); [|apply (derivable_pt_lim_scal sin D), derivable_pt_lim_sin].
    apply (derivable_pt_lim_plus (fun t => A + P * cos (t / 2) + Q * sin (t / 2))%R (fun t => B * cos t)%R); [|apply (derivable_pt_lim_scal cos B), derivable_pt_lim_cos].
    apply (derivable_pt_lim_plus (fun t => A + P * cos (t / 2))%R (fun t => Q * sin (t / 2))%R); [|apply (derivable_pt_lim_scal (fun t => sin (t / 2)%R) Q), DS].
    apply (derivable_pt_lim_plus (fun t => A)%R (fun t => P * cos (t / 2))%R); [apply derivable_pt_lim_const|apply (derivable_pt_lim_scal (fun t => cos (t / 2)%R) P), DC]. }
  destruct (MVT_abs f f' s t (fun c _ => DF c)) as (c & E & _). fold (f t). change (Rabs (f t - f s) <= M * Rabs (t - s))%R. rewrite E. apply Rmult_le_compat_r; [apply Rabs_pos|]. apply tones_slope with (A := A). exact H.
Qed.
Lemma trig2_lipschitz : forall f M, trig_poly 2 (fun s => f (2 * s)%R) -> (forall t, Rabs (f t) <= M)%R -> forall t s, (Rabs (f t - f s) <= M * Rabs (t - s))%R.
Proof.
  intros f M (a & b & E) H t s.
  assert (X : forall t, f t = (a 0%nat + a 1%nat * cos (t / 2) + b 1%nat * sin (t / 2) + a 2%nat * cos t + b 2%nat * sin t)%R).
  { intro x. specialize (E (x / 2)%R). replace (2 * (x / 2))%R with x in E by field. rewrite E. cbn [seq rsum INR]. replace ((1 + 1) * (x / 2))%R with x by field. rewrite Rmult_0_l, cos_0, sin_0, Rmult_1_l. ring. }
  rewrite !X. apply tones_lipschitz. intro x. rewrite <- X. apply H.
Qed.

(** ** replacing the gates one by one *)
Definition state_op (n : nat) (r : op) : Prop := positive n r /\ ktrace n r = C1.
Definition nice (n : nat) (L : op -> op) : Prop := linear n L /\ forall r, state_op n r -> state_op n (L r).
Inductive near (n : nat) (K : op) (v v' : values) : list gate -> list gate -> R -> Prop :=
| near_nil : near n K v v' [] [] 0
| near_cons : forall g gs g' gs' d e, usable n v g -> noise_ok g -> usable n v' g' -> noise_ok g' ->
    (forall L r, nice n L -> state_op n r -> (Rabs (mean_density n K (L (step n v g r)) - mean_density n K (L (step n v' g' r))) <= d)%R) ->
    near n K v v' gs gs' e -> near n K v v' (g :: gs) (g' :: gs') (d + e).
Lemma nice_evolve : forall n vals gs, Forall (usable n vals) gs -> Forall noise_ok gs -> nice n (evolve n vals gs).
Proof. intros n vals gs FU FN. split; [apply linear_evolve|]. intros r [P T]. apply evolve_physical; assumption. Qed.
Lemma nice_step : forall n vals g, usable n vals g -> noise_ok g -> nice n (step n vals g).
Proof. intros n vals g U N. apply (nice_evolve n vals [g]); repeat constructor; assumption. Qed.
Lemma near_bound : forall n K v v' gs gs' d, near n K v v' gs gs' d -> forall r, state_op n r -> (Rabs (mean_density n K (evolve n v gs r) - mean_density n K (evolve n v' gs' r)) <= d)%R.
Proof.
  intros n K v v' gs gs' d H. assert (FU : Forall (usable n v') gs' /\ Forall noise_ok gs') by (induction H as [|? ? ? ? ? ? ? ? ? ? ? ? [? ?]]; split; constructor; assumption).
  induction H as [|g gs g' gs' d e U N U' N' S H IH]; intros r P; cbn [evolve]; [rewrite Rminus_eq_0, Rabs_R0; lra|].
  destruct FU as [F1 F2]. inversion F1; inversion F2; subst. 
  set (x := mean_density n K (evolve n v gs (step n v g r))). set (y := mean_density n K (evolve n v' gs' (step n v g r))). set (z := mean_density n K (evolve n v' gs' (step n v' g' r))).
  assert (X : (Rabs (x - y) <= e)%R) by (apply IH; [split; assumption|apply (nice_step n v g U N); exact P]).
  assert (Y : (Rabs (y - z) <= d)%R) by (apply S; [apply nice_evolve; assumption|exact P]).
  replace (x - z)%R with ((x - y) + (y - z))%R by ring. eapply Rle_trans; [apply Rabs_triang|]. lra.
Qed.

(** ** angles *)
Lemma gate_change : forall n vals g name K M, usable n vals g -> noise_ok g -> uses_param name g = true -> (forall r, state_op n r -> (Rabs (mean_density n K r) <= M)%R) ->
    forall L r, nice n L -> state_op n r -> forall t s, (Rabs (mean_density n K (L (step n (at_value vals name t) g r)) - mean_density n K (L (step n (at_value vals name s) g r))) <= M * Rabs (t - s))%R.
Proof.
  intros n vals g name K M U N EU B L r [LL LP] P t s. apply (trig2_lipschitz (fun t => mean_density n K (L (step n (at_value vals name t) g r)))).
  - destruct (gate_laurent n vals g name U EU) as (u & E & O1 & _).
    assert (LA : laurent n false 1 (fun s => L (step n (at_value vals name (2 * s)) g r))).
    { apply laurent_linear; [exact LL|]. unfold step. apply (laurent_linear n false 1 (channels n (target g) (noise g))); [apply linear_channels|].
      apply (laurent_sandwich n false 0 u (fun s => gate_op (mat_of (at_value vals name (2 * s)) g) (ctrl_of (control g)) (target g)) (fun _ => r)); [exact O1| |apply laurent_const].
      intro x. eapply keq_trans; [apply E|]. replace (2 * x / 2)%R with x by field. apply keq_refl. }
    exact (proj1 (laurent_trig n K false 1 _ LA)).
  - intro x. apply B, LP. apply nice_step; [apply usable_at; exact U|exact N|exact P].
Qed.
Lemma named_number : forall n vals g name, usable n vals g -> In name (names_of_gate g) -> exists x, lookup vals name = Ok (VNum x).
Proof.
  intros n vals g name (M & cs & ts & HG) I.
  assert (A : forall t, angle vals g t -> gclass g = KParam \/ gclass g = KPhase -> exists x, lookup vals name = Ok (VNum x)).
  { intros t AN C. unfold angle in AN. unfold names_of_gate in I. destruct C as [C|C]; rewrite C in I; (destruct (gparam g) as [s|]; [|contradiction]; destruct I as [->|[]]; destruct AN as (x & E & _); eauto). }
  destruct (go_matrix _ _ _ _ _ _ HG) as [? ? C|C|? ? ? C|? C]; [unfold names_of_gate in I; rewrite C in I; contradiction|unfold names_of_gate in I; rewrite C in I; contradiction|eauto|eauto].
Qed.
Lemma near_values : forall n K M vals vals' gs, (forall r, state_op n r -> (Rabs (mean_density n K r) <= M)%R) -> Forall (usable n vals) gs -> Forall (usable n vals') gs -> Forall noise_ok gs ->
    near n K vals vals' gs gs (M * total_change gs vals vals').
Proof.
  intros n K M vals vals' gs B FU FU' FN. induction gs as [|g gs IH]; [unfold total_change; cbn [flat_map rsum]; rewrite Rmult_0_r; constructor|].
  inversion FU as [|? ? U FU1]; inversion FU' as [|? ? U' FU1']; inversion FN as [|? ? N FN1]; subst.
  assert (E : (M * total_change (g :: gs) vals vals' = M * rsum (names_of_gate g) (fun name => Rabs (number vals name - number vals' name)) + M * total_change gs vals vals')%R).
  { unfold total_change. cbn [flat_map]. rewrite rsum_app. ring. }
  rewrite E. apply near_cons; auto. intros L r NL P.
  destruct (names_of_gate g) as [|name [|b l]] eqn:NG.
  - cbn [rsum]. unfold step. rewrite (unnamed_mat n vals vals' g U NG). rewrite Rminus_eq_0, Rabs_R0. lra.
  - assert (EU : uses_param name g = true) by (apply (uses_names n vals g name U); rewrite NG; left; reflexivity).
    assert (X : exists x, lookup vals name = Ok (VNum x)) by (apply (named_number n vals g name U); rewrite NG; left; reflexivity).
    assert (Y : exists y, lookup vals' name = Ok (VNum y)) by (apply (named_number n vals' g name U'); rewrite NG; left; reflexivity).
    destruct X as (x & X), Y as (y & Y). cbn [rsum]. unfold number. rewrite X, Y, Rplus_0_r.
    assert (S : forall r, step n vals g r = step n (at_value vals name x) g r) by (intro r'; unfold at_value; rewrite (set_same _ _ _ X); reflexivity).
    assert (S' : forall r, step n vals' g r = step n (at_value vals name y) g r).
    { intro r'. transitivity (step n (at_value vals' name y) g r'); [unfold at_value; rewrite (set_same _ _ _ Y); reflexivity|]. unfold step, mat_of. rewrite !(angle_used _ g name y EU). reflexivity. }
    rewrite S, S'. apply gate_change; assumption.
  - exfalso. assert (EU : uses_param name g = true) by (apply (uses_names n vals g name U); rewrite NG; left; reflexivity). rewrite (uses_in_names n vals g name U EU) in NG. discriminate.
Qed.
Lemma observable_bound : forall w n vals st gs l K bs, readable w n vals st gs l K -> Forall2 (magnitude n vals) l bs -> forall r, state_op n r -> (Rabs (mean_density n K r) <= total bs)%R.
Proof.
  intros w n vals st gs l K bs [(sq & Ks & NE & F & ->) _] HB r [P T]. eapply sum_bound; [|exact HB]. eapply F2_impl; [|exact F]. intros o K D b. eapply denotes_bound; eassumption.
Qed.
Lemma c118_angles : forall w n vals vals' c gs st l K bs mode key, set_order (set_iter w) -> flat_values vals -> flat_values vals' -> runnable n vals c gs -> runnable n vals' c gs ->
    state_of n st -> physical n st -> readable w n vals st gs l K -> readable w n vals' st gs l K -> Forall2 (magnitude n vals) l bs -> exact_mode mode ->
    exists e e', expectation w st c [l] vals mode 0 key = Ok [e] /\ expectation w st c [l] vals' mode 0 key = Ok [e'] /\ (Rabs (e - e') <= total bs * total_change gs vals vals')%R.
Proof.
  intros w n vals vals' c gs st l K bs mode key SO FV FV' RN RN' HT PH HR HR' HB EM. apply (physical_density n st HT) in PH.
  exists (mean_density n K (evolve n vals gs (density_of st))), (mean_density n K (evolve n vals' gs (density_of st))).
  split; [apply (exact_spec w n vals c gs st [l] [K]); auto; discriminate|]. split; [apply (exact_spec w n vals' c gs st [l] [K]); auto; discriminate|].
  destruct RN as (_ & _ & FU & _ & FN). destruct RN' as (_ & _ & FU' & _ & _). apply (near_bound n K vals vals'); [|exact PH]. apply near_values; try assumption. apply (observable_bound w n vals st gs l K bs HR HB).
Qed.
Lemma lookup_at : forall vals name t k, lookup (at_value vals name t) k = if String.eqb k name then Ok (VNum t) else lookup vals k.
Proof. intros. apply lookup_set. Qed.
Lemma change_one : forall gs vals name t s, total_change gs (at_value vals name t) (at_value vals name s) = (INR (uses gs name) * Rabs (t - s))%R.
Proof.
  intros gs vals name t s. unfold total_change, uses. induction (flat_map names_of_gate gs) as [|k l IH]; cbn [rsum count_occ]; [simpl; ring|]. rewrite IH. unfold number. rewrite !lookup_at.
  destruct (string_dec k name) as [->|N]; [rewrite String.eqb_refl, S_INR; ring|]. destruct (String.eqb_spec k name) as [X|_]; [contradiction|]. destruct (lookup vals k) as [[]|]; rewrite ?Rminus_eq_0, ?Rabs_R0; ring.
Qed.
Lemma lipschitz_derivative : forall f x d c, derivable_pt_lim f x d -> (forall t, Rabs (f t - f x) <= c * Rabs (t - x))%R -> (Rabs d <= c)%R.
Proof.
  intros f x d c D H. apply Rnot_lt_le. intro L. destruct (D ((Rabs d - c) / 2)%R) as (delta & HD); [lra|]. destruct delta as [delta DP]. simpl in HD.
  specialize (HD (delta / 2)%R). assert (Q : (Rabs ((f (x + delta / 2) - f x) / (delta / 2) - d) < (Rabs d - c) / 2)%R) by (apply HD; [lra|rewrite Rabs_right; lra]).
  specialize (H (x + delta / 2)%R). replace (x + delta / 2 - x)%R with (delta / 2)%R in H by ring. rewrite (Rabs_right (delta / 2)) in H by lra.
  set (q := ((f (x + delta / 2) - f x) / (delta / 2))%R) in *. assert (E : (f (x + delta / 2) - f x = q * (delta / 2))%R) by (unfold q; field; lra).
  rewrite E, Rabs_mult, (Rabs_right (delta / 2)) in H by lra. assert (B : (Rabs q <= c)%R) by (apply Rmult_le_reg_r with (delta / 2)%R; lra).
  pose proof (Rabs_triang (d - q) q) as T. replace (d - q + q)%R with d in T by ring. rewrite (Rabs_minus_sym d q) in T. lra.
Qed.
Lemma c118_gradient : forall w n vals name c gs st l K bs mode key d, set_order (set_iter w) -> flat_values vals -> runnable n vals c gs ->
    state_of n st -> physical n st -> In name (map fst vals) -> (forall t, readable w n (at_value vals name t) st gs l K) -> (forall t, Forall2 (magnitude n (at_value vals name t)) l bs) -> exact_mode mode ->
    gradient_at (fun v => expectation w st c [l] v mode 0 key) vals name [d] -> (Rabs d <= INR (uses gs name) * total bs)%R.
Proof.
  intros w n vals name c gs st l K bs mode key d SO FV RN HT PH NM HR HB EM (f & x & X & F & D). specialize (D 0 (Nat.lt_0_succ 0)). cbn [nth] in D.
  eapply lipschitz_derivative; [exact D|]. intro t. cbv beta.
  destruct (c118_angles w n (at_value vals name t) (at_value vals name x) c gs st l K bs mode key) as (e & e' & E & E' & B); auto; try (apply flat_at; assumption); try (apply runnable_at; assumption).
  destruct (F t) as [Ft _]. destruct (F x) as [Fx _]. rewrite E in Ft. rewrite E' in Fx. injection Ft as <-. injection Fx as <-. cbn [nth]. rewrite change_one in B. lra.
Qed.

(** ** noise *)
Definition wsum (n q : nat) (l : list (R * op)) (r : op) : op := ksum (map (fun e => kscale (RtoC (fst e)) (sandwiched n (ctrl_kernel (snd e) [] [q]) r)) l).
Definition wsum1 (l : list (R * op)) (b : op) : op := ksum (map (fun e => kscale (RtoC (fst e)) (sandwiched 1 (snd e) b)) l).
Lemma wsum_block : forall n q l r x y, q < n -> In x (bitstrings n) -> In y (bitstrings n) -> wsum n q l r x y = wsum1 l (block q r x y) (bits_at x [q]) (bits_at y [q]).
Proof.
  intros n q l r x y Hq Hx Hy. unfold wsum, wsum1. induction l as [|e l IH]; [reflexivity|]. cbn [map ksum]. unfold kadd. rewrite IH. unfold kscale at 1 3. rewrite (sandwich_block n q _ r x y Hq Hx Hy). reflexivity.
Qed.
Definition unit0 : op := mat2 C1 C0 C0 C0.
Definition jump01 : op := mat2 C0 C1 C0 C0.
Definition jump10 : op := mat2 C0 C0 C1 C0.
Definition unit1 : op := mat2 C0 C0 C0 C1.
Definition lost (i : noise_inst) : list (R * op) :=
  match ntype i with
  | AMPLITUDE_DAMPING | PHASE_DAMPING | GENERALIZED_AMPLITUDE_DAMPING =>
      let s := sqrt (1 - error_rate i) in [(1 - (1 + s) / 2 * s, I_matrix); ((1 - s) / 2 * s, Z_matrix)]%R
  | _ => [(error_rate i, I_matrix)]
  end.
Definition gained (i : noise_inst) : list (R * op) :=
  match ntype i, error_probability i with
  | BITFLIP, PFloat p => [(p, X_matrix)]
  | PHASEFLIP, PFloat p => [(p, Z_matrix)]
  | DEPOLARIZING, PFloat p => [(p / 3, X_matrix); (p / 3, Y_matrix); (p / 3, Z_matrix)]%R
  | PAULI_CHANNEL, PTuple (px :: py :: pz :: _) => [(px, X_matrix); (py, Y_matrix); (pz, Z_matrix)]
  | AMPLITUDE_DAMPING, PFloat p => [(p, unit0); (p, jump01)]
  | PHASE_DAMPING, PFloat p => [(p, unit0); (p, unit1)]
  | GENERALIZED_AMPLITUDE_DAMPING, PTuple (p :: r :: _) => [(p * r, unit0); (p * r, jump01); ((1 - p) * r, unit1); ((1 - p) * r, jump10)]%R
  | _, _ => []
  end.
Lemma balance1 : forall i b, accepted i -> keq 1 (kadd (channel1 (kraus_of i) b) (wsum1 (lost i) b)) (kadd b (wsum1 (gained i) b)).
Proof.
  intros i b A x y Hx Hy. unfold kadd. rewrite (channel1_doc i b A x y Hx Hy), (docd_shape i b A x y Hx Hy). destruct A as [T V]. destruct i as [t [p|l]].
  - assert (P : is_prob p) by (destruct t; cbn in T, V; try contradiction; exact V). destruct P as [P0 P1].
    assert (S2 : (sqrt (1 - p) * sqrt (1 - p) = 1 - p)%R) by (apply sqrt_sqrt; lra). set (s := sqrt (1 - p)) in *.
    destruct t; cbn in T; try contradiction; unfold shape_of, act, pauli_shape, lost, gained, error_rate; cbn [ntype error_probability s_aa s_ad s_da s_dd s_b s_c]; try (fold s; clearbody s);
      unfold wsum1, ksum, sandwiched, kmul, kadj, kscale, entrywise, Cn, mat2, X_matrix, Y_matrix, Z_matrix, I_matrix, unit0, unit1, jump01; bits1 Hx; bits1 Hy;
      cbn [bitstrings map app csum fold_right fst snd mat2 X_matrix Y_matrix Z_matrix I_matrix kadd]; unfold kadd; cbn [mat2]; four b; apply C_ext; simpl; try field; try (nra || idtac).
  - destruct t; cbn in T; try contradiction.
    + destruct l as [|px [|py [|pz l]]]; cbn in T; try lia. unfold shape_of, act, pauli_shape, lost, gained, error_rate; cbn [ntype error_probability s_aa s_ad s_da s_dd s_b s_c].
      unfold wsum1, ksum, sandwiched, kmul, kadj, kscale, entrywise, Cn, mat2, X_matrix, Y_matrix, Z_matrix, I_matrix; bits1 Hx; bits1 Hy;
      cbn [bitstrings map app csum fold_right fst snd mat2 X_matrix Y_matrix Z_matrix I_matrix kadd]; unfold kadd; cbn [mat2]; four b; apply C_ext; simpl; field.
    + destruct l as [|p [|r l]]; cbn in T; try lia. assert (P : is_prob r) by (cbn in V; inversion V as [|? ? _ V1]; inversion V1; assumption). destruct P as [P0 P1].
      assert (S2 : (sqrt (1 - r) * sqrt (1 - r) = 1 - r)%R) by (apply sqrt_sqrt; lra). set (s := sqrt (1 - r)) in *.
      unfold shape_of, act, lost, gained, error_rate; cbn [ntype error_probability s_aa s_ad s_da s_dd s_b s_c]. fold s. clearbody s.
      unfold wsum1, ksum, sandwiched, kmul, kadj, kscale, entrywise, Cn, mat2, Z_matrix, I_matrix, unit0, unit1, jump01, jump10; bits1 Hx; bits1 Hy;
      cbn [bitstrings map app csum fold_right fst snd mat2 Z_matrix I_matrix kadd]; unfold kadd; cbn [mat2]; four b; apply C_ext; simpl; try field; nra.
Qed.
Lemma balance : forall n q i r, q < n -> accepted i -> keq n (kadd (kraus_sum n q (kraus_of i) r) (wsum n q (lost i) r)) (kadd r (wsum n q (gained i) r)).
Proof.
  intros n q i r Hq A x y Hx Hy. unfold kadd. rewrite kraus_block, !wsum_block by assumption.
  pose proof (balance1 i (block q r x y) A (bits_at x [q]) (bits_at y [q]) (bits1_in n x q Hq Hx) (bits1_in n y q Hq Hy)) as E. unfold kadd in E. rewrite E. f_equal.
  unfold block. rewrite !overwrite_self; [reflexivity| |]; intros k [<-|[]]; rewrite (bitstrings_length n) by assumption; exact Hq.
Qed.
Lemma error_rate_prob : forall i, accepted i -> (0 <= error_rate i <= 1)%R.
Proof.
  intros [t [p|l]] [T V]; destruct t; cbn in T; try contradiction; unfold error_rate; cbn [ntype error_probability]; try exact V.
  - destruct l as [|px [|py [|pz l]]]; cbn in T; try lia. destruct V as [F S]. cbn in S. inversion F as [|? ? A F1]; inversion F1 as [|? ? B F2]; inversion F2 as [|? ? D F3]; subst. unfold is_prob in *.
    assert (0 <= fold_right Rplus 0 l)%R. { clear - F3. induction F3 as [|a l H F IH]; cbn [fold_right]; [lra|]. destruct H. lra. } lra.
  - destruct l as [|p [|r l]]; cbn in T; try lia. inversion V as [|? ? _ V1]; inversion V1 as [|? ? D _]; subst. exact D.
Qed.
Lemma wsum_cons : forall n q e l r, wsum n q (e :: l) r = kadd (kscale (RtoC (fst e)) (sandwiched n (ctrl_kernel (snd e) [] [q]) r)) (wsum n q l r).
Proof. reflexivity. Qed.
Lemma wsum_positive : forall n q l r, Forall (fun e => 0 <= fst e)%R l -> positive n r -> positive n (wsum n q l r).
Proof.
  intros n q l r F P f. induction F as [|e l H F IH].
  - assert (Z : qform n (wsum n q [] r) f = C0) by (unfold qform, inner_product, apply_kernel; apply csum_zero; intros; rewrite csum_zero by (intros; cbn; ring); ring). rewrite Z. split; simpl; lra.
  - rewrite wsum_cons, qform_add, VarThm.qform_scale. destruct IH as [I1 I2]. destruct (positive_conjugation n (ctrl_kernel (snd e) [] [q]) r P f) as [J1 J2]. unfold sandwiched.
    set (z := qform n (kmul n (kmul n (ctrl_kernel (snd e) [] [q]) r) (kadj (ctrl_kernel (snd e) [] [q]))) f) in *. simpl. rewrite I2, J2. split; [nra|ring].
Qed.
Lemma wsum_trace : forall n q l r, q < n -> Forall (fun e => unitary 1 (snd e)) l -> ktrace n (wsum n q l r) = Cmul (RtoC (rsum l fst)) (ktrace n r).
Proof.
  intros n q l r Hq F. induction F as [|e l H F IH].
  - unfold ktrace. rewrite csum_zero by reflexivity. cbn [rsum]. apply C_ext; simpl; ring.
  - rewrite wsum_cons, ktrace_add, ktrace_scale, IH. cbn [rsum]. unfold sandwiched. rewrite ktrace_conjugation; [apply C_ext; simpl; ring|].
    apply ctrl_kernel_unitary; [|exact H]. split; [repeat constructor; intros []|repeat constructor; exact Hq].
Qed.
Lemma lost_facts : forall i, accepted i -> Forall (fun e => 0 <= fst e)%R (lost i) /\ Forall (fun e => unitary 1 (snd e)) (lost i) /\ rsum (lost i) fst = error_rate i.
Proof.
  intros i A. pose proof (error_rate_prob i A) as [E0 E1]. assert (UI : unitary 1 I_matrix) by exact I_unitary. assert (UZ : unitary 1 Z_matrix) by exact Z_unitary.
  assert (S2 : (sqrt (1 - error_rate i) * sqrt (1 - error_rate i) = 1 - error_rate i)%R) by (apply sqrt_sqrt; lra). pose proof (sqrt_pos (1 - error_rate i)) as S0.
  unfold lost. set (s := sqrt (1 - error_rate i)) in *. clearbody s. assert (S1 : (s <= 1)%R) by nra.
  destruct (ntype i); (split; [|split; [|cbn [rsum fst]; try ring]]); try (repeat apply Forall_cons; try apply Forall_nil; cbn [fst snd]; try assumption; nra); cbn [rsum fst]; nra.
Qed.
Lemma gained_facts : forall i, accepted i -> Forall (fun e => 0 <= fst e)%R (gained i).
Proof.
  intros [t [p|l]] [T V]; destruct t; cbn in T; try contradiction; unfold gained; cbn [ntype error_probability].
  1-5: repeat apply Forall_cons; try apply Forall_nil; cbn [fst]; destruct V; lra.
  - destruct l as [|px [|py [|pz l]]]; cbn in T; try lia. destruct V as [F _]. inversion F as [|? ? A F1]; inversion F1 as [|? ? B F2]; inversion F2 as [|? ? D F3]; subst. unfold is_prob in *.
    repeat apply Forall_cons; try apply Forall_nil; cbn [fst]; lra.
  - destruct l as [|p [|r l]]; cbn in T; try lia. inversion V as [|? ? A V1]; inversion V1 as [|? ? D _]; subst. unfold is_prob in *.
    repeat apply Forall_cons; try apply Forall_nil; cbn [fst]; nra.
Qed.
Lemma positive_bound : forall n K M L r0 P, (forall r, state_op n r -> (Rabs (mean_density n K r) <= M)%R) -> nice n L -> state_op n r0 -> positive n P -> im (ktrace n P) = 0%R -> (0 <= re (ktrace n P))%R ->
    (Rabs (mean_density n K (L P)) <= M * re (ktrace n P))%R.
Proof.
  intros n K M L r0 P B NL S0 PP IT RT. set (t := re (ktrace n P)) in *. set (m := mean_density n K (L P)). set (m0 := mean_density n K (L r0)).
  assert (B0 : (Rabs m0 <= M)%R) by (apply B, NL; exact S0).
  assert (X : forall e, (0 < e -> Rabs (m + e * m0) <= M * (t + e))%R).
  { intros e He. set (r := kscale (RtoC (/ (t + e))) (kadd P (kscale (RtoC e) r0))). destruct S0 as [P0 T0].
    assert (S : state_op n r).
    { split.
      - intro f. unfold r. rewrite VarThm.qform_scale, qform_add, VarThm.qform_scale. destruct (PP f) as [A1 A2], (P0 f) as [A3 A4]. simpl. rewrite A2, A4.
        assert (0 < / (t + e))%R by (apply Rinv_0_lt_compat; lra). split; [|ring].
        replace (/ (t + e) * (re (qform n P f) + (e * re (qform n r0 f) - 0 * 0)) - 0 * (0 + (e * 0 + 0 * re (qform n r0 f))))%R with (/ (t + e) * (re (qform n P f) + e * re (qform n r0 f)))%R by ring.
        apply Rmult_le_pos; [lra|]. nra.
      - unfold r. rewrite ktrace_scale, ktrace_add, ktrace_scale, T0. apply C_ext; simpl; fold t; rewrite ?IT; field; lra. }
    destruct NL as [(L1 & L2 & L3 & _) LS]. pose proof (B _ (LS r S)) as BB.
    assert (E : mean_density n K (L r) = (/ (t + e) * (m + e * m0))%R).
    { unfold r. rewrite (mean_density_ext n K K _ _ (keq_refl n K) (L3 _ _)), mean_density_scale, (mean_density_ext n K K _ _ (keq_refl n K) (L2 _ _)), mean_density_add, (mean_density_ext n K K _ _ (keq_refl n K) (L3 _ _)), mean_density_scale. reflexivity. }
    rewrite E, Rabs_mult, (Rabs_right (/ (t + e))) in BB by (apply Rle_ge, Rlt_le, Rinv_0_lt_compat; lra).
    apply (Rmult_le_compat_l (t + e)) in BB; [|lra]. rewrite <- Rmult_assoc, Rinv_r, Rmult_1_l in BB by lra. lra. }
  assert (M0 : (0 <= M)%R) by (pose proof (Rabs_pos m0); lra).
  apply Rnot_lt_le. intro C. set (g := (Rabs m - M * t)%R) in *. assert (G : (0 < g)%R) by (unfold g; lra).
  assert (E0 : (0 < g / (4 * (M + 1)))%R) by (apply Rdiv_lt_0_compat; lra). specialize (X _ E0). set (e := (g / (4 * (M + 1)))%R) in *.
  assert (EE : (e * (4 * (M + 1)) = g)%R) by (unfold e; field; lra).
  pose proof (Rabs_triang (m + e * m0) (- (e * m0))) as T. replace (m + e * m0 + - (e * m0))%R with m in T by ring. rewrite Rabs_Ropp, Rabs_mult, (Rabs_right e) in T by lra.
  assert (e * Rabs m0 <= e * M)%R by (apply Rmult_le_compat_l; lra). unfold g in *. nra.
Qed.
Lemma kraus_nice : forall n q i r, q < n -> accepted i -> state_op n r -> state_op n (kraus_sum n q (kraus_of i) r).
Proof.
  intros n q i r Hq A [P T]. assert (X : through n q [i] r (kraus_sum n q (kraus_of i) r)).
  { econstructor; [|constructor]. destruct A as [A1 A2]. destruct (c26_valid i A1 A2) as (ks & E & _). unfold kraus_of. rewrite E. reflexivity. }
  destruct (preserved_through n q [i] _ _ Hq X) as (TT & _ & PP). split; [auto|congruence].
Qed.
Lemma channel_change : forall n q i K M L r, q < n -> accepted i -> (forall r, state_op n r -> (Rabs (mean_density n K r) <= M)%R) -> nice n L -> state_op n r ->
    (Rabs (mean_density n K (L (kraus_sum n q (kraus_of i) r)) - mean_density n K (L r)) <= 2 * M * error_rate i)%R.
Proof.
  intros n q i K M L r Hq A B NL S. pose proof (balance n q i r Hq A) as E. pose proof (kraus_nice n q i r Hq A S) as [P1 T1]. destruct S as [P T].
  destruct (lost_facts i A) as (LW & LU & LR). pose proof (gained_facts i A) as GW. pose proof (wsum_trace n q (lost i) r Hq LU) as TL. rewrite LR, T in TL.
  assert (TG : ktrace n (wsum n q (gained i) r) = Cmul (RtoC (error_rate i)) C1).
  { pose proof (ktrace_ext n _ _ E) as X. rewrite !ktrace_add, T1, TL, T in X. apply (f_equal (fun z => Csub z C1)) in X. transitivity (Csub (Cadd C1 (ktrace n (wsum n q (gained i) r))) C1); [ring|]. rewrite <- X. ring. }
  pose proof (error_rate_prob i A) as [R0 R1].
  assert (BL : (Rabs (mean_density n K (L (wsum n q (lost i) r))) <= M * error_rate i)%R).
  { eapply Rle_trans; [apply (positive_bound n K M L r _ B NL (Logic.conj P T) (wsum_positive n q _ r LW P)); rewrite TL; simpl; lra|rewrite TL; simpl; lra]. }
  assert (BG : (Rabs (mean_density n K (L (wsum n q (gained i) r))) <= M * error_rate i)%R).
  { eapply Rle_trans; [apply (positive_bound n K M L r _ B NL (Logic.conj P T) (wsum_positive n q _ r GW P)); rewrite TG; simpl; lra|rewrite TG; simpl; lra]. }
  destruct NL as [(L1 & L2 & _) _]. pose proof (mean_density_ext n K K _ _ (keq_refl n K) (L1 _ _ E)) as X.
  rewrite !(mean_density_ext n K K _ _ (keq_refl n K) (L2 _ _)), !mean_density_add in X.
  apply abs_le_inv in BL. apply abs_le_inv in BG. apply Rabs_le. lra.
Qed.
Lemma channels_change : forall n q K M L l, q < n -> Forall accepted l -> (forall r, state_op n r -> (Rabs (mean_density n K r) <= M)%R) -> nice n L -> forall r, state_op n r ->
    (Rabs (mean_density n K (L (channels n [q] (Some l) r)) - mean_density n K (L r)) <= 2 * M * rsum l error_rate)%R.
Proof.
  intros n q K M L l Hq F B NL. induction F as [|i l A F IH]; intros r S; cbn [channels fold_left rsum hd].
  - rewrite Rminus_eq_0, Rabs_R0. lra.
  - specialize (IH _ (kraus_nice n q i r Hq A S)). cbn [channels hd] in IH. pose proof (channel_change n q i K M L r Hq A B NL S) as X.
    apply abs_le_inv in IH. apply abs_le_inv in X. apply Rabs_le. lra.
Qed.
Lemma quiet_usable : forall n vals g, usable n vals g -> usable n vals (without_noise g).
Proof. intros n vals g (Mx & cs & ts & [A B C D]). exists Mx, cs, ts. constructor; try assumption. destruct A; econstructor; eassumption. Qed.
Lemma near_noise : forall n K M vals gs, (forall r, state_op n r -> (Rabs (mean_density n K r) <= M)%R) -> Forall (usable n vals) gs -> Forall noise_ok gs ->
    near n K vals vals gs (map without_noise gs) (2 * M * total_error gs).
Proof.
  intros n K M vals gs B FU FN. induction gs as [|g gs IH]; [unfold total_error; cbn [map rsum]; rewrite Rmult_0_r; constructor|].
  inversion FU as [|? ? U FU1]; inversion FN as [|? ? N FN1]; subst. unfold total_error. cbn [map rsum]. rewrite Rmult_plus_distr_l. apply near_cons; auto; [apply quiet_usable; exact U|exact Logic.I|].
  intros L r NL S. unfold step. cbn [without_noise noise control target channels]. change (mat_of vals (without_noise g)) with (mat_of vals g).
  destruct (step_form n vals g U N) as (Mx & cs & ts & HG & _ & ST). pose proof (gate_op_unitary _ _ _ _ _ _ HG) as GU.
  rewrite (ctrl_of_spec _ _ (go_control _ _ _ _ _ _ HG)), (mat_of_spec _ _ _ (go_matrix _ _ _ _ _ _ HG)), (go_target _ _ _ _ _ _ HG).
  destruct ST as [(E & _)|(q & l & E & -> & Q & FL & _)]; rewrite E.
  - cbn [channels]. rewrite Rminus_eq_0, Rabs_R0. lra.
  - apply channels_change; auto. destruct S as [P T]. destruct (preserved_unitary n _ r GU) as (TT & _ & PP). split; [auto|congruence].
Qed.
Lemma c118_noise : forall w n vals c c' gs st l K bs mode key, set_order (set_iter w) -> flat_values vals -> runnable n vals c gs -> sequence_of c' (map without_noise gs) ->
    state_of n st -> physical n st -> readable w n vals st gs l K -> Forall2 (magnitude n vals) l bs -> exact_mode mode ->
    exists e e', expectation w st c [l] vals mode 0 key = Ok [e] /\ expectation w st c' [l] vals mode 0 key = Ok [e'] /\ (Rabs (e - e') <= 2 * total bs * total_error gs)%R.
Proof.
  intros w n vals c c' gs st l K bs mode key SO FV RN SC HT PH HR HB EM. apply (physical_density n st HT) in PH.
  destruct RN as (SQ & NE & FU & FD & FN).
  assert (RN : runnable n vals c gs) by (repeat split; assumption).
  assert (FU' : Forall (usable n vals) (map without_noise gs)) by (apply Forall_map; eapply Forall_impl; [|exact FU]; intros; apply quiet_usable; assumption).
  assert (RN' : runnable n vals c' (map without_noise gs)).
  { split; [exact SC|]. split; [destruct gs; [contradiction|discriminate]|]. split; [exact FU'|]. split; apply Forall_map; [exact FD|]. apply Forall_forall. intros g _. exact Logic.I. }
  assert (HR' : readable w n vals st (map without_noise gs) l K).
  { apply (readable_mixes w n vals st gs); [|exact HR]. intros [D|N]; [left; exact D|exfalso]. destruct N as (g & G & X). apply in_map_iff in G as (g' & <- & _). apply X; reflexivity. }
  eexists _, _. split; [apply (exact_spec w n vals c gs st [l] [K]); auto; discriminate|]. split; [apply (exact_spec w n vals c' (map without_noise gs) st [l] [K]); auto; discriminate|].
  apply (near_bound n K vals vals); [|exact PH]. apply near_noise; try assumption. apply (observable_bound w n vals st gs l K bs HR HB).
Qed.
