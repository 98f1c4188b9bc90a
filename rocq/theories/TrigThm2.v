(** * Consequences of the trigonometric form: periods, derivatives, and the exact error of GPSR for controlled rotations *)
From Coq Require Import String List Arith Bool Reals Lia Lra ZArith Permutation Sorted.
From Verif Require Import Cplx Py PyFacts Ndarray OperatorUtils Sparse Matrices Noise Gates Apply Composite Conversion Shots Gpsr Api
  Spec SpecFacts Deriv GateSpec PropSpec NoiseSpec SampleSpec ExpectSpec GpsrSpec GateFacts CircuitFacts AlgebraFacts ApplyThm GateThm TensorFacts TensorThm
  KrausThm NoiseThm NoiseThm2 SeqThm SampleThm ShotsSpec ShotsThm ExpectThm ExpectThm2 GpsrFacts GpsrThm GpsrThm2 StructSpec PhysSpec PhysThm TrigSpec TrigThm.
Import ListNotations.
Local Open Scope nat_scope.

Lemma trig_period : forall m f, trig_poly m f -> forall t, f (t + 2 * PI)%R = f t.
Proof.
  intros m f (a & b & F) t. rewrite !F. apply rsum_ext. intros j _.
  assert (E : (INR j * (t + 2 * PI) = INR j * t + 2 * INR j * PI)%R) by ring. rewrite E, cos_period, sin_period. reflexivity.
Qed.
Lemma trig_deriv : forall m f, trig_poly m f -> forall x, exists d, derivable_pt_lim f x d.
Proof.
  intros m f (a & b & F) x. revert F. generalize (seq 0 (S m)). intros l F.
  assert (G : exists d, derivable_pt_lim (fun t => rsum l (fun j => (a j * cos (INR j * t) + b j * sin (INR j * t))%R)) x d).
  { clear F. induction l as [|j l (d & IH)]; cbn [rsum]; [exists 0%R; apply derivable_pt_lim_const|]. eexists.
    apply (derivable_pt_lim_plus (fun t => (a j * cos (INR j * t) + b j * sin (INR j * t))%R) (fun t => rsum l (fun j => (a j * cos (INR j * t) + b j * sin (INR j * t))%R))); [|exact IH].
    apply (derivable_pt_lim_plus (fun t => (a j * cos (INR j * t))%R) (fun t => (b j * sin (INR j * t))%R)); apply derivable_pt_lim_scal.
    - eapply dpl_ext; [|apply (dpl_affine cos (INR j) 0); apply derivable_pt_lim_cos]. intro t. cbv beta. f_equal; ring.
    - eapply dpl_ext; [|apply (dpl_affine sin (INR j) 0); apply derivable_pt_lim_sin]. intro t. cbv beta. f_equal; ring. }
  destruct G as (d & G). exists d. eapply dpl_ext; [|exact G]. intro t. symmetry. apply F.
Qed.
Lemma c104_period : forall w n vals c gs st obs Ks name mode key, set_order (set_iter w) -> flat_values vals -> runnable n vals c gs -> state_of n st -> obs <> [] ->
    In name (map fst vals) -> (forall t, Forall2 (readable w n (at_value vals name t) st gs) obs Ks) -> exact_mode mode ->
    (forall t, expectation w st c obs (at_value vals name (t + 4 * PI)) mode 0 key = expectation w st c obs (at_value vals name t) mode 0 key) /\
    (no_controlled_rotation gs name -> forall t, expectation w st c obs (at_value vals name (t + 2 * PI)) mode 0 key = expectation w st c obs (at_value vals name t) mode 0 key).
Proof.
  intros w n vals c gs st obs Ks name mode key SO FV RN HT NO IN FK EM.
  destruct (c104_trig w n vals c gs st obs Ks name mode key SO FV RN HT NO IN FK EM) as (fs & L & E & T1 & T2). split.
  - intro t. rewrite !E. f_equal. apply map_ext_in. intros f I. rewrite Forall_forall in T1. specialize (T1 f I).
    pose proof (trig_period _ _ T1 (t / 2)%R) as P. cbv beta in P. replace (2 * (t / 2 + 2 * PI))%R with (t + 4 * PI)%R in P by field. replace (2 * (t / 2))%R with t in P by field. exact P.
  - intros NC t. rewrite !E. f_equal. apply map_ext_in. intros f I. specialize (T2 NC). rewrite Forall_forall in T2. apply (trig_period _ _ (T2 f I)).
Qed.
Lemma c105_derivable : forall w n vals c gs st obs Ks name x mode key, set_order (set_iter w) -> flat_values vals -> runnable n vals c gs -> state_of n st -> obs <> [] ->
    lookup vals name = Ok (VNum x) -> (forall t, Forall2 (readable w n (at_value vals name t) st gs) obs Ks) -> exact_mode mode ->
    exists d, gradient_at (fun v => expectation w st c obs v mode 0 key) vals name d.
Proof.
  intros w n vals c gs st obs Ks name x mode key SO FV RN HT NO LX FK EM.
  assert (IN : In name (map fst vals)). { clear -LX. induction vals as [|[k v] vals IH]; cbn [lookup map fst] in *; [discriminate|]. destruct (String.eqb_spec name k) as [->|]; [left; reflexivity|right; apply IH; exact LX]. }
  destruct (c104_trig w n vals c gs st obs Ks name mode key SO FV RN HT NO IN FK EM) as (fs & L & E & T1 & _).
  assert (D : exists ds, Forall2 (fun f d => derivable_pt_lim f x d) fs ds).
  { clear -T1. induction T1 as [|f fs T1 _ (ds & IH)]; [exists []; constructor|]. destruct (trig_deriv _ _ T1 (x / 2)%R) as (d & D). exists ((1 / 2 * d)%R :: ds). constructor; [|exact IH].
    eapply dpl_ext; [|apply (dpl_affine (fun s => f (2 * s)%R) (1 / 2) 0); replace (1 / 2 * x + 0)%R with (x / 2)%R by field; exact D]. intro t. cbv beta. f_equal. field. }
  destruct D as (ds & D). exists ds, (fun t => map (fun f => f t) fs), x. split; [exact LX|]. split.
  - intro t. split; [apply E|]. rewrite map_length. eapply F2_len; exact D.
  - intros i Hi. clear -D Hi. revert i Hi. induction D as [|f d fs ds D _ IH]; intros [|i] Hi; cbn [length nth map] in *; try lia; [exact D|]. apply IH. lia.
Qed.
(** ** the exact error of GPSR *)
Lemma two_tones_deriv : forall A B D P Q x, derivable_pt_lim (two_tones A B D P Q) x (two_tones_slope 1 B D P Q x).
Proof.
  intros A B D P Q x. unfold two_tones, two_tones_slope.
  assert (H2 : forall f f', (forall y, derivable_pt_lim f y (f' y)) -> derivable_pt_lim (fun t => f (t / 2)%R) x (1 / 2 * f' (x / 2))%R).
  { intros f f' H. eapply dpl_ext; [|apply (dpl_affine f (1 / 2) 0); replace (1 / 2 * x + 0)%R with (x / 2)%R by field; apply H]. intro t. cbv beta. f_equal. field. }
  eapply dpl_eq; [|apply (derivable_pt_lim_plus (fun t => A + B * cos t + D * sin t + P * cos (t / 2))%R (fun t => Q * sin (t / 2))%R);
    [apply (derivable_pt_lim_plus (fun t => A + B * cos t + D * sin t)%R (fun t => P * cos (t / 2))%R);
      [apply (derivable_pt_lim_plus (fun t => A + B * cos t)%R (fun t => D * sin t)%R);
        [apply (derivable_pt_lim_plus (fun t => A)%R (fun t => B * cos t)%R); [apply derivable_pt_lim_const|apply derivable_pt_lim_scal, derivable_pt_lim_cos]|apply derivable_pt_lim_scal, derivable_pt_lim_sin]
      |apply (derivable_pt_lim_scal (fun t => cos (t / 2))), (H2 cos (fun y => - sin y)%R), derivable_pt_lim_cos]
    |apply (derivable_pt_lim_scal (fun t => sin (t / 2))), (H2 sin cos), derivable_pt_lim_sin]].
  field.
Qed.
Lemma two_tones_shift : forall A B D P Q x, ((two_tones A B D P Q (x + PI / 2) - two_tones A B D P Q (x + - (PI / 2))) / 2 = two_tones_slope (sqrt 2) B D P Q x)%R.
Proof.
  intros A B D P Q x. unfold two_tones, two_tones_slope.
  replace ((x + PI / 2) / 2)%R with (x / 2 + PI / 4)%R by field. replace ((x + - (PI / 2)) / 2)%R with (x / 2 + - (PI / 4))%R by field.
  rewrite !cos_plus, !sin_plus, !cos_neg, !sin_neg, cos_PI2, sin_PI2, cos_PI4, sin_PI4.
  assert (S2 : (1 / sqrt 2 = sqrt 2 / 2)%R). { assert (sqrt 2 <> 0)%R by (apply Rgt_not_eq, sqrt_lt_R0; lra). apply (Rmult_eq_reg_l (sqrt 2)); [|assumption]. replace (sqrt 2 * (sqrt 2 / 2))%R with (sqrt 2 * sqrt 2 / 2)%R by field. rewrite sqrt_sqrt by lra. field. assumption. }
  rewrite S2. field.
Qed.
Lemma once_uses : forall gs name, used_once gs -> uses gs name <= 1.
Proof. intros gs name H. unfold uses. apply (proj1 (NoDup_count_occ string_dec _) H name). Qed.
Lemma laurent_mono : forall n b m m' F, m <= m' -> laurent n b m F -> laurent n b m' F.
Proof. intros n b m m' F H (l & FL & E). exists l. split; [|exact E]. eapply Forall_impl; [|exact FL]. intros e [O1 O2]. split; [lia|exact O2]. Qed.
Lemma mean_two_tones : forall n K vals name gs r, Forall (usable n vals) gs -> used_once gs ->
    exists A B D P Q, forall t, mean_density n K (evolve n (at_value vals name t) gs r) = two_tones A B D P Q t.
Proof.
  intros n K vals name gs r FU ND.
  assert (L : laurent n false 1 (fun s => evolve n (at_value vals name (2 * s)) gs r)).
  { apply (laurent_mono n false (uses gs name + 0)); [rewrite Nat.add_0_r; apply once_uses; exact ND|]. apply (evolve_laurent n vals name false gs FU ltac:(discriminate) 0 (fun _ => r)). apply laurent_const. }
  destruct (proj1 (laurent_trig n K false 1 _ L)) as (a & b & F). exists (a 0), (a 2), (b 2), (a 1), (b 1). intro t. specialize (F (t / 2)%R). cbv beta in F. replace (2 * (t / 2))%R with t in F by field.
  rewrite F. cbn [Nat.mul Nat.add seq rsum INR]. unfold two_tones. rewrite Rmult_0_l, cos_0, sin_0. replace (1 * (t / 2))%R with (t / 2)%R by ring. replace ((1 + 1) * (t / 2))%R with t by field. ring.
Qed.
Lemma gpsr_frame : forall w n vals circuit gs st obs key (Q : string -> list R -> Prop),
    set_order (set_iter w) -> numeric_values vals -> vals <> [] -> sequence_of circuit gs -> gs <> [] ->
    Forall (usable n vals) gs -> Forall dense_gate gs -> Forall noise_ok gs -> state_of n st -> obs <> [] -> used_once gs ->
    (forall name t, In name (map fst vals) -> exists Ks, Forall2 (readable w n (at_value vals name t) st gs) obs Ks) ->
    (forall name, In name (map fst vals) -> exists d, (forall k, jvp_step (analytical_eval w st obs) (GMany gs) vals no_split name default_gap k = Ok d) /\ length d = length obs /\ Q name d) ->
    exists fwd grads, expectation w st circuit obs vals GPSR 0 key = Ok fwd /\ length grads = length vals /\
      (forall k name, nth_error (map fst vals) k = Some name -> Q name (nth k grads [])) /\
      (Forall (fun g => gclass g <> KPhase) gs -> analytical_gpsr_bwd w st (GMany gs) obs vals = Ok (map total grads)) /\
      (forall tangents uuid, length tangents = length vals ->
        analytical_gpsr_jvp w st (GMany gs) obs vals tangents uuid = Ok (fwd, directional (length obs) grads tangents)).
Proof.
  intros w n vals circuit gs st obs key Q SO NV NVN HQ NG FU FD FN HS NO ND HK HC.
  set (keys := map fst vals) in *. set (f := analytical_eval w st obs).
  destruct (mapM_exists (fun kn => jvp_step f (GMany gs) vals no_split (snd kn) default_gap (no_split 0 (length keys) (fst kn)))
     (fun kn d => (forall k, jvp_step f (GMany gs) vals no_split (snd kn) default_gap k = Ok d) /\ length d = length obs /\ Q (snd kn) d)
     (combine (seq 0 (length keys)) keys)) as (grads & EG & FG).
  { intros [k name] I. cbn [fst snd]. assert (IN : In name keys) by (apply in_combine_r in I; exact I).
    destruct (HC name IN) as (d & E1 & E2 & E3). exists d. split; [apply E1|split; [exact E1|split; [exact E2|exact E3]]]. }
  assert (HB : gpsr_branch (GMany gs) keys = CaseSimple) by exact (once_branch n vals gs FU ND).
  assert (LG : length grads = length keys).
  { rewrite <- (F2_len FG), combine_length, seq_length. lia. }
  assert (LV : length keys = length vals) by (unfold keys; apply map_length).
  assert (KN : keys <> []) by (unfold keys; destruct vals; [contradiction|discriminate]).
  assert (EF : exists fwd, expectation w st circuit obs vals GPSR 0 key = Ok fwd /\ f (GMany gs) vals 0 = Ok fwd).
  { destruct vals as [|[k0 v0] vals0] eqn:EVL; [contradiction|]. assert (I0 : In k0 keys) by (left; reflexivity).
    destruct (numeric_lookup _ k0 NV I0) as (x & L). destruct (HK k0 x I0) as (Ks & F). unfold at_value in F. rewrite (set_same _ _ _ L) in F.
    assert (E := eval_spec w n _ st gs obs Ks SO NG FU FD FN HS NO F). eexists. split; [|exact E].
    unfold expectation. cbn [Z.ltb Z.eqb Z.compare]. rewrite (sequence_iter _ _ HQ); cbn [bind]. exact E. }
  destruct EF as (fwd & EF & EF'). exists fwd, grads. split; [exact EF|split; [lia|split; [|split]]].
  - intros k name E. assert (F2 : Forall2 Q keys grads).
    { rewrite <- (seq_snd keys). apply F2_map_l. eapply F2_impl; [|exact FG]. intros [j nm] d (_ & _ & H); exact H. }
    apply (F2_nth _ _ _ [] F2 k name E).
  - intro NP. unfold analytical_gpsr_bwd, gpsr_bwd. fold keys f. rewrite HB.
    assert (PT : forallb is_pytree gs = true).
    { apply forallb_forall. intros g Hg. rewrite Forall_forall in NP. specialize (NP g Hg). unfold is_pytree. destruct (gclass g); congruence. }
    assert (EG' : mapM (fun kn => jvp_component (jitted f) (GMany gs) vals no_split (snd kn) (no_split 0 (length keys) (fst kn))) (combine (seq 0 (length keys)) keys) = Ok grads).
    { rewrite <- EG. apply ExpectThm2.mapM_ext_in. intros [k name] _. cbn [fst snd]. unfold jvp_component, jvp_step, jitted. cbn [gate_list]. rewrite PT. reflexivity. }
    destruct keys; [contradiction|]. rewrite EG'; cbn [bind]. f_equal. apply map_ext. intro d; apply total_fold.
  - intros tangents uuid LT. unfold analytical_gpsr_jvp, gpsr_jvp. fold f. rewrite EF'; cbn [bind]. unfold jvp_grads. fold keys. rewrite HB.
    assert (NU : exists xs, mapM (fun kv => num (snd kv)) vals = Ok xs).
    { destruct (mapM_exists (fun kv : string * pyval => num (snd kv)) (fun _ _ => True) vals) as (xs & E & _); [|eauto].
      intros kv I. destruct NV as [_ FV]. rewrite Forall_forall in FV. destruct (FV kv I) as (x & Ex). rewrite Ex. exists x; split; [reflexivity|exact Logic.I]. }
    destruct NU as (xs & ->); cbn [bind]. destruct keys as [|k0 ks] eqn:EK; [contradiction|]. rewrite EG; cbn [bind]. f_equal. f_equal.
    apply contract_spec; [destruct grads; [discriminate|discriminate]|lia|].
    clear -FG. induction FG as [|a d l gr (_ & L & _) FG IH]; constructor; assumption.
Qed.
Lemma c54_error : forall w n vals circuit gs st obs Ks key,
    set_order (set_iter w) -> numeric_values vals -> vals <> [] -> sequence_of circuit gs -> gs <> [] ->
    Forall (usable n vals) gs -> Forall dense_gate gs -> Forall noise_ok gs -> state_of n st -> obs <> [] -> used_once gs ->
    (forall v, Forall2 (readable w n v st gs) obs Ks) ->
    exists fwd grads, expectation w st circuit obs vals GPSR 0 key = Ok fwd /\ length grads = length vals /\
      (forall k name x, nth_error (map fst vals) k = Some name -> lookup vals name = Ok (VNum x) ->
        length (nth k grads []) = length obs /\
        forall i, i < length obs -> exists A B D P Q,
          (forall t, exists f, expectation w st circuit obs (at_value vals name t) GPSR 0 key = Ok f /\ nth i f 0%R = two_tones A B D P Q t) /\
          derivable_pt_lim (two_tones A B D P Q) x (two_tones_slope 1 B D P Q x) /\
          nth i (nth k grads []) 0%R = two_tones_slope (sqrt 2) B D P Q x) /\
      (Forall (fun g => gclass g <> KPhase) gs -> analytical_gpsr_bwd w st (GMany gs) obs vals = Ok (map total grads)) /\
      (forall tangents uuid, length tangents = length vals ->
        analytical_gpsr_jvp w st (GMany gs) obs vals tangents uuid = Ok (fwd, directional (length obs) grads tangents)).
Proof.
  intros w n vals circuit gs st obs Ks key SO NV NVN HQ NG FU FD FN HS NO ND FK.
  assert (LK : length obs = length Ks) by (eapply F2_len; apply (FK [])).
  assert (FU' : forall name t, Forall (usable n (at_value vals name t)) gs) by (intros name t; eapply Forall_impl; [|exact FU]; intros g; apply usable_at).
  assert (EV : forall name t, analytical_expectation w st (GMany gs) obs (at_value vals name t) = Ok (map (fun K => mean_density n K (evolve n (at_value vals name t) gs (density_of st))) Ks)).
  { intros name t. apply eval_spec; auto. }
  destruct (gpsr_frame w n vals circuit gs st obs key
    (fun name d => forall x, lookup vals name = Ok (VNum x) -> d = map (fun K => ((mean_density n K (evolve n (at_value vals name (x + PI / 2)) gs (density_of st)) - mean_density n K (evolve n (at_value vals name (x + - (PI / 2))) gs (density_of st))) / 2)%R) Ks))
    as (fwd & grads & E1 & E2 & E3 & E4 & E5); auto.
  - intros name t _. exists Ks. apply FK.
  - intros name IN. destruct (numeric_lookup vals name NV IN) as (x & L). eexists. split; [|split].
    + intro k. unfold jvp_step, analytical_eval. rewrite !(bump_ok vals name x) by exact L. cbn [bind]. rewrite !EV. cbn [bind]. rewrite shift_rules_2, half_diffs_map. reflexivity.
    + rewrite map_length. symmetry; exact LK.
    + intros x' L'. rewrite L in L'. injection L' as <-. reflexivity.
  - exists fwd, grads. split; [exact E1|split; [exact E2|split; [|split; [exact E4|exact E5]]]]. intros k name x EN L. rewrite (E3 k name EN x L). split; [rewrite map_length; symmetry; exact LK|].
    intros i Hi. rewrite LK in Hi. destruct (nth_error Ks i) as [K|] eqn:EK; [|apply nth_error_None in EK; lia].
    assert (NM : forall (f : op -> R), nth i (map f Ks) 0%R = f K) by (intro f; apply nth_error_nth; rewrite nth_error_map, EK; reflexivity).
    destruct (mean_two_tones n K vals name gs (density_of st) FU ND) as (A & B & D & P & Q & F). exists A, B, D, P, Q. split; [|split; [apply two_tones_deriv|]].
    + intro t. eexists. split; [unfold expectation; cbn [Z.ltb Z.eqb Z.compare]; rewrite (sequence_iter _ _ HQ); cbn [bind]; apply EV|]. rewrite NM. apply F.
    + rewrite NM, !F. apply two_tones_shift.
Qed.
