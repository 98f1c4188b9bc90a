(** * Angles are periodic *)
From Coq Require Import String List Arith Bool Reals Lia Lra ZArith.
From Verif Require Import Cplx Py PyFacts Ndarray OperatorUtils Sparse Matrices Noise Gates Apply Composite Conversion Shots Gpsr Api
  Spec SpecFacts Deriv GateSpec PropSpec NoiseSpec SampleSpec ExpectSpec GpsrSpec GateFacts CircuitFacts AlgebraFacts ApplyThm GateThm TensorFacts TensorThm
  KrausThm NoiseThm NoiseThm2 SeqThm SampleThm ShotsSpec ShotsThm ExpectThm ExpectThm2 GpsrFacts GpsrThm StructSpec PhysSpec PhysThm.
Import ListNotations.
Local Open Scope nat_scope.

Lemma angle_at_set : forall vals g t name x d, lookup vals name = Ok (VNum x) -> angle vals g t ->
    angle (at_value vals name (x + d)) g (t + (if match gparam g with PName s => String.eqb s name | PNum _ => false end then d else 0)).
Proof.
  intros vals g t name x d L A. unfold angle in *. destruct (gparam g) as [s|y]; [|rewrite Rplus_0_r; exact A]. destruct A as (y & E & ->). unfold at_value. rewrite lookup_set.
  destruct (String.eqb_spec s name) as [->|N].
  - rewrite L in E. injection E as <-. exists (x + d)%R. split; [reflexivity|ring].
  - exists y. split; [exact E|ring].
Qed.
Lemma half_turn : forall t, (cos ((t + 2 * PI) / 2) = - cos (t / 2) /\ sin ((t + 2 * PI) / 2) = - sin (t / 2))%R.
Proof. intro t. replace ((t + 2 * PI) / 2)%R with (t / 2 + PI)%R by field. rewrite neg_cos, neg_sin. auto. Qed.
Lemma half_turn_neg : forall t, (cos (- (t + 2 * PI) / 2) = - cos (- t / 2) /\ sin (- (t + 2 * PI) / 2) = - sin (- t / 2))%R.
Proof.
  intro t. replace (- (t + 2 * PI) / 2)%R with (- ((t + 2 * PI) / 2))%R by field. replace (- t / 2)%R with (- (t / 2))%R by field. rewrite !cos_neg, !sin_neg.
  destruct (half_turn t) as [-> ->]. split; ring.
Qed.
Lemma full_turn : forall t, (cos (t + 2 * PI) = cos t /\ sin (t + 2 * PI) = sin t)%R.
Proof. intro t. split; [apply (cos_plus t (2 * PI)) || idtac|]; [|]. 2: rewrite sin_plus, sin_2PI, cos_2PI; ring. rewrite cos_plus, sin_2PI, cos_2PI; ring. Qed.
Lemma double_turn : forall t, (cos ((t + 4 * PI) / 2) = cos (t / 2) /\ sin ((t + 4 * PI) / 2) = sin (t / 2))%R.
Proof. intro t. replace ((t + 4 * PI) / 2)%R with (t / 2 + 2 * PI)%R by field. apply full_turn. Qed.
Lemma double_turn_neg : forall t, (cos (- (t + 4 * PI) / 2) = cos (- t / 2) /\ sin (- (t + 4 * PI) / 2) = sin (- t / 2))%R.
Proof.
  intro t. replace (- (t + 4 * PI) / 2)%R with (- ((t + 4 * PI) / 2))%R by field. replace (- t / 2)%R with (- (t / 2))%R by field. rewrite !cos_neg, !sin_neg.
  destruct (double_turn t) as [-> ->]. auto.
Qed.
Lemma double_turn_matrix : forall name R_ t, In (name, R_) [("X", RX_matrix); ("Y", RY_matrix); ("Z", RZ_matrix)]%string -> R_ (t + 4 * PI)%R = R_ t.
Proof.
  intros name R_ t I. destruct (double_turn t) as [E1 E2], (double_turn_neg t) as [E3 E4].
  destruct I as [I|[I|[I|[]]]]; injection I as <- <-; unfold RX_matrix, RY_matrix, RZ_matrix, Cexpi; rewrite ?E1, ?E2, ?E3, ?E4; reflexivity.
Qed.
Lemma turn_matrix : forall name R_ t, In (name, R_) [("X", RX_matrix); ("Y", RY_matrix); ("Z", RZ_matrix)]%string -> forall x y, R_ (t + 2 * PI)%R x y = Cmul (RtoC (-1)) (R_ t x y).
Proof.
  intros name R_ t I x y. destruct (half_turn t) as [E1 E2], (half_turn_neg t) as [E3 E4].
  destruct I as [I|[I|[I|[]]]]; injection I as <- <-; unfold RX_matrix, RY_matrix, RZ_matrix, Cexpi; rewrite ?E1, ?E2, ?E3, ?E4; unfold mat2;
    destruct x as [|[|[|?]] [|? ?]]; destruct y as [|[|[|?]] [|? ?]]; apply C_ext; simpl; ring.
Qed.
Lemma gate_turn : forall n vals g M cs ts name x, gate_on n vals g M cs ts -> lookup vals name = Ok (VNum x) ->
    (In name (names_of_gate g) -> plain_rotation g \/ gclass g = KPhase) ->
    exists M' s, gate_on n (at_value vals name (x + 2 * PI)) g M' cs ts /\ (s = 1 \/ s = -1)%R /\ keq n (gate_op M' cs ts) (kscale (RtoC s) (gate_op M cs ts)).
Proof.
  intros n vals g M cs ts name x HG L H. destruct HG as [HM HC HT HV].
  assert (ONE : forall K, keq n K (kscale (RtoC 1) K)) by (intros K a b _ _; unfold kscale; apply C_ext; simpl; ring).
  destruct HM as [nm M C N LT I|C N LT|nm R_ t C N LT A I|t C LT A].
  - exists M, 1%R. split; [split; auto; eapply gm_fixed; eauto|]. auto.
  - exists SWAP_matrix, 1%R. split; [split; auto; apply gm_SWAP; auto|]. auto.
  - pose proof (angle_at_set vals g t name x (2 * PI) L A) as A'. destruct (gparam g) as [s|y] eqn:EG; [destruct (String.eqb_spec s name) as [->|Ne]|].
    + destruct H as [(_ & _ & NC)|Q]; [unfold names_of_gate; rewrite C, EG; left; reflexivity| |congruence].
      rewrite <- (ctrl_of_spec _ _ HC), (ctrl_of_spec _ _ NC). rewrite <- (ctrl_of_spec _ _ HC), (ctrl_of_spec _ _ NC) in HV.
      exists (R_ (t + 2 * PI)%R), (-1)%R. split; [split; auto; eapply gm_rotation; eauto|]. split; [auto|].
      intros a b _ _. unfold kscale, gate_op, ctrl_kernel. cbn [bits_at map all_ones forallb]. rewrite <- csum_scale_l. apply csum_ext; intros z _.
      rewrite (turn_matrix nm R_ t I). ring.
    + rewrite Rplus_0_r in A'. exists (R_ t), 1%R. split; [split; auto; eapply gm_rotation; eauto|]. auto.
    + rewrite Rplus_0_r in A'. exists (R_ t), 1%R. split; [split; auto; eapply gm_rotation; eauto|]. auto.
  - pose proof (angle_at_set vals g t name x (2 * PI) L A) as A'.
    assert (E : PHASE_matrix (t + (if match gparam g with PName s => String.eqb s name | PNum _ => false end then 2 * PI else 0))%R = PHASE_matrix t).
    { destruct (match gparam g with PName s => String.eqb s name | PNum _ => false end); [|rewrite Rplus_0_r; reflexivity].
      unfold PHASE_matrix, Cexpi. destruct (full_turn t) as [-> ->]. reflexivity. }
    exists (PHASE_matrix t), 1%R. split; [split; auto; rewrite <- E; apply gm_PHASE; auto|]. auto.
Qed.
Lemma gate_double_turn : forall n vals g M cs ts name x, gate_on n vals g M cs ts -> lookup vals name = Ok (VNum x) ->
    gate_on n (at_value vals name (x + 4 * PI)) g M cs ts.
Proof.
  intros n vals g M cs ts name x HG L. destruct HG as [HM HC HT HV]. split; auto.
  destruct HM as [nm M C N LT I|C N LT|nm R_ t C N LT A I|t C LT A].
  - eapply gm_fixed; eauto.
  - apply gm_SWAP; auto.
  - pose proof (angle_at_set vals g t name x (4 * PI) L A) as A'.
    assert (E : R_ (t + (if match gparam g with PName s => String.eqb s name | PNum _ => false end then 4 * PI else 0))%R = R_ t).
    { destruct (match gparam g with PName s => String.eqb s name | PNum _ => false end); [|rewrite Rplus_0_r; reflexivity]. apply (double_turn_matrix nm R_ t I). }
    rewrite <- E. eapply gm_rotation; eauto.
  - pose proof (angle_at_set vals g t name x (4 * PI) L A) as A'.
    assert (E : PHASE_matrix (t + (if match gparam g with PName s => String.eqb s name | PNum _ => false end then 4 * PI else 0))%R = PHASE_matrix t).
    { destruct (match gparam g with PName s => String.eqb s name | PNum _ => false end); [|rewrite Rplus_0_r; reflexivity].
      unfold PHASE_matrix, Cexpi. replace (t + 4 * PI)%R with (t + 2 * PI + 2 * PI)%R by ring. destruct (full_turn (t + 2 * PI)) as [-> ->], (full_turn t) as [-> ->]. reflexivity. }
    rewrite <- E. apply gm_PHASE; auto.
Qed.
Lemma sign_sandwich : forall n A B s r, (s = 1 \/ s = -1)%R -> keq n A (kscale (RtoC s) B) -> keq n (sandwiched n A r) (sandwiched n B r).
Proof.
  intros n A B s r Hs E. assert (E' : keq n (kadj A) (kscale (RtoC s) (kadj B))).
  { intros x y Hx Hy. unfold kadj. rewrite (E y x Hy Hx). unfold kscale. rewrite Cconj_mul. f_equal. unfold RtoC, Cconj; simpl. f_equal; ring. }
  unfold sandwiched. eapply keq_trans; [apply kmul_ext; [apply kmul_ext; [exact E|apply keq_refl]|exact E']|].
  rewrite kmul_kscale_l, kmul_kscale_l, kmul_kscale_r. intros x y _ _. unfold kscale. destruct Hs as [-> | ->]; apply C_ext; simpl; ring.
Qed.
Lemma turning_cons : forall g gs name, turning (g :: gs) name -> (In name (names_of_gate g) -> plain_rotation g \/ gclass g = KPhase) /\ turning gs name.
Proof. intros g gs name H. split; [apply H; left; reflexivity|intros g' I; apply H; right; exact I]. Qed.
Lemma usable_turn : forall n vals gs name t, Forall (usable n vals) gs -> Forall (usable n (at_value vals name t)) gs.
Proof. intros n vals gs name t FU. eapply Forall_impl; [|exact FU]. intro g. apply usable_at. Qed.
Lemma runnable_turn : forall n vals c gs name t, runnable n vals c gs -> runnable n (at_value vals name t) c gs.
Proof. intros n vals c gs name t (H1 & H2 & H3 & H4). split; [exact H1|split; [exact H2|split; [apply usable_turn, H3|exact H4]]]. Qed.
Lemma step_turn : forall n vals g name x r, usable n vals g -> lookup vals name = Ok (VNum x) -> (In name (names_of_gate g) -> plain_rotation g \/ gclass g = KPhase) ->
    keq n (step n (at_value vals name (x + 2 * PI)) g r) (step n vals g r).
Proof.
  intros n vals g name x r (M & cs & ts & HG) L H. destruct (gate_turn n vals g M cs ts name x HG L H) as (M' & s & HG' & Hs & E). unfold step.
  rewrite (mat_of_spec _ _ _ (go_matrix _ _ _ _ _ _ HG)), (mat_of_spec _ _ _ (go_matrix _ _ _ _ _ _ HG')), (ctrl_of_spec _ _ (go_control _ _ _ _ _ _ HG)).
  apply (linear_channels n (target g) (noise g)). rewrite (go_target _ _ _ _ _ _ HG). eapply sign_sandwich; eassumption.
Qed.
Lemma evolve_turn : forall n vals gs name x, Forall (usable n vals) gs -> lookup vals name = Ok (VNum x) -> turning gs name -> forall r,
    keq n (evolve n (at_value vals name (x + 2 * PI)) gs r) (evolve n vals gs r).
Proof.
  intros n vals gs name x FU L. induction FU as [|g gs U FU IH]; intros H r; [apply keq_refl|]. apply turning_cons in H as [H1 H2]. cbn [evolve].
  eapply keq_trans; [apply IH, H2|]. apply evolve_ext. apply step_turn; assumption.
Qed.
Lemma circuit_turn : forall n vals gs U name x, circuit_on n vals gs U -> lookup vals name = Ok (VNum x) -> turning gs name ->
    exists U' s, circuit_on n (at_value vals name (x + 2 * PI)) gs U' /\ (s = 1 \/ s = -1)%R /\ keq n U' (kscale (RtoC s) U).
Proof.
  intros n vals gs U name x HC L. induction HC as [|g gs M cs ts U HG HC IH]; intro H.
  - exists kid, 1%R. split; [constructor|split; [auto|]]. intros a b _ _. unfold kscale. apply C_ext; simpl; ring.
  - apply turning_cons in H as [H1 H2]. destruct (IH H2) as (U' & s & C' & Hs & E). destruct (gate_turn n vals g M cs ts name x HG L H1) as (M' & s' & HG' & Hs' & E').
    exists (kmul n U' (gate_op M' cs ts)), (s * s')%R. split; [econstructor; eassumption|]. split.
    + destruct Hs as [-> | ->], Hs' as [-> | ->]; [left|right|right|left]; ring.
    + rewrite E, E', kmul_kscale_l, kmul_kscale_r. intros a b _ _. unfold kscale. apply C_ext; simpl; ring.
Qed.
Lemma flat_at : forall vals name t, name <> "circuit"%string -> flat_values vals -> flat_values (at_value vals name t) \/ name = "observables"%string.
Proof.
  intros vals name t N [H|H]; unfold flat_values, at_value; rewrite !lookup_set.
  - left; left. destruct (String.eqb_spec "circuit" name); [congruence|exact H].
  - destruct (String.eqb_spec "observables" name); [right; congruence|left; right; exact H].
Qed.
(** adding 2 pi *)
Lemma c88_turn : forall w n vals c gs st name x, set_order (set_iter w) -> runnable n vals c gs -> state_of n st ->
    lookup vals name = Ok (VNum x) -> turning gs name ->
    (forall obs Ks mode key, obs <> [] -> flat_values vals -> flat_values (at_value vals name (x + 2 * PI)) ->
       Forall2 (readable w n vals st gs) obs Ks -> Forall2 (readable w n (at_value vals name (x + 2 * PI)) st gs) obs Ks -> exact_mode mode ->
       exists es, expectation w st c obs vals mode 0 key = Ok es /\ expectation w st c obs (at_value vals name (x + 2 * PI)) mode 0 key = Ok es) /\
    (forall k, choice_contract w -> 1 <= n -> (1 <= k)%Z ->
       exists counts, fst (sample w st c vals k) = Ok counts /\ fst (sample w st c (at_value vals name (x + 2 * PI)) k) = Ok counts) /\
    exists out out', run w c st vals = Ok (Some out) /\ run w c st (at_value vals name (x + 2 * PI)) = Ok (Some out') /\
      match out, out' with
      | SDM a, SDM b => a = b
      | SDense a, SDense b => exists s, (s = 1 \/ s = -1)%R /\ forall y, In y (bitstrings n) -> amp b y = Cmul (RtoC s) (amp a y)
      | _, _ => False
      end.
Proof.
  intros w n vals c gs st name x SO RN HT L TU. pose proof (runnable_turn n vals c gs name (x + 2 * PI) RN) as RN'. pose proof RN as (HS & NE & FU & FD & FN).
  pose proof (evolve_turn n vals gs name x FU L TU) as EV. split; [|split].
  - intros obs Ks mode key NO FV FV' F F' EM. eexists; split; [apply (exact_spec w n vals c gs st obs Ks); assumption|].
    rewrite (exact_spec w n _ c gs st obs Ks mode key SO FV' RN' HT NO F' EM). f_equal. apply map_ext; intro K. apply mean_density_ext; [apply keq_refl|apply EV].
  - intros k CC Hn Hk. eexists; split; [apply (sample_spec w n vals c gs st k); assumption|]. rewrite (sample_spec w n _ c gs st k SO CC Hn Hk RN' HT).
    do 3 f_equal. apply map_ext_in; intros y Hy. f_equal. apply EV; exact Hy.
  - destruct (output_spec w n vals c gs st SO RN HT) as (o & E & _ & _ & So & K & M & P).
    destruct (output_spec w n _ c gs st SO RN' HT) as (o' & E' & _ & _ & So' & K' & M' & P'). exists o, o'. split; [exact E|split; [exact E'|]].
    destruct (mixes_dec st gs (or_intror Logic.I)) as [MX|NM].
    + destruct (M MX) as (a & ->), (M' MX) as (b & ->). apply (density_ext n); auto. cbn [density_of] in K, K'. rewrite K, K'. apply keq_sym, EV.
    + destruct st as [psi|b|rho]; [|destruct HT|elim NM; left; eauto].
      assert (NN : Forall noiseless gs) by (destruct (noisy_or_not gs) as [X|X]; [exact X|elim NM; right; exact X]).
      destruct (usable_circuit _ _ _ FU) as (U & HC). destruct (circuit_turn n vals gs U name x HC L TU) as (U' & s & HC' & Hs & EU).
      destruct (call_pure w n vals c gs U psi HS FD NN HC HT) as (a & Ea & _ & Va). destruct (call_pure w n _ c gs U' psi HS FD NN HC' HT) as (b & Eb & _ & Vb).
      rewrite E in Ea; injection Ea as ->. rewrite E' in Eb; injection Eb as ->. exists s. split; [exact Hs|]. intros y Hy. rewrite (Va y Hy), (Vb y Hy).
      rewrite (apply_kernel_ext n _ _ _ _ EU (veq_refl n (amp psi)) y Hy). unfold apply_kernel, kscale. rewrite <- csum_scale_l. apply csum_ext; intros; ring.
Qed.
(** adding 4 pi *)
Lemma circuit_double_turn : forall n vals gs U name x, circuit_on n vals gs U -> lookup vals name = Ok (VNum x) -> circuit_on n (at_value vals name (x + 4 * PI)) gs U.
Proof. intros n vals gs U name x HC L. induction HC; econstructor; eauto. apply gate_double_turn; assumption. Qed.
Lemma evolve_double_turn : forall n vals gs name x, Forall (usable n vals) gs -> lookup vals name = Ok (VNum x) -> forall r,
    evolve n (at_value vals name (x + 4 * PI)) gs r = evolve n vals gs r.
Proof.
  intros n vals gs name x FU L. induction FU as [|g gs (M & cs & ts & HG) FU IH]; intro r; [reflexivity|]. cbn [evolve]. rewrite IH. f_equal. unfold step.
  rewrite (mat_of_spec _ _ _ (go_matrix _ _ _ _ _ _ HG)), (mat_of_spec _ _ _ (go_matrix _ _ _ _ _ _ (gate_double_turn n vals g M cs ts name x HG L))). reflexivity.
Qed.
Lemma c88_double_turn : forall w n vals c gs st name x, set_order (set_iter w) -> runnable n vals c gs -> state_of n st ->
    lookup vals name = Ok (VNum x) ->
    exists out, run w c st vals = Ok (Some out) /\ run w c st (at_value vals name (x + 4 * PI)) = Ok (Some out).
Proof.
  intros w n vals c gs st name x SO RN HT L. pose proof (runnable_turn n vals c gs name (x + 4 * PI) RN) as RN'. pose proof RN as (HS & NE & FU & FD & FN).
  destruct (output_spec w n vals c gs st SO RN HT) as (o & E & _ & _ & So & K & M & P).
  destruct (output_spec w n _ c gs st SO RN' HT) as (o' & E' & _ & _ & So' & K' & M' & P'). exists o. split; [exact E|]. rewrite E'. do 2 f_equal.
  destruct (mixes_dec st gs (or_intror Logic.I)) as [MX|NM].
  - destruct (M MX) as (a & ->), (M' MX) as (b & ->). f_equal. apply (density_ext n); auto. cbn [density_of] in K, K'. rewrite K, K', evolve_double_turn by assumption. apply keq_refl.
  - destruct st as [psi|b|rho]; [|destruct HT|elim NM; left; eauto].
    assert (NN : Forall noiseless gs) by (destruct (noisy_or_not gs) as [X|X]; [exact X|elim NM; right; exact X]).
    destruct (usable_circuit _ _ _ FU) as (U & HC). pose proof (circuit_double_turn n vals gs U name x HC L) as HC'.
    destruct (call_pure w n vals c gs U psi HS FD NN HC HT) as (a & Ea & Sa & Va). destruct (call_pure w n _ c gs U psi HS FD NN HC' HT) as (b & Eb & Sb & Vb).
    rewrite E in Ea; injection Ea as ->. rewrite E' in Eb; injection Eb as ->. f_equal. apply (state_ext n); auto. intros y Hy. rewrite (Va y Hy), (Vb y Hy). reflexivity.
Qed.

(** controlled rotations do not have period 2 pi *)
Definition crx_gate : gate := RX (PName "a") (TInt 1) (IInt 0) None false.
Definition plus_state : arr := mkArr [2; 2] [RtoC (3 / 5); C0; RtoC (4 / 5); C0].
Definition x0_obs : list oper := [OGate (gX (TInt 0) no_control None false)].
Lemma c88_refuted : forall w key, exists n vals g st obs x,
    usable n vals g /\ dense_gate g /\ noiseless g /\ state_of n st /\ physical n st /\ lookup vals "a" = Ok (VNum x) /\
    exists e e', expectation w st (OpSequence [OGate g]) obs vals AD 0 key = Ok [e] /\
      expectation w st (OpSequence [OGate g]) obs (at_value vals "a" (x + 2 * PI)) AD 0 key = Ok [e'] /\ e <> e'.
Proof.
  intros w key. exists 2, [("a"%string, VNum 0)], crx_gate, (SDense plus_state), [x0_obs], 0%R. repeat apply Logic.conj.
  - exists (RX_matrix (0 + 0)), [0], [1]. split; [|apply (cq_ints [0])|reflexivity|split; [repeat constructor; simpl; intuition discriminate|repeat constructor]].
    eapply gm_rotation; try reflexivity; [exists 0%R; split; reflexivity|left; reflexivity].
  - reflexivity.
  - reflexivity.
  - reflexivity.
  - reflexivity.
  - unfold physical, norm2. lazy -[Rplus Rmult Ropp Rminus IZR Rdiv Rinv]. field.
  - reflexivity.
  - do 2 eexists. split; [lazy -[Rplus Rmult Ropp Rminus IZR Rdiv Rinv cos sin PI]; reflexivity|]. split; [lazy -[Rplus Rmult Ropp Rminus IZR Rdiv Rinv cos sin PI]; reflexivity|].
    replace ((0 + 2 * PI + 0) / 2)%R with PI by field. replace ((0 + 0) / 2)%R with 0%R by field. rewrite cos_PI, sin_PI, cos_0, sin_0. intro H. field_simplify in H. lra.
Qed.
