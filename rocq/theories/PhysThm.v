(** * Physical laws: locality, linearity, composition, bounds *)
From Coq Require Import String List Arith Bool Reals Lia Lra ZArith.
From Verif Require Import Cplx Py PyFacts Ndarray OperatorUtils Sparse Matrices Noise Gates Apply Composite Conversion Shots Gpsr Api
  Spec SpecFacts Deriv GateSpec PropSpec NoiseSpec SampleSpec ExpectSpec GpsrSpec GateFacts CircuitFacts AlgebraFacts ApplyThm GateThm TensorFacts TensorThm
  NoiseThm NoiseThm2 SeqThm SampleThm ShotsSpec ShotsThm ExpectThm ExpectThm2 GpsrFacts GpsrThm StructSpec PhysSpec.
Import ListNotations.
Local Open Scope nat_scope.

(** ** outputs in terms of [evolve] *)
Lemma output_spec : forall w n vals c gs st, set_order (set_iter w) -> runnable n vals c gs -> state_of n st ->
    exists out, run w c st vals = Ok (Some out) /\ run_flat w st c vals = Ok out /\ apply_gates w st (GMany gs) vals UNITARY false true = Ok out /\
      state_of n out /\ keq n (density_of out) (evolve n vals gs (density_of st)) /\
      (mixes st gs -> exists a, out = SDM a) /\ (~ mixes st gs -> exists a, out = SDense a).
Proof.
  intros w n vals c gs st SO (HS & NE & FU & FD & FN) HT.
  destruct (c44_flatten w n vals c gs st SO HS NE FU FD FN HT) as (out & E1 & E2 & E3 & So). exists out.
  do 4 (split; [assumption|]). clear E1 E3. pose proof (evolve_run n vals gs FU FN (density_of st)) as HR.
  destruct st as [psi|b|rho]; [|destruct HT|].
  - destruct (noisy_or_not gs) as [NN|EX].
    + destruct (noisy_run_plain n vals gs _ _ HR NN) as (U & HC & EU).
      destruct (apply_gates_dense w n vals UNITARY true gs U psi NE NN (circuit_on_gseq w n vals gs U HC FD) HT) as (phi & E1 & S1 & V1).
      rewrite E2 in E1; injection E1 as ->. split; [|split].
      * apply keq_sym. eapply keq_trans; [exact EU|]. eapply keq_trans; [exact (sandwiched_pure n U psi)|]. intros x y Hx Hy. cbn [density_of]. unfold pure_density.
        rewrite (V1 x Hx), (V1 y Hy). reflexivity.
      * intros [(a & Q)|(g & I & N)]; [discriminate|]. rewrite Forall_forall in NN. elim N. apply NN, I.
      * eauto.
    + destruct (c28_circuit_pure w n vals gs psi _ true SO NE FD EX HT HR) as (o1 & E1 & D1 & K1).
      rewrite E2 in E1; injection E1 as ->. split; [exact K1|split; [eauto|]]. intro N; elim N; right; exact EX.
  - destruct (c28_circuit w n vals gs rho _ true SO NE FD HT HR) as (o1 & E1 & D1 & K1).
    rewrite E2 in E1; injection E1 as ->. split; [exact K1|split; [eauto|]]. intro N; elim N; left; eauto.
Qed.
Lemma exact_spec : forall w n vals c gs st obs Ks mode key, set_order (set_iter w) -> flat_values vals -> runnable n vals c gs -> state_of n st ->
    obs <> [] -> Forall2 (readable w n vals st gs) obs Ks -> exact_mode mode ->
    expectation w st c obs vals mode 0 key = Ok (map (fun K => mean_density n K (evolve n vals gs (density_of st))) Ks).
Proof.
  intros w n vals c gs st obs Ks mode key SO FV RN HT NO F EM. pose proof RN as (HS & NE & FU & FD & FN). destruct EM.
  - destruct (evolve_output w n vals st gs SO NE FU FD FN HT) as (out & E & So & M & MX).
    rewrite (expectation_mean w n vals vals vals c st out obs Ks key SO); [f_equal; apply map_ext; exact M|right; auto| |exact So|exact NO|].
    + unfold run_flat. rewrite (sequence_iter _ _ HS). exact E.
    + eapply F2_impl; [|exact F]. intros l K [H1 H2]. destruct out as [a|b|a]; [exact H1|destruct So|apply H2, (MX a eq_refl)].
  - cbn [expectation Z.ltb Z.eqb Z.compare]. rewrite (sequence_iter _ _ HS); cbn [bind]. apply eval_spec; assumption.
Qed.
Lemma sample_spec_at : forall w n vals c gs st k, set_order (set_iter w) -> 1 <= n -> (1 <= k)%Z -> runnable n vals c gs -> state_of n st ->
    Forall (fun i => i < 2 ^ n) (choice w 0 (map (fun x => re (evolve n vals gs (density_of st) x x)) (bitstrings n)) (Z.to_nat k)) ->
    fst (sample w st c vals k) =
      Ok (histogram n (choice w 0 (map (fun x => re (evolve n vals gs (density_of st) x x)) (bitstrings n)) (Z.to_nat k))).
Proof.
  intros w n vals c gs st k SO Hn Hk RN HT FC. destruct (output_spec w n vals c gs st SO RN HT) as (out & E & _ & _ & So & KD & _).
  destruct out as [a|b|a]; [|destruct So|].
  - assert (Q : born_probabilities n a = map (fun x => re (evolve n vals gs (density_of st) x x)) (bitstrings n)).
    { unfold born_probabilities. apply map_ext_in; intros x Hx.
      rewrite <- (KD x x Hx Hx). cbn [density_of]. unfold pure_density. destruct (amp a x); unfold Cnorm2; simpl; ring. }
    rewrite <- Q in *. apply c38_dense_at; assumption.
  - assert (Q : diagonal n a = map (fun x => re (evolve n vals gs (density_of st) x x)) (bitstrings n)) by (rewrite (diagonal_ext n a _ KD); reflexivity).
    rewrite <- Q in *. apply c38_density_at; assumption.
Qed.
Lemma sample_spec : forall w n vals c gs st k, set_order (set_iter w) -> choice_contract w -> 1 <= n -> (1 <= k)%Z -> runnable n vals c gs -> state_of n st ->
    fst (sample w st c vals k) =
      Ok (histogram n (choice w 0 (map (fun x => re (evolve n vals gs (density_of st) x x)) (bitstrings n)) (Z.to_nat k))).
Proof.
  intros w n vals c gs st k SO CC Hn Hk RN HT. apply sample_spec_at; try assumption.
  set (ps := map _ (bitstrings n)). assert (L : length ps = 2 ^ n) by (unfold ps; rewrite map_length; apply bitstrings_count).
  rewrite <- L. apply CC. intro Z; rewrite Z in L; simpl in L; pose proof (Nat.pow_nonzero 2 n); lia.
Qed.

(** ** equal density matrices *)
Lemma evolve_ext : forall n vals gs r r', keq n r r' -> keq n (evolve n vals gs r) (evolve n vals gs r').
Proof. intros n vals gs. apply (linear_evolve n vals gs). Qed.
Lemma mixes_app : forall st gs gs', mixes st gs -> mixes st (gs ++ gs').
Proof. intros st gs gs' [H|(g & I & N)]; [left; exact H|right; exists g; split; [apply in_or_app; left; exact I|exact N]]. Qed.
Lemma readable_less : forall w n vals st gs st' gs' l K, (mixes st' gs' -> mixes st gs) -> readable w n vals st gs l K -> readable w n vals st' gs' l K.
Proof. intros w n vals st gs st' gs' l K H [A B]. split; auto. Qed.

(** the same physical state *)
Lemma c83_indistinguishable : forall w n vals c gs st st', set_order (set_iter w) -> flat_values vals -> runnable n vals c gs ->
    state_of n st -> state_of n st' -> keq n (density_of st) (density_of st') ->
    (forall obs Ks mode key, obs <> [] -> Forall2 (readable w n vals st gs) obs Ks -> Forall2 (readable w n vals st' gs) obs Ks -> exact_mode mode ->
       exists es, expectation w st c obs vals mode 0 key = Ok es /\ expectation w st' c obs vals mode 0 key = Ok es) /\
    (forall k, choice_contract w -> 1 <= n -> (1 <= k)%Z ->
       exists counts, fst (sample w st c vals k) = Ok counts /\ fst (sample w st' c vals k) = Ok counts) /\
    exists out out', run w c st vals = Ok (Some out) /\ run w c st' vals = Ok (Some out') /\ keq n (density_of out) (density_of out').
Proof.
  intros w n vals c gs st st' SO FV RN HS HS' KE. split; [|split].
  - intros obs Ks mode key NO F F' EM. eexists; split; [apply (exact_spec w n vals c gs st obs Ks); assumption|].
    rewrite (exact_spec w n vals c gs st' obs Ks mode key) by assumption. f_equal. apply map_ext; intro K. apply mean_density_ext; [apply keq_refl|].
    apply evolve_ext, keq_sym, KE.
  - intros k CC Hn Hk. eexists; split; [apply (sample_spec w n vals c gs st k); assumption|]. rewrite (sample_spec w n vals c gs st' k) by assumption.
    do 3 f_equal. apply map_ext_in; intros x Hx. f_equal. apply evolve_ext; [apply keq_sym, KE|exact Hx|exact Hx].
  - destruct (output_spec w n vals c gs st SO RN HS) as (out & E & _ & _ & _ & K1 & _).
    destruct (output_spec w n vals c gs st' SO RN HS') as (out' & E' & _ & _ & _ & K1' & _). exists out, out'; split; [exact E|split; [exact E'|]].
    rewrite K1, K1'. apply evolve_ext, KE.
Qed.

(** a global phase *)
Lemma phase_density : forall n psi psi' t, (forall x, In x (bitstrings n) -> amp psi' x = Cmul (Cexpi t) (amp psi x)) ->
    keq n (pure_density psi) (pure_density psi').
Proof.
  intros n psi psi' t H x y Hx Hy. unfold pure_density. rewrite (H x Hx), (H y Hy).
  assert (E : Cmul (Cexpi t) (Cconj (Cexpi t)) = C1).
  { unfold Cexpi, Cconj, Cmul, C1. simpl. apply f_equal2; [|ring]. generalize (sin2_cos2 t). unfold Rsqr. lra. }
  rewrite Cconj_mul. replace (Cmul (Cmul (Cexpi t) (amp psi x)) (Cmul (Cconj (Cexpi t)) (Cconj (amp psi y))))
    with (Cmul (Cmul (Cexpi t) (Cconj (Cexpi t))) (Cmul (amp psi x) (Cconj (amp psi y)))) by ring.
  rewrite E. ring.
Qed.
Lemma circuit_superposition : forall w n vals c gs psi phi chi a b, set_order (set_iter w) -> runnable n vals c gs -> Forall noiseless gs ->
    is_state n psi -> is_state n phi -> is_state n chi ->
    (forall x, In x (bitstrings n) -> amp chi x = Cadd (Cmul a (amp psi x)) (Cmul b (amp phi x))) ->
    exists psi' phi' chi', run w c (SDense psi) vals = Ok (Some (SDense psi')) /\ run w c (SDense phi) vals = Ok (Some (SDense phi')) /\
      run w c (SDense chi) vals = Ok (Some (SDense chi')) /\
      forall x, In x (bitstrings n) -> amp chi' x = Cadd (Cmul a (amp psi' x)) (Cmul b (amp phi' x)).
Proof.
  intros w n vals c gs psi phi chi a b SO (HS & NE & FU & FD & FN) NN S1 S2 S3 H. destruct (usable_circuit _ _ _ FU) as (U & HC).
  destruct (call_pure w n vals c gs U psi HS FD NN HC S1) as (p1 & E1 & _ & V1).
  destruct (call_pure w n vals c gs U phi HS FD NN HC S2) as (p2 & E2 & _ & V2).
  destruct (call_pure w n vals c gs U chi HS FD NN HC S3) as (p3 & E3 & _ & V3).
  exists p1, p2, p3. do 3 (split; [assumption|]). intros x Hx. rewrite (V1 x Hx), (V2 x Hx), (V3 x Hx), <- apply_kernel_linear.
  apply apply_kernel_ext; [apply keq_refl|exact H|exact Hx].
Qed.
(** mixtures *)
Definition kcomb (a : C) (r1 : op) (b : C) (r2 : op) : op := kadd (kscale a r1) (kscale b r2).
Lemma evolve_comb : forall n vals gs a b r1 r2, keq n (evolve n vals gs (kcomb a r1 b r2)) (kcomb a (evolve n vals gs r1) b (evolve n vals gs r2)).
Proof.
  intros n vals gs a b r1 r2. destruct (linear_evolve n vals gs) as (L1 & L2 & L3 & _). unfold kcomb.
  eapply keq_trans; [apply L2|]. apply kadd_ext; apply L3.
Qed.
Lemma c82_mixture : forall w n vals c gs r1 r2 r3 a b, set_order (set_iter w) -> runnable n vals c gs ->
    is_density n r1 -> is_density n r2 -> is_density n r3 ->
    keq n (rho_entry r3) (kadd (kscale a (rho_entry r1)) (kscale b (rho_entry r2))) ->
    exists o1 o2 o3, run w c (SDM r1) vals = Ok (Some (SDM o1)) /\ run w c (SDM r2) vals = Ok (Some (SDM o2)) /\
      run w c (SDM r3) vals = Ok (Some (SDM o3)) /\ keq n (rho_entry o3) (kadd (kscale a (rho_entry o1)) (kscale b (rho_entry o2))).
Proof.
  intros w n vals c gs r1 r2 r3 a b SO RN D1 D2 D3 H.
  destruct (output_spec w n vals c gs (SDM r1) SO RN D1) as (o1 & E1 & _ & _ & _ & K1 & M1 & _). destruct M1 as (a1 & ->); [left; eauto|].
  destruct (output_spec w n vals c gs (SDM r2) SO RN D2) as (o2 & E2 & _ & _ & _ & K2 & M2 & _). destruct M2 as (a2 & ->); [left; eauto|].
  destruct (output_spec w n vals c gs (SDM r3) SO RN D3) as (o3 & E3 & _ & _ & _ & K3 & M3 & _). destruct M3 as (a3 & ->); [left; eauto|].
  exists a1, a2, a3. do 3 (split; [assumption|]). cbn [density_of] in *.
  eapply keq_trans; [exact K3|]. eapply keq_trans; [apply evolve_ext, H|]. eapply keq_trans; [apply evolve_comb|].
  unfold kcomb. intros x y Hx Hy. unfold kadd, kscale. rewrite (K1 x y Hx Hy), (K2 x y Hx Hy). reflexivity.
Qed.
Lemma mean_comb : forall n K p q r1 r2, mean_density n K (kcomb (RtoC p) r1 (RtoC q) r2) = (p * mean_density n K r1 + q * mean_density n K r2)%R.
Proof.
  intros n K p q r1 r2. unfold mean_density.
  assert (E : ktrace n (kmul n K (kcomb (RtoC p) r1 (RtoC q) r2)) = Cadd (Cmul (RtoC p) (ktrace n (kmul n K r1))) (Cmul (RtoC q) (ktrace n (kmul n K r2)))).
  { unfold ktrace. rewrite <- !csum_scale_l, <- csum_add. apply csum_ext; intros x _. unfold kmul. rewrite <- !csum_scale_l, <- csum_add. apply csum_ext; intros y _.
    unfold kcomb, kadd, kscale. ring. }
  rewrite E. simpl. ring.
Qed.
Lemma c82_mixture_mean : forall w n vals c gs r1 r2 r3 p q obs Ks mode key, set_order (set_iter w) -> flat_values vals -> runnable n vals c gs ->
    is_density n r1 -> is_density n r2 -> is_density n r3 ->
    keq n (rho_entry r3) (kadd (kscale (RtoC p) (rho_entry r1)) (kscale (RtoC q) (rho_entry r2))) ->
    obs <> [] -> Forall2 (density_ready w n vals) obs Ks -> exact_mode mode ->
    exists e1 e2, expectation w (SDM r1) c obs vals mode 0 key = Ok e1 /\ expectation w (SDM r2) c obs vals mode 0 key = Ok e2 /\
      length e1 = length obs /\ length e2 = length obs /\
      expectation w (SDM r3) c obs vals mode 0 key = Ok (map (fun e => (p * fst e + q * snd e)%R) (combine e1 e2)).
Proof.
  intros w n vals c gs r1 r2 r3 p q obs Ks mode key SO FV RN D1 D2 D3 H NO F EM.
  assert (FR : forall r, Forall2 (readable w n vals (SDM r) gs) obs Ks).
  { intro r. eapply F2_impl; [|exact F]. intros l K HK. split; [exists false; apply HK|auto]. }
  exists (map (fun K => mean_density n K (evolve n vals gs (rho_entry r1))) Ks), (map (fun K => mean_density n K (evolve n vals gs (rho_entry r2))) Ks).
  rewrite !map_length. pose proof (F2_len F) as L.
  split; [apply (exact_spec w n vals c gs (SDM r1)); auto|]. split; [apply (exact_spec w n vals c gs (SDM r2)); auto|]. split; [lia|split; [lia|]].
  rewrite (exact_spec w n vals c gs (SDM r3) obs Ks mode key) by auto. rewrite combine_map2, map_map. f_equal. apply map_ext; intro K. cbn [fst snd density_of].
  rewrite <- mean_comb. apply mean_density_ext; [apply keq_refl|]. eapply keq_trans; [apply evolve_ext, H|apply evolve_comb].
Qed.

(** ** composition *)
Lemma evolve_app : forall n vals gs gs' r, evolve n vals (gs ++ gs') r = evolve n vals gs' (evolve n vals gs r).
Proof. intros n vals gs; induction gs as [|g gs IH]; intros gs' r; [reflexivity|]. cbn [app evolve]. apply IH. Qed.
Lemma state_eq : forall n s s', state_of n s -> state_of n s' -> keq n (density_of s) (density_of s') -> (exists a, s = SDM a) -> (exists a, s' = SDM a) -> s = s'.
Proof. intros n s s' H H' K (a & ->) (b & ->). f_equal. apply (density_ext n); assumption. Qed.
Lemma mixes_dec : forall st gs, state_of 0 st \/ True -> mixes st gs \/ ~ mixes st gs.
Proof.
  intros st gs _. destruct (noisy_or_not gs) as [NN|EX]; [|left; right; exact EX].
  destruct st as [a|b|a]; [| |left; left; eauto]; right; intros [(x & Q)|(g & I & N)]; try discriminate; rewrite Forall_forall in NN; apply N, NN, I.
Qed.
Lemma runnable_app : forall n vals c c1 c2 gs1 gs2, runnable n vals c1 gs1 -> runnable n vals c2 gs2 -> sequence_of c (gs1 ++ gs2) -> runnable n vals c (gs1 ++ gs2).
Proof.
  intros n vals c c1 c2 gs1 gs2 (_ & NE & U1 & D1 & N1) (_ & _ & U2 & D2 & N2) HS. split; [exact HS|]. split; [destruct gs1; [contradiction|discriminate]|].
  repeat split; apply Forall_app; auto.
Qed.
Lemma c84_compose : forall w n vals c c1 c2 gs1 gs2 st, set_order (set_iter w) -> runnable n vals c1 gs1 -> runnable n vals c2 gs2 ->
    sequence_of c (gs1 ++ gs2) -> state_of n st ->
    exists mid out, run w c1 st vals = Ok (Some mid) /\ run w c2 mid vals = Ok (Some out) /\ run w c st vals = Ok (Some out) /\
      apply_gates w st (GMany (gs1 ++ gs2)) vals UNITARY false true = Ok out /\
      (flat_values vals -> forall obs Ks mode key, obs <> [] -> Forall2 (readable w n vals st (gs1 ++ gs2)) obs Ks -> exact_mode mode ->
         exists es, expectation w mid c2 obs vals mode 0 key = Ok es /\ expectation w st c obs vals mode 0 key = Ok es).
Proof.
  intros w n vals c c1 c2 gs1 gs2 st SO R1 R2 HS HT. pose proof (runnable_app n vals c c1 c2 gs1 gs2 R1 R2 HS) as R.
  destruct (output_spec w n vals c1 gs1 st SO R1 HT) as (mid & E1 & _ & A1 & S1 & K1 & M1 & P1).
  destruct (output_spec w n vals c2 gs2 mid SO R2 S1) as (o2 & E2 & _ & A2 & S2 & K2 & M2 & P2).
  destruct (output_spec w n vals c (gs1 ++ gs2) st SO R HT) as (o & E & _ & A & So & K & M & P).
  assert (KK : keq n (density_of o2) (density_of o)).
  { rewrite K2, K. rewrite evolve_app. apply evolve_ext, K1. }
  assert (EQ : o2 = o).
  { destruct (mixes_dec st (gs1 ++ gs2) (or_intror Logic.I)) as [MX|NM].
    - apply (state_eq n); auto. apply M2. destruct MX as [(a & ->)|(g & I & N)].
      + destruct M1 as (b & ->); [left; eauto|]. left; eauto.
      + apply in_app_or in I as [I|I]; [|right; eauto]. destruct M1 as (b & ->); [right; eauto|left; eauto].
    - destruct st as [psi|b|rho]; [|destruct HT|elim NM; left; eauto].
      assert (NN : Forall noiseless (gs1 ++ gs2)) by (destruct (noisy_or_not (gs1 ++ gs2)) as [X|X]; [exact X|elim NM; right; exact X]).
      apply Forall_app in NN as [N1 N2]. destruct R1 as (H1 & NE1 & U1 & D1 & _), R2 as (H2 & NE2 & U2 & D2 & _).
      destruct (usable_circuit _ _ _ U1) as (V1 & C1'), (usable_circuit _ _ _ U2) as (V2 & C2').
      destruct (run_pure w n vals gs1 U1 D1 N1 V1 C1' psi HT) as (m1 & F1 & Sm & _).
      pose proof (sequence_call w vals c1 gs1 H1 (SDense psi)) as Q1. rewrite F1 in Q1; cbn [bind] in Q1. unfold run in E1. rewrite Q1 in E1; injection E1 as <-.
      destruct (run_pure w n vals gs2 U2 D2 N2 V2 C2' m1 Sm) as (m2 & F2 & Sm2 & _).
      pose proof (sequence_call w vals c2 gs2 H2 (SDense m1)) as Q2. rewrite F2 in Q2; cbn [bind] in Q2. unfold run in E2. rewrite Q2 in E2; injection E2 as <-.
      pose proof (sequence_call w vals c _ HS (SDense psi)) as Q. rewrite foldM_app, F1 in Q; cbn [bind] in Q. rewrite F2 in Q; cbn [bind] in Q.
      unfold run in E. rewrite Q in E. injection E as <-. reflexivity. }
  subst o2. exists mid, o. do 4 (split; [assumption|]). intros FV obs Ks mode key NO F EM. eexists; split.
  - apply (exact_spec w n vals c2 gs2 mid obs Ks); try assumption. eapply F2_impl; [|exact F]. intros l L HL. eapply readable_less; [|exact HL].
    intros [(a & ->)|(g & I & N)]; [|right; exists g; split; [apply in_or_app; right; exact I|exact N]].
    destruct (mixes_dec st gs1 (or_intror Logic.I)) as [MX|NM]; [apply mixes_app, MX|]. destruct (P1 NM) as (b & Q); discriminate.
  - rewrite (exact_spec w n vals c (gs1 ++ gs2) st obs Ks mode key) by assumption. f_equal. apply map_ext; intro L. apply mean_density_ext; [apply keq_refl|].
    rewrite evolve_app. apply evolve_ext, keq_sym, K1.
Qed.

(** the output carries the phase of the input *)
Lemma c83_phase : forall w n vals c gs psi psi' t, set_order (set_iter w) -> runnable n vals c gs -> Forall noiseless gs -> is_state n psi -> is_state n psi' ->
    (forall x, In x (bitstrings n) -> amp psi' x = Cmul (Cexpi t) (amp psi x)) ->
    keq n (density_of (SDense psi)) (density_of (SDense psi')) /\
    exists out out', run w c (SDense psi) vals = Ok (Some (SDense out)) /\ run w c (SDense psi') vals = Ok (Some (SDense out')) /\
      forall x, In x (bitstrings n) -> amp out' x = Cmul (Cexpi t) (amp out x).
Proof.
  intros w n vals c gs psi psi' t SO RN NN H H' E. split; [exact (phase_density n psi psi' t E)|].
  destruct (circuit_superposition w n vals c gs psi psi psi' (Cexpi t) C0 SO RN NN H H H') as (a & b & d & Ea & _ & Ed & V).
  - intros x Hx. rewrite (E x Hx). ring.
  - exists a, d. split; [exact Ea|split; [exact Ed|]]. intros x Hx. rewrite (V x Hx). ring.
Qed.
(** a state vector and its density matrix *)
Lemma pure_density_same : forall n psi, is_state n psi ->
    exists rho, density_mat psi = Ok rho /\ is_density n rho /\ keq n (density_of (SDense psi)) (density_of (SDM rho)).
Proof.
  intros n psi H. destruct (density_mat_spec n psi H) as (rho & E & D & K). exists rho. split; [exact E|split; [exact D|]]. apply keq_sym. exact K.
Qed.
