(** * Proofs about expectation values (C40-C49) *)
From Coq Require Import String List Arith Bool Reals Lia Lra ZArith Permutation Sorted.
From Verif Require Import Cplx Py PyFacts Ndarray NdFacts OperatorUtils ApplyOperator Sparse Matrices Noise Gates Apply Composite
  Conversion Shots Gpsr Api Spec SpecFacts ApplyFacts DmFacts ExpandFacts GateSpec PropSpec NoiseSpec GateFacts CircuitFacts AlgebraFacts GroupFacts ApplyThm
  TensorFacts TensorThm NoiseThm NoiseThm2 SampleSpec SampleThm SeqThm SubThm ExpectSpec.
Import ListNotations.
Local Open Scope nat_scope.

Lemma combine_map2 : forall {A B D} (f : A -> B) (g : A -> D) l, combine (map f l) (map g l) = map (fun x => (f x, g x)) l.
Proof. induction l as [|x l IH]; simpl; [reflexivity|rewrite IH; reflexivity]. Qed.
Lemma inner_spec : forall n a b, is_state n a -> is_state n b -> inner a b = Ok (inner_product n (amp a) (amp b)).
Proof.
  intros n a b Ha Hb. unfold inner, vdot. rewrite (data_state n a Ha), (data_state n b Hb), !map_length, Nat.eqb_refl. f_equal.
  rewrite map_map, combine_map2, csum_map. reflexivity.
Qed.

(** ** state vectors *)
Lemma forward_pure : forall w n vals sq l K psi, observable_on w n vals sq l K -> is_state n psi ->
    exists out, forward w vals l (Some (SDense psi)) = Ok (Some (SDense out)) /\ is_state n out /\
                veq n (amp out) (apply_kernel n K (amp psi)).
Proof.
  intros w n vals sq l K psi (Ks & NE & F & ->) HS. exact (denotes_call _ _ _ _ _ _ (den_add w n vals sq l Ks NE F) psi HS).
Qed.
Lemma ad_pure : forall w n vals sq l K psi, observable_on w n vals sq l K -> is_state n psi ->
    ad_single w (SDense psi) l vals = Ok (mean_pure n K (amp psi)).
Proof.
  intros w n vals sq l K psi HO HS. destruct (forward_pure w n vals sq l K psi HO HS) as (out & E & So & Ao).
  unfold ad_single. rewrite E; cbn [bind real_inner]. rewrite (inner_spec n) by assumption. cbn [bind]. unfold mean_pure.
  rewrite (inner_ext n (amp psi) (amp psi) (amp out) (apply_kernel n K (amp psi)) (veq_refl _ _) Ao). reflexivity.
Qed.

(** ** density matrices *)
Lemma trace_real_spec : forall n m, is_matrix n m -> trace_real m = Ok (re (ktrace n (entry m))).
Proof.
  intros n m [S W]. unfold trace_real. rewrite S, Nat.min_id. do 2 f_equal.
  rewrite <- (binval_bitstrings n), csum_map. reflexivity.
Qed.
Lemma set_bit_app_l : forall x y q b, q < length x -> set_bit (x ++ y) q b = set_bit x q b ++ y.
Proof. induction x as [|v x IH]; intros y [|q] b H; simpl in *; try lia; [reflexivity|]. rewrite IH by lia; reflexivity. Qed.
Lemma overwrite_app_l : forall qs x y z, (forall q, In q qs -> q < length x) -> overwrite (x ++ y) qs z = overwrite x qs z ++ y.
Proof.
  induction qs as [|q qs IH]; intros x y [|b z] H; try reflexivity. cbn [overwrite].
  rewrite IH by (intros p Hp; apply H; right; exact Hp). apply set_bit_app_l. rewrite overwrite_length. apply H; left; reflexivity.
Qed.
Lemma rows_action : forall n M ts a x y, valid_qubits n ts -> In x (bitstrings n) -> In y (bitstrings n) ->
    gate_action M ts (amp a) (x ++ y) = kmul n (ctrl_kernel M [] ts) (rho_entry a) x y.
Proof.
  intros n M ts a x y V Hx Hy. transitivity (apply_kernel n (ctrl_kernel M [] ts) (fun v => rho_entry a v y) x); [|reflexivity].
  rewrite (ctrl_kernel_action n) by exact Hx. unfold ctrl_action; cbn [bits_at map all_ones forallb].
  unfold gate_action. pose proof (bitstrings_length _ _ Hx) as Lx. destruct V as [ND FV]. rewrite Forall_forall in FV.
  apply csum_ext; intros z Hz. f_equal.
  - f_equal. unfold bits_at. apply map_ext_in; intros q Hq. apply app_nth1. rewrite Lx; apply FV, Hq.
  - unfold amp, rho_entry. f_equal. apply overwrite_app_l. intros q Hq; rewrite Lx; apply FV, Hq.
Qed.

Lemma dm_spec : forall n a m s, is_density n a -> is_matrix (length s) m -> sub_support n s ->
    dm_expectation a m s = Ok (mean_density n (ctrl_kernel (entry m) [] s) (rho_entry a)).
Proof.
  intros n a m s Da Mm SS. pose proof (sub_valid _ _ SS) as V. unfold dm_expectation.
  assert (NQ : num_qubits_dm a = n).
  { unfold num_qubits_dm, ndim; destruct Da as [S _]; rewrite S, repeat_length, Nat.mul_comm; apply Nat.div_mul; lia. }
  rewrite NQ. destruct (apply_operator_spec (2 * n) a m s (CTup [QNone]) [] Da Mm eq_refl) as (p & Ep & Sp & Ap).
  { destruct V as [ND FV]; split; [exact ND|]. eapply Forall_impl; [|exact FV]. intros; cbv beta in *; lia. }
  rewrite Ep; cbn [bind]. destruct (reshape_density n p Sp) as (r & Er & Mr & Kr). rewrite Er; cbn [bind].
  rewrite (trace_real_spec n r Mr). unfold mean_density, ktrace. do 2 f_equal. apply csum_ext; intros x Hx.
  rewrite (Kr x x Hx Hx). unfold rho_entry at 1. change (get p (x ++ x)) with (amp p (x ++ x)).
  rewrite Ap by (apply bits_2n; eauto). unfold ctrl_action; cbn [bits_at map all_ones forallb]. apply rows_action; assumption.
Qed.
Lemma obs_tensor : forall w n vals l K, set_order (set_iter w) -> observable_on w n vals false l K ->
    exists s m, support w (OObs l) = Ok s /\ sub_support n s /\ tensor w vals (OObs l) None = Ok m /\ is_matrix (length s) m /\
      keq n (ctrl_kernel (entry m) [] (sorted s)) K.
Proof.
  intros w n vals l K SO (Ks & NE & F & ->).
  assert (FS : Forall2 (sub_is w n vals) l Ks).
  { clear NE. induction F; constructor; [apply denotes_sub; assumption|assumption]. }
  destruct (set_of_ok w n l SO (subs_supports _ _ _ _ _ FS)) as (s & HS). exists s.
  assert (SS : sub_support n s) by apply HS.
  destruct (reduce_sub_add w n vals s l Ks NE SS) as (m & Em & Mm & Km).
  { eapply subs_over; [exact FS|exact HS|exact SS|]. intros q Hq; exact Hq. }
  exists m; split; [exact (support_set _ n _ _ HS)|split; [exact SS|split; [|split; [exact Mm|exact Km]]]].
  cbn [tensor]. rewrite (resolve_none w n l s HS); cbn [bind]. exact Em.
Qed.
Lemma mean_density_ext : forall n K K' r r', keq n K K' -> keq n r r' -> mean_density n K r = mean_density n K' r'.
Proof. intros n K K' r r' E E'. unfold mean_density. f_equal. apply ktrace_ext. apply kmul_ext; assumption. Qed.
Lemma sorted_strong : forall s, StronglySorted lt s -> sorted s = s.
Proof.
  intros s H. apply sorted_id. induction H as [|q l HS IH F]; constructor; [exact IH|].
  eapply Forall_impl; [|exact F]. intros; lia.
Qed.
(** whatever the order, the code computes the expectation of the operator with the qubits of the support in that order *)
Lemma ad_density_order : forall w n vals l K a, set_order (set_iter w) -> observable_on w n vals false l K -> is_density n a ->
    exists s m, support w (OObs l) = Ok s /\ is_matrix (length s) m /\ keq n (ctrl_kernel (entry m) [] (sorted s)) K /\
      ad_single w (SDM a) l vals = Ok (mean_density n (ctrl_kernel (entry m) [] s) (rho_entry a)).
Proof.
  intros w n vals l K a SO HO Da. destruct (obs_tensor w n vals l K SO HO) as (s & m & Es & SS & Em & Mm & Km).
  exists s, m; split; [exact Es|split; [exact Mm|split; [exact Km|]]]. unfold ad_single. rewrite Em, Es; cbn [bind]. apply dm_spec; assumption.
Qed.
Lemma ad_density : forall w n vals l K a, set_order (set_iter w) -> density_ready w n vals l K -> is_density n a ->
    ad_single w (SDM a) l vals = Ok (mean_density n K (rho_entry a)).
Proof.
  intros w n vals l K a SO [HO HI] Da. destruct (ad_density_order w n vals l K a SO HO Da) as (s & m & Es & Mm & Km & E).
  rewrite E. f_equal. rewrite (sorted_strong s (HI s Es)) in Km. apply mean_density_ext; [exact Km|apply keq_refl].
Qed.

(** ** values *)
Lemma has_key_lookup : forall (d : values) k, has_key d k = false <-> lookup d k = Err KeyError.
Proof.
  intros d k. unfold has_key. induction d as [|[k' v] d IH]; cbn [existsb lookup fst]; [split; reflexivity|].
  destruct (String.eqb k k'); cbn [orb]; [split; discriminate|exact IH].
Qed.
Lemma has_key_ok : forall (d : values) k v, lookup d k = Ok v -> has_key d k = true.
Proof. intros d k v H. destruct (has_key d k) eqn:E; [reflexivity|]. apply has_key_lookup in E; congruence. Qed.
Lemma values_routed : forall d v o, routed d v o -> values_processing d = Ok (v, o).
Proof.
  intros d v o [[A B]|(F & -> & ->)]; unfold values_processing.
  - rewrite (has_key_ok _ _ _ A), (has_key_ok _ _ _ B). cbn [andb]. rewrite A, B. reflexivity.
  - destruct F as [F|F]; apply has_key_lookup in F; rewrite F, ?andb_false_r; reflexivity.
Qed.

(** ** the analytic expectation *)
Lemma mapM_map : forall {A B} (f : A -> res B) (g : A -> B) l, (forall a, In a l -> f a = Ok (g a)) -> mapM f l = Ok (map g l).
Proof.
  induction l as [|a l IH]; intro H; cbn [mapM map]; [reflexivity|]. rewrite (H a (or_introl eq_refl)); cbn [bind].
  rewrite IH; [reflexivity|]. intros b Hb; apply H; right; exact Hb.
Qed.
Lemma mapM_F2 : forall {A B D} (f : A -> res B) (R : A -> D -> Prop) (g : D -> B) l l', (forall a d, R a d -> f a = Ok (g d)) ->
    Forall2 R l l' -> mapM f l = Ok (map g l').
Proof. intros A B D f R g l l' H F; induction F as [|a d l l' Ha F IH]; cbn [mapM map]; [reflexivity|]. rewrite (H _ _ Ha); cbn [bind]. rewrite IH; reflexivity. Qed.

Lemma ad_mean : forall w n vals s l K, set_order (set_iter w) -> state_of n s -> obs_for w n vals s l K ->
    ad_single w s l vals = Ok (mean n K s).
Proof.
  intros w n vals [a|b|a] l K SO HS HO; [|contradiction|].
  - destruct HO as (sq & HO). apply (ad_pure w n vals sq l K a HO HS).
  - apply ad_density; assumption.
Qed.
Lemma stack_map : forall {A} (f : A -> R) l, l <> [] -> stack (map f l) = Ok (map f l).
Proof. intros A f [|x l] H; [congruence|reflexivity]. Qed.
Lemma F2_nonempty : forall {A B} (R : A -> B -> Prop) l l', Forall2 R l l' -> l <> [] -> l' <> [].
Proof. intros A B R l l1 F H; destruct F; congruence. Qed.

Lemma expectation_mean : forall w n vals v o circuit st out obs Ks key,
    set_order (set_iter w) -> routed vals v o -> run_flat w st circuit v = Ok out -> state_of n out ->
    obs <> [] -> Forall2 (obs_for w n o out) obs Ks ->
    expectation w st circuit obs vals AD 0 key = Ok (map (fun K => mean n K out) Ks).
Proof.
  intros w n vals v o circuit st out obs Ks key SO RV ER HS NE F. cbn [expectation Z.ltb Z.eqb Z.compare]. unfold ad_expectation.
  rewrite (values_routed _ _ _ RV); cbn [bind fst snd]. rewrite ER.
  rewrite (mapM_F2 _ (obs_for w n o out) (fun K => mean n K out) obs Ks); [|intros l K HO; apply ad_mean; assumption|exact F].
  cbn [bind]. apply stack_map. eapply F2_nonempty; eassumption.
Qed.

Lemma mean_pure_ext : forall n K f g, veq n f g -> mean_pure n K f = mean_pure n K g.
Proof.
  intros n K f g E. unfold mean_pure. f_equal. apply inner_ext; [exact E|]. apply apply_kernel_ext; [apply keq_refl|exact E].
Qed.
Lemma mean_pure_density : forall n K f, mean_density n K (fun x y => Cmul (f x) (Cconj (f y))) = mean_pure n K f.
Proof.
  intros n K f. unfold mean_density, mean_pure, ktrace, inner_product. f_equal. apply csum_ext; intros x Hx.
  unfold kmul, apply_kernel. rewrite <- csum_scale_l. apply csum_ext; intros z Hz. ring.
Qed.

Lemma F2_impl : forall {A B} (P Q : A -> B -> Prop) l l', (forall a b, P a b -> Q a b) -> Forall2 P l l' -> Forall2 Q l l'.
Proof. intros A B P Q l l1 H F; induction F; constructor; auto. Qed.
Lemma re_Cadd : forall a b, re (Cadd a b) = (re a + re b)%R.
Proof. reflexivity. Qed.

(** C42 *)
Lemma c42_formula : forall w n vals circuit gs U psi sq obs Ks key,
    set_order (set_iter w) -> flat_values vals ->
    sequence_of circuit gs -> gs <> [] -> Forall dense_gate gs -> Forall noiseless gs -> circuit_on n vals gs U -> is_state n psi ->
    obs <> [] -> Forall2 (observable_on w n vals sq) obs Ks ->
    expectation w (SDense psi) circuit obs vals AD 0 key = Ok (map (fun K => mean_pure n K (apply_kernel n U (amp psi))) Ks).
Proof.
  intros w n vals circuit gs U psi sq obs Ks key SO FV HQ NG FD FN HC HS NE F.
  destruct (flat_pure w n vals circuit gs U psi HQ NG FD FN HC HS) as (out & Eo & So & Ao).
  rewrite (expectation_mean w n vals vals vals circuit (SDense psi) (SDense out) obs Ks key SO); auto.
  - f_equal. apply map_ext; intro K. apply mean_pure_ext; exact Ao.
  - right; auto.
  - eapply F2_impl; [|exact F]. intros l K H; exists sq; exact H.
Qed.
(** linearity, for state vectors and density matrices *)
Lemma kadd_mean : forall n K L s, mean n (kadd K L) s = (mean n K s + mean n L s)%R.
Proof.
  intros n K L [a|b|a]; [|simpl; ring|].
  - unfold mean, mean_pure. rewrite <- re_Cadd. f_equal. unfold inner_product. rewrite <- csum_add. apply csum_ext; intros x Hx.
    replace (apply_kernel n (kadd K L) (amp a) x) with (Cadd (apply_kernel n K (amp a) x) (apply_kernel n L (amp a) x)); [ring|].
    unfold apply_kernel. rewrite <- csum_add. apply csum_ext; intros z Hz. unfold kadd; ring.
  - unfold mean, mean_density. rewrite <- re_Cadd. f_equal. unfold ktrace. rewrite <- csum_add. apply csum_ext; intros x Hx.
    unfold kmul. rewrite <- csum_add. apply csum_ext; intros z Hz. unfold kadd; ring.
Qed.

Lemma kscale_mean : forall n c K s, mean n (kscale (RtoC c) K) s = (c * mean n K s)%R.
Proof.
  assert (RE : forall c z, re (Cmul (RtoC c) z) = (c * re z)%R) by (intros c [a b]; simpl; ring).
  intros n c K [a|b|a]; [|simpl; ring|].
  - unfold mean, mean_pure. rewrite <- RE. f_equal. unfold inner_product. rewrite <- csum_scale_l. apply csum_ext; intros x Hx.
    replace (apply_kernel n (kscale (RtoC c) K) (amp a) x) with (Cmul (RtoC c) (apply_kernel n K (amp a) x)); [ring|].
    unfold apply_kernel. rewrite <- csum_scale_l. apply csum_ext; intros z Hz. unfold kscale; ring.
  - unfold mean, mean_density. rewrite <- RE. f_equal. unfold ktrace. rewrite <- csum_scale_l. apply csum_ext; intros x Hx.
    unfold kmul. rewrite <- csum_scale_l. apply csum_ext; intros z Hz. unfold kscale; ring.
Qed.
Lemma mean_ext : forall n K L s, keq n K L -> mean n K s = mean n L s.
Proof.
  intros n K L [a|b|a] E; [|reflexivity|]; cbn [mean].
  - unfold mean_pure. f_equal. apply inner_ext; [apply veq_refl|]. apply apply_kernel_ext; [exact E|apply veq_refl].
  - apply mean_density_ext; [exact E|apply keq_refl].
Qed.
Lemma ksum_app : forall n l l', keq n (ksum (l ++ l')) (kadd (ksum l) (ksum l')).
Proof.
  intros n l l'; induction l as [|K l IH]; intros x y Hx Hy; cbn [app ksum]; unfold kadd.
  - ring.
  - rewrite (IH x y Hx Hy). unfold kadd. ring.
Qed.

Lemma c42_linear : forall w n vals circuit gs U psi sq l1 K1 l2 K2 a Ka p c key,
    set_order (set_iter w) -> flat_values vals ->
    sequence_of circuit gs -> gs <> [] -> Forall dense_gate gs -> Forall noiseless gs -> circuit_on n vals gs U -> is_state n psi ->
    observable_on w n vals sq l1 K1 -> observable_on w n vals sq l2 K2 ->
    denotes w n vals sq a Ka -> param_value p vals = Ok c ->
    let e obs := expectation w (SDense psi) circuit obs vals AD 0 key in
    exists e1 e2 ea, e [l1] = Ok [e1] /\ e [l2] = Ok [e2] /\ e [[a]] = Ok [ea] /\
      e [l1; l2] = Ok [e1; e2] /\ e [l1 ++ l2] = Ok [e1 + e2]%R /\ e [[OAdd l1; OAdd l2]] = Ok [e1 + e2]%R /\
      e [[OScale [a] p]] = Ok [c * ea]%R.
Proof.
  intros w n vals circuit gs U psi sq l1 K1 l2 K2 a Ka p c key SO FV HQ NG FD FN HC HS H1 H2 Ha Hp e.
  assert (E : forall obs Ks, obs <> [] -> Forall2 (observable_on w n vals sq) obs Ks ->
            e obs = Ok (map (fun K => mean_pure n K (apply_kernel n U (amp psi))) Ks)).
  { intros obs Ks NE F. unfold e. eapply c42_formula; eassumption. }
  destruct (flat_pure w n vals circuit gs U psi HQ NG FD FN HC HS) as (out & Eo & So & Ao).
  assert (MP : forall K, mean_pure n K (apply_kernel n U (amp psi)) = mean n K (SDense out)) by (intro K; cbn [mean]; symmetry; apply mean_pure_ext; exact Ao).
  assert (E' : forall l K, observable_on w n vals sq l K -> e [l] = Ok [mean n K (SDense out)]).
  { intros l K H. rewrite (E [l] [K]); [cbn [map]; rewrite MP; reflexivity|discriminate|constructor; [exact H|constructor]]. }
  assert (OA : observable_on w n vals sq [a] (ksum [Ka])) by (exists [Ka]; split; [discriminate|split; [constructor; [exact Ha|constructor]|reflexivity]]).
  exists (mean n K1 (SDense out)), (mean n K2 (SDense out)), (mean n (ksum [Ka]) (SDense out)).
  split; [apply E'; exact H1|]. split; [apply E'; exact H2|]. split; [apply E'; exact OA|]. split; [|split; [|split]].
  - rewrite (E [l1; l2] [K1; K2]); [cbn [map]; rewrite !MP; reflexivity|discriminate|constructor; [exact H1|constructor; [exact H2|constructor]]].
  - destruct H1 as (Ks1 & N1 & F1 & ->), H2 as (Ks2 & N2 & F2 & ->). rewrite (E' (l1 ++ l2) (ksum (Ks1 ++ Ks2))).
    + rewrite (mean_ext n _ _ _ (ksum_app n Ks1 Ks2)), kadd_mean. reflexivity.
    + exists (Ks1 ++ Ks2); split; [destruct l1; [congruence|discriminate]|split; [apply Forall2_app; assumption|reflexivity]].
  - destruct H1 as (Ks1 & N1 & F1 & ->), H2 as (Ks2 & N2 & F2 & ->). rewrite (E' [OAdd l1; OAdd l2] (ksum [ksum Ks1; ksum Ks2])).
    + rewrite <- kadd_mean. do 2 f_equal. apply mean_ext. intros x y _ _; cbn [ksum]; unfold kadd; ring.
    + exists [ksum Ks1; ksum Ks2]; split; [discriminate|split; [|reflexivity]]. constructor; [apply den_add; assumption|constructor; [apply den_add; assumption|constructor]].
  - rewrite (E' [OScale [a] p] (ksum [kscale (RtoC c) Ka])).
    + rewrite <- kscale_mean. do 2 f_equal. apply mean_ext. intros x y _ _; cbn [ksum]; unfold kscale; ring.
    + exists [kscale (RtoC c) Ka]; split; [discriminate|split; [|reflexivity]]. constructor; [apply den_scale; assumption|constructor].
Qed.

(** C41: the density matrix *)
Lemma c41_formula : forall w n vals circuit gs st r obs Ks key,
    set_order (set_iter w) -> flat_values vals ->
    sequence_of circuit gs -> gs <> [] -> Forall dense_gate gs -> state_of n st ->
    (exists a, st = SDM a) \/ (exists g, In g gs /\ noise g <> None) ->
    noisy_run n vals gs (density_of st) r ->
    obs <> [] -> Forall2 (density_ready w n vals) obs Ks ->
    expectation w st circuit obs vals AD 0 key = Ok (map (fun K => mean_density n K r) Ks).
Proof.
  intros w n vals circuit gs st r obs Ks key SO FV HQ NG FD HS EX HR NE F.
  assert (H : exists out, run_flat w st circuit vals = Ok (SDM out) /\ is_density n out /\ keq n (rho_entry out) r).
  { destruct st as [psi|b|rho]; [|contradiction|].
    - destruct EX as [(a & Q)|EX]; [discriminate|]. eapply flat_pure_noisy; eassumption.
    - eapply flat_density; eassumption. }
  destruct H as (out & Eo & Do & Ko).
  rewrite (expectation_mean w n vals vals vals circuit st (SDM out) obs Ks key SO); auto; [|right; auto].
  f_equal. apply map_ext; intro K. cbn [mean]. apply mean_density_ext; [apply keq_refl|exact Ko].
Qed.

(** C40 *)
Lemma c40_agree : forall w n vals circuit gs psi rho obs Ks key,
    set_order (set_iter w) -> flat_values vals ->
    sequence_of circuit gs -> gs <> [] -> Forall (usable n vals) gs -> Forall dense_gate gs -> Forall noise_ok gs ->
    is_state n psi -> density_mat psi = Ok rho ->
    obs <> [] -> Forall2 (density_ready w n vals) obs Ks ->
    exists es, expectation w (SDM rho) circuit obs vals AD 0 key = Ok es /\ expectation w (SDense psi) circuit obs vals AD 0 key = Ok es.
Proof.
  intros w n vals circuit gs psi rho obs Ks key SO FV HQ NG FU FD FN HS ER NE F.
  destruct (density_mat_spec n psi HS) as (rho' & Er & Dr & Kr). rewrite ER in Er; injection Er as <-.
  destruct (noisy_run_exists n vals gs FU FN (rho_entry rho)) as (r & HR).
  assert (E1 := c41_formula w n vals circuit gs (SDM rho) r obs Ks key SO FV HQ NG FD Dr (or_introl (ex_intro _ rho eq_refl)) HR NE F).
  exists (map (fun K => mean_density n K r) Ks); split; [exact E1|].
  destruct (noisy_or_not gs) as [NN|EX].
  - destruct (noisy_run_plain n vals gs _ _ HR NN) as (U & HC & EU).
    rewrite (c42_formula w n vals circuit gs U psi false obs Ks key); auto.
    + f_equal. apply map_ext; intro K. rewrite <- mean_pure_density. apply mean_density_ext; [apply keq_refl|].
      apply keq_sym; eapply keq_trans; [exact EU|]. eapply keq_trans; [exact (sandwiched_ext n U U _ _ (keq_refl _ _) Kr)|]. exact (sandwiched_pure n U psi).
    + eapply F2_impl; [|exact F]. intros l K [H _]; exact H.
  - destruct (sandwich_run_ext n vals gs _ _ HR (pure_density psi)) as (s' & HR' & E'); [apply keq_sym; exact Kr|].
    rewrite (c41_formula w n vals circuit gs (SDense psi) s' obs Ks key); auto.
    f_equal. apply map_ext; intro K. apply mean_density_ext; [apply keq_refl|exact E'].
Qed.

(** C43 for sequences of gates *)
Lemma c43_sequences : forall w n vals circuit gs st,
    set_order (set_iter w) -> flat_values vals -> sequence_of circuit gs -> gs <> [] ->
    Forall (usable n vals) gs -> Forall dense_gate gs -> Forall noise_ok gs -> state_of n st ->
    exists out, run w circuit st vals = Ok (Some out) /\ state_of n out /\
      forall obs Ks key, obs <> [] -> Forall2 (obs_for w n vals out) obs Ks ->
        expectation w st circuit obs vals AD 0 key = Ok (map (fun K => mean n K out) Ks).
Proof.
  intros w n vals circuit gs st SO FV HQ NG FU FD FN HS.
  destruct (c44_flatten w n vals circuit gs st SO HQ NG FU FD FN HS) as (out & E1 & _ & E2 & So).
  exists out; split; [exact E1|split; [exact So|]]. intros obs Ks key NE F.
  eapply expectation_mean; eauto. right; auto.
Qed.
(** C49 *)
Lemma c49_routed : forall w n vals v o circuit gs st,
    set_order (set_iter w) -> routed vals v o -> sequence_of circuit gs -> gs <> [] ->
    Forall (usable n v) gs -> Forall dense_gate gs -> Forall noise_ok gs -> state_of n st ->
    exists out, run w circuit st v = Ok (Some out) /\ state_of n out /\
      forall obs Ks key, obs <> [] -> Forall2 (obs_for w n o out) obs Ks ->
        expectation w st circuit obs vals AD 0 key = Ok (map (fun K => mean n K out) Ks).
Proof.
  intros w n vals v o circuit gs st SO FV HQ NG FU FD FN HS.
  destruct (c44_flatten w n v circuit gs st SO HQ NG FU FD FN HS) as (out & E1 & _ & E2 & So).
  exists out; split; [exact E1|split; [exact So|]]. intros obs Ks key NE F.
  eapply expectation_mean; eauto.
Qed.
