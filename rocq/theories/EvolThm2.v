(** * Hamiltonian evolution: the Schroedinger equation (C98) and circuits (C99) *)
From Coq Require Import String List Arith Bool ZArith Reals Lia Lra Permutation Sorted.
From Verif Require Import Cplx Py PyFacts Ndarray NdFacts NdPerm OperatorUtils ApplyOperator
  Spec SpecFacts Deriv ApplyFacts DmFacts ExpandFacts Sparse Matrices Noise Gates Apply Composite Api
  GateSpec PropSpec NoiseSpec ExpectSpec GateFacts CircuitFacts AlgebraFacts GroupFacts TensorFacts TensorThm ApplyThm GateThm EvolThm
  SampleSpec SampleThm SeqThm ExpectThm ExpectThm2 EvolSpec.
Import ListNotations.
Local Open Scope nat_scope.

(** ** the generator of a controlled evolution *)
Lemma ctrl_row : forall n A B B' ts x y, valid_qubits n ts -> In x (bitstrings n) ->
    (forall z, In z (bitstrings (length ts)) -> B (overwrite x ts z) y = B' (overwrite x ts z) y) ->
    kmul n (ctrl_kernel A [] ts) B x y = kmul n (ctrl_kernel A [] ts) B' x y.
Proof.
  intros n A B B' ts x y V Hx H.
  change (apply_kernel n (ctrl_kernel A [] ts) (fun z => B z y) x = apply_kernel n (ctrl_kernel A [] ts) (fun z => B' z y) x).
  rewrite !ctrl_kernel_action by exact Hx. unfold ctrl_action; cbn [bits_at map all_ones forallb]. unfold gate_action.
  apply csum_ext; intros z Hz. rewrite H by exact Hz. reflexivity.
Qed.
Lemma controls_kept : forall n cs ts x z, valid_qubits n (cs ++ ts) -> bits_at (overwrite x ts z) cs = bits_at x cs.
Proof. intros n cs ts x z V. apply bits_at_overwrite_disj. intros p I J. eapply valid_app_disj; eassumption. Qed.

Lemma controlled_deriv : forall n M D A cs ts t, valid_qubits n (cs ++ ts) -> kderiv (length ts) M t D ->
    keq (length ts) D (kmul (length ts) A (M t)) ->
    kderiv n (fun s => ctrl_kernel (M s) cs ts) t (kmul n (controlled_hamiltonian A cs ts) (ctrl_kernel (M t) cs ts)).
Proof.
  intros n M D A cs ts t V H E. eapply kderiv_eq; [|apply (ctrl_kernel_deriv n M D cs ts t H)].
  assert (VT := valid_app_r _ _ _ V).
  intros x y Hx Hy. cbv beta. unfold controlled_hamiltonian, kmul at 1.
  destruct (all_ones (bits_at x cs)) eqn:O.
  - change (ctrl_kernel D [] ts x y = kmul n (gate_op A [] ts) (ctrl_kernel (M t) cs ts) x y). unfold gate_op.
    rewrite (ctrl_row n A _ (ctrl_kernel (M t) [] ts)); [|exact VT|exact Hx|].
    + rewrite (ctrl_kernel_mul n A (M t) [] ts VT x y Hx Hy). apply (ctrl_kernel_ext n D _ [] ts E x y Hx Hy).
    + intros z Hz. unfold ctrl_kernel at 1. rewrite (controls_kept n) by exact V. rewrite O. reflexivity.
  - symmetry. apply csum_zero. intros z Hz. apply Cmul_0_l.
Qed.

Lemma controlled_hermitian : forall n A cs ts, valid_qubits n (cs ++ ts) -> hermitian (length ts) A ->
    hermitian n (controlled_hamiltonian A cs ts).
Proof.
  intros n A cs ts V H x y Hx Hy. assert (VT := valid_app_r _ _ _ V).
  assert (HK : keq n (kadj (ctrl_kernel A [] ts)) (ctrl_kernel A [] ts)).
  { eapply keq_trans; [apply (ctrl_kernel_adj n A [] ts VT)|apply ctrl_kernel_ext; exact H]. }
  assert (Z : forall x y, In x (bitstrings n) -> all_ones (bits_at x cs) <> all_ones (bits_at y cs) -> ctrl_kernel A [] ts x y = C0).
  { intros u v Hu NE. unfold ctrl_kernel; cbn [bits_at map all_ones forallb]. apply csum_zero; intros z Hz.
    rewrite kid_ne; [apply Cmul_0_r|]. intro E. apply NE. rewrite <- E, (controls_kept n) by exact V. reflexivity. }
  unfold kadj, controlled_hamiltonian, gate_op.
  destruct (all_ones (bits_at y cs)) eqn:Oy, (all_ones (bits_at x cs)) eqn:Ox.
  - apply (HK x y Hx Hy).
  - rewrite Z by congruence. apply C_ext; simpl; ring.
  - rewrite Z by congruence. apply C_ext; simpl; ring.
  - apply C_ext; simpl; ring.
Qed.
Lemma controlled_scale : forall n c A cs ts, keq n (controlled_hamiltonian (kscale c A) cs ts) (kscale c (controlled_hamiltonian A cs ts)).
Proof.
  intros n c A cs ts x y Hx Hy. unfold controlled_hamiltonian, kscale. destruct (all_ones (bits_at x cs)); [|ring].
  unfold gate_op, ctrl_kernel; cbn [bits_at map all_ones forallb]. rewrite <- csum_scale_l. apply csum_ext; intros z Hz. ring.
Qed.
Lemma controlled_ext : forall n A B cs ts, keq (length ts) A B -> keq n (controlled_hamiltonian A cs ts) (controlled_hamiltonian B cs ts).
Proof.
  intros n A B cs ts E x y Hx Hy. unfold controlled_hamiltonian. destruct (all_ones (bits_at x cs)); [|reflexivity].
  apply (ctrl_kernel_ext n A B [] ts E x y Hx Hy).
Qed.

(** a family of operators with U' = -i H U, U(0) = 1 and H hermitian keeps every operator that commutes with H *)
Lemma generator_kept : forall n (U : R -> op) H K, hermitian n H -> keq n (U 0%R) kid ->
    (forall t, kderiv n U t (kmul n (kscale (Copp Ci) H) (U t))) -> keq n (kmul n K H) (kmul n H K) ->
    forall t, keq n (kmul n (kadj (U t)) (kmul n K (U t))) K.
Proof.
  intros n U H K HH U0 DU CM t.
  transitivity (kmul n (kadj (U 0%R)) (kmul n K (U 0%R))); [|rewrite U0, kadj_id, kmul_id_l, kmul_id_r; reflexivity].
  apply (kderiv_zero_const n (fun t => kmul n (kadj (U t)) (kmul n K (U t)))). intro s.
  eapply kderiv_eq; [|apply kderiv_mul; [apply kderiv_adj, DU|apply kderiv_mul; [apply kderiv_const|apply DU]]].
  rewrite kadj_mul.
  assert (KA : keq n (kadj (kscale (Copp Ci) H)) (kscale Ci H)).
  { intros x y Hx Hy. specialize (HH x y Hx Hy). unfold kadj, kscale in *. rewrite Cconj_mul, HH. apply C_ext; simpl; ring. }
  assert (E : keq n (kadd (kmul n (fun _ _ => C0) (U s)) (kmul n K (kmul n (kscale (Copp Ci) H) (U s))))
                    (kscale (Copp Ci) (kmul n H (kmul n K (U s))))).
  { rewrite kmul_kscale_l, kmul_kscale_r, <- (kmul_assoc n K H), CM, kmul_assoc. intros x y Hx Hy. unfold kadd, kmul at 1.
    rewrite csum_zero by (intros; apply Cmul_0_l). ring. }
  rewrite E, KA, kmul_kscale_r, kmul_kscale_r, kmul_kscale_l, kmul_assoc.
  intros x y Hx Hy. unfold kadd, kscale. ring.
Qed.

Lemma kept_mean : forall n U K f g, keq n (kmul n (kadj U) (kmul n K U)) K -> veq n g (apply_kernel n U f) -> mean_pure n K g = mean_pure n K f.
Proof.
  intros n U K f g E G. rewrite (mean_pure_ext n K _ _ G). unfold mean_pure. f_equal.
  rewrite <- (apply_kernel_mul n K U f).
  transitivity (inner_product n (apply_kernel n (kadj (kadj U)) f) (apply_kernel n (kmul n K U) f)); [rewrite kadj_invol; reflexivity|].
  rewrite <- inner_adj, <- apply_kernel_mul, E. reflexivity.
Qed.

Lemma evolution_exp : forall w n h ts cs, is_matrix (length ts) h -> hermitian (length ts) (entry h) ->
    exponential_of (expm w) (length ts) (minus_i h) -> valid_qubits n (cs ++ ts) ->
    let U := fun t => gate_op (entry (expm w (scale (RtoC t) (minus_i h)))) cs ts in
    let H := controlled_hamiltonian (entry h) cs ts in
    keq n (U 0%R) kid /\ (forall t, unitary n (U t)) /\ hermitian n H /\
    forall t, kderiv n U t (kmul n (kscale (Copp Ci) H) (U t)).
Proof.
  intros w n h ts cs HM HH HE HV U H.
  destruct (exponential_unitary _ _ _ HE (minus_i_adj _ _ HM HH)) as [UU _]. destruct HE as (Ma & Me & E0 & DE).
  split; [|split; [|split]].
  - unfold U, gate_op. rewrite (ctrl_kernel_ext n _ kid cs ts E0). apply ctrl_kernel_id, (valid_app_r n cs); exact HV.
  - intro t. apply ctrl_kernel_unitary; [exact HV|apply UU].
  - apply controlled_hermitian; assumption.
  - intro t. eapply kderiv_eq; [|apply (controlled_deriv n (fun s => entry (expm w (scale (RtoC s) (minus_i h)))) _ (entry (minus_i h)) cs ts t HV (DE t) (keq_refl _ _))].
    apply kmul_ext; [|apply keq_refl]. eapply keq_trans; [apply controlled_ext|apply controlled_scale].
    destruct (scale_matrix (length ts) (Copp Ci) h HM) as [_ E]. exact E.
Qed.

(** ** C98 *)
Lemma evolution_opk : forall w n vals ts c cs h t,
    lookup vals "hamiltonian"%string = Ok (VMat h) -> lookup vals "time_evolution"%string = Ok (VNum t) ->
    exponential_of (expm w) (length ts) (minus_i h) -> control_qubits (parse_control c) cs -> valid_qubits n (cs ++ ts) ->
    unitary_of w (HamiltonianEvolution (TTup ts) c) vals = Ok (MD (expm w (scale (RtoC t) (minus_i h)))).
Proof.
  intros w n vals ts c cs h t EH ET HE HC HV. unfold unitary_of. cbn [HamiltonianEvolution gclass]. rewrite ET; cbn [bind num]. rewrite EH; cbn [bind].
  rewrite ham_matrix. cbn [shift]. rewrite Rplus_0_r. reflexivity.
Qed.

Lemma c98_schroedinger : forall w n psi h ts c cs,
    is_state n psi -> is_matrix (List.length ts) h -> hermitian (List.length ts) (entry h) ->
    exponential_of (expm w) (List.length ts) (minus_i h) ->
    control_qubits (parse_control c) cs -> valid_qubits n (cs ++ ts) ->
    let g := HamiltonianEvolution (TTup ts) c in
    let H := controlled_hamiltonian (entry h) cs ts in
    exists out : R -> arr,
      (forall t, run w (OGate g) (SDense psi) (evolution_values h t) = Ok (Some (SDense (out t))) /\ is_state n (out t)) /\
      veq n (amp (out 0%R)) (amp psi) /\
      (forall t x, In x (bitstrings n) ->
         Cderiv (fun s => amp (out s) x) t (Cmul (Copp Ci) (apply_kernel n H (amp (out t)) x))) /\
      (forall t, mean_pure n H (amp (out t)) = mean_pure n H (amp psi)) /\
      (forall K t, keq n (kmul n K H) (kmul n H K) -> mean_pure n K (amp (out t)) = mean_pure n K (amp psi)).
Proof.
  intros w n psi h ts c cs HS HM HH HE HC HV g H.
  destruct (evolution_exp w n h ts cs HM HH HE HV) as (U0 & UU & KH & DU). fold H in KH, DU.
  set (U := fun t => gate_op (entry (expm w (scale (RtoC t) (minus_i h)))) cs ts) in *.
  pose proof HE as (Ma & Me & _).
  assert (OU : forall t, opk w UNITARY (evolution_values h t) n g (U t)).
  { intro t; exists (expm w (scale (RtoC t) (minus_i h))), cs; cbn [operator_of]. unfold g. rewrite (evolution_opk w n _ ts c cs h t) by first [reflexivity|assumption].
    repeat split; try apply HV; try apply Me; try assumption. }
  set (out := fun t => match apply_gates w (SDense psi) (GOne g) (evolution_values h t) UNITARY false true with
                       Ok (SDense r) => r | _ => psi end).
  assert (HO : forall t, run w (OGate g) (SDense psi) (evolution_values h t) = Ok (Some (SDense (out t))) /\
     is_state n (out t) /\ veq n (amp (out t)) (apply_kernel n (U t) (amp psi))).
  { intro t; destruct (apply_gate_dense w n _ UNITARY false true g _ psi eq_refl (OU t) HS) as (r & E & Sr & Ar).
    unfold out; rewrite E. unfold run; cbn [call bind]. rewrite E; cbn [bind]; auto. }
  assert (CK : forall K t, keq n (kmul n K H) (kmul n H K) -> mean_pure n K (amp (out t)) = mean_pure n K (amp psi)).
  { intros K t CM. apply (kept_mean n (U t)); [|apply HO]. apply (generator_kept n U H K KH U0 DU CM). }
  exists out; split; [|split; [|split; [|split]]].
  - intro t; split; apply HO.
  - destruct (HO 0%R) as (_ & _ & A). change (keq n (U 0%R) kid) in U0. rewrite A, U0. apply apply_kernel_id.
  - intros t x Hx. destruct (HO t) as (_ & _ & A).
    eapply Cderiv_eq; [|eapply (Cderiv_ext (fun s => apply_kernel n (U s) (amp psi) x)); [intro s; symmetry; apply HO; exact Hx|apply apply_kernel_deriv; [apply DU|exact Hx]]].
    rewrite (apply_kernel_mul n _ (U t) (amp psi) x Hx).
    rewrite (apply_kernel_ext n H H _ _ (keq_refl _ _) A x Hx). unfold apply_kernel at 1 3. rewrite <- csum_scale_l.
    apply csum_ext; intros z Hz. unfold kscale. ring.
  - intro t. apply CK. apply keq_refl.
  - exact CK.
Qed.

(** ** C99 *)
Lemma hybrid_opk : forall w n vals g K, hybrid_gate w n vals g K ->
    noiseless g /\ opk w UNITARY vals n g K /\ opk w DAGGER vals n g (kadj K) /\ unitary n K.
Proof.
  intros w n vals g K H. destruct H as [g M cs ts HG HD HN|ts c cs h t EH ET HM HH HE HC HV].
  - split; [exact HN|]. split; [apply gate_on_opk; assumption|]. split; [|eapply gate_op_unitary; eauto].
    destruct (gate_on_opk_dagger w n vals g M cs ts HG HD) as (u & cs' & E & A & B & D & F). exists u, cs'. repeat split; try assumption; try apply A; try apply D.
    eapply keq_trans; [apply keq_sym; eapply gate_op_adj; eauto|exact F].
  - destruct (evolution_exp w n h ts cs HM HH HE HV) as (_ & UU & _). pose proof HE as (Ma & Me & _).
    pose proof (evolution_opk w n vals ts c cs h t EH ET HE HC HV) as E.
    split; [reflexivity|]. split; [|split; [|apply UU]].
    + exists (expm w (scale (RtoC t) (minus_i h))), cs; cbn [operator_of]. rewrite E. repeat split; try apply HV; try apply Me; try assumption.
    + destruct (dagger_matrix _ _ (Me t)) as (d & ED & HMD & HED).
      exists d, cs; cbn [operator_of]; unfold dagger_of. rewrite E; cbn [bind]. unfold mat_dagger; rewrite ED; cbn [bind].
      repeat split; try apply HV; try apply HMD; try assumption.
      eapply keq_trans; [apply ctrl_kernel_adj; exact HV|]. apply ctrl_kernel_ext, keq_sym; exact HED.
Qed.
Lemma hybrid_facts : forall w n vals gs U, hybrid_circuit w n vals gs U ->
    Forall noiseless gs /\ gseq w UNITARY vals n gs U /\ gseq w DAGGER vals n (rev gs) (kadj U) /\ unitary n U.
Proof.
  intros w n vals gs U H. induction H as [|g gs K U HG HC (FN & GU & GD & UU)].
  - split; [constructor|]. split; [apply gs_nil, keq_refl|]. split; [apply gs_nil, kadj_id|apply unitary_kid].
  - destruct (hybrid_opk _ _ _ _ _ HG) as (N & OU & OD & UK). split; [constructor; assumption|].
    split; [econstructor; [exact OU|exact GU|apply keq_refl]|]. split; [|apply unitary_kmul; assumption].
    cbn [rev]. eapply gseq_ext; [apply gseq_app; [exact GD|econstructor; [exact OD|apply gs_nil, keq_refl|apply keq_refl]]|].
    rewrite kadj_mul, kmul_id_l. reflexivity.
Qed.
Lemma hybrid_run : forall w n vals gs U, hybrid_circuit w n vals gs U -> forall psi, is_state n psi ->
    exists out, foldM (one_gate w vals) gs (SDense psi) = Ok (SDense out) /\ is_state n out /\ veq n (amp out) (apply_kernel n U (amp psi)).
Proof.
  intros w n vals gs U H. induction H as [|g gs K U HG HC IH]; intros psi HS.
  - exists psi. split; [reflexivity|split; [exact HS|]]. apply veq_sym, apply_kernel_id.
  - destruct (hybrid_opk _ _ _ _ _ HG) as (N & OU & _).
    destruct (apply_gate_dense w n vals UNITARY false true g K psi N OU HS) as (a & Ea & Sa & Va).
    destruct (IH a Sa) as (b & Eb & Sb & Vb). exists b; split; [|split; [exact Sb|]].
    + cbn [foldM]. unfold one_gate at 1. rewrite Ea. exact Eb.
    + rewrite Vb, Va. apply veq_sym, apply_kernel_mul.
Qed.
Lemma hybrid_run_dm : forall w n vals gs U, set_order (set_iter w) -> hybrid_circuit w n vals gs U -> forall rho, is_density n rho ->
    exists out, foldM (one_gate w vals) gs (SDM rho) = Ok (SDM out) /\ is_density n out /\ keq n (rho_entry out) (conjugate n U (rho_entry rho)).
Proof.
  intros w n vals gs U SO H. induction H as [|g gs K U HG HC IH]; intros psi HS.
  - exists psi. split; [reflexivity|split; [exact HS|]]. apply keq_sym, conjugate_id.
  - destruct (hybrid_opk _ _ _ _ _ HG) as (N & OU & _).
    destruct (apply_gate_dm w n vals UNITARY false true g K psi SO N OU HS) as (a & Ea & Sa & Va).
    destruct (IH a Sa) as (b & Eb & Sb & Vb). exists b; split; [|split; [exact Sb|]].
    + cbn [foldM]. unfold one_gate at 1. rewrite Ea. exact Eb.
    + rewrite Vb, (conjugate_ext n _ _ _ _ (keq_refl _ _) Va). apply keq_sym, conjugate_mul.
Qed.

Lemma c99_run : forall w n vals circuit gs U psi phi, sequence_of circuit gs -> hybrid_circuit w n vals gs U -> is_state n psi -> is_state n phi ->
    exists out out', run w circuit (SDense psi) vals = Ok (Some (SDense out)) /\ run w circuit (SDense phi) vals = Ok (Some (SDense out')) /\
      is_state n out /\ is_state n out' /\ veq n (amp out) (apply_kernel n U (amp psi)) /\ veq n (amp out') (apply_kernel n U (amp phi)) /\
      inner_product n (amp out) (amp out') = inner_product n (amp psi) (amp phi).
Proof.
  intros w n vals circuit gs U psi phi HQ HC H1 H2.
  destruct (hybrid_run w n vals gs U HC psi H1) as (a & Ea & Sa & Va). destruct (hybrid_run w n vals gs U HC phi H2) as (b & Eb & Sb & Vb).
  exists a, b. unfold run. rewrite !(sequence_call _ _ _ _ HQ), Ea, Eb. repeat (split; [first [reflexivity|assumption]|]).
  rewrite Va, Vb. apply unitary_inner. apply (hybrid_facts _ _ _ _ _ HC).
Qed.
Lemma c99_density : forall w n vals circuit gs U rho, set_order (set_iter w) -> sequence_of circuit gs -> hybrid_circuit w n vals gs U -> is_density n rho ->
    exists out, run w circuit (SDM rho) vals = Ok (Some (SDM out)) /\ is_density n out /\ keq n (rho_entry out) (sandwiched n U (rho_entry rho)).
Proof.
  intros w n vals circuit gs U rho SO HQ HC HD. destruct (hybrid_run_dm w n vals gs U SO HC rho HD) as (a & Ea & Sa & Va).
  exists a. unfold run. rewrite (sequence_call _ _ _ _ HQ), Ea. split; [reflexivity|split; assumption].
Qed.
Lemma c99_dagger : forall w n vals gs U mg psi, gs <> [] -> hybrid_circuit w n vals gs U -> is_state n psi ->
    exists phi, apply_gates w (SDense psi) (GMany gs) vals UNITARY false mg = Ok (SDense phi) /\
      veq n (amp phi) (apply_kernel n U (amp psi)) /\
      apply_gates w (SDense phi) (GMany (rev gs)) vals DAGGER false mg = Ok (SDense psi).
Proof.
  intros w n vals gs U mg psi NE HC HS. destruct (hybrid_facts _ _ _ _ _ HC) as (FN & GU & GD & UU).
  assert (NE' : rev gs <> []) by (intro E; apply (f_equal (@rev gate)) in E; rewrite rev_involutive in E; auto).
  destruct (apply_gates_dense w n vals UNITARY mg gs U psi NE FN GU HS) as (phi & E1 & S1 & V1).
  destruct (apply_gates_dense w n vals DAGGER mg (rev gs) (kadj U) phi NE' (Forall_rev FN) GD S1) as (chi & E2 & S2 & V2).
  exists phi; split; [exact E1|]. split; [exact V1|]. rewrite E2; do 2 f_equal.
  apply (state_ext n); auto. rewrite V2, V1. apply unitary_cancel; [exact UU|reflexivity].
Qed.
Lemma c99_expectation : forall w n vals circuit gs U psi sq obs Ks mode key,
    set_order (set_iter w) -> flat_values vals -> sequence_of circuit gs -> gs <> [] -> hybrid_circuit w n vals gs U -> is_state n psi ->
    obs <> [] -> Forall2 (observable_on w n vals sq) obs Ks -> In mode [AD; ADJOINT; GPSR] ->
    expectation w (SDense psi) circuit obs vals mode 0 key = Ok (map (fun K => mean_pure n K (apply_kernel n U (amp psi))) Ks).
Proof.
  intros w n vals circuit gs U psi sq obs Ks mode key SO FV HQ NG HC HS NE F IM.
  destruct (hybrid_facts _ _ _ _ _ HC) as (FN & GU & _ & _).
  assert (EA : forall key, expectation w (SDense psi) circuit obs vals AD 0 key = Ok (map (fun K => mean_pure n K (apply_kernel n U (amp psi))) Ks)).
  { intro k0. destruct (apply_gates_dense w n vals UNITARY true gs U psi NG FN GU HS) as (out & Eo & So & Ao).
    rewrite (expectation_mean w n vals vals vals circuit (SDense psi) (SDense out) obs Ks k0 SO); auto.
    - f_equal. apply map_ext; intro K. apply mean_pure_ext; exact Ao.
    - right; auto.
    - unfold run_flat. rewrite (sequence_iter _ _ HQ); cbn [bind]. exact Eo.
    - eapply F2_impl; [|exact F]. intros l K H; exists sq; exact H. }
  assert (NF : noise_free circuit) by (intros gs' G; rewrite (sequence_iter _ _ HQ) in G; injection G as <-; exact FN).
  destruct (c47_modes w (SDense psi) circuit obs vals key key key FV Logic.I NF NE) as [EJ EG].
  destruct IM as [<-|[<-|[<-|[]]]]; [apply EA|rewrite EJ; apply EA|rewrite EG; apply EA].
Qed.
Lemma c99_expectation_density : forall w n vals circuit gs U rho obs Ks mode key,
    set_order (set_iter w) -> flat_values vals -> sequence_of circuit gs -> gs <> [] -> hybrid_circuit w n vals gs U -> is_density n rho ->
    obs <> [] -> Forall2 (density_ready w n vals) obs Ks -> In mode [AD; GPSR] ->
    expectation w (SDM rho) circuit obs vals mode 0 key = Ok (map (fun K => mean_density n K (sandwiched n U (rho_entry rho))) Ks).
Proof.
  intros w n vals circuit gs U rho obs Ks mode key SO FV HQ NG HC HS NE F IM.
  destruct (hybrid_facts _ _ _ _ _ HC) as (FN & GU & _ & _).
  assert (EA : forall key, expectation w (SDM rho) circuit obs vals AD 0 key = Ok (map (fun K => mean_density n K (sandwiched n U (rho_entry rho))) Ks)).
  { intro k0. destruct (apply_gates_dm w n vals UNITARY true gs U rho SO NG FN GU HS) as (out & Eo & So & Ao).
    rewrite (expectation_mean w n vals vals vals circuit (SDM rho) (SDM out) obs Ks k0 SO); auto.
    - f_equal. apply map_ext; intro K. cbn [mean]. apply mean_density_ext; [apply keq_refl|exact Ao].
    - right; auto.
    - unfold run_flat. rewrite (sequence_iter _ _ HQ); cbn [bind]. exact Eo. }
  destruct IM as [<-|[<-|[]]]; [apply EA|rewrite (c47_gpsr _ _ _ _ _ key key FV NE); apply EA].
Qed.
Lemma c99_sample : forall w n vals circuit gs U psi k, choice_contract w -> 1 <= n -> (1 <= k)%Z ->
    sequence_of circuit gs -> hybrid_circuit w n vals gs U -> is_state n psi ->
    fst (sample w (SDense psi) circuit vals k) =
      Ok (histogram n (choice w 0 (map (fun x => Cnorm2 (apply_kernel n U (amp psi) x)) (bitstrings n)) (Z.to_nat k))).
Proof.
  intros w n vals circuit gs U psi k CC Hn Hk HQ HC HS. destruct (c99_run w n vals circuit gs U psi psi HQ HC HS HS) as (out & _ & E & _ & So & _ & V & _).
  rewrite (c38_dense w n (SDense psi) circuit vals k out CC Hn Hk E So). do 3 f_equal. unfold born_probabilities. apply map_ext_in. intros x Hx. rewrite (V x Hx). reflexivity.
Qed.
