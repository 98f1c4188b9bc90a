(** * Proofs of the properties of gate application (C01-C15); the statements are repeated, with examples, in
    PropApply.v *)
From Coq Require Import List String Arith Bool Reals Lia Lra Permutation Sorted.
From Verif Require Import Cplx Py PyFacts Ndarray NdFacts OperatorUtils ApplyOperator
  Spec SpecFacts ApplyFacts DmFacts ExpandFacts Sparse Matrices Noise Gates Apply Composite Api
  GateSpec PropSpec GateFacts CircuitFacts AlgebraFacts GroupFacts.
Import ListNotations.
Local Open Scope nat_scope.

Lemma c01_ok : forall n psi u c cs ts,
    is_state n psi -> is_matrix (List.length ts) u -> control_qubits c cs -> valid_qubits n (cs ++ ts) ->
    exists phi, apply_operator psi u ts c = Ok phi /\ is_state n phi /\
      forall x, In x (bitstrings n) ->
        amp phi x = if all_ones (bits_at x cs)
                    then csum (bitstrings (List.length ts))
                              (fun y => Cmul (entry u (bits_at x ts) y) (amp psi (overwrite x ts y)))
                    else amp psi x.
Proof.
  intros n psi u c cs ts HS HM HC HV.
  exact (apply_operator_spec n psi u ts c cs HS HM (control_qubits_ctl c cs HC) HV).
Qed.

Lemma c02_raises : forall n k psi u c cs ts,
    is_state n psi -> is_matrix k u -> control_qubits c cs ->
    (~ NoDup (cs ++ ts) \/ (exists q, In q (cs ++ ts) /\ n <= q) \/ k <> List.length ts) ->
    exists e, apply_operator psi u ts c = Err e.
Proof.
  intros n k psi u c cs ts HS HM HC H.
  apply (apply_operator_raises n k psi u ts c cs HS HM (control_qubits_ctl c cs HC)).
  intros [[ND F] E]; destruct H as [H|[(q & Hq & Hn)|H]]; try contradiction.
  rewrite Forall_forall in F; apply F in Hq; lia.
Qed.

Lemma c03_linear : forall n a b psi phi chi u c cs ts,
    is_state n psi -> is_state n phi -> is_state n chi ->
    (forall x, In x (bitstrings n) -> amp chi x = Cadd (Cmul a (amp psi x)) (Cmul b (amp phi x))) ->
    is_matrix (List.length ts) u -> control_qubits c cs -> valid_qubits n (cs ++ ts) ->
    exists psi' phi' chi',
      apply_operator psi u ts c = Ok psi' /\ apply_operator phi u ts c = Ok phi' /\
      apply_operator chi u ts c = Ok chi' /\
      forall x, In x (bitstrings n) -> amp chi' x = Cadd (Cmul a (amp psi' x)) (Cmul b (amp phi' x)).
Proof.
  intros n a b psi phi chi u c cs ts H1 H2 H3 HL HM HC HV.
  apply control_qubits_ctl in HC.
  destruct (apply_operator_spec n psi u ts c cs H1 HM HC HV) as (psi' & E1 & S1 & A1).
  destruct (apply_operator_spec n phi u ts c cs H2 HM HC HV) as (phi' & E2 & S2 & A2).
  destruct (apply_operator_spec n chi u ts c cs H3 HM HC HV) as (chi' & E3 & S3 & A3).
  exists psi', phi', chi'; do 3 (split; [assumption|]).
  intros x Hx; rewrite A1, A2, A3 by assumption.
  rewrite <- !(ctrl_kernel_action n) by assumption.
  rewrite <- apply_kernel_linear.
  apply apply_kernel_ext; [apply keq_refl|exact HL|assumption].
Qed.


Lemma c04_apply_operator : forall n steps psi phi,
    Forall (unitary_step n) steps -> is_state n psi -> is_state n phi ->
    exists psi' phi',
      foldM (fun s '(u, ts, c) => apply_operator s u ts c) steps psi = Ok psi' /\
      foldM (fun s '(u, ts, c) => apply_operator s u ts c) steps phi = Ok phi' /\
      is_state n psi' /\ is_state n phi' /\
      inner_product n (amp psi') (amp phi') = inner_product n (amp psi) (amp phi) /\
      norm2 n (amp psi') = norm2 n (amp psi).
Proof.
  intros n steps; induction steps as [|[[u ts] c] steps IH]; intros psi phi F H1 H2; cbn [foldM].
  - exists psi, phi; repeat split; auto; try apply H1; apply H2.
  - inversion F as [|p l HF F']; subst; destruct HF as (HM & HU & cs & HC & HV).
    apply control_qubits_ctl in HC.
    destruct (apply_operator_spec n psi u ts c cs H1 HM HC HV) as (p1 & E1 & S1 & A1).
    destruct (apply_operator_spec n phi u ts c cs H2 HM HC HV) as (p2 & E2 & S2 & A2).
    rewrite E1, E2; cbn [bind].
    destruct (IH p1 p2 F' S1 S2) as (q1 & q2 & F1 & F2 & T1 & T2 & HI & HN).
    exists q1, q2; do 4 (split; [assumption|]).
    assert (UK : unitary n (ctrl_kernel (entry u) cs ts)) by (apply ctrl_kernel_unitary; assumption).
    assert (V1 : veq n (amp p1) (apply_kernel n (ctrl_kernel (entry u) cs ts) (amp psi))).
    { intros x Hx; rewrite A1, ctrl_kernel_action by assumption; reflexivity. }
    assert (V2 : veq n (amp p2) (apply_kernel n (ctrl_kernel (entry u) cs ts) (amp phi))).
    { intros x Hx; rewrite A2, ctrl_kernel_action by assumption; reflexivity. }
    split; [rewrite HI, V1, V2; apply unitary_inner; exact UK|].
    rewrite HN. enough (E : RtoC (norm2 n (amp p1)) = RtoC (norm2 n (amp psi))) by (injection E; auto).
    rewrite <- !inner_norm2, V1; apply unitary_inner; exact UK.
Qed.

Lemma usable_circuit : forall n vals gs, Forall (usable n vals) gs -> exists U, circuit_on n vals gs U.
Proof.
  induction gs as [|g gs IH]; intro F; [exists kid; constructor|].
  inversion F as [|g' gs' (M & cs & ts & HG) F']; subst; destruct (IH F') as (U & HU).
  eexists; econstructor; eassumption.
Qed.
Lemma circuit_usable : forall n vals gs U, circuit_on n vals gs U -> Forall (usable n vals) gs.
Proof.
  intros n vals gs U H; induction H; constructor; auto. exists M, cs, ts; assumption.
Qed.

Lemma c04_circuits : forall w n vals gs gr mg psi phi,
    gs <> [] -> Forall (usable n vals) gs -> Forall dense_gate gs -> Forall noiseless gs ->
    (gr = true -> groupable gs) ->
    is_state n psi -> is_state n phi ->
    exists psi' phi',
      apply_gates w (SDense psi) (GMany gs) vals UNITARY gr mg = Ok (SDense psi') /\
      apply_gates w (SDense phi) (GMany gs) vals UNITARY gr mg = Ok (SDense phi') /\
      is_state n psi' /\ is_state n phi' /\
      inner_product n (amp psi') (amp phi') = inner_product n (amp psi) (amp phi) /\
      norm2 n (amp psi') = norm2 n (amp psi).
Proof.
  intros w n vals gs gr mg psi phi NE FU FD FN G H1 H2.
  destruct (usable_circuit n vals gs FU) as (U & HC).
  pose proof (circuit_on_gseq w n vals gs U HC FD) as HG.
  pose proof (circuit_unitary n vals gs U HC) as UU.
  destruct (apply_gates_dense_any w n vals UNITARY gr mg gs U psi NE FN G HG H1) as (p1 & E1 & S1 & V1).
  destruct (apply_gates_dense_any w n vals UNITARY gr mg gs U phi NE FN G HG H2) as (p2 & E2 & S2 & V2).
  exists p1, p2; do 4 (split; [assumption|]).
  split; [rewrite V1, V2; apply unitary_inner; exact UU|].
  enough (E : RtoC (norm2 n (amp p1)) = RtoC (norm2 n (amp psi))) by (injection E; auto).
  rewrite <- !inner_norm2, V1; apply unitary_inner; exact UU.
Qed.

(** ** dagger *)
Lemma gate_op_adj : forall n vals g M cs ts, gate_on n vals g M cs ts ->
    keq n (gate_op (kadj M) cs ts) (kadj (gate_op M cs ts)).
Proof. intros n vals g M cs ts [_ _ _ V]; apply keq_sym, ctrl_kernel_adj; exact V. Qed.

Lemma circuit_on_gseq_dagger : forall w n vals gs U, circuit_on n vals gs U -> Forall dense_gate gs ->
    gseq w DAGGER vals n (rev gs) (kadj U).
Proof.
  intros w n vals gs U H; induction H as [|g gs M cs ts U HG HC IH]; intro HD; simpl.
  - constructor; apply kadj_id.
  - inversion HD; subst.
    eapply gseq_ext; [apply gseq_app; [apply IH; assumption|]|].
    + econstructor; [eapply gate_on_opk_dagger; eauto|apply gs_nil, keq_refl|apply keq_refl].
    + rewrite kadj_mul, kmul_id_l, (gate_op_adj n vals g M cs ts HG); reflexivity.
Qed.

Lemma unitary_cancel : forall n U V f, unitary n U -> keq n V (kadj U) ->
    veq n (apply_kernel n V (apply_kernel n U f)) f.
Proof. intros n U V f [H _] E; rewrite E, <- apply_kernel_mul, H; apply apply_kernel_id. Qed.
Lemma unitary_cancel_dm : forall n U V r, unitary n U -> keq n V (kadj U) ->
    keq n (conjugate n V (conjugate n U r)) r.
Proof.
  intros n U V r [H _] E; rewrite <- conjugate_mul.
  rewrite (conjugate_ext n (kmul n V U) kid r r); [apply conjugate_id|rewrite E; exact H|reflexivity].
Qed.

Lemma c05_dagger : forall w n vals g gr mg psi,
    usable n vals g -> dense_gate g -> noiseless g -> is_state n psi ->
    exists phi,
      apply_gates w (SDense psi) (GOne g) vals UNITARY gr mg = Ok (SDense phi) /\
      apply_gates w (SDense phi) (GOne g) vals DAGGER gr mg = Ok (SDense psi).
Proof.
  intros w n vals g gr mg psi (M & cs & ts & HG) HD HN HS.
  destruct (apply_gate_dense w n vals UNITARY gr mg g _ psi HN (gate_on_opk w n vals g M cs ts HG HD) HS) as (phi & E1 & S1 & V1).
  destruct (apply_gate_dense w n vals DAGGER gr mg g _ phi HN (gate_on_opk_dagger w n vals g M cs ts HG HD) S1) as (chi & E2 & S2 & V2).
  exists phi; split; [exact E1|]. rewrite E2; do 2 f_equal.
  apply (state_ext n); auto.
  rewrite V2, V1. apply unitary_cancel; [eapply gate_op_unitary; eauto|eapply gate_op_adj; eauto].
Qed.

Lemma c05_dagger_circuit : forall w n vals gs mg psi,
    gs <> [] -> Forall (usable n vals) gs -> Forall dense_gate gs -> Forall noiseless gs -> is_state n psi ->
    exists phi,
      apply_gates w (SDense psi) (GMany gs) vals UNITARY false mg = Ok (SDense phi) /\
      apply_gates w (SDense phi) (GMany (rev gs)) vals DAGGER false mg = Ok (SDense psi).
Proof.
  intros w n vals gs mg psi NE FU FD FN HS.
  destruct (usable_circuit n vals gs FU) as (U & HC).
  assert (NE' : rev gs <> []) by (intro E; apply (f_equal (@rev gate)) in E; rewrite rev_involutive in E; auto).
  assert (FN' : Forall noiseless (rev gs)) by (apply Forall_rev; exact FN).
  destruct (apply_gates_dense w n vals UNITARY mg gs U psi NE FN (circuit_on_gseq w n vals gs U HC FD) HS) as (phi & E1 & S1 & V1).
  destruct (apply_gates_dense w n vals DAGGER mg (rev gs) (kadj U) phi NE' FN' (circuit_on_gseq_dagger w n vals gs U HC FD) S1)
    as (chi & E2 & S2 & V2).
  exists phi; split; [exact E1|]. rewrite E2; do 2 f_equal.
  apply (state_ext n); auto.
  rewrite V2, V1. apply unitary_cancel; [eapply circuit_unitary; eauto|reflexivity].
Qed.

Lemma c05_dagger_density : forall w n vals gs mg rho,
    set_order (set_iter w) ->
    gs <> [] -> Forall (usable n vals) gs -> Forall dense_gate gs -> Forall noiseless gs -> is_density n rho ->
    exists rho',
      apply_gates w (SDM rho) (GMany gs) vals UNITARY false mg = Ok (SDM rho') /\
      apply_gates w (SDM rho') (GMany (rev gs)) vals DAGGER false mg = Ok (SDM rho).
Proof.
  intros w n vals gs mg psi SO NE FU FD FN HS.
  destruct (usable_circuit n vals gs FU) as (U & HC).
  assert (NE' : rev gs <> []) by (intro E; apply (f_equal (@rev gate)) in E; rewrite rev_involutive in E; auto).
  assert (FN' : Forall noiseless (rev gs)) by (apply Forall_rev; exact FN).
  destruct (apply_gates_dm w n vals UNITARY mg gs U psi SO NE FN (circuit_on_gseq w n vals gs U HC FD) HS) as (phi & E1 & S1 & V1).
  destruct (apply_gates_dm w n vals DAGGER mg (rev gs) (kadj U) phi SO NE' FN' (circuit_on_gseq_dagger w n vals gs U HC FD) S1)
    as (chi & E2 & S2 & V2).
  exists phi; split; [exact E1|]. rewrite E2; do 2 f_equal.
  apply (density_ext n); auto.
  rewrite V2, (conjugate_ext n _ _ _ _ (keq_refl _ _) V1).
  apply unitary_cancel_dm; [eapply circuit_unitary; eauto|reflexivity].
Qed.

(** ** density matrices *)
Lemma c06_dm : forall so n rho u c cs ts,
    set_order so -> is_density n rho -> is_matrix (List.length ts) u -> control_qubits c cs -> valid_qubits n (cs ++ ts) ->
    exists rho', apply_operator_dm so rho u ts c = Ok rho' /\ is_density n rho' /\
      let E := ctrl_kernel (entry u) cs ts in
      keq n (rho_entry rho') (kmul n (kmul n E (rho_entry rho)) (kadj E)).
Proof.
  intros so n rho u c cs ts SO HR HM HC HV.
  exact (apply_operator_dm_spec so n rho u ts c cs SO HR HM (control_qubits_ctl c cs HC) HV).
Qed.

(** the kernel used there is the textbook action *)
Lemma c06_kernel : forall n M cs ts psi x, In x (bitstrings n) ->
    apply_kernel n (ctrl_kernel M cs ts) psi x =
    if all_ones (bits_at x cs)
    then csum (bitstrings (List.length ts)) (fun y => Cmul (M (bits_at x ts) y) (psi (overwrite x ts y)))
    else psi x.
Proof. intros; rewrite (ctrl_kernel_action n) by assumption; reflexivity. Qed.

Lemma c07_pure : forall w n vals gs gr mg psi,
    set_order (set_iter w) ->
    gs <> [] -> Forall (usable n vals) gs -> Forall dense_gate gs -> Forall noiseless gs ->
    (gr = true -> groupable gs) -> is_state n psi ->
    exists phi rho sigma,
      apply_gates w (SDense psi) (GMany gs) vals UNITARY gr mg = Ok (SDense phi) /\
      density_mat psi = Ok rho /\ density_mat phi = Ok sigma /\
      apply_gates w (SDM rho) (GMany gs) vals UNITARY gr mg = Ok (SDM sigma).
Proof.
  intros w n vals gs gr mg psi SO NE FU FD FN G HS.
  destruct (usable_circuit n vals gs FU) as (U & HC).
  pose proof (circuit_on_gseq w n vals gs U HC FD) as HG.
  destruct (apply_gates_dense_any w n vals UNITARY gr mg gs U psi NE FN G HG HS) as (phi & E1 & S1 & V1).
  destruct (density_mat_spec n psi HS) as (rho & E2 & D2 & R2).
  destruct (density_mat_spec n phi S1) as (sigma & E3 & D3 & R3).
  destruct (apply_gates_dm_any w n vals UNITARY gr mg gs U rho SO NE FN G HG D2) as (sigma' & E4 & D4 & R4).
  exists phi, rho, sigma; do 3 (split; [assumption|]).
  rewrite E4; do 2 f_equal. apply (density_ext n); auto.
  rewrite R4. intros x y Hx Hy.
  rewrite R3 by assumption. rewrite !V1 by assumption.
  rewrite <- (pure_conjugation n U (amp psi) x y Hx Hy).
  apply (conjugate_ext n U U); [reflexivity| |assumption|assumption].
  intros x' y' Hx' Hy'; apply R2; assumption.
Qed.

Lemma c08_apply_operator : forall so n rho u c cs ts,
    set_order so -> is_density n rho -> is_matrix (List.length ts) u -> unitary (List.length ts) (entry u) ->
    control_qubits c cs -> valid_qubits n (cs ++ ts) ->
    exists rho', apply_operator_dm so rho u ts c = Ok rho' /\ is_density n rho' /\
      ktrace n (rho_entry rho') = ktrace n (rho_entry rho) /\
      (hermitian n (rho_entry rho) -> hermitian n (rho_entry rho')) /\
      (positive n (rho_entry rho) -> positive n (rho_entry rho')).
Proof.
  intros so n rho u c cs ts SO HR HM HU HC HV.
  destruct (c06_dm so n rho u c cs ts SO HR HM HC HV) as (r & E & D & K).
  exists r; do 2 (split; [assumption|]). cbv zeta in K.
  assert (UK : unitary n (ctrl_kernel (entry u) cs ts)) by (apply ctrl_kernel_unitary; assumption).
  split; [rewrite K; apply ktrace_conjugation; exact UK|]; split; intro H.
  - eapply hermitian_ext; [apply keq_sym; exact K|apply hermitian_conjugation; exact H].
  - eapply positive_ext; [apply keq_sym; exact K|apply positive_conjugation; exact H].
Qed.

Lemma c08_circuits : forall w n vals gs gr mg rho,
    set_order (set_iter w) ->
    gs <> [] -> Forall (usable n vals) gs -> Forall dense_gate gs -> Forall noiseless gs ->
    (gr = true -> groupable gs) -> is_density n rho ->
    exists rho', apply_gates w (SDM rho) (GMany gs) vals UNITARY gr mg = Ok (SDM rho') /\ is_density n rho' /\
      ktrace n (rho_entry rho') = ktrace n (rho_entry rho) /\
      (hermitian n (rho_entry rho) -> hermitian n (rho_entry rho')) /\
      (positive n (rho_entry rho) -> positive n (rho_entry rho')).
Proof.
  intros w n vals gs gr mg rho SO NE FU FD FN G HR.
  destruct (usable_circuit n vals gs FU) as (U & HC).
  pose proof (circuit_on_gseq w n vals gs U HC FD) as HG.
  destruct (apply_gates_dm_any w n vals UNITARY gr mg gs U rho SO NE FN G HG HR) as (r & E & D & K).
  exists r; do 2 (split; [assumption|]).
  pose proof (circuit_unitary n vals gs U HC) as UK.
  split; [rewrite K; apply ktrace_conjugation; exact UK|]; split; intro H.
  - eapply hermitian_ext; [apply keq_sym; exact K|apply hermitian_conjugation; exact H].
  - eapply positive_ext; [apply keq_sym; exact K|apply positive_conjugation; exact H].
Qed.

Lemma c09_commute : forall n psi u c cs ts v c' cs' ts',
    is_state n psi -> is_matrix (List.length ts) u -> is_matrix (List.length ts') v ->
    control_qubits c cs -> control_qubits c' cs' ->
    valid_qubits n (cs ++ ts) -> valid_qubits n (cs' ++ ts') ->
    (forall q, In q (cs ++ ts) -> ~ In q (cs' ++ ts')) ->
    exists psi_u psi_v phi,
      apply_operator psi u ts c = Ok psi_u /\ apply_operator psi_u v ts' c' = Ok phi /\
      apply_operator psi v ts' c' = Ok psi_v /\ apply_operator psi_v u ts c = Ok phi.
Proof.
  intros n psi u c cs ts v c' cs' ts' HS MU MV HC HC' V V' D.
  assert (VV : valid_qubits n ((cs ++ ts) ++ (cs' ++ ts'))).
  { destruct V as [N F], V' as [N' F']; split; [apply NoDup_app_intro; assumption|apply Forall_app; auto]. }
  apply control_qubits_ctl in HC; apply control_qubits_ctl in HC'.
  destruct (apply_operator_spec n psi u ts c cs HS MU HC V) as (p1 & E1 & S1 & A1).
  destruct (apply_operator_spec n p1 v ts' c' cs' S1 MV HC' V') as (p2 & E2 & S2 & A2).
  destruct (apply_operator_spec n psi v ts' c' cs' HS MV HC' V') as (q1 & F1 & T1 & B1).
  destruct (apply_operator_spec n q1 u ts c cs T1 MU HC V) as (q2 & F2 & T2 & B2).
  exists p1, q1, p2; do 3 (split; [assumption|]).
  rewrite F2; f_equal; apply (state_ext n); auto.
  intros x Hx; rewrite A2, B2 by assumption.
  rewrite (ctrl_action_ext n _ _ _ _ _ A1 x Hx), (ctrl_action_ext n _ _ _ _ _ B1 x Hx).
  apply ctrl_action_comm with (n := n); assumption.
Qed.

(** ** merging *)
Lemma jacobian_opk : forall w n vals g M cs ts, gate_on n vals g M cs ts -> dense_gate g -> parametric g ->
    exists K, opk w JACOBIAN vals n g K.
Proof.
  intros w n vals g M cs ts [GM GC GT GV] HD HP; subst ts.
  assert (A : exists u, operator_of w JACOBIAN g vals = Ok (MD u) /\ is_matrix (List.length (target g)) u).
  { unfold operator_of, jacobian_of; destruct GM as [name M E1 E2 E3 H|E1 E2 E3|name R_ t E1 E2 E3 HA H|t E1 E3 HA];
      try (destruct HP as [HP|HP]; rewrite E1 in HP; discriminate HP).
    - rewrite E1, E3. apply angle_parse in HA; unfold generator; unfold dense_gate in HD; rewrite HD, E2, HA.
      simpl in H; destruct H as [H|[H|[H|H]]]; try contradiction; injection H as <- <-; cbn;
        (eexists; split; [reflexivity|split; reflexivity]).
    - rewrite E1, E3. apply angle_parse in HA; rewrite HA; unfold dense_gate in HD; rewrite HD; cbn.
      eexists; split; [reflexivity|split; reflexivity]. }
  destruct A as (u & EU & MU). exists (ctrl_kernel (entry u) cs (target g)).
  exists u, cs; repeat split; auto; try apply MU; apply GV.
Qed.


Lemma usable_gseq : forall w ot n vals gs, Forall (usable n vals) gs -> Forall dense_gate gs ->
    Forall (has_operation ot) gs -> exists K, gseq w ot vals n gs K.
Proof.
  induction gs as [|g gs IH]; intros FU FD FO; [exists kid; constructor; apply keq_refl|].
  inversion FU as [|? ? (M & cs & ts & HG) FU']; inversion FD as [|? ? HD FD']; inversion FO as [|? ? HO FO']; subst.
  destruct (IH FU' FD' FO') as (L & HL).
  assert (A : exists P, opk w ot vals n g P).
  { destruct ot; [eexists; eapply gate_on_opk; eauto|eexists; eapply gate_on_opk_dagger; eauto|
                  eapply jacobian_opk; eauto]. }
  destruct A as (P & HP). exists (kmul n L P); econstructor; [exact HP|exact HL|apply keq_refl].
Qed.


Lemma c10_merge_any : forall w n vals ot gr gs s,
    set_order (set_iter w) ->
    gs <> [] -> Forall (usable n vals) gs -> Forall dense_gate gs -> Forall (has_operation ot) gs -> state_of n s ->
    apply_gates w s (GMany gs) vals ot gr true = apply_gates w s (GMany gs) vals ot gr false.
Proof.
  intros w n vals ot gr gs0 s SO NE FU FD FO HS.
  set (gs := if gr then group_by_index gs0 else gs0).
  assert (EG : forall mg, apply_gates w s (GMany gs0) vals ot gr mg = apply_gates w s (GMany gs) vals ot false mg).
  { intro mg; unfold gs; destruct gr; reflexivity. }
  rewrite !EG; clear EG.
  assert (NE' : gs <> []) by (unfold gs; destruct gr; [apply group_nonempty|]; assumption).
  assert (P : Permutation gs0 gs) by (unfold gs; destruct gr; [apply Permutation_sym, group_by_index_perm|apply Permutation_refl]).
  apply (Forall_perm _ _ _ P) in FU; apply (Forall_perm _ _ _ P) in FD; apply (Forall_perm _ _ _ P) in FO.
  clear P NE; clearbody gs; clear gs0.
  destruct (no_noise (map noise gs)) eqn:EN.
  - apply no_noise_spec in EN.
    destruct (usable_gseq w ot n vals gs FU FD FO) as (K & HK).
    destruct s as [a|b|a]; simpl in HS; [|destruct HS|].
    + destruct (apply_gates_dense w n vals ot true gs K a NE' EN HK HS) as (r1 & E1 & S1 & V1).
      destruct (apply_gates_dense w n vals ot false gs K a NE' EN HK HS) as (r2 & E2 & S2 & V2).
      rewrite E1, E2; do 2 f_equal; apply (state_ext n); auto; rewrite V1, V2; reflexivity.
    + destruct (apply_gates_dm w n vals ot true gs K a SO NE' EN HK HS) as (r1 & E1 & S1 & V1).
      destruct (apply_gates_dm w n vals ot false gs K a SO NE' EN HK HS) as (r2 & E2 & S2 & V2).
      rewrite E1, E2; do 2 f_equal; apply (density_ext n); auto; rewrite V1, V2; reflexivity.
  - unfold apply_gates, prepare_sequence_reduce; rewrite EN; cbn [andb]; reflexivity.
Qed.

Lemma foldM_app : forall {A S} (f : S -> A -> res S) l1 l2 s,
    foldM f (l1 ++ l2) s = let! s' := foldM f l1 s in foldM f l2 s'.
Proof.
  induction l1 as [|x l1 IH]; intros l2 s; simpl; [reflexivity|].
  destruct (f s x); simpl; [apply IH|reflexivity].
Qed.

(** one step at a time: noiseless gates on state vectors, any gates on density matrices *)
Lemma step_stays_dense : forall w a o t c s, apply_operator_state w (SDense a) o t c = Ok s -> exists b, s = SDense b.
Proof.
  intros w a [o|o] t c s H; simpl in H; [|discriminate].
  destruct (apply_operator a o t c); simpl in H; [injection H as <-; eauto|discriminate].
Qed.
Lemma step_stays_dm : forall w a o t c s, apply_operator_state w (SDM a) o t c = Ok s -> exists b, s = SDM b.
Proof.
  intros w a [o|o] t c s H; simpl in H; [|discriminate].
  destruct (apply_operator_dm _ a o t c); simpl in H; [injection H as <-; eauto|discriminate].
Qed.
Lemma noise_stays_dm : forall t fs ns a s, foldM (fun s n_i => apply_noise s t fs n_i) ns (SDM a) = Ok s -> exists b, s = SDM b.
Proof.
  induction ns as [|x ns IH]; intros a s H; cbn [foldM] in H; [injection H as <-; eauto|].
  unfold apply_noise in H at 1; destruct (kraus x); cbn [bind] in H; [|discriminate].
  destruct (mapM _ _); cbn [bind] in H; [|discriminate].
  destruct (apply_kraus_sum _ _ _); cbn [bind] in H; [|discriminate]. eapply IH; exact H.
Qed.
Lemma noisy_stays_dm : forall w a o t c ns s, apply_operator_with_noise w (SDM a) o t c ns = Ok s -> exists b, s = SDM b.
Proof.
  intros w a o t c ns s H; unfold apply_operator_with_noise in H.
  destruct (apply_operator_state w (SDM a) o t c) as [s1|] eqn:E; cbn [bind] in H; [|discriminate].
  destruct (step_stays_dm _ _ _ _ _ _ E) as (b & ->).
  destruct ns as [l|]; [|injection H as <-; eauto].
  cbn [num_qubits bind] in H. eapply noise_stays_dm; exact H.
Qed.

Lemma sequential_dense : forall w vals ot gs ops a,
    Forall noiseless gs -> mapM (fun g => operator_of w ot g vals) gs = Ok ops ->
    foldM (fun s (p : placed) => let '(o, t, c) := p in apply_operator_state w s o t c)
          (map (fun og => (fst og, target (snd og), control (snd og))) (combine ops gs)) (SDense a)
    = foldM (fun s g => apply_gates w s (GOne g) vals ot false false) gs (SDense a).
Proof.
  intros w vals ot gs; induction gs as [|g gs IH]; intros ops a FN H; cbn [mapM] in H.
  - injection H as <-; reflexivity.
  - destruct (operator_of w ot g vals) as [o|] eqn:EO; cbn [bind] in H; [|discriminate].
    destruct (mapM _ gs) as [ops'|] eqn:EM; cbn [bind] in H; [|discriminate]. injection H as <-.
    inversion FN as [|? ? HN FN']; subst.
    cbn [combine map foldM fst snd].
    unfold apply_gates at 1, prepare_sequence_reduce; rewrite EO; cbn [bind fst snd]; rewrite HN.
    cbn [no_noise forallb andb negb foldM].
    destruct (apply_operator_state w (SDense a) o (target g) (control g)) as [s|] eqn:ES; cbn [bind]; [|reflexivity].
    destruct (step_stays_dense _ _ _ _ _ _ ES) as (b & ->). apply IH; auto.
Qed.
Lemma sequential_dm : forall w vals ot gs ops a,
    mapM (fun g => operator_of w ot g vals) gs = Ok ops ->
    foldM (fun s (pn : placed * option (list noise_inst)) => let '(o, t, c, n) := pn in apply_operator_with_noise w s o t c n)
          (combine (map (fun og => (fst og, target (snd og), control (snd og))) (combine ops gs)) (map noise gs)) (SDM a)
    = foldM (fun s g => apply_gates w s (GOne g) vals ot false false) gs (SDM a).
Proof.
  intros w vals ot gs; induction gs as [|g gs IH]; intros ops a H; cbn [mapM] in H.
  - injection H as <-; reflexivity.
  - destruct (operator_of w ot g vals) as [o|] eqn:EO; cbn [bind] in H; [|discriminate].
    destruct (mapM _ gs) as [ops'|] eqn:EM; cbn [bind] in H; [|discriminate]. injection H as <-.
    cbn [combine map foldM fst snd].
    unfold apply_gates at 1, prepare_sequence_reduce; rewrite EO; cbn [bind fst snd].
    cbn [combine foldM].
    destruct (apply_operator_with_noise w (SDM a) o (target g) (control g) (noise g)) as [s|] eqn:ES; cbn [bind]; [|reflexivity].
    destruct (noisy_stays_dm _ _ _ _ _ _ _ ES) as (b & ->). apply IH; auto.
Qed.

Lemma c10_sequential : forall w n vals ot mg gs s,
    set_order (set_iter w) ->
    gs <> [] -> Forall (usable n vals) gs -> Forall dense_gate gs -> Forall (has_operation ot) gs -> state_of n s ->
    (match s with SDense _ => Forall noiseless gs | _ => True end) ->
    apply_gates w s (GMany gs) vals ot false mg =
    foldM (fun s g => apply_gates w s (GOne g) vals ot false false) gs s.
Proof.
  intros w n vals ot mg gs s SO NE FU FD FO HS HN.
  assert (EM : apply_gates w s (GMany gs) vals ot false mg = apply_gates w s (GMany gs) vals ot false false).
  { destruct mg; [apply c10_merge_any with (n := n); auto|reflexivity]. }
  rewrite EM; clear EM.
  destruct (usable_gseq w ot n vals gs FU FD FO) as (K & HK).
  destruct (gseq_placed w ot vals n gs K HK) as (ops & EO & _ & _).
  unfold apply_gates at 1, prepare_sequence_reduce; cbv zeta iota; rewrite EO; cbn [bind].
  destruct gs as [|g gs]; [contradiction|]. rewrite andb_false_r; cbn [bind fst snd].
  destruct s as [a|b|a]; simpl in HS; [|destruct HS|].
  - replace (no_noise (map noise (g :: gs))) with true by (symmetry; apply no_noise_spec; exact HN).
    cbn [negb]. apply sequential_dense; auto.
  - apply sequential_dm; auto.
Qed.

Lemma single_groupable : forall gs, single_qubit_uncontrolled gs -> groupable gs.
Proof.
  intros gs H g h Hg Hh Cg Ch.
  pose proof (H g Hg Cg) as Lg; pose proof (H h Hh Ch) as Lh; unfold same_or_disjoint.
  destruct (target g) as [|x [|? ?]]; try discriminate Lg; destruct (target h) as [|y [|? ?]]; try discriminate Lh.
  destruct (Nat.eq_dec x y) as [->|NE]; [left; reflexivity|].
  right; intros q [->|[]] [->|[]]; apply NE; reflexivity.
Qed.

Lemma c11_group_noiseless : forall w n vals ot mg gs s,
    set_order (set_iter w) ->
    Forall (usable n vals) gs -> Forall dense_gate gs -> Forall noiseless gs -> Forall (has_operation ot) gs ->
    groupable gs -> state_of n s ->
    apply_gates w s (GMany gs) vals ot true mg = apply_gates w s (GMany gs) vals ot false mg.
Proof.
  intros w n vals ot mg gs s SO FU FD FN FO G HS.
  destruct gs as [|g gs]; [destruct mg; reflexivity|].
  assert (NE : g :: gs <> []) by discriminate.
  destruct (usable_gseq w ot n vals _ FU FD FO) as (K & HK).
  destruct s as [a|b|a]; simpl in HS; [|destruct HS|].
  - destruct (apply_gates_dense_any w n vals ot true mg _ K a NE FN (fun _ => G) HK HS) as (r1 & E1 & S1 & V1).
    destruct (apply_gates_dense_any w n vals ot false mg _ K a NE FN (fun _ => G) HK HS) as (r2 & E2 & S2 & V2).
    rewrite E1, E2; do 2 f_equal; apply (state_ext n); auto; rewrite V1, V2; reflexivity.
  - destruct (apply_gates_dm_any w n vals ot true mg _ K a SO NE FN (fun _ => G) HK HS) as (r1 & E1 & S1 & V1).
    destruct (apply_gates_dm_any w n vals ot false mg _ K a SO NE FN (fun _ => G) HK HS) as (r2 & E2 & S2 & V2).
    rewrite E1, E2; do 2 f_equal; apply (density_ext n); auto; rewrite V1, V2; reflexivity.
Qed.

(** ** a gate list for which grouping is wrong *)
Definition ket00 : arr := mkArr [2; 2] [C1; C0; C0; C0].
Definition bad_group : list gate := [gX (TInt 1) no_control None false; SWAP (TTup [0; 1]) no_control None false].
Lemma c12_refuted : forall w vals mg, exists r1 r2,
    is_state 2 ket00 /\ Forall (usable 2 vals) bad_group /\
    apply_gates w (SDense ket00) (GMany bad_group) vals UNITARY true mg = Ok (SDense r1) /\
    apply_gates w (SDense ket00) (GMany bad_group) vals UNITARY false mg = Ok (SDense r2) /\
    amp r1 [1; 0] = C0 /\ amp r2 [1; 0] = C1.
Proof.
  intros w vals mg.
  do 2 eexists; split; [split; reflexivity|]; split.
  - repeat constructor.
    + exists X_matrix, [], [1]; split; [eapply gm_fixed; simpl; eauto|constructor|reflexivity|].
      split; [repeat constructor; simpl; intuition|repeat constructor].
    + exists SWAP_matrix, [], [0;1]; split; [eapply gm_SWAP; simpl; eauto|constructor|reflexivity|].
      split; [repeat constructor; simpl; intuition; discriminate|repeat constructor].
  - split; [destruct mg; lazy -[Rplus Rmult Ropp]; reflexivity|].
    split; [destruct mg; lazy -[Rplus Rmult Ropp]; reflexivity|].
    unfold amp, get; lazy -[Rplus Rmult Ropp Rminus IZR]. split; f_equal; lra.
Qed.

(** ** empty circuits *)
Lemma c13_apply_gates_raises : forall w s vals ot gr mg, apply_gates w s (GMany []) vals ot gr mg = Err TypeError.
Proof. intros w s vals ot [|] mg; reflexivity. Qed.

Lemma c13_expectation_raises : forall w s l vals nq fp,
    ad_expectation w s (OSeq []) [l] vals <> Ok [] /\
    (forall r, ad_expectation w s (OSeq []) [l] vals <> Ok r) /\
    (forall r, ad_expectation w s (OQC nq [] fp) [l] vals <> Ok r).
Proof.
  intros w s l vals nq fp.
  assert (A : forall o r, iter o = [] -> ad_expectation w s o [l] vals <> Ok r).
  { intros o r E H; unfold ad_expectation in H.
    destruct (values_processing vals) as [co|]; cbn [bind] in H; [|discriminate].
    cbn [mapM] in H; unfold run_flat in H; rewrite E in H; cbn in H; discriminate. }
  repeat split; [|intro r|intro r]; apply A; reflexivity.
Qed.


Lemma c13_run : forall w o, empty_circuit o -> forall s vals, run w o s vals = Ok (Some s).
Proof.
  intros w; fix IH 2; intros o H s vals; destruct H as [l F|n l fp F]; unfold run; cbn [call];
    (induction F as [|x l Hx F IHF]; [reflexivity|cbn [foldM]; rewrite (IH x Hx s vals : call w vals x (Some s) = _); exact IHF]).
Qed.

(** ** expand_operator *)

Lemma StronglySorted_lt_le : forall l, StronglySorted lt l -> StronglySorted le l /\ NoDup l.
Proof.
  induction 1 as [|x l H [IH ND] F]; split; constructor; auto.
  - eapply Forall_impl; [|exact F]; simpl; intros; lia.
  - intro I; rewrite Forall_forall in F; apply F in I; lia.
Qed.

Lemma positions_index_of : forall sub full ps, NoDup full -> positions sub full ps ->
    ps = map (fun q => index_of q full) sub.
Proof.
  intros sub full ps ND [L H]; apply nth_ext with (d := 0) (d' := 0); [rewrite map_length; exact L|].
  intros i Hi; rewrite L in Hi. destruct (H i Hi) as [H1 H2].
  rewrite (nth_indep (map _ sub) 0 (index_of 0 full)) by (rewrite map_length; exact Hi).
  rewrite (map_nth (fun q => index_of q full) sub 0 i), <- H2, index_of_nth; auto.
Qed.

Lemma c14_expand : forall u qs fs sq sf ps,
    is_matrix (List.length qs) u ->
    StronglySorted lt sq -> Permutation sq qs -> StronglySorted lt sf -> Permutation sf fs ->
    positions sq sf ps ->
    exists r, expand_operator u qs fs = Ok r /\ is_matrix (List.length fs) r /\
      forall psi x, In x (bitstrings (List.length fs)) ->
        apply_kernel (List.length fs) (entry r) psi x =
        csum (bitstrings (List.length qs)) (fun y => Cmul (entry u (bits_at x ps) y) (psi (overwrite x ps y))).
Proof.
  intros u qs fs sq sf ps HM SQ PQ SF PF HP.
  apply StronglySorted_lt_le in SQ as [SQ NQ]; apply StronglySorted_lt_le in SF as [SF NF].
  assert (NQ' : NoDup qs) by (eapply Permutation_NoDup; eauto).
  assert (NF' : NoDup fs) by (eapply Permutation_NoDup; eauto).
  assert (EQ : sorted qs = sq) by (rewrite <- (sorted_id sq SQ); apply sorted_perm_eq, Permutation_sym; exact PQ).
  assert (EF : sorted fs = sf) by (rewrite <- (sorted_id sf SF); apply sorted_perm_eq, Permutation_sym; exact PF).
  assert (INC : incl qs fs).
  { intros q Hq. apply (Permutation_in q (Permutation_sym PQ)) in Hq.
    apply In_nth with (d := 0) in Hq as (i & Hi & <-). destruct HP as [_ HP]; destruct (HP i Hi) as [H1 <-].
    eapply Permutation_in; [exact PF|apply nth_In; exact H1]. }
  destruct (expand_operator_spec (List.length qs) u qs fs HM eq_refl NQ' NF' INC) as (r & E & MR & K).
  exists r; do 2 (split; [assumption|]). intros psi x Hx.
  rewrite (apply_kernel_ext _ _ _ psi psi K (veq_refl _ _) x Hx).
  rewrite EQ, EF, <- (positions_index_of sq sf ps NF HP).
  rewrite (ctrl_kernel_action _ _ _ _ _ _ Hx); unfold ctrl_action, gate_action; cbn [bits_at map all_ones forallb].
  replace (List.length ps) with (List.length qs); [reflexivity|].
  destruct HP as [-> _]; symmetry; apply Permutation_length; exact PQ.
Qed.

Lemma c14_raises : forall u qs fs, (exists q, In q qs /\ ~ In q fs) -> expand_operator u qs fs = Err ValueError.
Proof. intros u qs fs (q & H1 & H2); apply expand_operator_raises; intro I; apply H2, I, H1. Qed.

Lemma c15_permute : forall a s, wf a -> ndim a = 2 * List.length s ->
    (let! r := permute_basis a s false in permute_basis r s true) = Ok a /\
    (let! r := permute_basis a s true in permute_basis r s false) = Ok a.
Proof.
  intros a s W N; split.
  - destruct (permute_basis_roundtrip a s false W N) as (r & E1 & E2); rewrite E1; exact E2.
  - destruct (permute_basis_roundtrip a s true W N) as (r & E1 & E2); rewrite E1; exact E2.
Qed.
