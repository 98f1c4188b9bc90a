(** * Closed forms of Hamiltonian evolution (C113) *)
From Coq Require Import String List Arith Bool ZArith Reals Lia Lra Permutation Sorted.
From Verif Require Import Cplx Py PyFacts Ndarray NdFacts NdPerm OperatorUtils ApplyOperator
  Spec SpecFacts Deriv ApplyFacts DmFacts ExpandFacts Sparse Matrices Noise Gates Apply Composite Api
  GateSpec PropSpec NoiseSpec ExpectSpec GateFacts CircuitFacts AlgebraFacts GroupFacts TensorFacts TensorThm ApplyThm GateThm EvolThm
  SampleSpec SampleThm SeqThm ExpectThm ExpectThm2 EvolSpec EvolThm2 CircuitLawSpec CircuitLawThm.
Import ListNotations.
Local Open Scope nat_scope.

(** ** the solution of E' = a E, E(0) = 1 is unique *)
Lemma exponential_unique : forall e k a (F : R -> op), exponential_of e k a -> keq k (kadj (entry a)) (kscale (RtoC (-1)) (entry a)) ->
    keq k (F 0%R) kid -> (forall t, kderiv k F t (kmul k (entry a) (F t))) ->
    forall t, keq k (entry (e (scale (RtoC t) a))) (F t).
Proof.
  intros e k a F HE HA F0 DF t. destruct (exponential_unitary e k a HE HA) as [UU _]. destruct HE as (_ & _ & E0 & DE).
  set (U := fun t => entry (e (scale (RtoC t) a))) in *. cbv zeta in UU.
  assert (GC : forall s s', keq k (kmul k (kadj (U s)) (F s)) (kmul k (kadj (U s')) (F s'))).
  { apply (kderiv_zero_const k (fun s => kmul k (kadj (U s)) (F s))). intro s.
    eapply kderiv_eq; [|apply kderiv_mul; [apply kderiv_adj, DE|apply DF]].
    fold (U s). rewrite kadj_mul, HA, kmul_kscale_r, kmul_kscale_l, kmul_assoc.
    intros x y Hx Hy; unfold kadd, kscale; apply C_ext; simpl; ring. }
  specialize (GC t 0%R). change (keq k (U 0%R) kid) in E0. rewrite E0, F0, kadj_id, kmul_id_l in GC.
  assert (E : keq k (kmul k (U t) (kmul k (kadj (U t)) (F t))) (U t)) by (rewrite GC; apply kmul_id_r).
  pose proof (proj2 (UU t)) as W. change (keq k (kmul k (U t) (kadj (U t))) kid) in W.
  rewrite <- kmul_assoc, W, kmul_id_l in E. change (keq k (U t) (F t)). symmetry; exact E.
Qed.

(** cos(t) 1 - i sin(t) A *)
Definition turn (A : op) (t : R) : op := kadd (kscale (RtoC (cos t)) kid) (kscale (Cmul (Copp Ci) (RtoC (sin t))) A).
Lemma Cderiv_cos : forall t, Cderiv (fun s => RtoC (cos s)) t (RtoC (- sin t)).
Proof. intro t. apply Cderiv_RtoC, derivable_pt_lim_cos. Qed.
Lemma Cderiv_sin : forall t, Cderiv (fun s => RtoC (sin s)) t (RtoC (cos t)).
Proof. intro t. apply Cderiv_RtoC, derivable_pt_lim_sin. Qed.
Lemma turn_deriv : forall k A t, keq k (kmul k A A) kid -> kderiv k (turn A) t (kmul k (kscale (Copp Ci) A) (turn A t)).
Proof.
  intros k A t AA. apply (kderiv_eq k _ _ (kadd (kscale (RtoC (- sin t)) kid) (kscale (Cmul (Copp Ci) (RtoC (cos t))) A))).
  - unfold turn. rewrite kmul_kadd_r, !kmul_kscale_l, !kmul_kscale_r, kmul_id_r, AA.
    intros x y Hx Hy. unfold kadd, kscale. apply C_ext; simpl; ring.
  - intros x y Hx Hy. unfold turn, kadd, kscale. apply Cderiv_add; apply Cderiv_scale_r; [apply Cderiv_cos|]. apply Cderiv_scale, Cderiv_sin.
Qed.
Lemma turn_0 : forall k A, keq k (turn A 0) kid.
Proof. intros k A x y Hx Hy. unfold turn, kadd, kscale. rewrite cos_0, sin_0. apply C_ext; simpl; ring. Qed.
Lemma involution_exponential : forall e k h, is_matrix k h -> hermitian k (entry h) -> keq k (kmul k (entry h) (entry h)) kid ->
    exponential_of e k (minus_i h) -> forall t, keq k (entry (e (scale (RtoC t) (minus_i h)))) (turn (entry h) t).
Proof.
  intros e k h HM HH HI HE. apply exponential_unique; [exact HE|apply minus_i_adj; assumption|apply turn_0|].
  intro t. destruct (scale_matrix k (Copp Ci) h HM) as [_ E]. eapply kderiv_eq; [|apply turn_deriv; exact HI].
  apply kmul_ext; [apply keq_sym; exact E|apply keq_refl].
Qed.

(** ** applying it *)
Lemma evolution_run : forall w n psi h ts c cs t,
    is_state n psi -> is_matrix (List.length ts) h -> hermitian (List.length ts) (entry h) ->
    exponential_of (expm w) (List.length ts) (minus_i h) ->
    control_qubits (parse_control c) cs -> valid_qubits n (cs ++ ts) ->
    exists out, run w (OGate (HamiltonianEvolution (TTup ts) c)) (SDense psi) (evolution_values h t) = Ok (Some (SDense out)) /\ is_state n out /\
      veq n (amp out) (apply_kernel n (gate_op (entry (expm w (scale (RtoC t) (minus_i h)))) cs ts) (amp psi)).
Proof.
  intros w n psi h ts c cs t HS HM HH HE HC HV.
  assert (HG : hybrid_circuit w n (evolution_values h t) [HamiltonianEvolution (TTup ts) c]
                 (kmul n kid (gate_op (entry (expm w (scale (RtoC t) (minus_i h)))) cs ts))).
  { apply hc_cons; [|apply hc_nil]. eapply hg_evolution; try eassumption; reflexivity. }
  destruct (c99_run w n _ (OGate (HamiltonianEvolution (TTup ts) c)) _ _ psi psi (so_gate _) HG HS HS) as (out & _ & E & _ & So & _ & V & _).
  exists out. split; [exact E|]. split; [exact So|]. rewrite V. apply apply_kernel_ext; [apply kmul_id_l|apply veq_refl].
Qed.
Lemma c113_involution : forall w n psi h ts c cs t,
    is_state n psi -> is_matrix (List.length ts) h -> hermitian (List.length ts) (entry h) ->
    keq (List.length ts) (kmul (List.length ts) (entry h) (entry h)) kid ->
    exponential_of (expm w) (List.length ts) (minus_i h) ->
    control_qubits (parse_control c) cs -> valid_qubits n (cs ++ ts) ->
    exists out, run w (OGate (HamiltonianEvolution (TTup ts) c)) (SDense psi) (evolution_values h t) = Ok (Some (SDense out)) /\ is_state n out /\
      forall x, In x (bitstrings n) ->
        amp out x = if all_ones (bits_at x cs)
                    then Cadd (Cmul (RtoC (cos t)) (amp psi x)) (Cmul (Cmul (Copp Ci) (RtoC (sin t))) (apply_kernel n (gate_op (entry h) [] ts) (amp psi) x))
                    else amp psi x.
Proof.
  intros w n psi h ts c cs t HS HM HH HI HE HC HV.
  destruct (evolution_run w n psi h ts c cs t HS HM HH HE HC HV) as (out & E & So & V).
  exists out. split; [exact E|]. split; [exact So|]. intros x Hx. rewrite (V x Hx).
  pose proof (involution_exponential _ _ h HM HH HI HE t) as K.
  unfold gate_op. transitivity (apply_kernel n (ctrl_kernel (turn (entry h) t) cs ts) (amp psi) x).
  { apply apply_kernel_ext; [apply ctrl_kernel_ext; exact K|apply veq_refl|exact Hx]. }
  rewrite !(ctrl_kernel_action n) by exact Hx. unfold ctrl_action. cbn [bits_at map all_ones forallb].
  destruct (all_ones (bits_at x cs)); [|reflexivity].
  unfold gate_action. rewrite <- csum_scale_l.
  assert (V1 : valid_qubits n ts) by (apply valid_app in HV; apply HV).
  assert (Q : csum (bitstrings (length ts)) (fun z => Cmul (kid (bits_at x ts) z) (amp psi (overwrite x ts z))) = amp psi x).
  { rewrite csum_kid_l by (apply (bits_at_bits n); exact Hx). f_equal. apply overwrite_self.
    intros q Hq. rewrite (bitstrings_length n x Hx). destruct V1 as [_ V1]. rewrite Forall_forall in V1. apply V1; exact Hq. }
  rewrite <- Q. rewrite <- csum_scale_l, <- csum_add. apply csum_ext. intros z Hz. unfold turn, kadd, kscale. ring.
Qed.

(** ** equal operators give equal runs *)
Lemma hybrid_app : forall w n vals gs gs' U U', hybrid_circuit w n vals gs U -> hybrid_circuit w n vals gs' U' ->
    exists W, hybrid_circuit w n vals (gs ++ gs') W /\ keq n W (kmul n U' U).
Proof.
  intros w n vals gs gs' U U' H H'. induction H as [|g gs K U HG HC (W & HW & E)].
  - exists U'. split; [exact H'|]. apply keq_sym, kmul_id_r.
  - exists (kmul n W K). split; [apply hc_cons; assumption|]. rewrite E, kmul_assoc. apply keq_refl.
Qed.
Lemma hybrid_same : forall w n vals vals' c c' gs gs' U U' st, set_order (set_iter w) -> sequence_of c gs -> sequence_of c' gs' ->
    hybrid_circuit w n vals gs U -> hybrid_circuit w n vals' gs' U' -> keq n U U' -> state_of n st ->
    exists out, run w c st vals = Ok (Some out) /\ run w c' st vals' = Ok (Some out) /\ state_of n out.
Proof.
  intros w n vals vals' c c' gs gs' U U' st SO HQ HQ' HC HC' E HS. destruct st as [psi|s|rho]; [|destruct HS|].
  - destruct (c99_run w n vals c gs U psi psi HQ HC HS HS) as (a & _ & Ea & _ & Sa & _ & Va & _).
    destruct (c99_run w n vals' c' gs' U' psi psi HQ' HC' HS HS) as (b & _ & Eb & _ & Sb & _ & Vb & _).
    assert (a = b) as <-. { apply (state_ext n); [exact Sa|exact Sb|]. rewrite Va, Vb. apply apply_kernel_ext; [exact E|apply veq_refl]. }
    exists (SDense a). auto.
  - destruct (c99_density w n vals c gs U rho SO HQ HC HS) as (a & Ea & Sa & Va).
    destruct (c99_density w n vals' c' gs' U' rho SO HQ' HC' HS) as (b & Eb & Sb & Vb).
    assert (a = b) as <-. { apply (density_ext n); [exact Sa|exact Sb|]. rewrite Va, Vb. apply sandwiched_keq; [exact E|apply keq_refl]. }
    exists (SDM a). auto.
Qed.

Lemma rotation_turn : forall rot G t, In (rot, G) rotations ->
    exists R_ , (forall q c vals, gate_matrix vals (rot (PNum (2 * t)) (TInt q) c None false) (R_ (2 * t + 0)%R)) /\ keq 1 (R_ (2 * t + 0)%R) (turn G t).
Proof.
  intros rot G t I. assert (T : ((2 * t + 0) / 2 = t)%R) by lra. assert (T' : (- (2 * t + 0) / 2 = - t)%R) by lra.
  destruct I as [I|[I|[I|[]]]]; injection I as <- <-; [exists RX_matrix|exists RY_matrix|exists RZ_matrix]; (split;
    [intros q c vals; eapply gm_rotation; simpl; eauto; eexists; split; reflexivity|]); intros x y Hx Hy;
    unfold turn, kadd, kscale, kid, RX_matrix, RY_matrix, RZ_matrix, X_matrix, Y_matrix, Z_matrix, Cn, Cexpi; cbv zeta; rewrite ?T, ?T', ?cos_neg, ?sin_neg;
    bits1 Hx; bits1 Hy; cbn; apply C_ext; simpl; ring.
Qed.
Lemma c113_rotation : forall w n vals circuit circuit' gs1 gs2 U1 U2 rot G h t q c cs st, set_order (set_iter w) ->
    lookup vals "hamiltonian"%string = Ok (VMat h) -> lookup vals "time_evolution"%string = Ok (VNum t) ->
    In (rot, G) rotations -> is_matrix 1 h -> keq 1 (entry h) G -> exponential_of (expm w) 1 (minus_i h) ->
    control_qubits (parse_control c) cs -> valid_qubits n (cs ++ [q]) ->
    hybrid_circuit w n vals gs1 U1 -> hybrid_circuit w n vals gs2 U2 ->
    sequence_of circuit (gs1 ++ [HamiltonianEvolution (TTup [q]) c] ++ gs2) ->
    sequence_of circuit' (gs1 ++ [rot (PNum (2 * t)) (TInt q) c None false] ++ gs2) -> state_of n st ->
    exists out, run w circuit st vals = Ok (Some out) /\ run w circuit' st vals = Ok (Some out) /\ state_of n out.
Proof.
  intros w n vals circuit circuit' gs1 gs2 U1 U2 rot G h t q c cs st SO EH ET HR HM HG HE HC HV H1 H2 Q Q' HS.
  destruct (rotations_pauli rot G HR) as [GA GI].
  assert (HH : hermitian 1 (entry h)) by (unfold hermitian; eapply keq_trans; [apply kadj_ext; exact HG|]; eapply keq_trans; [exact GA|apply keq_sym; exact HG]).
  assert (HI : keq 1 (kmul 1 (entry h) (entry h)) kid) by (rewrite HG; exact GI).
  destruct (rotation_turn rot G t HR) as (R_ & GM & RT).
  assert (A : hybrid_gate w n vals (HamiltonianEvolution (TTup [q]) c) (gate_op (entry (expm w (scale (RtoC t) (minus_i h)))) cs [q])).
  { eapply hg_evolution; eassumption. }
  assert (B : hybrid_gate w n vals (rot (PNum (2 * t)) (TInt q) c None false) (gate_op (R_ (2 * t + 0)%R) cs [q])).
  { apply hg_library; [split; [apply GM| | |exact HV]| |]; destruct HR as [I|[I|[I|[]]]]; injection I as <- <-; first [exact HC|reflexivity]. }
  destruct (hybrid_app w n vals _ gs2 _ U2 (hc_cons w n vals _ _ _ _ A (hc_nil w n vals)) H2) as (WA & HA & EA).
  destruct (hybrid_app w n vals _ gs2 _ U2 (hc_cons w n vals _ _ _ _ B (hc_nil w n vals)) H2) as (WB & HB & EB).
  destruct (hybrid_app w n vals gs1 _ U1 _ H1 HA) as (VA & HA' & EA'). destruct (hybrid_app w n vals gs1 _ U1 _ H1 HB) as (VB & HB' & EB').
  eapply (hybrid_same w n vals vals circuit circuit' _ _ VA VB); try eassumption.
  rewrite EA', EB', EA, EB. apply kmul_ext; [|apply keq_refl]. apply kmul_ext; [apply keq_refl|]. apply kmul_ext; [apply keq_refl|].
  apply ctrl_kernel_ext. eapply keq_trans; [apply (involution_exponential _ 1 h HM HH HI HE)|]. eapply keq_trans; [|apply keq_sym; exact RT].
  unfold turn. apply kadd_ext; [apply keq_refl|]. intros x y Hx Hy. unfold kscale. rewrite (HG x y Hx Hy). reflexivity.
Qed.

(** ** sums of Hamiltonians that commute *)
Lemma exponential_commutes : forall e k h B, is_matrix k h -> hermitian k (entry h) -> exponential_of e k (minus_i h) ->
    keq k (kmul k B (entry h)) (kmul k (entry h) B) ->
    forall t, let U := entry (e (scale (RtoC t) (minus_i h))) in keq k (kmul k B U) (kmul k U B).
Proof.
  intros e k h B HM HH HE CM t. destruct (exponential_unitary _ _ _ HE (minus_i_adj _ _ HM HH)) as [UU _].
  destruct HE as (Ma & Me & E0 & DE). cbv zeta in *.
  set (U := fun t => entry (e (scale (RtoC t) (minus_i h)))) in *.
  assert (D : forall t, kderiv k U t (kmul k (kscale (Copp Ci) (entry h)) (U t))).
  { intro s. destruct (scale_matrix k (Copp Ci) h HM) as [_ E]. eapply kderiv_eq; [|apply DE]. apply kmul_ext; [exact E|apply keq_refl]. }
  pose proof (generator_kept k U (entry h) B HH E0 D CM t) as G.
  pose proof (proj2 (UU t)) as W. change (keq k (kmul k (U t) (kadj (U t))) kid) in W.
  change (keq k (kmul k B (U t)) (kmul k (U t) B)).
  assert (X : keq k (kmul k (U t) (kmul k (kadj (U t)) (kmul k B (U t)))) (kmul k (U t) B)) by (apply kmul_ext; [apply keq_refl|exact G]).
  rewrite <- kmul_assoc, W, kmul_id_l in X. exact X.
Qed.
Lemma commuting_exponential : forall e k h1 h2 h, is_matrix k h1 -> is_matrix k h2 -> is_matrix k h -> hermitian k (entry h1) -> hermitian k (entry h2) ->
    keq k (entry h) (kadd (entry h1) (entry h2)) -> keq k (kmul k (entry h1) (entry h2)) (kmul k (entry h2) (entry h1)) ->
    exponential_of e k (minus_i h1) -> exponential_of e k (minus_i h2) -> exponential_of e k (minus_i h) ->
    forall t, keq k (entry (e (scale (RtoC t) (minus_i h)))) (kmul k (entry (e (scale (RtoC t) (minus_i h2)))) (entry (e (scale (RtoC t) (minus_i h1))))).
Proof.
  intros e k h1 h2 h M1 M2 M H1 H2 EH CM E1 E2 E.
  assert (HH : hermitian k (entry h)).
  { intros x y Hx Hy. unfold kadj. rewrite (EH y x Hy Hx), (EH x y Hx Hy). unfold kadd. rewrite <- (H1 x y Hx Hy), <- (H2 x y Hx Hy). unfold kadj. apply C_ext; simpl; ring. }
  assert (CC : forall t, keq k (kmul k (entry h1) (entry (e (scale (RtoC t) (minus_i h2))))) (kmul k (entry (e (scale (RtoC t) (minus_i h2)))) (entry h1))).
  { intro t. apply (exponential_commutes e k h2 (entry h1) M2 H2 E2 CM t). }
  destruct E1 as (_ & _ & E10 & D1). destruct E2 as (_ & _ & E20 & D2).
  destruct (scale_matrix k (Copp Ci) h1 M1) as [_ S1]. destruct (scale_matrix k (Copp Ci) h2 M2) as [_ S2]. destruct (scale_matrix k (Copp Ci) h M) as [_ S].
  change (keq k (entry (minus_i h1)) (kscale (Copp Ci) (entry h1))) in S1.
  change (keq k (entry (minus_i h2)) (kscale (Copp Ci) (entry h2))) in S2.
  change (keq k (entry (minus_i h)) (kscale (Copp Ci) (entry h))) in S.
  set (A := fun t => entry (e (scale (RtoC t) (minus_i h1)))) in *. set (B := fun t => entry (e (scale (RtoC t) (minus_i h2)))) in *.
  apply (exponential_unique e k (minus_i h) (fun t => kmul k (B t) (A t)) E (minus_i_adj k h M HH)).
  - change (keq k (A 0%R) kid) in E10. change (keq k (B 0%R) kid) in E20. rewrite E10, E20. apply kmul_id_l.
  - intro t. eapply kderiv_eq; [|apply kderiv_mul; [apply D2|apply D1]].
    fold (A t). fold (B t). specialize (CC t). change (keq k (kmul k (entry h1) (B t)) (kmul k (B t) (entry h1))) in CC.
    rewrite S1, S2, S, EH. rewrite !kmul_kscale_l, kmul_kscale_r, kmul_kadd_l.
    rewrite <- !kmul_assoc, CC. intros x y Hx Hy. unfold kadd, kscale. ring.
Qed.
Lemma c113_commuting : forall w n psi h1 h2 h ts c cs t, is_state n psi -> control_qubits (parse_control c) cs -> valid_qubits n (cs ++ ts) ->
    let k := List.length ts in
    is_matrix k h1 -> is_matrix k h2 -> is_matrix k h -> hermitian k (entry h1) -> hermitian k (entry h2) ->
    keq k (entry h) (kadd (entry h1) (entry h2)) -> keq k (kmul k (entry h1) (entry h2)) (kmul k (entry h2) (entry h1)) ->
    exponential_of (expm w) k (minus_i h1) -> exponential_of (expm w) k (minus_i h2) -> exponential_of (expm w) k (minus_i h) ->
    let evolution := OGate (HamiltonianEvolution (TTup ts) c) in
    exists mid out, run w evolution (SDense psi) (evolution_values h1 t) = Ok (Some (SDense mid)) /\
      run w evolution (SDense mid) (evolution_values h2 t) = Ok (Some (SDense out)) /\
      run w evolution (SDense psi) (evolution_values h t) = Ok (Some (SDense out)) /\ is_state n out.
Proof.
  intros w n psi h1 h2 h ts c cs t HS HC HV k M1 M2 M H1 H2 EH CM E1 E2 E evolution.
  assert (HH : hermitian k (entry h)).
  { intros x y Hx Hy. unfold kadj. rewrite (EH y x Hy Hx), (EH x y Hx Hy). unfold kadd. rewrite <- (H1 x y Hx Hy), <- (H2 x y Hx Hy). unfold kadj. apply C_ext; simpl; ring. }
  destruct (evolution_run w n psi h1 ts c cs t HS M1 H1 E1 HC HV) as (mid & Em & Sm & Vm).
  destruct (evolution_run w n mid h2 ts c cs t Sm M2 H2 E2 HC HV) as (out & Eo & So & Vo).
  destruct (evolution_run w n psi h ts c cs t HS M HH E HC HV) as (out' & Eo' & So' & Vo').
  assert (out' = out) as ->.
  { apply (state_ext n); [exact So'|exact So|]. rewrite Vo', Vo, Vm, <- apply_kernel_mul. apply apply_kernel_ext; [|apply veq_refl].
    unfold gate_op. rewrite ctrl_kernel_mul by exact HV. apply ctrl_kernel_ext. apply commuting_exponential; assumption. }
  exists mid, out. repeat split; try assumption; apply So.
Qed.

(** ** the Ising interaction *)
Lemma c113_ising : forall w n vals circuit circuit' gs1 gs2 U1 U2 h t a b st, set_order (set_iter w) ->
    lookup vals "hamiltonian"%string = Ok (VMat h) -> lookup vals "time_evolution"%string = Ok (VNum t) ->
    is_matrix 2 h -> keq 2 (entry h) (kron2 Z_matrix Z_matrix) -> exponential_of (expm w) 2 (minus_i h) -> valid_qubits n [a; b] ->
    hybrid_circuit w n vals gs1 U1 -> hybrid_circuit w n vals gs2 U2 ->
    sequence_of circuit (gs1 ++ [HamiltonianEvolution (TTup [a; b]) no_control] ++ gs2) ->
    sequence_of circuit' (gs1 ++ [gX (TInt b) (IInt a) None false; RZ (PNum (2 * t)) (TInt b) no_control None false; gX (TInt b) (IInt a) None false] ++ gs2) ->
    state_of n st ->
    exists out, run w circuit st vals = Ok (Some out) /\ run w circuit' st vals = Ok (Some out) /\ state_of n out.
Proof.
  intros w n vals circuit circuit' gs1 gs2 U1 U2 h t a b st SO EH ET HM HG HE HV H1 H2 Q Q' HS.
  assert (HH : hermitian 2 (entry h)).
  { intros x y Hx Hy. unfold kadj. rewrite (HG y x Hy Hx), (HG x y Hx Hy). unfold kron2. bits2 Hx; bits2 Hy; cbn; apply C_ext; simpl; ring. }
  assert (HI : keq 2 (kmul 2 (entry h) (entry h)) kid).
  { rewrite HG. intros x y Hx Hy. unfold kmul, kron2. bits2 Hx; bits2 Hy; cbn; apply C_ext; simpl; ring. }
  assert (A : hybrid_gate w n vals (HamiltonianEvolution (TTup [a; b]) no_control) (gate_op (entry (expm w (scale (RtoC t) (minus_i h)))) [] [a; b])).
  { eapply (hg_evolution w n vals [a; b] no_control []); try eassumption. apply cq_default. }
  assert (VA : a < n /\ b < n /\ a <> b). { destruct HV as [ND F]. inversion F as [|? ? P F']; subst. inversion F' as [|? ? P' _]; subst. inversion ND as [|? ? NI _]; subst. simpl in NI. repeat split; auto; intros ->; tauto. }
  assert (BX : hybrid_gate w n vals (gX (TInt b) (IInt a) None false) (gate_op X_matrix [a] [b])).
  { apply hg_library; [split; [eapply gm_fixed; simpl; eauto 10|apply (cq_ints [a])|reflexivity|exact HV]|reflexivity|reflexivity]. }
  assert (BZ : hybrid_gate w n vals (RZ (PNum (2 * t)) (TInt b) no_control None false) (gate_op (RZ_matrix (2 * t + 0)) [] [b])).
  { apply hg_library; [split; [eapply gm_rotation with (R_ := RZ_matrix); simpl; eauto; eexists; split; reflexivity|apply cq_default|reflexivity|apply valid_one; tauto]|reflexivity|reflexivity]. }
  destruct (hybrid_app w n vals _ gs2 _ U2 (hc_cons w n vals _ _ _ _ A (hc_nil w n vals)) H2) as (WA & HA & EA).
  destruct (hybrid_app w n vals _ gs2 _ U2 (hc_cons w n vals _ _ _ _ BX (hc_cons w n vals _ _ _ _ BZ (hc_cons w n vals _ _ _ _ BX (hc_nil w n vals)))) H2) as (WB & HB & EB).
  destruct (hybrid_app w n vals gs1 _ U1 _ H1 HA) as (ZA & HA' & EA'). destruct (hybrid_app w n vals gs1 _ U1 _ H1 HB) as (ZB & HB' & EB').
  eapply (hybrid_same w n vals vals circuit circuit' _ _ ZA ZB); try eassumption.
  rewrite EA', EB', EA, EB. apply kmul_ext; [|apply keq_refl]. apply kmul_ext; [apply keq_refl|]. rewrite !kmul_id_l.
  unfold gate_op. destruct (nested2 n X_matrix a b HV) as [NX _]. rewrite NX.
  assert (NZ : keq n (ctrl_kernel (RZ_matrix (2 * t + 0)) [] [b]) (ctrl_kernel (ctrl_kernel (RZ_matrix (2 * t + 0)) [] [1]) [] [a; b])).
  { apply keq_sym. apply (ctrl_kernel_nested n _ [] [1] [a; b] HV); [split; [repeat constructor; simpl; tauto|repeat constructor; lia]|intros p []]. }
  rewrite NZ. rewrite !(ctrl_kernel_mul n _ _ [] [a; b]) by exact HV. apply ctrl_kernel_ext. cbn [List.length].
  eapply keq_trans; [apply (involution_exponential _ 2 h HM HH HI HE)|].
  assert (T : ((2 * t + 0) / 2 = t)%R) by lra. assert (T' : (- (2 * t + 0) / 2 = - t)%R) by lra.
  intros x y Hx Hy. unfold turn, kadd, kscale at 1 2. rewrite (HG x y Hx Hy). unfold kmul, RZ_matrix, Cexpi, kron2. rewrite T, T', cos_neg, sin_neg.
  generalize (cos t) (sin t). intros C S. bits2 Hx; bits2 Hy; lazy -[Rplus Rmult Ropp Rminus IZR]; f_equal; ring.
Qed.
