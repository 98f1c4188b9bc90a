(** * Noise, continued: density matrices from state vectors (C29), silent noise (C30), noise on several
    targets (C31), [apply_kraus_operator] (C32) *)
From Coq Require Import String List Arith Bool Reals Lia Lra Permutation.
From Verif Require Import Cplx Py PyFacts Ndarray NdFacts NdPerm OperatorUtils ApplyOperator Sparse Matrices Noise Gates Apply Composite
  Spec SpecFacts ApplyFacts DmFacts ExpandFacts GateSpec PropSpec NoiseSpec GateFacts CircuitFacts AlgebraFacts GroupFacts ApplyThm
  KrausThm NoiseThm.
Import ListNotations.
Local Open Scope nat_scope.

Lemma ktrace_pure : forall n f, ktrace n (fun x y => Cmul (f x) (Cconj (f y))) = RtoC (norm2 n f).
Proof.
  intros n f; unfold ktrace, norm2. rewrite rsum_csum. apply csum_ext; intros x _. apply Cmul_conj_r.
Qed.
Lemma c29_pure : forall w n vals gs gr mg psi,
    set_order (set_iter w) ->
    gs <> [] -> Forall (usable n vals) gs -> Forall dense_gate gs -> Forall noise_ok gs ->
    (exists g, In g gs /\ noise g <> None) -> is_state n psi ->
    exists rho', apply_gates w (SDense psi) (GMany gs) vals UNITARY gr mg = Ok (SDM rho') /\ is_density n rho' /\
      ktrace n (rho_entry rho') = RtoC (norm2 n (amp psi)) /\ hermitian n (rho_entry rho') /\ positive n (rho_entry rho').
Proof.
  intros w n vals gs gr mg psi SO NE FU FD FN (g & Ig & Ng) HS.
  destruct (group_any w (SDense psi) gs vals UNITARY gr mg) as (gs' & P & ->).
  assert (P' := Permutation_sym P).
  destruct (noisy_run_exists n vals gs' (Forall_perm _ _ _ P' FU) (Forall_perm _ _ _ P' FN)
              (fun x y => Cmul (amp psi x) (Cconj (amp psi y)))) as (r' & R).
  destruct (c28_circuit_pure w n vals gs' psi r' mg SO (perm_nonempty _ _ P NE) (Forall_perm _ _ _ P' FD)) as (out & E & D & K).
  - exists g; split; [eapply Permutation_in; eassumption|exact Ng].
  - exact HS.
  - exact R.
  - destruct (preserved_run _ _ _ _ _ R) as (T & H & Q).
    exists out; split; [exact E|split; [exact D|]]. split; [rewrite K, T; apply ktrace_pure|].
    split; [eapply hermitian_ext; [apply keq_sym; exact K|apply H, pure_hermitian]
           |eapply positive_ext; [apply keq_sym; exact K|apply Q, pure_positive]].
Qed.

(** ** C30 *)
Lemma silent_valid : forall i, silent i -> well_typed i /\ valid_parameter i.
Proof.
  intros [ty [p|l]] H; destruct ty; cbn in H |- *; try contradiction; try (subst p; split; [exact Logic.I|unfold is_prob; lra]).
  - destruct H as [L F]; split; [exact L|]. split.
    + eapply Forall_impl; [|exact F]; intros a ->; unfold is_prob; lra.
    + clear L; unfold is_prob. induction F as [|x l -> F IH]; simpl; [lra|]. lra.
  - destruct l as [|p [|r l]]; try contradiction. destruct H as [Hp ->]. split; [simpl; lia|]. unfold is_prob in *.
    constructor; [lra|constructor; [lra|constructor]].
Qed.
Definition multiples (ks : list arr) (l : list R) : Prop :=
  Forall2 (fun K a => keq 1 (entry K) (kscale (RtoC a) kid)) ks l /\ fold_right Rplus 0%R (map (fun a => (a * a)%R) l) = 1%R.
Lemma silent_kraus : forall i ks, silent i -> kraus i = Ok ks -> exists l, multiples ks l.
Proof.
  intros i ks HS E. destruct (silent_valid i HS) as [T V].
  destruct i as [ty [p|l]]; destruct ty; cbn in T; try contradiction; cbn in E, HS; subst;
    unfold BitFlip, PhaseFlip, Depolarizing, AmplitudeDamping, PhaseDamping in E;
    try (rewrite (proj2 (bad_prob_spec 0) V) in E; injection E as <-).
  - exists [1%R; 0%R]; split; [|simpl; lra]. constructor; [|constructor; [|constructor]]; intros x y Hx Hy;
      bits1 Hx; bits1 Hy; unfold m_I, m_X; rewrite entry_sq by (simpl; tauto); rewrite ?Rminus_0_r, ?sqrt_1, ?sqrt_0; apply C_ext; simpl; lra.
  - exists [1%R; 0%R]; split; [|simpl; lra]. constructor; [|constructor; [|constructor]]; intros x y Hx Hy;
      bits1 Hx; bits1 Hy; unfold m_I, m_Z; rewrite entry_sq by (simpl; tauto); rewrite ?Rminus_0_r, ?sqrt_1, ?sqrt_0; apply C_ext; simpl; lra.
  - exists [1%R; 0%R; 0%R; 0%R]; split; [|simpl; lra].
    replace (0 / 3)%R with 0%R by lra.
    constructor; [|constructor; [|constructor; [|constructor; [|constructor]]]]; intros x y Hx Hy;
      bits1 Hx; bits1 Hy; unfold m_I, m_X, m_Y, m_Z; rewrite entry_sq by (simpl; tauto); rewrite ?Rminus_0_r, ?sqrt_1, ?sqrt_0; apply C_ext; simpl; lra.
  - exists [1%R; 0%R]; split; [|simpl; lra]. constructor; [|constructor; [|constructor]]; intros x y Hx Hy;
      bits1 Hx; bits1 Hy; rewrite entry_matrix2 by (simpl; tauto); rewrite ?Rminus_0_r, ?sqrt_1, ?sqrt_0; apply C_ext; simpl; lra.
  - exists [1%R; 0%R]; split; [|simpl; lra]. constructor; [|constructor; [|constructor]]; intros x y Hx Hy;
      bits1 Hx; bits1 Hy; rewrite entry_matrix2 by (simpl; tauto); rewrite ?Rminus_0_r, ?sqrt_1, ?sqrt_0; apply C_ext; simpl; lra.
  - destruct l as [|px [|py [|pz l]]]; cbn in T; try lia. pose proof V as V0. apply pauli_valid in V0; destruct V0 as [V1 V2].
    unfold PauliChannel in E; rewrite V1, V2 in E; injection E as <-. destruct HS as [_ HS].
    inversion HS as [|? ? Px V3]; inversion V3 as [|? ? Py V4]; inversion V4 as [|? ? Pz V5]; subst.
    exists [1%R; 0%R; 0%R; 0%R]; split; [|simpl; lra].
    replace (1 - (0 + 0 + 0))%R with 1%R by lra.
    constructor; [|constructor; [|constructor; [|constructor; [|constructor]]]]; intros x y Hx Hy;
      bits1 Hx; bits1 Hy; unfold m_I, m_X, m_Y, m_Z; rewrite entry_sq by (simpl; tauto); rewrite ?Rminus_0_r, ?sqrt_1, ?sqrt_0; apply C_ext; simpl; lra.
  - destruct l as [|p [|r l]]; cbn in T; try lia. cbn in E, V, HS. destruct HS as [Vp ->].
    inversion V as [|? ? _ V']; inversion V' as [|? ? Vr _]; subst.
    rewrite (proj2 (bad_prob_spec p) Vp), (proj2 (bad_prob_spec 0) Vr) in E; injection E as <-.
    exists [sqrt p; 0%R; sqrt (1 - p); 0%R]; split.
    + constructor; [|constructor; [|constructor; [|constructor; [|constructor]]]]; intros x y Hx Hy;
        bits1 Hx; bits1 Hy; rewrite entry_sq by (simpl; tauto); rewrite ?Rminus_0_r, ?sqrt_1, ?sqrt_0; apply C_ext; simpl; lra.
    + unfold is_prob in Vp. simpl. rewrite !sqrt_sqrt by lra. lra.
Qed.
Lemma ctrl_kernel_multiple : forall n q K a, q < n -> keq 1 (entry K) (kscale (RtoC a) kid) ->
    keq n (ctrl_kernel (entry K) [] [q]) (kscale (RtoC a) kid).
Proof.
  intros n q K a Hq E.
  assert (V : valid_qubits n [q]) by (split; [repeat constructor; simpl; tauto|repeat constructor; exact Hq]).
  rewrite (ctrl_kernel_ext n _ _ [] [q] E). intros x y Hx Hy. unfold kscale at 2. rewrite <- (ctrl_kernel_id n [] [q] V x y Hx Hy).
  unfold ctrl_kernel, kscale; cbn [bits_at map all_ones forallb]. rewrite <- csum_scale_l. apply csum_ext; intros; ring.
Qed.
Lemma sandwiched_multiple : forall n a r, keq n (sandwiched n (kscale (RtoC a) kid) r) (kscale (RtoC (a * a)) r).
Proof.
  intros n a r x y Hx Hy; unfold sandwiched, kscale, kadj.
  transitivity (kmul n (kmul n kid (kscale (RtoC (a * a)) r)) (kadj kid) x y).
  - unfold kmul, kadj, kscale. apply csum_ext; intros z Hz. rewrite <- !csum_scale_r. apply csum_ext; intros u Hu.
    rewrite Cconj_mul, Cconj_R, RtoC_mul. ring.
  - rewrite (kmul_ext n _ _ _ _ (kmul_id_l n _) (kadj_id n) x y Hx Hy). rewrite (kmul_id_r n _ x y Hx Hy). reflexivity.
Qed.
Lemma silent_sum : forall n q i ks r, silent i -> kraus i = Ok ks -> q < n -> keq n (kraus_sum n q ks r) r.
Proof.
  intros n q i ks r HS E Hq. destruct (silent_kraus i ks HS E) as (l & F & S).
  assert (H : keq n (kraus_sum n q ks r) (kscale (RtoC (fold_right Rplus 0%R (map (fun a => (a * a)%R) l))) r)).
  { clear S E. unfold kraus_sum. induction F as [|K a ks l EK F IH]; intros x y Hx Hy; simpl.
    - unfold kscale; apply C_ext; simpl; lra.
    - rewrite (IH x y Hx Hy).
      rewrite (sandwiched_ext n _ _ _ _ (ctrl_kernel_multiple n q K a Hq EK) (keq_refl n r) x y Hx Hy).
      rewrite (sandwiched_multiple n a r x y Hx Hy). unfold kscale. rewrite RtoC_add. ring. }
  rewrite H, S. intros x y _ _. unfold kscale. apply Cmul_1_l.
Qed.

Lemma silent_noise_ok : forall g, silent_gate g -> noise_ok g.
Proof.
  intro g; unfold silent_gate, noise_ok; destruct (noise g) as [l|]; [|auto]. intros [L F]; split; [exact L|].
  eapply Forall_impl; [|exact F]; apply silent_valid.
Qed.
Lemma silent_through : forall n q l r r', q < n -> Forall silent l -> through n q l r r' -> keq n r' r.
Proof.
  intros n q l r r' Hq F H; induction H as [rho|i ks l rho rho' EK HT IH]; [apply keq_refl|].
  inversion F; subst. rewrite IH by assumption. eapply silent_sum; eassumption.
Qed.
Lemma without_gate_on : forall n vals g M cs ts, gate_on n vals g M cs ts -> gate_on n vals (without_noise g) M cs ts.
Proof.
  intros n vals g M cs ts [HM HC HT HV]; constructor; auto.
  destruct HM as [name M K E L I|K E L|name R_ t K E L A I|t K L A]; [eapply gm_fixed|apply gm_SWAP|eapply gm_rotation|apply gm_PHASE]; eauto.
Qed.
Lemma silent_run : forall n vals gs r r', noisy_run n vals gs r r' -> Forall silent_gate gs ->
    exists r'', noisy_run n vals (map without_noise gs) r r'' /\ keq n r' r''.
Proof.
  intros n vals gs r r' H; induction H as [rho|g gs M cs ts rho rho' HG HN HR IH|g gs M cs q l rho rho1 rho' HG HN HT HR IH]; intro F.
  - exists rho; split; [constructor|apply keq_refl].
  - inversion F; subst. destruct IH as (r'' & R & E); [assumption|]. exists r''; split; [|exact E].
    simpl; eapply nrun_plain; [apply without_gate_on; exact HG|reflexivity|exact R].
  - inversion F as [|? ? F1 F2]; subst. destruct IH as (r'' & R & E); [assumption|].
    unfold silent_gate in F1; rewrite HN in F1; destruct F1 as [_ F1].
    assert (Hq : q < n) by (apply (valid_lt n [q]); [apply (valid_app_r n cs); exact (go_qubits _ _ _ _ _ _ HG)|simpl; auto]).
    destruct (sandwich_run_ext n vals _ _ _ R (sandwiched n (gate_op M cs [q]) rho)) as (s' & R' & E').
    + apply keq_sym. eapply silent_through; eassumption.
    + exists s'; split; [|rewrite E; symmetry; exact E']. simpl; eapply nrun_plain; [apply without_gate_on; exact HG|reflexivity|exact R'].
Qed.
Lemma insert_by_map : forall {A B} (f : A -> B) la lb x l, (forall a b, lb (f a) (f b) = la a b) ->
    insert_by lb (f x) (map f l) = map f (insert_by la x l).
Proof.
  intros A B f la lb x l H; induction l as [|y l IH]; simpl; [reflexivity|]. rewrite H. destruct (la x y); simpl; [reflexivity|]. rewrite IH; reflexivity.
Qed.
Lemma sort_batch_without : forall l, sort_batch (map without_noise l) = map without_noise (sort_batch l).
Proof.
  unfold sort_batch; induction l as [|x l IH]; simpl; [reflexivity|]. rewrite IH. apply insert_by_map. reflexivity.
Qed.
Lemma group_loop_without : forall gs S B, group_loop (map without_noise S) (map without_noise B) (map without_noise gs)
    = map without_noise (group_loop S B gs).
Proof.
  induction gs as [|g gs IH]; intros S B; simpl.
  - destruct B as [|b B]; simpl; [reflexivity|]. change (without_noise b :: map without_noise B) with (map without_noise (b :: B)).
    rewrite sort_batch_without, map_app; reflexivity.
  - change (control (without_noise g)) with (control g). destruct (negb (is_controlled (control g))).
    + rewrite <- IH, map_app; reflexivity.
    + destruct B as [|b B]; simpl.
      * rewrite <- (IH (S ++ [g]) []), map_app; reflexivity.
      * change (without_noise b :: map without_noise B) with (map without_noise (b :: B)). rewrite sort_batch_without.
        rewrite <- (IH ((S ++ sort_batch (b :: B)) ++ [g]) []), !map_app; reflexivity.
Qed.
Lemma group_without : forall gs, group_by_index (map without_noise gs) = map without_noise (group_by_index gs).
Proof. intro gs; apply (group_loop_without gs [] []). Qed.
Lemma group_any2 : forall w s gs vals ot gr mg mg', exists gs', Permutation gs' gs /\
    apply_gates w s (GMany gs) vals ot gr mg = apply_gates w s (GMany gs') vals ot false mg /\
    apply_gates w s (GMany (map without_noise gs)) vals ot gr mg' = apply_gates w s (GMany (map without_noise gs')) vals ot false mg'.
Proof.
  intros w s gs vals ot [|] mg mg'; [|exists gs; split; [apply Permutation_refl|split; reflexivity]].
  exists (group_by_index gs); split; [apply group_by_index_perm|]. rewrite !apply_gates_group, group_without; split; reflexivity.
Qed.
Lemma Forall_dense_without : forall gs, Forall dense_gate gs -> Forall dense_gate (map without_noise gs).
Proof. intros gs F; induction F; simpl; constructor; auto. Qed.
Lemma Forall_noiseless_without : forall gs, Forall noiseless (map without_noise gs).
Proof. induction gs; simpl; constructor; auto; reflexivity. Qed.

Lemma c30_density : forall w n vals gs gr mg mg' rho,
    set_order (set_iter w) ->
    gs <> [] -> Forall (usable n vals) gs -> Forall dense_gate gs -> Forall silent_gate gs -> is_density n rho ->
    exists rho', apply_gates w (SDM rho) (GMany gs) vals UNITARY gr mg = Ok (SDM rho') /\ is_density n rho' /\
      apply_gates w (SDM rho) (GMany (map without_noise gs)) vals UNITARY gr mg' = Ok (SDM rho').
Proof.
  intros w n vals gs gr mg mg' rho SO NE FU FD FS Dr.
  destruct (group_any2 w (SDM rho) gs vals UNITARY gr mg mg') as (gs' & P & -> & ->). assert (P' := Permutation_sym P).
  assert (FS' := Forall_perm _ _ _ P' FS). assert (NE' := perm_nonempty _ _ P NE). assert (FD' := Forall_perm _ _ _ P' FD).
  destruct (noisy_run_exists n vals gs' (Forall_perm _ _ _ P' FU)) with (r := rho_entry rho) as (r' & R).
  { eapply Forall_impl; [apply silent_noise_ok|exact FS']. }
  destruct (silent_run _ _ _ _ _ R FS') as (r'' & R'' & E'').
  destruct (c28_circuit w n vals gs' rho r' mg SO NE' FD' Dr R) as (o & E & D & K).
  destruct (c28_circuit w n vals (map without_noise gs') rho r'' mg' SO) as (o2 & E2 & D2 & K2); auto.
  { destruct gs'; simpl; congruence. } { apply Forall_dense_without; exact FD'. }
  exists o; split; [exact E|split; [exact D|]]. rewrite E2. do 2 f_equal. apply (density_ext n); auto.
  rewrite K, K2. symmetry; exact E''.
Qed.
Lemma c30_pure : forall w n vals gs gr mg mg' psi,
    set_order (set_iter w) ->
    gs <> [] -> Forall (usable n vals) gs -> Forall dense_gate gs -> Forall silent_gate gs ->
    (exists g, In g gs /\ noise g <> None) -> is_state n psi ->
    exists phi rho, apply_gates w (SDense psi) (GMany (map without_noise gs)) vals UNITARY gr mg' = Ok (SDense phi) /\ is_state n phi /\
      apply_gates w (SDense psi) (GMany gs) vals UNITARY gr mg = Ok (SDM rho) /\ is_density n rho /\
      keq n (rho_entry rho) (fun x y => Cmul (amp phi x) (Cconj (amp phi y))).
Proof.
  intros w n vals gs gr mg mg' psi SO NE FU FD FS (g & Ig & Ng) HS.
  destruct (group_any2 w (SDense psi) gs vals UNITARY gr mg mg') as (gs' & P & -> & ->). assert (P' := Permutation_sym P).
  assert (FS' := Forall_perm _ _ _ P' FS). assert (NE' := perm_nonempty _ _ P NE). assert (FD' := Forall_perm _ _ _ P' FD).
  destruct (noisy_run_exists n vals gs' (Forall_perm _ _ _ P' FU)) with (r := fun x y => Cmul (amp psi x) (Cconj (amp psi y))) as (r' & R).
  { eapply Forall_impl; [apply silent_noise_ok|exact FS']. }
  destruct (silent_run _ _ _ _ _ R FS') as (r'' & R'' & E'').
  destruct (c28_circuit_pure w n vals gs' psi r' mg SO NE' FD') as (o & E & D & K); auto.
  { exists g; split; [eapply Permutation_in; eassumption|exact Ng]. }
  destruct (noisy_run_plain _ _ _ _ _ R'' (Forall_noiseless_without gs')) as (U & HC & EU).
  destruct (apply_gates_dense w n vals UNITARY mg' (map without_noise gs') U psi) as (phi & Ep & Sp & Kp); auto.
  { destruct gs'; simpl; congruence. } { apply Forall_noiseless_without. }
  { apply circuit_on_gseq; [exact HC|apply Forall_dense_without; exact FD']. }
  exists phi, o; split; [exact Ep|split; [exact Sp|split; [exact E|split; [exact D|]]]].
  rewrite K, E'', EU. intros x y Hx Hy. unfold conjugate. rewrite pure_conjugation by assumption.
  rewrite (Kp x Hx), (Kp y Hy); reflexivity.
Qed.

(** ** C31: the Kraus operators of the channels cannot be expanded from more than one target qubit *)
Lemma c31_expand : forall n k K ts fs, is_matrix k K -> length ts <> k -> NoDup ts -> NoDup fs -> length fs = n -> incl ts fs ->
    exists e, expand_operator K ts fs = Err e.
Proof.
  intros n k K ts fs MK LT NT NF LF HI. unfold expand_operator.
  assert (Hsub : subsetb (sorted ts) (sorted fs) = true).
  { apply subsetb_incl. intros q Hq. apply sorted_In. apply HI. apply sorted_In; auto. }
  rewrite Hsub. cbn [negb]. set (kq := sorted (set_diff (sorted fs) (sorted ts))).
  assert (HPerm : Permutation (sorted ts ++ kq) fs).
  { apply NoDup_Permutation; auto.
    - apply NoDup_app_intro; [apply sorted_NoDup; auto | apply sorted_NoDup, set_diff_NoDup|].
      intros q H1 H2. unfold kq in H2. apply sorted_In, set_diff_In in H2. tauto.
    - intro q. rewrite in_app_iff. unfold kq. rewrite sorted_In, sorted_In, set_diff_In, !sorted_In. split.
      + intros [H|H]; [apply HI; auto | tauto].
      + intro H. destruct (in_dec Nat.eq_dec q ts); tauto. }
  assert (Llen : length ts + length kq = n).
  { rewrite <- LF, <- (Permutation_length HPerm), app_length, sorted_length. lia. }
  destruct (kron_ids (length kq) k K MK) as (r1 & E1 & M1 & _). unfold id2 in E1. rewrite E1. cbn [bind].
  destruct (hilbert_reshape_matrix _ _ M1) as (r2 & E2 & [S2 W2] & _). rewrite E2. cbn [bind].
  rewrite sorted_length. unfold permute_basis.
  destruct (list_eqb _ _) eqn:EL; cbn [bind].
  - unfold reshape, size. rewrite S2, LF, prod_repeat. cbn [prod]. rewrite Nat.mul_1_r, <- Nat.pow_add_r.
    destruct (Nat.eqb _ _) eqn:EN; [|eexists; reflexivity]. apply Nat.eqb_eq in EN. apply Nat.pow_inj_r in EN; lia.
  - set (p := argsort _). unfold transpose.
    destruct (permb (ndim r2) p) eqn:EP; [|eexists; reflexivity]. exfalso.
    apply permb_is_perm in EP. apply is_perm_length in EP. unfold ndim in EP; rewrite S2, repeat_length in EP.
    unfold p in EP. destruct (argsort_spec (argsort (argsort (sorted ts ++ kq)) ++ map (Nat.add (length (sorted ts ++ kq))) (argsort (argsort (sorted ts ++ kq))))) as [L _].
    rewrite EP in L. rewrite app_length, map_length in L.
    pose proof (is_perm_length _ _ (rank_is_perm (sorted ts ++ kq))) as L2. rewrite app_length, sorted_length in L2. lia.
Qed.
Lemma noise_two_targets : forall n i a b l' r, well_typed i -> valid_parameter i -> valid_qubits n [a; b] -> is_density n r ->
    exists e, foldM (fun s i => apply_noise s [a; b] (seq 0 n) i) (i :: l') (SDM r) = Err e.
Proof.
  intros n i a b l' r T V [ND HB] _. destruct (c26_valid i T V) as (ks & EK & NE & FM).
  cbn [foldM]. unfold apply_noise at 1. rewrite EK; cbn [bind].
  destruct ks as [|K ks]; [congruence|]. inversion FM as [|? ? MK _]; subst.
  destruct (c31_expand n 1 K [a; b] (seq 0 n) MK) as (e & Ee); auto.
  - discriminate.
  - apply seq_NoDup.
  - apply seq_length.
  - intros x Hx. rewrite Forall_forall in HB. apply in_seq. specialize (HB x Hx). lia.
  - exists e. cbn [mapM]. rewrite Ee; reflexivity.
Qed.
Lemma c31_refuted : forall w n vals g cs a b i l M gr mg s,
    set_order (set_iter w) ->
    gate_on n vals g M cs [a; b] -> dense_gate g -> noise g = Some (i :: l) -> well_typed i -> valid_parameter i ->
    (exists psi, is_state n psi /\ s = SDense psi) \/ (exists rho, is_density n rho /\ s = SDM rho) ->
    exists e, apply_gates w s (GOne g) vals UNITARY gr mg = Err e.
Proof.
  intros w n vals g cs a b i l M gr mg s SO HG HD HN T V HS.
  destruct (opk_operator _ _ _ _ _ _ (gate_on_opk w _ _ _ _ _ _ HG HD)) as (o & Eo & Po).
  assert (HV : valid_qubits n [a; b]) by (apply (valid_app_r n cs); exact (go_qubits _ _ _ _ _ _ HG)).
  assert (ST : forall r, is_density n r -> exists e, noisy_step w (SDM r) (o, target g, control g, noise g) = Err e).
  { intros r Dr. destruct (step_dm w n o _ _ _ r SO Po Dr) as (b' & Eb & Db & _).
    unfold noisy_step, apply_operator_with_noise; rewrite Eb; cbn [bind]. rewrite HN, (density_num n b' Db); cbn [bind].
    rewrite (go_target _ _ _ _ _ _ HG). apply noise_two_targets; assumption. }
  unfold apply_gates, prepare_sequence_reduce; rewrite Eo; cbn [bind fst snd combine foldM].
  destruct HS as [(psi & HS & ->)|(rho & HS & ->)].
  - destruct (density_mat_spec n psi HS) as (rho & Er & Dr & _).
    assert (NN : no_noise [noise g] = false) by (rewrite HN; reflexivity).
    rewrite NN; cbn [negb]. rewrite Er; cbn [bind combine foldM].
    fold (noisy_step w (SDM rho) (o, target g, control g, noise g)). destruct (ST rho Dr) as (e & ->). exists e; reflexivity.
  - cbn [combine foldM]. fold (noisy_step w (SDM rho) (o, target g, control g, noise g)). destruct (ST rho HS) as (e & ->). exists e; reflexivity.
Qed.

(** ** C32 *)
Lemma nth_skipn : forall (l : list nat) n k, nth k (skipn n l) 0 = nth (n + k) l 0.
Proof. induction l as [|x l IH]; intros [|n] k; simpl; auto. destruct k; reflexivity. Qed.
Lemma overwrite_prefix : forall m c x, length c = m -> m <= length x -> overwrite x (seq 0 m) c = c ++ skipn m x.
Proof.
  intros m c x Lc Lx. apply list_ext.
  - rewrite overwrite_length, app_length, skipn_length. lia.
  - intros k Hk. rewrite overwrite_length in Hk. destruct (lt_dec k m).
    + rewrite nth_overwrite_in; [|apply in_seq; lia|exact Hk|rewrite seq_length; exact Lc].
      rewrite index_of_seq by assumption. rewrite app_nth1 by lia. reflexivity.
    + rewrite nth_overwrite_notin by (rewrite in_seq; lia). rewrite app_nth2 by lia. rewrite nth_skipn. f_equal; lia.
Qed.
Lemma c32_prefix : forall n m K rho, is_matrix m K -> is_density n rho -> m <= n ->
    exists r, apply_kraus_operator K rho (seq 0 m) = Ok r /\ is_density n r /\
      keq n (rho_entry r) (sandwiched n (ctrl_kernel (entry K) [] (seq 0 m)) (rho_entry rho)).
Proof.
  intros n m K rho Mk Hr Hmn. pose proof Mk as [Sk Wk]. pose proof Hr as [Sr Wr].
  unfold apply_kraus_operator, size. rewrite Sk. cbn [prod]. rewrite Nat.mul_1_r, <- Nat.pow_add_r, log2_pow.
  rewrite reshape_eq by (rewrite Sk, prod_repeat; cbn [prod]; rewrite Nat.mul_1_r, Nat.pow_add_r; reflexivity).
  cbn [bind]. unfold ndim. cbn [shape]. rewrite repeat_length, seq_length.
  replace (m + m) with (2 * m) by lia. rewrite half_2m. replace (2 * m - m) with m by lia.
  rewrite (moveaxis_id m (2 * n)) by (auto; lia). cbn [bind].
  destruct (sandwich_spec m n (mkArr (repeat 2 (2 * m)) (data K)) rho eq_refl Hr Hmn) as (b & Eb & Db & Gb).
  unfold sandwich in Eb.
  destruct (tensordot (mkArr (repeat 2 (2 * m)) (data K)) rho (seq m m) (seq 0 m)) as [r1|]; [cbn [bind] in *|discriminate Eb].
  destruct (dagger r1) as [r2|]; [cbn [bind] in *|discriminate Eb].
  destruct (tensordot (mkArr (repeat 2 (2 * m)) (data K)) r2 (seq m m) (seq 0 m)) as [r3|]; [cbn [bind] in *|discriminate Eb].
  rewrite Eb. cbn [bind]. destruct Db as [Sb Wb]. exists b. split; [apply (moveaxis_id m (2 * n)); auto; lia|].
  split; [split; auto|]. intros x y Hx Hy. unfold sandwiched.
  assert (V : valid_qubits n ([] ++ seq 0 m)).
  { split; [apply seq_NoDup|]. apply Forall_forall; intros q Hq; apply in_seq in Hq; lia. }
  rewrite (conjugation_expand n (entry K) [] (seq 0 m) _ x y Hx Hy V). cbn [app length]. rewrite seq_length.
  unfold rho_entry at 1.
  assert (SP : forall z, In z (bitstrings n) -> In (firstn m z) (bitstrings m) /\ In (skipn m z) (bitstrings (n - m)) /\ bits_at z (seq 0 m) = firstn m z).
  { intros z Hz. replace n with (m + (n - m)) in Hz by lia. destruct (bitstrings_app_inv m (n - m) z Hz) as (u & v & -> & Hu & Hv).
    pose proof (bitstrings_length _ _ Hu) as Lu. assert (F1 : firstn m (u ++ v) = u) by (subst m; rewrite firstn_app, Nat.sub_diag, firstn_all; apply app_nil_r).
    assert (F2 : skipn m (u ++ v) = v) by (subst m; rewrite skipn_app, Nat.sub_diag, skipn_all; reflexivity).
    rewrite F1, F2. split; [exact Hu|split; [exact Hv|]]. clear - Lu. unfold bits_at.
    apply list_ext; [rewrite map_length, seq_length; auto|]. intros k Hk. rewrite map_length, seq_length in Hk.
    rewrite nth_map_lt with (d' := 0) by (rewrite seq_length; auto). rewrite seq_nth by auto. apply app_nth1; lia. }
  destruct (SP x Hx) as (X1 & X2 & X3), (SP y Hy) as (Y1 & Y2 & Y3). rewrite X3, Y3.
  rewrite <- (firstn_skipn m x) at 1. rewrite <- (firstn_skipn m y) at 1. rewrite Gb by assumption.
  apply csum_ext; intros c' Hc'. apply csum_ext; intros c Hc. unfold block_entry; cbn [skipn firstn all_ones forallb list_eqb andb].
  rewrite !tensor_entry by auto. unfold rho_entry.
  rewrite !overwrite_prefix; try (apply bitstrings_length; assumption); try (rewrite (bitstrings_length n); auto).
  reflexivity.
Qed.
Definition ket00 : arr := build (repeat 2 4) (fun v => if list_eq_dec Nat.eq_dec v [0; 0; 0; 0] then C1 else C0).
Lemma c32_refuted : exists r, is_density 2 ket00 /\ is_matrix 1 m_X /\ apply_kraus_operator m_X ket00 [1] = Ok r /\
    rho_entry r [0; 1] [0; 1] = C0 /\ sandwiched 2 (ctrl_kernel (entry m_X) [] [1]) (rho_entry ket00) [0; 1] [0; 1] = C1.
Proof.
  eexists; split; [split; reflexivity|split; [split; reflexivity|split; [lazy -[Rplus Rmult Ropp]; reflexivity|]]].
  split; [unfold rho_entry, get; lazy -[Rplus Rmult Ropp Rminus IZR]; f_equal; lra|].
  unfold sandwiched, kmul, kadj, rho_entry, ket00, entry, get, ctrl_kernel; lazy -[Rplus Rmult Ropp Rminus IZR]; f_equal; lra.
Qed.
