(** * Lists of gates: apply_gates is the product of the gates' operators *)
From Coq Require Import List Arith Bool Reals Lia Permutation.
From Verif Require Import Cplx Py PyFacts Ndarray NdFacts OperatorUtils ApplyOperator Sparse Matrices Noise Gates Apply
  Spec SpecFacts ApplyFacts DmFacts GateSpec GateFacts.
Import ListNotations.
Local Open Scope nat_scope.

Lemma control_qubits_ctl : forall c cs, control_qubits c cs -> ctl c = Ok cs.
Proof.
  intros c cs [| |cs']; try reflexivity.
  unfold ctl; simpl.
  assert (A : mapM qidx_nat (map QInt cs') = Ok cs').
  { induction cs' as [|q cs' IH]; simpl; [reflexivity|]. rewrite IH; reflexivity. }
  destruct cs' as [|q cs']; [reflexivity|]. simpl existsb; cbv iota; exact A.
Qed.

Lemma control_qubits_eqb : forall c cs d ds, control_qubits c cs -> control_qubits d ds ->
    cspec_eqb c d = true -> cs = ds.
Proof.
  assert (M : forall l l', qidx_list_eqb (map QInt l) (map QInt l') = true -> l = l').
  { induction l as [|x l IH]; intros [|y l']; simpl; try discriminate; auto.
    rewrite Bool.andb_true_iff, Nat.eqb_eq; intros [-> H]; f_equal; auto. }
  intros c cs d ds [| |l] [| |l'] H; simpl in H; try discriminate; auto.
  - destruct l' as [|x [|y l']]; simpl in H; discriminate.
  - destruct l as [|x [|y l]]; simpl in H; discriminate.
Qed.

(** a placed operator that fits on [n] qubits, and its operator *)
Definition pl_ok (n : nat) (p : placed) (K : op) : Prop :=
  exists u cs, fst (fst p) = MD u /\ is_matrix (length (snd (fst p))) u /\ control_qubits (snd p) cs /\
    valid_qubits n (cs ++ snd (fst p)) /\ keq n K (ctrl_kernel (entry u) cs (snd (fst p))).

Lemma step_dense : forall w n o t c K a, pl_ok n (o, t, c) K -> is_state n a ->
    exists r, apply_operator_state w (SDense a) o t c = Ok (SDense r) /\ is_state n r /\
              veq n (amp r) (apply_kernel n K (amp a)).
Proof.
  intros w n o t c K a (u & cs & EO & HM & HC & HV & HK) HS; simpl in *; subst o.
  destruct (apply_operator_spec n a u t c cs HS HM (control_qubits_ctl _ _ HC) HV) as (r & E & HR & HA).
  unfold apply_operator_state; rewrite E; cbn [bind].
  exists r; repeat split; auto; try apply HR.
  intros x Hx; rewrite HA by assumption.
  rewrite <- (ctrl_kernel_action n) by assumption.
  apply apply_kernel_ext; [apply keq_sym; exact HK | apply veq_refl | exact Hx].
Qed.

Lemma step_dm : forall w n o t c K a, set_order (set_iter w) -> pl_ok n (o, t, c) K -> is_density n a ->
    exists r, apply_operator_state w (SDM a) o t c = Ok (SDM r) /\ is_density n r /\
              keq n (rho_entry r) (kmul n (kmul n K (rho_entry a)) (kadj K)).
Proof.
  intros w n o t c K a SO (u & cs & EO & HM & HC & HV & HK) HS; simpl in *; subst o.
  destruct (apply_operator_dm_spec (set_iter w) n a u t c cs SO HS HM (control_qubits_ctl _ _ HC) HV)
    as (r & E & HR & HA).
  rewrite E; cbn [bind]; exists r; split; [reflexivity|]; split; [exact HR|].
  eapply keq_trans; [exact HA|].
  apply kmul_ext; [apply kmul_ext; [|apply keq_refl] | apply kadj_ext]; apply keq_sym; exact HK.
Qed.

(** a list of placed operators and the operator it amounts to *)
Inductive pls (n : nat) : list placed -> op -> Prop :=
| pls_nil : forall K, keq n K kid -> pls n [] K
| pls_cons : forall p l P L K, pl_ok n p P -> pls n l L -> keq n K (kmul n L P) -> pls n (p :: l) K.

Lemma pls_ext : forall n l K K', pls n l K -> keq n K' K -> pls n l K'.
Proof.
  intros n l K K' H E; inversion H; subst.
  - constructor; eapply keq_trans; eauto.
  - econstructor; eauto; eapply keq_trans; eauto.
Qed.

Lemma pls_one : forall n p P, pl_ok n p P -> pls n [p] P.
Proof.
  intros n p P H; econstructor; [exact H|apply (pls_nil n kid), keq_refl|].
  apply keq_sym, kmul_id_l.
Qed.

Lemma pls_app : forall n l1 l2 A B, pls n l1 A -> pls n l2 B -> pls n (l1 ++ l2) (kmul n B A).
Proof.
  intros n l1; induction l1 as [|p l1 IH]; intros l2 A B H1 H2; inversion H1; subst; simpl.
  - eapply pls_ext; [exact H2|].
    eapply keq_trans; [apply kmul_ext; [apply keq_refl|eassumption]|apply kmul_id_r].
  - econstructor; [eassumption|apply IH; eassumption|].
    eapply keq_trans; [apply kmul_ext; [apply keq_refl|eassumption]|].
    apply keq_sym, kmul_assoc.
Qed.

Lemma run_dense : forall w n l K a, pls n l K -> is_state n a ->
    exists r, foldM (fun s (p : placed) => let '(o, t, c) := p in apply_operator_state w s o t c) l (SDense a)
              = Ok (SDense r) /\ is_state n r /\ veq n (amp r) (apply_kernel n K (amp a)).
Proof.
  intros w n l; induction l as [|p l IH]; intros K a H HS; inversion H; subst; cbn [foldM].
  - exists a; repeat split; try apply HS.
    intros x Hx; symmetry.
    rewrite (apply_kernel_ext n K kid (amp a) (amp a)) by (try apply veq_refl; assumption).
    apply apply_kernel_id; assumption.
  - destruct p as [[o t] c].
    match goal with HP : pl_ok _ _ ?P, HL : pls _ l ?L |- _ =>
      destruct (step_dense w n o t c P a HP HS) as (r & E & HR & HA);
      destruct (IH L r HL HR) as (r' & E' & HR' & HA') end.
    rewrite E; cbn [bind]; rewrite E'; exists r'; split; [reflexivity|]; split; [exact HR'|].
    eapply veq_trans; [exact HA'|].
    eapply veq_trans; [apply apply_kernel_ext; [apply keq_refl|exact HA]|].
    eapply veq_trans; [|apply apply_kernel_ext; [apply keq_sym; eassumption|apply veq_refl]].
    apply veq_sym, apply_kernel_mul.
Qed.

Definition conjugate (n : nat) (K rho : op) : op := kmul n (kmul n K rho) (kadj K).
Lemma conjugate_ext : forall n K K' r r', keq n K K' -> keq n r r' -> keq n (conjugate n K r) (conjugate n K' r').
Proof. intros; unfold conjugate; apply kmul_ext; [apply kmul_ext|apply kadj_ext]; assumption. Qed.
Lemma conjugate_id : forall n r, keq n (conjugate n kid r) r.
Proof.
  intros; unfold conjugate.
  eapply keq_trans; [apply kmul_ext; [apply kmul_id_l|apply kadj_id]|apply kmul_id_r].
Qed.
Lemma conjugate_mul : forall n A B r, keq n (conjugate n (kmul n A B) r) (conjugate n A (conjugate n B r)).
Proof.
  intros; unfold conjugate.
  (* (AB r) (AB)^+ = A ((B r) B^+) A^+ *)
  eapply keq_trans; [apply kmul_ext; [apply kmul_assoc|apply kadj_mul]|].
  eapply keq_trans; [apply keq_sym, kmul_assoc|].
  apply kmul_ext; [|apply keq_refl].
  apply kmul_assoc.
Qed.

Lemma run_dm : forall w n l K a (ns : list (option (list noise_inst))),
    set_order (set_iter w) -> pls n l K -> is_density n a ->
    Forall (fun x => x = None) ns -> length l <= length ns ->
    exists r, foldM (fun s (pn : placed * option (list noise_inst)) =>
                       let '(o, t, c, m) := pn in apply_operator_with_noise w s o t c m) (combine l ns) (SDM a)
              = Ok (SDM r) /\ is_density n r /\ keq n (rho_entry r) (conjugate n K (rho_entry a)).
Proof.
  intros w n l; induction l as [|p l IH]; intros K a ns SO H HS HN HL; inversion H; subst; cbn [foldM combine].
  - exists a; split; [reflexivity|]; split; [exact HS|].
    apply keq_sym; eapply keq_trans; [|apply conjugate_id]; apply conjugate_ext; [assumption|apply keq_refl].
  - destruct ns as [|m ns]; [simpl in HL; lia|]. inversion HN; subst.
    destruct p as [[o t] c].
    match goal with HP : pl_ok _ _ ?P, HLs : pls _ l ?L |- _ =>
      destruct (step_dm w n o t c P a SO HP HS) as (r & E & HR & HA);
      destruct (IH L r ns SO HLs HR ltac:(assumption) ltac:(simpl in HL; lia)) as (r' & E' & HR' & HA') end.
    cbn [foldM combine]; unfold apply_operator_with_noise at 1; rewrite E; cbn [bind]; rewrite E'.
    exists r'; split; [reflexivity|]; split; [exact HR'|].
    eapply keq_trans; [exact HA'|].
    eapply keq_trans; [apply conjugate_ext; [apply keq_refl|exact HA]|].
    eapply keq_trans; [apply keq_sym, conjugate_mul|].
    apply conjugate_ext; [apply keq_sym; assumption|apply keq_refl].
Qed.

(** ** merging *)
Lemma matmul_matrix : forall k a b, is_matrix k a -> is_matrix k b ->
    exists r, matmul a b = Ok r /\ is_matrix k r /\ keq k (entry r) (kmul k (entry a) (entry b)).
Proof.
  intros k a b [SA WA] [SB WB]; unfold matmul; rewrite SA, SB, Nat.eqb_refl.
  eexists; split; [reflexivity|]; split; [split; [reflexivity|apply wf_build]|].
  intros x y Hx Hy; unfold entry, kmul.
  rewrite get_build by (apply inb_2; apply binval_lt; assumption).
  simpl; rewrite csum_seq_bits; reflexivity.
Qed.

Lemma pl_merge : forall n mo t mc o c A B, pl_ok n (mo, t, mc) A -> pl_ok n (o, t, c) B -> cspec_eqb c mc = true ->
    exists r, mat_matmul mo o = Ok r /\ pl_ok n (r, t, mc) (kmul n A B).
Proof.
  intros n mo t mc o c A B (u & cs & E1 & M1 & C1 & V1 & K1) (v & ds & E2 & M2 & C2 & V2 & K2) EQ; simpl in *; subst.
  assert (ds = cs) by (eapply control_qubits_eqb; eauto); subst ds.
  destruct (matmul_matrix _ u v M1 M2) as (r & E & HM & HE).
  simpl; rewrite E; cbn [bind]; eexists; split; [reflexivity|].
  exists r, cs; simpl; repeat split; auto; try apply HM; try apply V1.
  eapply keq_trans; [apply kmul_ext; eassumption|].
  eapply keq_trans; [apply ctrl_kernel_mul; assumption|].
  apply ctrl_kernel_ext, keq_sym; exact HE.
Qed.

Lemma pls_snoc_inv : forall n l p K, pls n (l ++ [p]) K ->
    exists A P, pls n l A /\ pl_ok n p P /\ keq n K (kmul n P A).
Proof.
  intros n l p; induction l as [|q l IHl]; intros K H; simpl in H;
    inversion H as [|p' l' P L K' HP HL HK E1 E2]; subst.
  - inversion HL as [L' HL' E1 E2|]; subst.
    exists kid, P; split; [apply pls_nil, keq_refl|]; split; [assumption|].
    eapply keq_trans; [eassumption|].
    eapply keq_trans; [apply kmul_ext; [eassumption|apply keq_refl]|].
    eapply keq_trans; [apply kmul_id_l|apply keq_sym, kmul_id_r].
  - destruct (IHl L HL) as (A' & P' & H1 & H2 & H3).
    exists (kmul n A' P), P'; split; [econstructor; eauto; apply keq_refl|]; split; [exact H2|].
    eapply keq_trans; [eassumption|].
    eapply keq_trans; [apply kmul_ext; [eassumption|apply keq_refl]|apply kmul_assoc].
Qed.

Lemma merge_loop_ok : forall n rest merged cur A B D,
    pls n (rev rest) A -> pl_ok n cur B -> pls n (rev merged) D ->
    exists m, merge_loop merged cur rest = Ok m /\ pls n (rev m) (kmul n D (kmul n B A))
              /\ length m <= length merged + S (length rest).
Proof.
  intros n rest; induction rest as [|[[o t] c] rest IH]; intros merged cur A B D HA HB HD; simpl.
  - eexists; split; [reflexivity|]; split.
    + rewrite rev_app_distr; simpl.
      econstructor; [exact HB|exact HD|].
      apply kmul_ext; [apply keq_refl|].
      simpl in HA; inversion HA; subst.
      eapply keq_trans; [apply kmul_ext; [apply keq_refl|eassumption]|apply kmul_id_r].
    + rewrite app_length; simpl; lia.
  - simpl in HA.
    destruct (pls_snoc_inv n _ _ _ HA) as (A' & P & HA' & HP & EA).
    destruct cur as [[mo mt] mc].
    destruct (list_eqb t mt && cspec_eqb c mc) eqn:EQ.
    + apply Bool.andb_true_iff in EQ as [EQ1 EQ2]; apply list_eqb_eq in EQ1; subst mt.
      destruct (pl_merge n mo t mc o c B P HB HP EQ2) as (r & E & HR).
      rewrite E; cbn [bind].
      destruct (IH merged (r, t, mc) A' (kmul n B P) D HA' HR HD) as (m & EM & HM & HL).
      exists m; split; [exact EM|]; split; [|simpl in *; lia].
      eapply pls_ext; [exact HM|].
      apply kmul_ext; [apply keq_refl|].
      eapply keq_trans; [apply kmul_ext; [apply keq_refl|exact EA]|apply keq_sym, kmul_assoc].
    + destruct (IH (merged ++ [(mo, mt, mc)]) (o, t, c) A' P (kmul n D B) HA' HP) as (m & EM & HM & HL).
      { rewrite rev_app_distr; simpl. econstructor; [exact HB|exact HD|apply keq_refl]. }
      exists m; split; [exact EM|]; split; [|rewrite app_length in HL; simpl in *; lia].
      eapply pls_ext; [exact HM|].
      eapply keq_trans; [|apply keq_sym, kmul_assoc].
      apply kmul_ext; [apply keq_refl|].
      apply kmul_ext; [apply keq_refl|]. exact EA.
Qed.

Lemma merge_operators_ok : forall n l K, pls n l K ->
    exists m, merge_operators l = Ok m /\ pls n m K /\ length m <= length l.
Proof.
  intros n l K H; unfold merge_operators.
  destruct (Nat.ltb (length l) 2); [exists l; auto|].
  destruct (rev l) as [|p rest] eqn:ER.
  - exists l; auto.
  - assert (EL : l = rev rest ++ [p]).
    { rewrite <- (rev_involutive l), ER; simpl; reflexivity. }
    rewrite EL in H; destruct (pls_snoc_inv n _ _ _ H) as (A & P & HA & HP & EK).
    destruct (merge_loop_ok n rest [] p A P kid HA HP (pls_nil n kid (keq_refl n kid))) as (m & EM & HM & HL).
    rewrite EM; cbn [bind]; eexists; split; [reflexivity|]; split.
    + eapply pls_ext; [exact HM|].
      eapply keq_trans; [exact EK|apply keq_sym, kmul_id_l].
    + rewrite rev_length, EL, app_length, rev_length; simpl in *; lia.
Qed.

(** ** gates *)
Definition opk (w : world) (ot : op_type) (vals : values) (n : nat) (g : gate) (K : op) : Prop :=
  exists u cs, operator_of w ot g vals = Ok (MD u) /\ is_matrix (length (target g)) u /\
    control_qubits (control g) cs /\ valid_qubits n (cs ++ target g) /\
    keq n K (ctrl_kernel (entry u) cs (target g)).

Inductive gseq (w : world) (ot : op_type) (vals : values) (n : nat) : list gate -> op -> Prop :=
| gs_nil : forall K, keq n K kid -> gseq w ot vals n [] K
| gs_cons : forall g l P L K, opk w ot vals n g P -> gseq w ot vals n l L -> keq n K (kmul n L P) ->
    gseq w ot vals n (g :: l) K.

Lemma gseq_ext : forall w ot vals n l K K', gseq w ot vals n l K -> keq n K' K -> gseq w ot vals n l K'.
Proof.
  intros w ot vals n l K K' H E; inversion H; subst.
  - constructor; eapply keq_trans; eauto.
  - econstructor; eauto; eapply keq_trans; eauto.
Qed.

Lemma gseq_app : forall w ot vals n l1 l2 A B, gseq w ot vals n l1 A -> gseq w ot vals n l2 B ->
    gseq w ot vals n (l1 ++ l2) (kmul n B A).
Proof.
  intros w ot vals n l1; induction l1 as [|p l1 IH]; intros l2 A B H1 H2; inversion H1; subst; simpl.
  - eapply gseq_ext; [exact H2|].
    eapply keq_trans; [apply kmul_ext; [apply keq_refl|eassumption]|apply kmul_id_r].
  - econstructor; [eassumption|apply IH; eassumption|].
    eapply keq_trans; [apply kmul_ext; [apply keq_refl|eassumption]|].
    apply keq_sym, kmul_assoc.
Qed.

Lemma opk_operator : forall w ot vals n g K, opk w ot vals n g K ->
    exists m, operator_of w ot g vals = Ok m /\ pl_ok n (m, target g, control g) K.
Proof.
  intros w ot vals n g K (u & cs & E & H); exists (MD u); split; [exact E|].
  exists u, cs; simpl; tauto.
Qed.

Lemma gseq_placed : forall w ot vals n l K, gseq w ot vals n l K ->
    exists ops, mapM (fun g => operator_of w ot g vals) l = Ok ops /\ length ops = length l /\
      pls n (map (fun og => (fst og, target (snd og), control (snd og))) (combine ops l)) K.
Proof.
  intros w ot vals n l; induction l as [|g l IH]; intros K H; inversion H; subst; simpl.
  - exists []; repeat split; simpl; auto; constructor; assumption.
  - match goal with HP : opk _ _ _ _ _ ?P, HL : gseq _ _ _ _ l ?L |- _ =>
      destruct (opk_operator _ _ _ _ _ _ HP) as (m & E & HM); destruct (IH L HL) as (ops & E' & HL' & HS) end.
    rewrite E; cbn [bind]; rewrite E'; cbn [bind].
    exists (m :: ops); split; [reflexivity|]; split; [simpl; lia|].
    simpl; econstructor; eassumption.
Qed.

Lemma no_noise_spec : forall l, no_noise (map noise l) = true <-> Forall (fun g => noise g = None) l.
Proof.
  induction l as [|g l IH]; simpl; [split; auto|].
  rewrite Bool.andb_true_iff, IH; split.
  - intros [H1 H2]; constructor; [destruct (noise g); [discriminate|reflexivity]|assumption].
  - intro H; inversion H as [|? ? H1 H2]; subst; rewrite H1; auto.
Qed.

(** [apply_gates] of a list without grouping *)
Lemma apply_gates_dense : forall w n vals ot mg gs K a,
    gs <> [] -> Forall noiseless gs -> gseq w ot vals n gs K -> is_state n a ->
    exists r, apply_gates w (SDense a) (GMany gs) vals ot false mg = Ok (SDense r) /\ is_state n r /\
              veq n (amp r) (apply_kernel n K (amp a)).
Proof.
  intros w n vals ot mg gs K a NE NN HG HS.
  destruct (gseq_placed _ _ _ _ _ _ HG) as (ops & EO & LO & HP).
  assert (NO : no_noise (map noise gs) = true) by (apply no_noise_spec; exact NN).
  unfold apply_gates, prepare_sequence_reduce; cbv zeta.
  rewrite EO; cbn [bind].
  destruct gs as [|g gs]; [congruence|].
  rewrite NO; simpl (true && mg).
  destruct mg; simpl andb.
  - destruct (merge_operators_ok n _ K HP) as (m & EM & HM & _).
    rewrite EM; cbn [bind fst snd]; rewrite NO; simpl negb; cbv iota.
    apply run_dense; assumption.
  - cbn [bind fst snd]; rewrite NO; simpl negb; cbv iota.
    apply run_dense; assumption.
Qed.

Lemma noiseless_none : forall gs, Forall noiseless gs -> Forall (fun x : option (list noise_inst) => x = None) (map noise gs).
Proof. induction 1; simpl; constructor; auto. Qed.

Lemma apply_gates_dm : forall w n vals ot mg gs K a,
    set_order (set_iter w) ->
    gs <> [] -> Forall noiseless gs -> gseq w ot vals n gs K -> is_density n a ->
    exists r, apply_gates w (SDM a) (GMany gs) vals ot false mg = Ok (SDM r) /\ is_density n r /\
              keq n (rho_entry r) (conjugate n K (rho_entry a)).
Proof.
  intros w n vals ot mg gs K a SO NE NN HG HS.
  destruct (gseq_placed _ _ _ _ _ _ HG) as (ops & EO & LO & HP).
  assert (NO : no_noise (map noise gs) = true) by (apply no_noise_spec; exact NN).
  pose proof (noiseless_none _ NN) as NN'.
  unfold apply_gates, prepare_sequence_reduce; cbv zeta.
  rewrite EO; cbn [bind].
  destruct gs as [|g gs]; [congruence|].
  rewrite NO.
  assert (LP : length (map (fun og : mat * gate => (fst og, target (snd og), control (snd og))) (combine ops (g :: gs)))
               = length (g :: gs)) by (rewrite map_length, combine_length; lia).
  destruct mg; simpl andb.
  - destruct (merge_operators_ok n _ K HP) as (m & EM & HM & HL).
    rewrite EM; cbn [bind fst snd].
    apply run_dm; auto. rewrite (map_length noise); eapply Nat.le_trans; [exact HL|apply Nat.eq_le_incl; exact LP].
  - cbn [bind fst snd]. apply run_dm; auto. rewrite (map_length noise); apply Nat.eq_le_incl; exact LP.
Qed.

(** a single gate *)
Lemma apply_gate_dense : forall w n vals ot gr mg g K a,
    noiseless g -> opk w ot vals n g K -> is_state n a ->
    exists r, apply_gates w (SDense a) (GOne g) vals ot gr mg = Ok (SDense r) /\ is_state n r /\
              veq n (amp r) (apply_kernel n K (amp a)).
Proof.
  intros w n vals ot gr mg g K a NN HO HS.
  destruct (opk_operator _ _ _ _ _ _ HO) as (m & E & HM).
  unfold apply_gates, prepare_sequence_reduce; rewrite E; cbn [bind fst snd].
  unfold noiseless in NN; rewrite NN; simpl no_noise; cbv iota.
  apply (run_dense w n _ K a (pls_one n _ K HM) HS).
Qed.
Lemma apply_gate_dm : forall w n vals ot gr mg g K a,
    set_order (set_iter w) -> noiseless g -> opk w ot vals n g K -> is_density n a ->
    exists r, apply_gates w (SDM a) (GOne g) vals ot gr mg = Ok (SDM r) /\ is_density n r /\
              keq n (rho_entry r) (conjugate n K (rho_entry a)).
Proof.
  intros w n vals ot gr mg g K a SO NN HO HS.
  destruct (opk_operator _ _ _ _ _ _ HO) as (m & E & HM).
  unfold apply_gates, prepare_sequence_reduce; rewrite E; cbn [bind fst snd].
  unfold noiseless in NN; rewrite NN.
  apply (run_dm w n [(m, target g, control g)] K a [None] SO (pls_one n _ K HM) HS); simpl; auto.
Qed.

(** ** library gates *)
Lemma gate_on_opk : forall w n vals g M cs ts, gate_on n vals g M cs ts -> dense_gate g ->
    opk w UNITARY vals n g (gate_op M cs ts).
Proof.
  intros w n vals g M cs ts [GM GC GT GV] HD; subst ts.
  destruct (unitary_of_ok w vals g M GM HD) as (u & E & HM & HE).
  exists u, cs; simpl; repeat split; auto; try apply HM; try apply GV.
  apply ctrl_kernel_ext, keq_sym; exact HE.
Qed.
Lemma gate_on_opk_dagger : forall w n vals g M cs ts, gate_on n vals g M cs ts -> dense_gate g ->
    opk w DAGGER vals n g (gate_op (kadj M) cs ts).
Proof.
  intros w n vals g M cs ts [GM GC GT GV] HD; subst ts.
  destruct (unitary_of_ok w vals g M GM HD) as (u & E & HM & HE).
  destruct (dagger_matrix _ u HM) as (d & ED & HMD & HED).
  exists d, cs; simpl; unfold dagger_of; rewrite E; cbn [bind]; unfold mat_dagger; rewrite ED; cbn [bind].
  repeat split; auto; try apply HMD; try apply GV.
  apply ctrl_kernel_ext. apply keq_sym; eapply keq_trans; [exact HED|apply kadj_ext; exact HE].
Qed.

Lemma circuit_on_gseq : forall w n vals gs U, circuit_on n vals gs U -> Forall dense_gate gs ->
    gseq w UNITARY vals n gs U.
Proof.
  intros w n vals gs U H; induction H as [|g gs M cs ts U HG HC IH]; intro HD.
  - constructor; apply keq_refl.
  - inversion HD; subst. econstructor; [eapply gate_on_opk; eauto|apply IH; assumption|apply keq_refl].
Qed.

Lemma unitary_kid : forall n, unitary n kid.
Proof.
  intro n; split; (eapply keq_trans; [apply kmul_ext; [first [apply kadj_id|apply keq_refl]|first [apply keq_refl|apply kadj_id]]|]);
    [apply kmul_id_l|]. eapply keq_trans; [apply kmul_ext; [apply keq_refl|apply kadj_id]|apply kmul_id_l].
Qed.
Lemma unitary_kmul : forall n A B, unitary n A -> unitary n B -> unitary n (kmul n A B).
Proof.
  intros n A B [A1 A2] [B1 B2]; split.
  - eapply keq_trans; [apply kmul_ext; [apply kadj_mul|apply keq_refl]|].
    eapply keq_trans; [apply kmul_assoc|].
    eapply keq_trans; [apply kmul_ext; [apply keq_refl|apply keq_sym, kmul_assoc]|].
    eapply keq_trans; [apply kmul_ext; [apply keq_refl|apply kmul_ext; [exact A1|apply keq_refl]]|].
    eapply keq_trans; [apply kmul_ext; [apply keq_refl|apply kmul_id_l]|exact B1].
  - eapply keq_trans; [apply kmul_ext; [apply keq_refl|apply kadj_mul]|].
    eapply keq_trans; [apply kmul_assoc|].
    eapply keq_trans; [apply kmul_ext; [apply keq_refl|apply keq_sym, kmul_assoc]|].
    eapply keq_trans; [apply kmul_ext; [apply keq_refl|apply kmul_ext; [exact B2|apply keq_refl]]|].
    eapply keq_trans; [apply kmul_ext; [apply keq_refl|apply kmul_id_l]|exact A2].
Qed.
Lemma gate_op_unitary : forall n vals g M cs ts, gate_on n vals g M cs ts -> unitary n (gate_op M cs ts).
Proof.
  intros n vals g M cs ts [GM GC GT GV]; subst ts; apply ctrl_kernel_unitary; [exact GV|].
  eapply gate_matrix_unitary; exact GM.
Qed.
Lemma circuit_unitary : forall n vals gs U, circuit_on n vals gs U -> unitary n U.
Proof.
  intros n vals gs U H; induction H as [|g gs M cs ts U HG HC IH]; [apply unitary_kid|].
  apply unitary_kmul; [exact IH|eapply gate_op_unitary; eauto].
Qed.
