(** * Proofs about running sequences of gates *)
From Coq Require Import String List Arith Bool Reals Lia ZArith.
From Verif Require Import Cplx Py PyFacts Ndarray NdFacts OperatorUtils ApplyOperator Sparse Matrices Noise Gates Apply Composite
  Conversion Shots Gpsr Api Spec SpecFacts ApplyFacts DmFacts GateSpec PropSpec NoiseSpec GateFacts CircuitFacts AlgebraFacts GroupFacts ApplyThm
  TensorFacts TensorThm NoiseThm NoiseThm2 SampleSpec SampleThm.
Import ListNotations.
Local Open Scope nat_scope.

Lemma sequence_induction : forall (P : oper -> list gate -> Prop),
    (forall g, P (OGate g) [g]) ->
    (forall l gss, Forall2 P l gss -> P (OSeq l) (List.concat gss)) ->
    (forall m l fp gss, Forall2 P l gss -> P (OQC m l fp) (List.concat gss)) ->
    forall o gs, sequence_of o gs -> P o gs.
Proof.
  intros P H1 H2 H3. fix IH 3. intros o gs H. destruct H as [g|l gss F|m l fp gss F].
  - apply H1.
  - apply H2. revert l gss F. fix IHl 3. intros l gss F. destruct F; constructor; [apply IH; assumption|apply IHl; assumption].
  - apply H3. revert l gss F. fix IHl 3. intros l gss F. destruct F; constructor; [apply IH; assumption|apply IHl; assumption].
Qed.

Lemma sequence_flatten : forall o gs, sequence_of o gs -> flatten o = map OGate gs.
Proof.
  apply sequence_induction; [reflexivity| |]; intros; cbn [flatten];
    (match goal with F : Forall2 _ _ _ |- _ => induction F as [|o g l gss E F IH]; [reflexivity|] end);
    cbn [flat_map List.concat]; rewrite E, IH, map_app; reflexivity.
Qed.
Lemma gates_of_gates : forall gs, gates_of (map OGate gs) = Ok gs.
Proof. induction gs as [|g gs IH]; [reflexivity|]; cbn [map gates_of]; rewrite IH; reflexivity. Qed.
Lemma sequence_iter : forall o gs, sequence_of o gs -> gates_of (iter o) = Ok gs.
Proof.
  intros o gs H. assert (E : iter o = flatten o) by (destruct H; reflexivity).
  rewrite E, (sequence_flatten _ _ H). apply gates_of_gates.
Qed.

Definition one_gate (w : world) (vals : values) (s : state) (g : gate) : res state :=
  apply_gates w s (GOne g) vals UNITARY false true.
Lemma sequence_call : forall w vals o gs, sequence_of o gs -> forall s,
    call w vals o (Some s) = (let! r := foldM (one_gate w vals) gs s in Ok (Some r)).
Proof.
  intros w vals. apply (sequence_induction (fun o gs => forall s, call w vals o (Some s) = (let! r := foldM (one_gate w vals) gs s in Ok (Some r)))).
  - intros g s. cbn [call bind foldM]. unfold one_gate. destruct (apply_gates w s (GOne g) vals UNITARY false true); reflexivity.
  - intros l gss F. cbn [call]. induction F as [|o gs l gss E F IH]; intro s; [reflexivity|].
    cbn [foldM List.concat]. rewrite foldM_app, E. destruct (foldM (one_gate w vals) gs s); cbn [bind]; [apply IH|reflexivity].
  - intros m l fp gss F. cbn [call]. induction F as [|o gs l gss E F IH]; intro s; [reflexivity|].
    cbn [foldM List.concat]. rewrite foldM_app, E. destruct (foldM (one_gate w vals) gs s); cbn [bind]; [apply IH|reflexivity].
Qed.

Lemma one_many : forall w s g vals ot gr mg mg', apply_gates w s (GOne g) vals ot gr mg = apply_gates w s (GMany [g]) vals ot false mg'.
Proof.
  intros w s g vals ot gr mg mg'. unfold apply_gates, prepare_sequence_reduce. cbn [mapM].
  destruct (operator_of w ot g vals) as [o|e]; cbn [bind combine map fst snd]; [|reflexivity].
  replace (if no_noise [noise g] && mg' then let! pl := merge_operators [(o, target g, control g)] in Ok (pl, [noise g])
           else Ok ([(o, target g, control g)], [noise g])) with (Ok ([(o, target g, control g)], [noise g])) by (destruct (no_noise [noise g] && mg'); reflexivity).
  reflexivity.
Qed.

(** ** running gate by gate *)
Lemma run_density : forall w n vals gs r r', set_order (set_iter w) -> noisy_run n vals gs r r' -> Forall dense_gate gs ->
    forall rho, is_density n rho -> keq n (rho_entry rho) r ->
    exists out, foldM (one_gate w vals) gs (SDM rho) = Ok (SDM out) /\ is_density n out /\ keq n (rho_entry out) r'.
Proof.
  intros w n vals gs r r' SO H; induction H as [r|g gs M cs ts r r' HG HN HR IH|g gs M cs q l r r1 r' HG HN HT HR IH];
    intros FD rho D E.
  - exists rho; split; [reflexivity|split; assumption].
  - inversion FD as [|? ? D1 D2]; subst. cbn [foldM].
    destruct (c28_circuit w n vals [g] rho (sandwiched n (gate_op M cs ts) (rho_entry rho)) true SO) as (b & Eb & Db & Kb);
      [discriminate|auto|exact D|eapply nrun_plain; eauto; constructor|].
    change (one_gate w vals (SDM rho) g) with (apply_gates w (SDM rho) (GOne g) vals UNITARY false true). rewrite (one_many _ _ _ _ _ _ _ true), Eb; cbn [bind].
    apply IH; [exact D2|exact Db|]. rewrite Kb. apply sandwiched_ext; [apply keq_refl|exact E].
  - inversion FD as [|? ? D1 D2]; subst. cbn [foldM].
    destruct (through_ext _ _ _ _ _ HT (sandwiched n (gate_op M cs [q]) (rho_entry rho))) as (s1 & T & E1);
      [apply sandwiched_ext; [apply keq_refl|exact E]|].
    destruct (c28_gate w n vals g M cs q l rho s1 false true SO HG D1 HN D T) as (b & Eb & Db & Kb).
    change (one_gate w vals (SDM rho) g) with (apply_gates w (SDM rho) (GOne g) vals UNITARY false true). rewrite Eb; cbn [bind]. apply IH; [exact D2|exact Db|]. rewrite Kb; exact E1.
Qed.

Lemma run_pure : forall w n vals gs, Forall (usable n vals) gs -> Forall dense_gate gs -> Forall noiseless gs ->
    forall U, circuit_on n vals gs U -> forall psi, is_state n psi ->
    exists out, foldM (one_gate w vals) gs (SDense psi) = Ok (SDense out) /\ is_state n out /\
                veq n (amp out) (apply_kernel n U (amp psi)).
Proof.
  intros w n vals gs FU FD FN U HC. revert FU FD FN. induction HC as [|g gs M cs ts U HG HC IH]; intros FU FD FN psi HS.
  - exists psi; split; [reflexivity|split; [exact HS|]]. symmetry; apply apply_kernel_id.
  - inversion FU; inversion FD; inversion FN; subst. cbn [foldM].
    destruct (apply_gate_dense w n vals UNITARY false true g (gate_op M cs ts) psi) as (b & Eb & Sb & Ab);
      [assumption|apply gate_on_opk; assumption|exact HS|].
    change (one_gate w vals (SDense psi) g) with (apply_gates w (SDense psi) (GOne g) vals UNITARY false true). rewrite Eb; cbn [bind]. destruct (IH ltac:(assumption) ltac:(assumption) ltac:(assumption) b Sb) as (out & Eo & So & Ao).
    exists out; split; [exact Eo|split; [exact So|]]. rewrite Ao, Ab. symmetry; apply apply_kernel_mul.
Qed.
Lemma sandwiched_pure : forall n A psi, keq n (sandwiched n A (pure_density psi))
    (fun x y => Cmul (apply_kernel n A (amp psi) x) (Cconj (apply_kernel n A (amp psi) y))).
Proof.
  intros n A psi x y Hx Hy. unfold sandwiched, kmul, kadj, pure_density, apply_kernel.
  rewrite csum_conj, <- csum_scale_l. apply csum_ext; intros z Hz.
  rewrite <- csum_scale_r, <- csum_scale_r. apply csum_ext; intros v Hv. rewrite Cconj_mul. ring.
Qed.
(** a state vector becomes a density matrix at the first noisy gate *)
Lemma run_pure_noisy : forall w n vals gs r r', set_order (set_iter w) -> noisy_run n vals gs r r' -> Forall dense_gate gs ->
    (exists g, In g gs /\ noise g <> None) ->
    forall psi, is_state n psi -> keq n (pure_density psi) r ->
    exists out, foldM (one_gate w vals) gs (SDense psi) = Ok (SDM out) /\ is_density n out /\ keq n (rho_entry out) r'.
Proof.
  intros w n vals gs r r' SO H; induction H as [r|g gs M cs ts r r' HG HN HR IH|g gs M cs q l r r1 r' HG HN HT HR IH];
    intros FD EX psi HS E.
  - destruct EX as (g & [] & _).
  - inversion FD as [|? ? D1 D2]; subst. cbn [foldM].
    destruct (apply_gate_dense w n vals UNITARY false true g (gate_op M cs ts) psi) as (b & Eb & Sb & Ab);
      [assumption|apply gate_on_opk; assumption|exact HS|].
    change (one_gate w vals (SDense psi) g) with (apply_gates w (SDense psi) (GOne g) vals UNITARY false true). rewrite Eb; cbn [bind]. apply IH; [exact D2| |exact Sb|].
    + destruct EX as (g' & [<-|I] & N); [congruence|eauto].
    + rewrite <- (sandwiched_ext n _ _ _ _ (keq_refl n (gate_op M cs ts)) E), sandwiched_pure.
      intros x y Hx Hy. unfold pure_density. rewrite (Ab x Hx), (Ab y Hy). reflexivity.
  - inversion FD as [|? ? D1 D2]; subst. cbn [foldM].
    destruct (through_ext _ _ _ _ _ HT (sandwiched n (gate_op M cs [q]) (pure_density psi))) as (s1 & T & E1);
      [apply sandwiched_ext; [apply keq_refl|exact E]|].
    destruct (c28_gate_pure w n vals g M cs q l psi s1 false true SO HG D1 HN HS T) as (b & Eb & Db & Kb).
    change (one_gate w vals (SDense psi) g) with (apply_gates w (SDense psi) (GOne g) vals UNITARY false true). rewrite Eb; cbn [bind]. eapply run_density; eauto. rewrite Kb; exact E1.
Qed.

(** ** the flattened gate list *)
Lemma flat_density : forall w n vals o gs rho r', set_order (set_iter w) -> sequence_of o gs -> gs <> [] ->
    Forall dense_gate gs -> is_density n rho -> noisy_run n vals gs (rho_entry rho) r' ->
    exists out, run_flat w (SDM rho) o vals = Ok (SDM out) /\ is_density n out /\ keq n (rho_entry out) r'.
Proof.
  intros w n vals o gs rho r' SO HS NE FD D HR. unfold run_flat. rewrite (sequence_iter _ _ HS); cbn [bind].
  apply c28_circuit; assumption.
Qed.
Lemma flat_pure_noisy : forall w n vals o gs psi r', set_order (set_iter w) -> sequence_of o gs ->
    Forall dense_gate gs -> (exists g, In g gs /\ noise g <> None) -> is_state n psi -> noisy_run n vals gs (pure_density psi) r' ->
    exists out, run_flat w (SDense psi) o vals = Ok (SDM out) /\ is_density n out /\ keq n (rho_entry out) r'.
Proof.
  intros w n vals o gs psi r' SO HS FD EX D HR. unfold run_flat. rewrite (sequence_iter _ _ HS); cbn [bind].
  apply c28_circuit_pure; try assumption. intros ->. destruct EX as (g & [] & _).
Qed.
Lemma flat_pure : forall w n vals o gs U psi, sequence_of o gs -> gs <> [] -> Forall dense_gate gs -> Forall noiseless gs ->
    circuit_on n vals gs U -> is_state n psi ->
    exists out, run_flat w (SDense psi) o vals = Ok (SDense out) /\ is_state n out /\ veq n (amp out) (apply_kernel n U (amp psi)).
Proof.
  intros w n vals o gs U psi HS NE FD FN HC D. unfold run_flat. rewrite (sequence_iter _ _ HS); cbn [bind].
  destruct (apply_gates_dense w n vals UNITARY true gs U psi NE FN (circuit_on_gseq w n vals gs U HC FD) D) as (phi & E1 & S1 & V1).
  exists phi; auto.
Qed.

(** ** calling a sequence *)
Lemma call_density : forall w n vals o gs rho r', set_order (set_iter w) -> sequence_of o gs ->
    Forall dense_gate gs -> is_density n rho -> noisy_run n vals gs (rho_entry rho) r' ->
    exists out, run w o (SDM rho) vals = Ok (Some (SDM out)) /\ is_density n out /\ keq n (rho_entry out) r'.
Proof.
  intros w n vals o gs rho r' SO HS FD D HR. destruct (run_density w n vals gs _ _ SO HR FD rho D (keq_refl _ _)) as (out & E & Do & Ko).
  exists out; split; [|split; assumption]. unfold run. rewrite (sequence_call _ _ _ _ HS), E. reflexivity.
Qed.
Lemma call_pure_noisy : forall w n vals o gs psi r', set_order (set_iter w) -> sequence_of o gs ->
    Forall dense_gate gs -> (exists g, In g gs /\ noise g <> None) -> is_state n psi -> noisy_run n vals gs (pure_density psi) r' ->
    exists out, run w o (SDense psi) vals = Ok (Some (SDM out)) /\ is_density n out /\ keq n (rho_entry out) r'.
Proof.
  intros w n vals o gs psi r' SO HS FD EX D HR. destruct (run_pure_noisy w n vals gs _ _ SO HR FD EX psi D (keq_refl _ _)) as (out & E & Do & Ko).
  exists out; split; [|split; assumption]. unfold run. rewrite (sequence_call _ _ _ _ HS), E. reflexivity.
Qed.
Lemma call_pure : forall w n vals o gs U psi, sequence_of o gs -> Forall dense_gate gs -> Forall noiseless gs ->
    circuit_on n vals gs U -> is_state n psi ->
    exists out, run w o (SDense psi) vals = Ok (Some (SDense out)) /\ is_state n out /\ veq n (amp out) (apply_kernel n U (amp psi)).
Proof.
  intros w n vals o gs U psi HS FD FN HC D.
  destruct (run_pure w n vals gs (circuit_usable _ _ _ _ HC) FD FN U HC psi D) as (out & E & Do & Ko).
  exists out; split; [|split; assumption]. unfold run. rewrite (sequence_call _ _ _ _ HS), E. reflexivity.
Qed.

Lemma noisy_or_not : forall gs, Forall noiseless gs \/ exists g, In g gs /\ noise g <> None.
Proof.
  induction gs as [|g gs [H|(h & I & N)]]; [left; constructor| |right; exists h; simpl; auto].
  destruct (noise g) eqn:E; [right; exists g; simpl; split; [auto|congruence]|left; constructor; assumption].
Qed.

(** C44: the circuit and its flattened list of gates *)
Lemma c44_flatten : forall w n vals o gs st, set_order (set_iter w) -> sequence_of o gs -> gs <> [] ->
    Forall (usable n vals) gs -> Forall dense_gate gs -> Forall noise_ok gs -> state_of n st ->
    exists out, run w o st vals = Ok (Some out) /\ apply_gates w st (GMany gs) vals UNITARY false true = Ok out /\
                run_flat w st o vals = Ok out /\ state_of n out.
Proof.
  intros w n vals o gs st SO HS NE FU FD FN HT.
  assert (RF : run_flat w st o vals = apply_gates w st (GMany gs) vals UNITARY false true).
  { unfold run_flat. rewrite (sequence_iter _ _ HS). reflexivity. }
  rewrite <- RF. cut (exists out, run w o st vals = Ok (Some out) /\ run_flat w st o vals = Ok out /\ state_of n out).
  { intros (out & A & B & E); eauto. }
  clear RF. destruct st as [psi|b|rho]; [|contradiction|].
  - destruct (noisy_or_not gs) as [NN|EX].
    + destruct (usable_circuit _ _ _ FU) as (U & HC).
      destruct (call_pure w n vals o gs U psi HS FD NN HC HT) as (a & Ea & Sa & Ka).
      destruct (flat_pure w n vals o gs U psi HS NE FD NN HC HT) as (b & Eb & Sb & Kb).
      assert (a = b) by (apply (state_ext n); [assumption|assumption|]; rewrite Ka, Kb; reflexivity). subst b; eauto.
    + destruct (noisy_run_exists n vals gs FU FN (pure_density psi)) as (r' & HR).
      destruct (call_pure_noisy w n vals o gs psi r' SO HS FD EX HT HR) as (a & Ea & Sa & Ka).
      destruct (flat_pure_noisy w n vals o gs psi r' SO HS FD EX HT HR) as (b & Eb & Sb & Kb).
      assert (a = b) by (apply (density_ext n); [assumption|assumption|]; rewrite Ka, Kb; reflexivity). subst b; eauto.
  - destruct (noisy_run_exists n vals gs FU FN (rho_entry rho)) as (r' & HR).
    destruct (call_density w n vals o gs rho r' SO HS FD HT HR) as (a & Ea & Sa & Ka).
    destruct (flat_density w n vals o gs rho r' SO HS NE FD HT HR) as (b & Eb & Sb & Kb).
    assert (a = b) by (apply (density_ext n); [assumption|assumption|]; rewrite Ka, Kb; reflexivity). subst b; eauto.
Qed.

(** C38, end to end *)
Lemma c38_pure_circuit : forall w n vals sq circuit K psi k,
    choice_contract w -> 1 <= n -> (1 <= k)%Z -> denotes w n vals sq circuit K -> is_state n psi ->
    fst (sample w (SDense psi) circuit vals k) =
      Ok (histogram n (choice w 0 (map (fun x => Cnorm2 (apply_kernel n K (amp psi) x)) (bitstrings n)) (Z.to_nat k))).
Proof.
  intros w n vals sq circuit K psi k CC Hn Hk HD HS.
  destruct (denotes_call _ _ _ _ _ _ HD psi HS) as (out & E & So & Ao).
  rewrite (c38_dense w n _ _ _ _ out CC Hn Hk E So). do 3 f_equal. unfold born_probabilities.
  apply map_ext_in; intros x Hx. rewrite (Ao x Hx); reflexivity.
Qed.
Lemma diagonal_ext : forall n a r, keq n (rho_entry a) r -> diagonal n a = map (fun x => re (r x x)) (bitstrings n).
Proof. intros n a r H. unfold diagonal. apply map_ext_in; intros x Hx. rewrite (H x x Hx Hx); reflexivity. Qed.
Lemma c38_noisy_circuit : forall w n vals circuit gs st r k,
    set_order (set_iter w) -> choice_contract w -> 1 <= n -> (1 <= k)%Z ->
    sequence_of circuit gs -> Forall dense_gate gs -> state_of n st ->
    (exists a, st = SDM a) \/ (exists g, In g gs /\ noise g <> None) ->
    noisy_run n vals gs (density_of st) r ->
    fst (sample w st circuit vals k) =
      Ok (histogram n (choice w 0 (map (fun x => re (r x x)) (bitstrings n)) (Z.to_nat k))).
Proof.
  intros w n vals circuit gs st r k SO CC Hn Hk HS FD HT EX HR. destruct st as [psi|b|rho]; [|contradiction|].
  - destruct EX as [(a & Q)|EX]; [discriminate|].
    destruct (call_pure_noisy w n vals circuit gs psi r SO HS FD EX HT HR) as (a & Ea & Sa & Ka).
    rewrite (c38_density w n _ _ _ _ a CC Hn Hk Ea Sa), (diagonal_ext n a r Ka). reflexivity.
  - destruct (call_density w n vals circuit gs rho r SO HS FD HT HR) as (a & Ea & Sa & Ka).
    rewrite (c38_density w n _ _ _ _ a CC Hn Hk Ea Sa), (diagonal_ext n a r Ka). reflexivity.
Qed.
