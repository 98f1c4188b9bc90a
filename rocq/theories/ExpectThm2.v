(** * Further proofs about expectation values (C41, C43, C45-C48) *)
From Coq Require Import String List Arith Bool Reals Lia Lra ZArith Permutation Sorted.
From Verif Require Import Cplx Py PyFacts Ndarray NdFacts NdPerm OperatorUtils ApplyOperator Sparse Matrices Noise Gates Apply Composite
  Conversion Shots Gpsr Api Spec SpecFacts ApplyFacts DmFacts ExpandFacts GateSpec PropSpec NoiseSpec GateFacts CircuitFacts AlgebraFacts GroupFacts ApplyThm
  TensorFacts TensorThm SparseSpec SparseFacts SparseThm NoiseThm NoiseThm2 SampleSpec SampleThm SeqThm SubThm ExpectSpec ExpectThm.
Import ListNotations.
Local Open Scope nat_scope.

(** ** C41 *)
Lemma ctrl_kernel_diag : forall n M ts x, valid_qubits n ts -> In x (bitstrings n) ->
    ctrl_kernel M [] ts x x = M (bits_at x ts) (bits_at x ts).
Proof.
  intros n M ts x V Hx.
  assert (SO : set_order (fun l => sorted (dedup l))).
  { intro l; split; [apply sorted_NoDup, dedup_NoDup|]. intro q. rewrite sorted_In, dedup_In. tauto. }
  rewrite <- (split_kernel n M ts _ x x (support_perm_is_perm _ n ts SO V) Hx Hx).
  unfold kid. destruct (list_eq_dec Nat.eq_dec _ _); [ring|congruence].
Qed.
Lemma bits_at_one : forall n a q, q < n -> a < n -> nth q (set_bit (repeat 0 n) a 1) 0 = if Nat.eqb q a then 1 else 0.
Proof.
  intros n a q Hq Ha. destruct (Nat.eqb_spec q a) as [->|N].
  - apply nth_set_bit_eq. rewrite repeat_length; exact Ha.
  - rewrite nth_set_bit_ne by exact N. apply nth_repeat.
Qed.
Lemma one_bits : forall n a, In (set_bit (repeat 0 n) a 1) (bitstrings n).
Proof.
  intros n. induction n as [|n IH]; intros a; cbn [repeat]; [left; reflexivity|].
  destruct a as [|a]; cbn [set_bit bitstrings]; apply in_or_app.
  - right. apply in_map. clear. induction n as [|n IH]; cbn [repeat bitstrings]; [left; reflexivity|]. apply in_or_app; left; apply in_map, IH.
  - left. apply in_map, IH.
Qed.
Definition basis_state (n : nat) (b : list nat) : arr := build (repeat 2 n) (fun x => if list_eq_dec Nat.eq_dec x b then C1 else C0).
Lemma basis_state_amp : forall n b x, In x (bitstrings n) -> amp (basis_state n b) x = if list_eq_dec Nat.eq_dec x b then C1 else C0.
Proof. intros n b x Hx. unfold amp, basis_state. rewrite get_build; [reflexivity|]. apply (proj1 (bitstrings_inb n x)); exact Hx. Qed.
Lemma csum_basis : forall n b f, In b (bitstrings n) ->
    csum (bitstrings n) (fun x => Cmul (f x) (amp (basis_state n b) x)) = f b.
Proof.
  intros n b f Hb. rewrite (csum_single _ b _).
  - rewrite basis_state_amp by exact Hb. destruct (list_eq_dec Nat.eq_dec b b); [ring|congruence].
  - apply bitstrings_NoDup.
  - exact Hb.
  - intros x Hx N. rewrite basis_state_amp by exact Hx. destruct (list_eq_dec Nat.eq_dec x b); [congruence|ring].
Qed.
Lemma mean_basis : forall n b K, In b (bitstrings n) -> mean_pure n K (amp (basis_state n b)) = re (K b b).
Proof.
  intros n b K Hb. unfold mean_pure, inner_product. f_equal.
  rewrite (csum_ext _ _ (fun x => Cmul (K x b) (amp (basis_state n b) x))).
  - exact (csum_basis n b (fun x => K x b) Hb).
  - intros x Hx. unfold apply_kernel. rewrite csum_basis by exact Hb. rewrite basis_state_amp by exact Hx.
    destruct (list_eq_dec Nat.eq_dec x b); apply C_ext; simpl; ring.
Qed.

Definition zx_obs (a b : nat) : list oper := [OGate (gZ (TInt a) no_control None false); OGate (gX (TInt b) no_control None false)].
Lemma valid_one : forall n q, q < n -> valid_qubits n [q].
Proof. intros n q H; split; [constructor; [intros []|constructor]|constructor; [exact H|constructor]]. Qed.
Lemma zx_denotes : forall w n a b vals sq, a < n -> b < n ->
    observable_on w n vals sq (zx_obs a b) (ksum [gate_op Z_matrix [] [a]; gate_op X_matrix [] [b]]).
Proof.
  intros w n a b vals sq Ha Hb. exists [gate_op Z_matrix [] [a]; gate_op X_matrix [] [b]]. split; [discriminate|split; [|reflexivity]].
  constructor; [|constructor; [|constructor]]; (apply den_gate; [|split; reflexivity|reflexivity]).
  - split; [eapply gm_fixed; simpl; eauto 10|apply cq_default|reflexivity|apply valid_one; exact Ha].
  - split; [eapply gm_fixed; simpl; eauto 10|apply cq_default|reflexivity|apply valid_one; exact Hb].
Qed.
Lemma c41_refuted : forall w n a b, set_order (set_iter w) -> a < b -> b < n -> set_iter w [a; b] = [b; a] ->
    exists rho K, is_density n rho /\ hermitian n (rho_entry rho) /\ positive n (rho_entry rho) /\ ktrace n (rho_entry rho) = C1 /\
      observable_on w n [] false (zx_obs a b) K /\ mean_density n K (rho_entry rho) = (-1)%R /\
      call w [] (OObs (zx_obs a b)) (Some (SDM rho)) = Ok (Some (SDense (scalar (RtoC 1)))).
Proof.
  intros w n a b SO Hab Hb HI. assert (Ha : a < n) by lia.
  set (x0 := set_bit (repeat 0 n) a 1). set (x1 := set_bit (repeat 0 n) b 1).
  assert (B0 : In x0 (bitstrings n)) by apply one_bits. assert (B1 : In x1 (bitstrings n)) by apply one_bits.
  assert (HP : is_state n (basis_state n x0)) by (split; [reflexivity|apply wf_build]).
  destruct (density_mat_spec n _ HP) as (rho & Er & Dr & Kr). set (K := ksum [gate_op Z_matrix [] [a]; gate_op X_matrix [] [b]]).
  exists rho, K. split; [exact Dr|].
  split; [eapply hermitian_ext; [apply keq_sym; exact Kr|apply pure_hermitian]|].
  split; [eapply positive_ext; [apply keq_sym; exact Kr|apply pure_positive]|].
  split.
  { rewrite (ktrace_ext n _ _ Kr), ktrace_pure. rewrite <- inner_norm2. unfold inner_product.
    rewrite csum_basis by exact B0. rewrite basis_state_amp by exact B0. destruct (list_eq_dec Nat.eq_dec x0 x0); [apply C_ext; simpl; ring|congruence]. }
  split; [apply zx_denotes; assumption|].
  assert (MB : forall L, mean_density n L (rho_entry rho) = re (L x0 x0)).
  { intro L. rewrite (mean_density_ext n L L _ _ (keq_refl _ _) Kr), mean_pure_density. apply mean_basis; exact B0. }
  assert (Bit : forall c d, c < n -> d < n -> bits_at (set_bit (repeat 0 n) c 1) [d] = [if Nat.eqb d c then 1 else 0]).
  { intros c d Hc Hd. unfold bits_at; cbn [map]. rewrite bits_at_one by assumption. reflexivity. }
  assert (KD : forall c, c < n -> K (set_bit (repeat 0 n) c 1) (set_bit (repeat 0 n) c 1) =
             Z_matrix [if Nat.eqb a c then 1 else 0] [if Nat.eqb a c then 1 else 0]).
  { intros c Hc. unfold K; cbn [ksum]. unfold gate_op.
    rewrite !(ctrl_kernel_diag n) by (try apply valid_one; try assumption; apply one_bits).
    rewrite !Bit by assumption. destruct (Nat.eqb b c); simpl X_matrix; ring. }
  split.
  { rewrite MB. unfold x0. rewrite KD by exact Ha. rewrite Nat.eqb_refl. simpl; ring. }
  destruct (ad_density_order w n [] (zx_obs a b) K rho SO (zx_denotes w n a b [] false Ha Hb) Dr) as (s & m & Es & Mm & Km & E).
  assert (S : s = [b; a]).
  { unfold zx_obs in Es. cbn [support mapM] in Es.
    assert (G : forall name q, gate_support (Primitive name (TInt q) no_control None false) = Ok [q]) by (intros; reflexivity).
    unfold gZ, gX in Es. rewrite !G in Es. cbn [bind List.concat app] in Es. rewrite HI in Es. congruence. }
  cbn [call]. unfold ad_single in E. rewrite Es in E |- *.
  destruct (tensor w [] (OObs (zx_obs a b)) None) as [t|]; [|discriminate]. cbn [bind] in E |- *. rewrite E; cbn [bind].
  do 3 f_equal. f_equal. f_equal. rewrite MB. subst s.
  assert (V2 : valid_qubits n [b; a]).
  { split; [constructor; [intros [Q|[]]; lia|exact (proj1 (valid_one n a Ha))]|constructor; [exact Hb|constructor; [exact Ha|constructor]]]. }
  assert (V2' : valid_qubits n [a; b]) by (apply valid_swap; exact V2).
  rewrite (ctrl_kernel_diag n _ _ x0 V2 B0).
  assert (S2 : sorted [b; a] = [a; b]) by (rewrite sorted2; destruct (Nat.leb_spec b a); [lia|reflexivity]).
  rewrite S2 in Km. assert (K1 := Km x1 x1 B1 B1). rewrite (ctrl_kernel_diag n _ _ x1 V2' B1) in K1.
  assert (Q0 : bits_at x0 [b; a] = [0; 1]).
  { unfold bits_at, x0; cbn [map]. rewrite !bits_at_one by assumption. rewrite Nat.eqb_refl. destruct (Nat.eqb_spec b a); [lia|reflexivity]. }
  assert (Q1 : bits_at x1 [a; b] = [0; 1]).
  { unfold bits_at, x1; cbn [map]. rewrite !bits_at_one by assumption. rewrite Nat.eqb_refl. destruct (Nat.eqb_spec a b); [lia|reflexivity]. }
  rewrite Q0. rewrite Q1 in K1. rewrite K1. unfold x1. rewrite KD by exact Hb.
  destruct (Nat.eqb_spec a b); [lia|]. reflexivity.
Qed.

(** ** C43: the expectation value sees Scale and Add differently *)
Definition q0 : target_arg := TInt 0.
Definition x0_gate : oper := OGate (gX q0 no_control None false).
Definition z0_gate : oper := OGate (gZ q0 no_control None false).
Lemma c43_refuted : forall w key, exists out,
    run w (OpSequence [Scale (AOp x0_gate) (PNum 2)]) (SDense (zero_state 1)) [] = Ok (Some (SDense out)) /\ is_state 1 out /\
    observable_on w 1 [] false [z0_gate] (ksum [gate_op Z_matrix [] [0]]) /\ mean_pure 1 (ksum [gate_op Z_matrix [] [0]]) (amp out) = (-4)%R /\
    expectation w (SDense (zero_state 1)) (OpSequence [Scale (AOp x0_gate) (PNum 2)]) [[z0_gate]] [] AD 0 key = Ok [(-1)%R].
Proof.
  intros w key. eexists. split; [lazy -[Rplus Rmult Ropp]; reflexivity|]. split; [split; reflexivity|]. split; [|split].
  - exists [gate_op Z_matrix [] [0]]. split; [discriminate|split; [|reflexivity]].
    constructor; [|constructor]. apply den_gate; [|reflexivity|reflexivity].
    split; [eapply gm_fixed; simpl; eauto 10|apply cq_default|reflexivity|apply valid_one; lia].
  - unfold mean_pure, amp, get; lazy -[Rplus Rmult Ropp Rminus IZR]. ring.
  - lazy -[Rplus Rmult Ropp Rminus IZR]. do 2 f_equal. ring.
Qed.
Lemma c43_refuted_add : forall w key, exists out,
    run w (OpSequence [Add (AList [x0_gate; z0_gate])]) (SDense (zero_state 1)) [] = Ok (Some (SDense out)) /\ is_state 1 out /\
    mean_pure 1 (ksum [gate_op Z_matrix [] [0]]) (amp out) = 0%R /\
    expectation w (SDense (zero_state 1)) (OpSequence [Add (AList [x0_gate; z0_gate])]) [[z0_gate]] [] AD 0 key = Ok [(-1)%R].
Proof.
  intros w key. eexists. split; [lazy -[Rplus Rmult Ropp]; reflexivity|]. split; [split; reflexivity|]. split.
  - unfold mean_pure, amp, get; lazy -[Rplus Rmult Ropp Rminus IZR]. ring.
  - lazy -[Rplus Rmult Ropp Rminus IZR]. do 2 f_equal. ring.
Qed.
Lemma c43_refuted_scale : forall w st a p obs vals key, obs <> [] -> flat_values vals ->
    expectation w st (Scale a p) obs vals AD 0 key = Err AttributeError.
Proof.
  intros w st a p obs vals key NE FV. unfold expectation. cbn [Z.ltb Z.eqb Z.compare]. unfold ad_expectation.
  rewrite (values_routed vals vals vals) by (right; auto). cbn [bind]. destruct obs as [|l obs]; [contradiction|]. reflexivity.
Qed.

(** ** C45 *)
Lemma get_scale_any : forall c a v, get (scale c a) v = Cmul c (get a v).
Proof.
  intros c a v. unfold get, scale, map_arr; cbn [shape data]. replace C0 with (Cmul c C0) at 1 by ring. apply map_nth.
Qed.
Lemma scale_state_ok : forall c s s', scale_state c (Some s) = Ok (Some s') -> scaled c s s'.
Proof.
  intros c [a|b|a] s' H; cbn in H; try discriminate; injection H as <-.
  - split; [reflexivity|]. intro v; apply get_scale_any.
  - split; [reflexivity|]. intro v. rewrite scale_commutes. apply get_scale_any.
Qed.
Definition scalable (s : state) : Prop := match s with SDM _ => False | _ => True end.
Lemma scale_state_total : forall c s, scalable s -> exists s', scale_state c (Some s) = Ok (Some s') /\ scaled c s s'.
Proof.
  intros c [a|b|a] H; [| |destruct H]; (eexists; split; [reflexivity|apply scale_state_ok; reflexivity]).
Qed.
Lemma c45_list : forall w vals l p c st out, param_value p vals = Ok c ->
    run w (OpSequence l) st vals = Ok (Some out) -> scalable out ->
    exists out', run w (Scale (AList l) p) st vals = Ok (Some out') /\ scaled c out out'.
Proof.
  intros w vals l p c st out P E S. destruct (scale_state_total c out S) as (out' & Es & Hs). exists out'; split; [|exact Hs].
  unfold run, Scale, OpSequence in *. cbn [call list_of] in *. rewrite P; cbn [bind]. rewrite E; cbn [bind]. exact Es.
Qed.
Lemma sequence_gates : forall gs, sequence_of (OSeq (map OGate gs)) gs.
Proof.
  intro gs. replace gs with (List.concat (map (fun g => [g]) gs)) at 2.
  - apply so_seq. induction gs; constructor; [constructor|assumption].
  - induction gs; simpl; congruence.
Qed.
Lemma c45_operation : forall w vals o p c st out, param_value p vals = Ok c ->
    (exists gs, sequence_of o gs) \/ (exists l q, o = OScale l q) ->
    run w o st vals = Ok (Some out) -> scalable out ->
    exists out', run w (Scale (AOp o) p) st vals = Ok (Some out') /\ scaled c out out'.
Proof.
  intros w vals o p c st out P H E S. destruct (scale_state_total c out S) as (out' & Es & Hs). exists out'; split; [|exact Hs].
  unfold run, Scale in *. cbn [call list_of]. rewrite P; cbn [bind]. destruct H as [[gs H]|(l & q & ->)].
  - assert (Q : foldM (fun s o => call w vals o s) (iter o) (Some st) = call w vals o (Some st)).
    { assert (I : iter o = map OGate gs).
      { destruct H; [reflexivity| |]; cbn [iter]; [apply (sequence_flatten (OSeq l)); constructor; assumption|].
        apply (sequence_flatten (OQC m l fp)). constructor; assumption. }
      rewrite I. change (call w vals (OSeq (map OGate gs)) (Some st) = call w vals o (Some st)).
      rewrite (sequence_call w vals o gs H), (sequence_call w vals _ gs (sequence_gates gs)). reflexivity. }
    rewrite Q, E; cbn [bind]; exact Es.
  - cbn [iter foldM]. rewrite E; cbn [bind]; exact Es.
Qed.
(** Scale(Add([X, Z]), 1) is not X + Z: it is Z after X *)
Lemma c45_refuted : forall w, exists out out',
    run w (Add (AList [x0_gate; z0_gate])) (SDense (zero_state 1)) [] = Ok (Some (SDense out)) /\
    run w (Scale (AOp (Add (AList [x0_gate; z0_gate]))) (PNum 1)) (SDense (zero_state 1)) [] = Ok (Some (SDense out')) /\
    amp out [0] = C1 /\ amp out [1] = C1 /\ amp out' [0] = C0 /\ amp out' [1] = Copp C1.
Proof.
  intros w. do 2 eexists. split; [lazy -[Rplus Rmult Ropp]; reflexivity|]. split; [lazy -[Rplus Rmult Ropp]; reflexivity|].
  unfold amp, get; lazy -[Rplus Rmult Ropp Rminus IZR]. repeat apply Logic.conj; f_equal; ring.
Qed.

(** ** C47 *)
Lemma step_not_dm : forall w s m t c r, scalable s -> apply_operator_state w s m t c = Ok r -> scalable r.
Proof.
  intros w s m t c r H E. destruct s as [a|b|a], m as [o|o]; cbn in E; try discriminate; try destruct H;
    match type of E with (let! r := ?x in _) = _ => destruct x; [|discriminate]; injection E as <-; exact Logic.I end.
Qed.
Lemma apply_not_dm : forall w s gs vals ot gr mg r, scalable s -> Forall noiseless gs ->
    apply_gates w s (GMany gs) vals ot gr mg = Ok r -> scalable r.
Proof.
  intros w s gs vals ot gr mg r H NN E. unfold apply_gates, prepare_sequence_reduce in E.
  set (gs' := if gr then group_by_index gs else gs) in *.
  assert (N' : no_noise (map noise gs') = true).
  { assert (F : Forall noiseless gs') by (unfold gs'; destruct gr; [eapply Forall_perm; [apply Permutation_sym, group_by_index_perm|exact NN]|exact NN]).
    unfold no_noise. rewrite forallb_forall. intros x Hx. rewrite in_map_iff in Hx. destruct Hx as (g & <- & Hg).
    rewrite Forall_forall in F. rewrite (F g Hg). reflexivity. }
  destruct (mapM _ gs') as [ops|]; [|discriminate]. cbn [bind] in E. destruct gs' as [|g0 gs0] eqn:Eg; [discriminate|]. rewrite N' in E. cbn [andb] in E.
  assert (FM : forall pl s, scalable s -> foldM (fun s (p : placed) => let '(o, t, c) := p in apply_operator_state w s o t c) pl s = Ok r -> scalable r).
  { induction pl as [|[[o t] c] pl IH]; intros s1 H1 E1; cbn [foldM] in E1; [injection E1 as <-; exact H1|].
    destruct (apply_operator_state w s1 o t c) as [s2|] eqn:E2; [|discriminate]. cbn [bind] in E1. eapply IH; [eapply step_not_dm; eassumption|exact E1]. }
  match type of E with (let! pn := ?x in _) = _ => destruct x as [[pl ns]|] eqn:Ep; [|discriminate] end. cbn [bind fst snd] in E.
  assert (NS : ns = map noise (g0 :: gs0)).
  { destruct mg; [|injection Ep as _ <-; reflexivity]. destruct (merge_operators _); [|discriminate]. injection Ep as _ <-. reflexivity. }
  rewrite NS, N' in E. cbn [negb] in E. destruct s; [|(eapply FM; eassumption)|destruct H]. eapply FM; [|exact E]. exact Logic.I.
Qed.
Definition noise_free (circuit : oper) : Prop := forall gs, gates_of (iter circuit) = Ok gs -> Forall noiseless gs.
Lemma mapM_ext_in : forall {A B} (f g : A -> res B) l, (forall a, In a l -> f a = g a) -> mapM f l = mapM g l.
Proof.
  intros A B f g; induction l as [|a l IH]; intro H; [reflexivity|]. cbn [mapM]. rewrite (H a (or_introl eq_refl)).
  rewrite IH by (intros; apply H; right; assumption). reflexivity.
Qed.
Lemma c47_gpsr : forall w st circuit obs vals key key', flat_values vals -> obs <> [] ->
    expectation w st circuit obs vals GPSR 0 key = expectation w st circuit obs vals AD 0 key'.
Proof.
  intros w st circuit obs vals key key' FV NE. unfold expectation. cbn [Z.ltb Z.eqb Z.compare]. unfold ad_expectation.
  rewrite (values_routed vals vals vals) by (right; auto). cbn [bind fst snd]. unfold run_flat, analytical_expectation, stack.
  destruct (gates_of (iter circuit)) as [gs|e]; cbn [bind]; [reflexivity|]. destruct obs as [|l obs]; [contradiction|reflexivity].
Qed.
Lemma c47_adjoint : forall w st circuit obs vals n_shots key key', flat_values vals -> scalable st -> noise_free circuit ->
    expectation w st circuit obs vals ADJOINT n_shots key = expectation w st circuit obs vals AD 0 key'.
Proof.
  intros w st circuit obs vals k key key' FV SC NF. unfold expectation. cbn [Z.ltb Z.eqb Z.compare].
  transitivity (adjoint_expectation w st circuit obs vals); [destruct st; [reflexivity|reflexivity|destruct SC]|].
  unfold ad_expectation, adjoint_expectation. rewrite (values_routed vals vals vals) by (right; auto). cbn [bind fst snd].
  f_equal. apply mapM_ext_in. intros l _. unfold adjoint_single. destruct (run_flat w st circuit vals) as [out|e] eqn:E; cbn [bind]; [|reflexivity].
  assert (SO : scalable out).
  { unfold run_flat in E. destruct (gates_of (iter circuit)) as [gs|] eqn:G; [|discriminate]. cbn [bind] in E.
    eapply apply_not_dm; [exact SC|exact (NF gs G)|exact E]. }
  destruct out; [reflexivity|reflexivity|destruct SO].
Qed.
Lemma c47_modes : forall w st circuit obs vals key1 key2 key3, flat_values vals -> scalable st -> noise_free circuit -> obs <> [] ->
    expectation w st circuit obs vals ADJOINT 0 key2 = expectation w st circuit obs vals AD 0 key1 /\
    expectation w st circuit obs vals GPSR 0 key3 = expectation w st circuit obs vals AD 0 key1.
Proof. intros; split; [apply c47_adjoint|apply c47_gpsr]; assumption. Qed.
(** a noisy gate makes the ADJOINT mode fail on every state vector and for every observable, where AD returns a value *)
Lemma c47_refuted : forall w n vals circuit gs psi obs Ks k key key',
    set_order (set_iter w) -> flat_values vals -> sequence_of circuit gs ->
    Forall (usable n vals) gs -> Forall dense_gate gs -> Forall noise_ok gs -> (exists g, In g gs /\ noise g <> None) ->
    is_state n psi -> obs <> [] -> Forall2 (density_ready w n vals) obs Ks ->
    (exists xs, expectation w (SDense psi) circuit obs vals AD 0 key = Ok xs) /\
    (exists e, expectation w (SDense psi) circuit obs vals ADJOINT k key' = Err e).
Proof.
  intros w n vals circuit gs psi obs Ks k key key' SO FV HQ FU FD FN EX HS NE F.
  destruct (noisy_run_exists n vals gs FU FN (pure_density psi)) as (r & HR).
  assert (NG : gs <> []) by (intros ->; destruct EX as (g & [] & _)).
  split.
  - eexists. exact (c41_formula w n vals circuit gs (SDense psi) r obs Ks key SO FV HQ NG FD HS (or_intror EX) HR NE F).
  - destruct (flat_pure_noisy w n vals circuit gs psi r SO HQ FD EX HS HR) as (out & Eo & _).
    unfold expectation, adjoint_expectation. destruct obs as [|l obs]; [contradiction|]. cbn [mapM]. unfold adjoint_single at 1. rewrite Eo; cbn [bind].
    destruct (forward w vals l (Some (SDM out))) as [p|e]; cbn [bind real_inner]; eauto.
Qed.

(** ** C46 *)
Lemma c46_rejects : forall w st circuit obs vals n_shots key,
    ((n_shots < 0)%Z -> expectation w st circuit obs vals AD n_shots key = Err ValueError /\
                       expectation w st circuit obs vals GPSR n_shots key = Err ValueError) /\
    (forall rho, st = SDM rho -> expectation w st circuit obs vals ADJOINT n_shots key = Err TypeError) /\
    expectation w st circuit obs vals OtherMode n_shots key = Err ValueError.
Proof.
  intros w st circuit obs vals k key. split; [|split].
  - intro H. unfold expectation. destruct (Z.ltb_spec k 0); [split; reflexivity|lia].
  - intros rho ->. reflexivity.
  - reflexivity.
Qed.
(** nothing else is rejected: with valid inputs every mode returns the mean of each observable in the output of the circuit *)
Lemma c46_accepts : forall w n vals circuit gs st mode k key,
    set_order (set_iter w) -> flat_values vals -> sequence_of circuit gs -> gs <> [] ->
    Forall (usable n vals) gs -> Forall dense_gate gs -> state_of n st ->
    (mode = AD /\ k = 0%Z \/ mode = GPSR /\ k = 0%Z) /\ Forall noise_ok gs \/ mode = ADJOINT /\ (exists psi, st = SDense psi) /\ Forall noiseless gs ->
    exists out, run w circuit st vals = Ok (Some out) /\
      forall obs Ks, obs <> [] -> Forall2 (obs_for w n vals out) obs Ks ->
        expectation w st circuit obs vals mode k key = Ok (map (fun K => mean n K out) Ks).
Proof.
  intros w n vals circuit gs st mode k key SO FV HQ NG FU FD HS H.
  assert (FN : Forall noise_ok gs).
  { destruct H as [[_ H]|(_ & _ & H)]; [exact H|]. eapply Forall_impl; [|exact H]. intros g E; unfold noise_ok; rewrite E; exact Logic.I. }
  destruct (c43_sequences w n vals circuit gs st SO FV HQ NG FU FD FN HS) as (out & Eo & So & HE).
  exists out; split; [exact Eo|]. intros obs Ks NE F. rewrite <- (HE obs Ks key NE F).
  destruct H as [[[[-> ->]|[-> ->]] _]|(-> & (psi & ->) & NN)]; [reflexivity|apply c47_gpsr; assumption|].
  apply c47_adjoint; [exact FV|exact Logic.I|]. intros gs' G. rewrite (sequence_iter _ _ HQ) in G. injection G as <-. exact NN.
Qed.

(** ** C48 *)
Definition rxa_gate : gate := RX (PName "a") q0 no_control None false.
Lemma c48_refuted : forall w v o t key, lookup v "a" = Ok (VNum t) -> exists x,
    expectation w (SDense (zero_state 1)) (OSeq [OGate rxa_gate]) [[z0_gate]] [("circuit", VDict v); ("observables", VDict o)]%string AD 0 key = Ok [x] /\
    (forall k, expectation w (SDense (zero_state 1)) (OSeq [OGate rxa_gate]) [[z0_gate]] [("circuit", VDict v); ("observables", VDict o)]%string ADJOINT k key = Err KeyError) /\
    expectation w (SDense (zero_state 1)) (OSeq [OGate rxa_gate]) [[z0_gate]] [("circuit", VDict v); ("observables", VDict o)]%string GPSR 0 key = Err KeyError /\
    (forall k, (0 < k)%Z ->
       expectation w (SDense (zero_state 1)) (OSeq [OGate rxa_gate]) [[z0_gate]] [("circuit", VDict v); ("observables", VDict o)]%string AD k key = Err KeyError /\
       expectation w (SDense (zero_state 1)) (OSeq [OGate rxa_gate]) [[z0_gate]] [("circuit", VDict v); ("observables", VDict o)]%string GPSR k key = Err KeyError).
Proof.
  intros w v o t key L. set (vals := [("circuit", VDict v); ("observables", VDict o)]%string).
  assert (HZ : forall vals, observable_on w 1 vals true [z0_gate] (ksum [gate_op Z_matrix [] [0]])).
  { intro vals'. exists [gate_op Z_matrix [] [0]]. split; [discriminate|split; [|reflexivity]].
    constructor; [|constructor]. apply den_gate; [|reflexivity|reflexivity].
    split; [eapply gm_fixed; simpl; eauto 10|apply cq_default|reflexivity|apply valid_one; lia]. }
  assert (HG : circuit_on 1 v [rxa_gate] (kmul 1 kid (gate_op (RX_matrix (t + 0)) [] [0]))).
  { apply circ_cons; [|constructor]. split; [|apply cq_default|reflexivity|apply valid_one; lia].
    eapply (gm_rotation v rxa_gate "X" RX_matrix); [reflexivity|reflexivity|reflexivity| |simpl; auto].
    exists t; split; [exact L|reflexivity]. }
  assert (KE : forall st gr mg, apply_gates w st (GMany [rxa_gate]) vals UNITARY gr mg = Err KeyError) by (intros st [|] mg; reflexivity).
  assert (G1 : gates_of (iter (OSeq [OGate rxa_gate])) = Ok [rxa_gate]) by reflexivity.
  assert (S0 : is_state 1 (zero_state 1)) by (split; reflexivity).
  destruct (flat_pure w 1 v (OSeq [OGate rxa_gate]) [rxa_gate] (kmul 1 kid (gate_op (RX_matrix (t + 0)) [] [0])) (zero_state 1)) as (out & Eo & So & _);
    [apply (sequence_gates [rxa_gate])|discriminate|repeat constructor|repeat constructor|exact HG|exact S0|].
  assert (Ea := ad_pure w 1 o true [z0_gate] _ out (HZ o) So). eexists. split; [|split; [|split]].
  - unfold expectation. cbn [Z.ltb Z.eqb Z.compare]. unfold ad_expectation. change (values_processing vals) with (Ok (v, o)). cbn [bind fst snd mapM].
    rewrite Eo; cbn [bind]. rewrite Ea; cbn [bind stack]. reflexivity.
  - intro k. unfold expectation, adjoint_expectation. cbn [mapM]. unfold adjoint_single, run_flat. rewrite G1; cbn [bind]. rewrite KE; reflexivity.
  - unfold expectation. cbn [Z.ltb Z.eqb Z.compare]. rewrite G1; cbn [bind]. unfold analytical_expectation; cbn [mapM]. rewrite KE; reflexivity.
  - intros k Hk. unfold expectation. destruct (Z.ltb_spec k 0); [lia|]. destruct (Z.eqb_spec k 0); [lia|]. rewrite G1; cbn [bind].
    unfold finite_shots. rewrite KE; split; reflexivity.
Qed.

(** ** C75 *)
Lemma operator_agree : forall w ot g v v', agree_on (names_of_gate g) v v' -> operator_of w ot g v = operator_of w ot g v'.
Proof.
  intros w ot g v v' H.
  assert (P : gclass g = KParam \/ gclass g = KPhase -> parse_values g v = parse_values g v').
  { intro K. unfold parse_values. destruct (gparam g) as [s|] eqn:E; [|reflexivity].
    rewrite (H s); [reflexivity|]. unfold names_of_gate. rewrite E. destruct K as [-> | ->]; left; reflexivity. }
  assert (U : unitary_of w g v = unitary_of w g v').
  { unfold unitary_of. destruct (gclass g) eqn:K; [reflexivity| | |]; try (rewrite P by auto; reflexivity).
    rewrite !H by (unfold names_of_gate; rewrite K; simpl; auto). reflexivity. }
  destruct ot; cbn [operator_of]; [exact U|unfold dagger_of; rewrite U; reflexivity|].
  unfold jacobian_of. destruct (gclass g) eqn:K; try reflexivity; rewrite P by auto; reflexivity.
Qed.
Lemma agree_incl : forall l l' v v', incl l l' -> agree_on l' v v' -> agree_on l v v'.
Proof. intros l l' v v' I H s Hs; apply H, I, Hs. Qed.
Lemma c75_unused_gates : forall w s ga v v' ot gr mg, agree_on (flat_map names_of_gate (gate_list ga)) v v' ->
    apply_gates w s ga v ot gr mg = apply_gates w s ga v' ot gr mg.
Proof.
  intros w s ga v v' ot gr mg H. unfold apply_gates.
  replace (prepare_sequence_reduce w ga v ot gr mg) with (prepare_sequence_reduce w ga v' ot gr mg); [reflexivity|].
  unfold prepare_sequence_reduce. destruct ga as [g|gs]; cbn [gate_list flat_map] in H.
  - rewrite (operator_agree w ot g v v'); [reflexivity|]. intros x Hx; apply H. rewrite app_nil_r; exact Hx.
  - rewrite (mapM_ext_in (fun g => operator_of w ot g v') (fun g => operator_of w ot g v)); [reflexivity|].
    intros g Hg. symmetry; apply operator_agree. intros x Hx; apply H. rewrite in_flat_map. exists g; split; [|exact Hx].
    destruct gr; [|exact Hg]. eapply Permutation_in; [apply group_by_index_perm|exact Hg].
Qed.
Lemma foldM_ext_in : forall {S A} (f g : S -> A -> res S) l s, (forall a s, In a l -> f s a = g s a) -> foldM f l s = foldM g l s.
Proof.
  intros S A f g; induction l as [|a l IH]; intros s H; [reflexivity|]. cbn [foldM]. rewrite (H a s (or_introl eq_refl)).
  destruct (g s a); cbn [bind]; [apply IH; intros; apply H; right; assumption|reflexivity].
Qed.
Lemma reduce_map_ext_in : forall {A B} (f g : A -> res B) op l, (forall a, In a l -> f a = g a) -> reduce_map f op l = reduce_map g op l.
Proof.
  intros A B f g op [|a l] H; [reflexivity|]. unfold reduce_map. rewrite (H a (or_introl eq_refl)). destruct (g a); cbn [bind]; [|reflexivity].
  apply foldM_ext_in. intros x s Hx. rewrite (H x); [reflexivity|right; exact Hx].
Qed.
Lemma sub_agree : forall l v v' a, agree_on (flat_map names_of l) v v' -> In a l -> agree_on (names_of a) v v'.
Proof. intros l v v' a H I x Hx; apply H. rewrite in_flat_map; eauto. Qed.
Lemma tensor_agree : forall w v v' o fs, agree_on (names_of o) v v' -> tensor w v o fs = tensor w v' o fs.
Proof.
  intros w v v'. induction o as [g|l IH|l p IH|l IH|l IH|n l fp IH] using oper_ind'; intros fs H; cbn [tensor names_of] in *.
  - unfold gate_tensor. assert (E := operator_agree w UNITARY g v v' H). cbn [operator_of] in E. rewrite E; reflexivity.
  - destruct (resolve_support w l fs); cbn [bind]; [|reflexivity]. apply reduce_map_ext_in. intros a Ha. rewrite Forall_forall in IH. apply IH; [exact Ha|eapply sub_agree; eassumption].
  - replace (param_value p v) with (param_value p v'); [|destruct p; [cbn [param_value]; rewrite (H s); [reflexivity|left; reflexivity]|reflexivity]].
    destruct (param_value p v'); cbn [bind]; [|reflexivity]. destruct (resolve_support w l fs); cbn [bind]; [|reflexivity]. f_equal.
    apply reduce_map_ext_in. intros b Hb. rewrite Forall_forall in IH. apply IH; [exact Hb|]. eapply sub_agree; [|exact Hb].
    eapply agree_incl; [|exact H]. apply incl_appr, incl_refl.
  - destruct (resolve_support w l fs); cbn [bind]; [|reflexivity]. apply reduce_map_ext_in. intros a Ha. rewrite Forall_forall in IH. apply IH; [exact Ha|eapply sub_agree; eassumption].
  - destruct (resolve_support w l fs); cbn [bind]; [|reflexivity]. apply reduce_map_ext_in. intros a Ha. rewrite Forall_forall in IH. apply IH; [exact Ha|eapply sub_agree; eassumption].
  - destruct (resolve_support w l fs); cbn [bind]; [|reflexivity]. apply reduce_map_ext_in. intros a Ha. rewrite Forall_forall in IH. apply IH; [exact Ha|eapply sub_agree; eassumption].
Qed.
Lemma call_agree : forall w v v' o s, agree_on (names_of o) v v' -> call w v o s = call w v' o s.
Proof.
  intros w v v'. induction o as [g|l IH|l p IH|l IH|l IH|n l fp IH] using oper_ind'; intros s H; cbn [names_of] in H.
  - cbn [call]. assert (E : forall s, apply_gates w s (GOne g) v UNITARY false true = apply_gates w s (GOne g) v' UNITARY false true).
    { intro s1. apply c75_unused_gates. cbn [gate_list flat_map]. rewrite app_nil_r; exact H. }
    destruct s as [s|]; cbn [bind]; [rewrite E; reflexivity|]. destruct (gate_support g); cbn [bind]; [rewrite E; reflexivity|reflexivity].
  - cbn [call]. apply foldM_ext_in. intros a s1 Ha. rewrite Forall_forall in IH. apply IH; [exact Ha|eapply sub_agree; eassumption].
  - cbn [call]. replace (param_value p v) with (param_value p v'); [|destruct p; [cbn [param_value]; rewrite (H s0); [reflexivity|left; reflexivity]|reflexivity]].
    destruct (param_value p v'); cbn [bind]; [|reflexivity]. f_equal.
    apply foldM_ext_in. intros b s1 Hb. rewrite Forall_forall in IH. apply IH; [exact Hb|]. eapply sub_agree; [|exact Hb].
    eapply agree_incl; [|exact H]. apply incl_appr, incl_refl.
  - cbn [call]. apply reduce_map_ext_in. intros a Ha. rewrite Forall_forall in IH. apply IH; [exact Ha|eapply sub_agree; eassumption].
  - assert (R : forall st, reduce_map (fun o => call w v o st) add_state l = reduce_map (fun o => call w v' o st) add_state l).
    { intro st. apply reduce_map_ext_in. intros a Ha. rewrite Forall_forall in IH. apply IH; [exact Ha|eapply sub_agree; eassumption]. }
    cbn [call]. destruct s as [[a|b|a]|]; try reflexivity; [rewrite R; reflexivity|rewrite R; reflexivity|].
    rewrite (tensor_agree w v v' (OObs l) None H). reflexivity.
  - cbn [call]. apply foldM_ext_in. intros a s1 Ha. rewrite Forall_forall in IH. apply IH; [exact Ha|eapply sub_agree; eassumption].
Qed.
Lemma c75_unused_run : forall w o st v v', agree_on (names_of o) v v' -> run w o st v = run w o st v' /\ forall fs, tensor w v o fs = tensor w v' o fs.
Proof. intros w o st v v' H; split; [apply call_agree; exact H|intro fs; apply tensor_agree; exact H]. Qed.
Lemma forward_agree : forall w l s v v', agree_on (flat_map names_of l) v v' -> forward w v l s = forward w v' l s.
Proof. intros w l s v v' H. unfold forward. apply reduce_map_ext_in. intros a Ha. apply call_agree. eapply sub_agree; eassumption. Qed.
Lemma ad_single_agree : forall w s l v v', agree_on (flat_map names_of l) v v' -> ad_single w s l v = ad_single w s l v'.
Proof.
  intros w s l v v' H. unfold ad_single. rewrite (forward_agree w l (Some s) v v' H), (tensor_agree w v v' (OObs l) None H). reflexivity.
Qed.
Lemma flatten_names : forall o g, In (OGate g) (flatten o) -> incl (names_of_gate g) (names_of o).
Proof.
  assert (L : forall l g, Forall (fun o => forall g, In (OGate g) (flatten o) -> incl (names_of_gate g) (names_of o)) l ->
     In (OGate g) (flat_map flatten l) -> incl (names_of_gate g) (flat_map names_of l)).
  { intros l g F I. rewrite in_flat_map in I. destruct I as (o & Ho & Hg). rewrite Forall_forall in F.
    intros x Hx. rewrite in_flat_map. exists o; split; [exact Ho|]. apply (F o Ho g Hg x Hx). }
  induction o as [g|l IH|l p IH|l IH|l IH|n l fp IH] using oper_ind'; intros g' H; cbn [flatten names_of] in *; try (apply L; assumption).
  - destruct H as [H|[]]. injection H as <-. apply incl_refl.
  - apply incl_appr. apply L; assumption.
Qed.
Lemma iter_names : forall o g, In (OGate g) (iter o) -> incl (names_of_gate g) (names_of o).
Proof.
  intros o g H. destruct o; try (apply flatten_names; exact H). destruct H as [H|[]]; discriminate.
Qed.
Lemma gates_of_in : forall l gs g, gates_of l = Ok gs -> In g gs -> In (OGate g) l.
Proof.
  induction l as [|o l IH]; intros gs g E I; cbn [gates_of] in E; [injection E as <-; destruct I|].
  destruct o as [h| | | | |]; try discriminate. destruct (gates_of l) as [gs'|]; [|discriminate]. injection E as <-.
  destruct I as [<-|I]; [left; reflexivity|right; eapply IH; [reflexivity|exact I]].
Qed.
Lemma c75_unused_expectation : forall w st circuit obs v v' mode n_shots key,
    flat_values v -> flat_values v' -> agree_on (names_of circuit ++ flat_map names_of (List.concat obs)) v v' ->
    expectation w st circuit obs v mode n_shots key = expectation w st circuit obs v' mode n_shots key.
Proof.
  intros w st circuit obs v v' mode k key FV FV' H.
  assert (AG : forall gs, gates_of (iter circuit) = Ok gs -> agree_on (flat_map names_of_gate gs) v v').
  { intros gs E x Hx. apply H. rewrite in_app_iff; left. rewrite in_flat_map in Hx. destruct Hx as (g & Hg & Hx).
    apply (iter_names circuit g); [eapply gates_of_in; eassumption|exact Hx]. }
  assert (GA : forall gs s gr mg, gates_of (iter circuit) = Ok gs -> apply_gates w s (GMany gs) v UNITARY gr mg = apply_gates w s (GMany gs) v' UNITARY gr mg).
  { intros gs s gr mg E. apply c75_unused_gates. exact (AG gs E). }
  assert (RF : run_flat w st circuit v = run_flat w st circuit v').
  { unfold run_flat. destruct (gates_of (iter circuit)) as [gs|] eqn:E; cbn [bind]; [apply GA; reflexivity|reflexivity]. }
  assert (OB : forall l, In l obs -> agree_on (flat_map names_of l) v v').
  { intros l Hl x Hx. apply H. rewrite in_app_iff; right. rewrite in_flat_map in Hx |- *. destruct Hx as (o & Ho & Hx).
    exists o; split; [rewrite in_concat; eauto|exact Hx]. }
  assert (FS : forall gs k, gates_of (iter circuit) = Ok gs -> finite_shots w st (GMany gs) obs v k key = finite_shots w st (GMany gs) obs v' k key).
  { intros gs j E. unfold finite_shots. rewrite (GA gs st false true E). destruct (apply_gates w st (GMany gs) v' UNITARY false true); cbn [bind]; [|reflexivity].
    destruct (num_qubits s) as [m|]; cbn [bind]; [|reflexivity]. destruct (square_dm s m) as [s'|]; cbn [bind]; [|reflexivity].
    unfold eigen_sample, eigen_prepare. match goal with |- context [mapM ?f obs] => match goal with |- context [mapM ?g obs] =>
      assert (M : mapM (fun l => let! t := tensor w v (OObs l) None in let! sup := support w (OObs l) in let! e := expand_operator t sup (seq 0 m) in reshape e [2 ^ m; 2 ^ m]) obs =
                  mapM (fun l => let! t := tensor w v' (OObs l) None in let! sup := support w (OObs l) in let! e := expand_operator t sup (seq 0 m) in reshape e [2 ^ m; 2 ^ m]) obs) end end.
    { apply mapM_ext_in. intros l Hl. rewrite (tensor_agree w v v' (OObs l) None (OB l Hl)). reflexivity. }
    rewrite M. reflexivity. }
  unfold expectation. destruct mode; [| | |reflexivity].
  - destruct (Z.ltb k 0); [reflexivity|]. destruct (Z.eqb k 0).
    + unfold ad_expectation. rewrite (values_routed v v v), (values_routed v' v' v') by (right; auto). cbn [bind fst snd]. f_equal.
      apply mapM_ext_in. intros l Hl. rewrite RF. destruct (run_flat w st circuit v'); cbn [bind]; [|reflexivity]. apply ad_single_agree, OB, Hl.
    + destruct (gates_of (iter circuit)) as [gs|] eqn:E; cbn [bind]; [apply FS; reflexivity|reflexivity].
  - assert (E : adjoint_expectation w st circuit obs v = adjoint_expectation w st circuit obs v').
    { unfold adjoint_expectation. f_equal. apply mapM_ext_in. intros l Hl. unfold adjoint_single. rewrite RF.
      destruct (run_flat w st circuit v'); cbn [bind]; [|reflexivity]. rewrite (forward_agree w l (Some s) v v' (OB l Hl)). reflexivity. }
    destruct st; [exact E|exact E|reflexivity].
  - destruct (Z.ltb k 0); [reflexivity|]. destruct (gates_of (iter circuit)) as [gs|] eqn:E; [|destruct (Z.eqb k 0); reflexivity]. cbn [bind].
    destruct (Z.eqb k 0); [|apply FS; reflexivity]. unfold analytical_expectation. f_equal. apply mapM_ext_in. intros l Hl.
    rewrite (GA gs st false true eq_refl). destruct (apply_gates w st (GMany gs) v' UNITARY false true); cbn [bind]; [|reflexivity]. apply ad_single_agree, OB, Hl.
Qed.

(** a missing name *)
Lemma usable_or_missing : forall n v v' g, extends v v' -> usable n v' g ->
    usable n v g \/ exists s, In s (names_of_gate g) /\ lookup v s = Err KeyError.
Proof.
  intros n v v' g EX (M & cs & ts & [GM GC GT GQ]).
  assert (L : forall s x, lookup v' s = Ok x -> lookup v s = Ok x \/ lookup v s = Err KeyError).
  { intros s x E. destruct (lookup v s) as [y|e] eqn:Ey.
    - left. rewrite (EX s y Ey) in E. congruence.
    - right. clear -Ey. induction v as [|[k y] v IH]; cbn [lookup] in Ey; [congruence|]. destruct (String.eqb s k); [congruence|apply IH; exact Ey]. }
  assert (A : forall t, gclass g = KParam \/ gclass g = KPhase -> angle v' g t -> angle v g t \/ exists s, In s (names_of_gate g) /\ lookup v s = Err KeyError).
  { intros t K A. unfold angle in *. destruct (gparam g) as [s|x] eqn:P; [|left; exact A]. destruct A as (x & E & ->).
    destruct (L s _ E) as [E'|E']; [left; eauto|right]. exists s; split; [|exact E']. unfold names_of_gate. rewrite P. destruct K as [-> | ->]; left; reflexivity. }
  destruct GM as [name M' K N L1 I|K N L1|name R_ t K N L1 AN I|t K L1 AN].
  - left. exists M', cs, ts. split; auto. eapply gm_fixed; eassumption.
  - left. exists SWAP_matrix, cs, ts. split; auto. apply gm_SWAP; assumption.
  - destruct (A t (or_introl K) AN) as [A'|A']; [left|right; exact A']. exists (R_ t), cs, ts. split; auto. eapply gm_rotation; eassumption.
  - destruct (A t (or_intror K) AN) as [A'|A']; [left|right; exact A']. exists (PHASE_matrix t), cs, ts. split; auto. apply gm_PHASE; assumption.
Qed.
Lemma operator_missing : forall w ot g n v v' s, ot <> JACOBIAN -> usable n v' g -> In s (names_of_gate g) -> lookup v s = Err KeyError ->
    operator_of w ot g v = Err KeyError.
Proof.
  intros w ot g n v v' s NJ (M & cs & ts & [GM _ _ _]) I E.
  assert (U : unitary_of w g v = Err KeyError).
  { unfold names_of_gate in I. unfold unitary_of. destruct GM as [name M' K N L1 J|K N L1|name R_ t K N L1 AN J|t K L1 AN]; rewrite K in *; try destruct I.
    - destruct (gparam g) as [s'|] eqn:P; [|destruct I]. destruct I as [<-|[]]. unfold generator, parse_values. rewrite P, E, N.
      simpl in J. repeat (destruct J as [J|J]; [injection J as <- <-; reflexivity|]). destruct J.
    - destruct (gparam g) as [s'|] eqn:P; [|destruct I]. destruct I as [<-|[]]. unfold parse_values. rewrite P, E. reflexivity. }
  destruct ot; cbn [operator_of]; [exact U|unfold dagger_of; rewrite U; reflexivity|contradiction].
Qed.
Lemma operator_present : forall w ot g n v, ot <> JACOBIAN -> usable n v g -> exists m, operator_of w ot g v = Ok m.
Proof.
  assert (D : forall w ot g n v, ot <> JACOBIAN -> usable n v g -> sparse g = false -> exists m, operator_of w ot g v = Ok m).
  { intros w ot g n v NJ (M & cs & ts & [GM _ _ _]) SP. destruct (unitary_of_ok w v g M GM SP) as (u & E & HM & _).
    destruct ot; cbn [operator_of]; [eauto| |contradiction]. unfold dagger_of. rewrite E; cbn [bind mat_dagger].
    destruct (dagger_matrix _ _ HM) as (d & Ed & _). rewrite Ed; cbn [bind]; eauto. }
  intros w ot g n v NJ U. destruct (sparse g) eqn:SP; [|eapply D; eassumption].
  assert (NH : gclass g <> KHam) by (destruct U as (M & cs & ts & [GM _ _ _]); destruct GM; congruence).
  assert (OT : ot = UNITARY \/ ot = DAGGER) by (destruct ot; auto; contradiction).
  assert (RR := operator_rel w ot g v OT (Logic.conj SP NH)).
  assert (U' : usable n v (with_sparse false g)).
  { destruct U as (M & cs & ts & [GM GC GT GQ]). exists M, cs, ts. split; auto. destruct GM; [eapply gm_fixed|eapply gm_SWAP|eapply gm_rotation|eapply gm_PHASE]; eassumption. }
  destruct (D w ot (with_sparse false g) n v NJ U' eq_refl) as (m & Em). rewrite Em in RR.
  destruct (operator_of w ot g v) as [m'|e]; [eauto|destruct RR].
Qed.
Lemma c75_missing : forall w n v v' s gs ot gr mg, extends v v' -> Forall (usable n v') gs -> ot <> JACOBIAN ->
    (exists g name, In g gs /\ In name (names_of_gate g) /\ lookup v name = Err KeyError) ->
    apply_gates w s (GMany gs) v ot gr mg = Err KeyError.
Proof.
  intros w n v v' s gs ot gr mg EX FU NJ H. unfold apply_gates, prepare_sequence_reduce.
  set (gs' := if gr then group_by_index gs else gs).
  assert (P : Permutation gs gs') by (unfold gs'; destruct gr; [apply Permutation_sym, group_by_index_perm|apply Permutation_refl]).
  assert (E : mapM (fun g => operator_of w ot g v) gs' = Err KeyError).
  { assert (FU' : Forall (usable n v') gs') by (eapply Forall_perm; [exact P|exact FU]).
    destruct H as (g & name & Hg & Hn & Hl). assert (Hg' : In g gs') by (eapply Permutation_in; eassumption).
    clear -EX NJ FU' Hg' Hn Hl. induction gs' as [|h gs' IH]; [destruct Hg'|]. inversion FU' as [|? ? Uh Ut]; subst. cbn [mapM].
    destruct (usable_or_missing n v v' h EX Uh) as [U|(nm & I1 & I2)].
    - destruct (operator_present w ot h n v NJ U) as (m & Em). rewrite Em; cbn [bind]. destruct Hg' as [->|Hg'].
      + rewrite (operator_missing w ot g n v v' name NJ Uh Hn Hl) in Em. discriminate.
      + rewrite (IH Ut Hg'). reflexivity.
    - rewrite (operator_missing w ot h n v v' nm NJ Uh I1 I2). reflexivity. }
  rewrite E. reflexivity.
Qed.
Lemma c75_missing_expectation : forall w n v v' st circuit gs obs key mode k, flat_values v -> extends v v' -> sequence_of circuit gs -> Forall (usable n v') gs ->
    (exists g name, In g gs /\ In name (names_of_gate g) /\ lookup v name = Err KeyError) -> obs <> [] ->
    mode = AD \/ mode = GPSR \/ mode = ADJOINT -> (0 <= k)%Z -> (forall rho, st = SDM rho -> mode <> ADJOINT) ->
    expectation w st circuit obs v mode k key = Err KeyError.
Proof.
  intros w n v v' st circuit gs obs key mode k FV EX HQ FU H NE HM Hk HD.
  assert (E := c75_missing w n v v' st gs UNITARY false true EX FU ltac:(discriminate) H).
  assert (RF : run_flat w st circuit v = Err KeyError) by (unfold run_flat; rewrite (sequence_iter _ _ HQ); exact E).
  destruct obs as [|l obs]; [contradiction|]. unfold expectation. rewrite (sequence_iter _ _ HQ); cbn [bind].
  assert (FS : forall j, finite_shots w st (GMany gs) (l :: obs) v j key = Err KeyError) by (intro j; unfold finite_shots; rewrite E; reflexivity).
  destruct (Z.ltb_spec k 0); [lia|]. destruct HM as [->|[->| ->]].
  - destruct (Z.eqb k 0); [|apply FS]. unfold ad_expectation. rewrite (values_routed v v v) by (right; auto). cbn [bind fst snd mapM]. rewrite RF; reflexivity.
  - destruct (Z.eqb k 0); [|apply FS]. unfold analytical_expectation. cbn [mapM]. rewrite E; reflexivity.
  - assert (A : adjoint_expectation w st circuit (l :: obs) v = Err KeyError).
    { unfold adjoint_expectation. cbn [mapM]. unfold adjoint_single at 1. rewrite RF; reflexivity. }
    destruct st; [exact A|exact A|]. exfalso; exact (HD a eq_refl eq_refl).
Qed.
