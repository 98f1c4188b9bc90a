(** * Tensors of gates and composites (C16-C19) *)
From Coq Require Import String List Arith Bool Reals Lia Lra Permutation Sorted.
From Verif Require Import Cplx Py PyFacts Ndarray NdFacts NdPerm OperatorUtils ApplyOperator
  Spec SpecFacts ApplyFacts DmFacts ExpandFacts Sparse Matrices Noise Gates Apply Composite
  GateSpec PropSpec GateFacts CircuitFacts AlgebraFacts TensorFacts ApplyThm.
Import ListNotations.
Local Open Scope nat_scope.

Lemma gate_tensor_full : forall w n g vals u cs fs,
    unitary_of w g vals = Ok (MD u) -> is_matrix (length (target g)) u -> control_qubits (control g) cs ->
    valid_qubits n (cs ++ target g) -> Permutation fs (seq 0 n) ->
    exists r, gate_tensor w g vals (Some fs) = Ok r /\ is_matrix n r /\
      keq n (entry r) (ctrl_kernel (entry u) cs (sorted (target g))).
Proof.
  intros w n g vals u cs fs EU MU HC V P.
  assert (L : length fs = n) by (rewrite (Permutation_length P), seq_length; reflexivity).
  assert (S : sorted fs = seq 0 n) by (apply sorted_perm_seq; exact P).
  assert (ID : forall qs, (forall q, In q qs -> q < n) -> map (fun q => index_of q (sorted fs)) qs = qs).
  { intros qs H; rewrite S. transitivity (map (fun q => q) qs); [|apply map_id].
    apply map_ext_in; intros q Hq; apply index_of_seq, H, Hq. }
  destruct (gate_tensor_spec w g vals u cs fs EU MU HC) as (r & Er & Mr & Kr).
  - apply V.
  - eapply Permutation_NoDup; [apply Permutation_sym; exact P|apply seq_NoDup].
  - intros q Hq; eapply Permutation_in; [apply Permutation_sym; exact P|].
    apply in_seq; split; [lia|]. eapply valid_lt; eassumption.
  - rewrite L in *. exists r; repeat split; try assumption; try apply Mr.
    rewrite !ID in Kr; [exact Kr| |]; intros q Hq; (eapply valid_lt; [exact V|]); apply in_or_app;
      [right; apply sorted_In; exact Hq|left; exact Hq].
Qed.

Lemma valid_swap : forall n a b, valid_qubits n [a; b] -> valid_qubits n [b; a].
Proof.
  intros n a b [ND F]; split.
  - apply (Permutation_NoDup (l := [a; b])); [apply Permutation.perm_swap|exact ND].
  - inversion F as [|? ? Ha F']; subst; inversion F' as [|? ? Hb _]; subst; repeat constructor; assumption.
Qed.
(** a two-qubit matrix that does not change when both qubits are exchanged *)
Definition exchange_sym (M : op) : Prop := forall p q r s, p < 2 -> q < 2 -> r < 2 -> s < 2 -> M [p; q] [r; s] = M [q; p] [s; r].
Lemma ctrl_kernel_exchange : forall n M cs a b, valid_qubits n [a; b] -> exchange_sym M ->
    keq n (ctrl_kernel M cs [a; b]) (ctrl_kernel M cs [b; a]).
Proof.
  intros n M cs a b V SY; apply keq_of_action; intros psi x Hx.
  rewrite !(ctrl_kernel_action n) by exact Hx. unfold ctrl_action.
  destruct (all_ones (bits_at x cs)); [|reflexivity].
  unfold gate_action; cbn [length bitstrings map app csum bits_at].
  pose proof (bitstrings_length _ _ Hx) as Lx.
  assert (OV : forall u v, overwrite x [a; b] [u; v] = overwrite x [b; a] [v; u]).
  { intros u v. change (overwrite x ([a] ++ [b]) ([u] ++ [v]) = overwrite x ([b] ++ [a]) ([v] ++ [u])).
    rewrite (overwrite_app x [a] [b]), (overwrite_app x [b] [a]) by reflexivity.
    apply (overwrite_comm n); try reflexivity; try assumption.
    apply valid_swap; exact V. }
  pose proof (bitstrings_nth_lt n x a Hx) as Ha; pose proof (bitstrings_nth_lt n x b Hx) as Hb.
  rewrite !OV, !(SY (nth a x 0)) by lia. unfold csum; cbn [map fold_right]. ring.
Qed.

Lemma SWAP_exchange : exchange_sym SWAP_matrix.
Proof. intros p q r s _ _ _ _; cbn [SWAP_matrix]; rewrite andb_comm; reflexivity. Qed.

Lemma gate_matrix_order : forall vals g M, gate_matrix vals g M ->
    List.length (target g) = 1 \/ (exists a b, target g = [a; b] /\ exchange_sym M).
Proof.
  intros vals g M H; destruct H as [name M' K N L I|K N L|name R_ t K N L A I|t K L A]; try (left; exact L).
  right; destruct (target g) as [|a [|b [|c l]]]; try discriminate; exists a, b; split; [reflexivity|apply SWAP_exchange].
Qed.

Lemma sorted2 : forall a b, sorted [a; b] = if Nat.leb a b then [a; b] else [b; a].
Proof. intros; unfold sorted; cbn [sort_by insert_by]. destruct (Nat.leb a b); reflexivity. Qed.

Lemma lib_gate_tensor : forall w n vals g M cs ts fs, gate_on n vals g M cs ts -> dense_gate g ->
    Permutation fs (seq 0 n) ->
    exists r, gate_tensor w g vals (Some fs) = Ok r /\ is_matrix n r /\ keq n (entry r) (gate_op M cs ts).
Proof.
  intros w n vals g M cs ts fs [GM GC GT GV] HD P; subst ts.
  destruct (unitary_of_ok w vals g M GM HD) as (u & E & HM & HE).
  destruct (gate_tensor_full w n g vals u cs fs E HM GC GV P) as (r & Er & Mr & Kr).
  exists r; split; [exact Er|split; [exact Mr|]].
  eapply keq_trans; [exact Kr|]. unfold gate_op.
  assert (Lt := sorted_length (target g)).
  eapply keq_trans; [apply ctrl_kernel_ext; rewrite Lt; exact HE|].
  destruct (gate_matrix_order _ _ _ GM) as [L|(a & b & ET & SY)].
  - destruct (target g) as [|a [|b l]]; try discriminate. apply keq_refl.
  - rewrite ET, sorted2 in *. destruct (Nat.leb a b); [apply keq_refl|].
    apply ctrl_kernel_exchange; [|exact SY].
    apply valid_app_r in GV; apply valid_swap; exact GV.
Qed.

Lemma ordered_gate_tensor : forall w n vals g K fs, ordered_gate w n vals g K -> Permutation fs (seq 0 n) ->
    exists r, gate_tensor w g vals (Some fs) = Ok r /\ is_matrix n r /\ keq n (entry r) K.
Proof.
  intros w n vals g K fs (u & cs & E & HM & HC & HV & HS & ->) P.
  destruct (gate_tensor_full w n g vals u cs fs E HM HC HV P) as (r & Er & Mr & Kr).
  exists r; repeat split; try assumption; try apply Mr.
  rewrite sorted_id in Kr; [exact Kr|]. clear - HS. induction HS as [|q l HS IH F]; constructor; [exact IH|].
  eapply Forall_impl; [|exact F]. intros; lia.
Qed.
Lemma ordered_gate_opk : forall w n vals g K, ordered_gate w n vals g K -> opk w UNITARY vals n g K.
Proof.
  intros w n vals g K (u & cs & E & HM & HC & HV & HS & ->).
  exists u, cs; repeat split; try assumption; try apply HM; try apply HV.
Qed.

Lemma c16_ordered : forall w n psi g vals K fs,
    is_state n psi -> ordered_gate w n vals g K -> noiseless g -> Permutation fs (seq 0 n) ->
    exists m out,
      gate_tensor w g vals (Some fs) = Ok m /\
      apply_gates w (SDense psi) (GOne g) vals UNITARY false true = Ok (SDense out) /\
      is_matrix n m /\ is_state n out /\
      veq n (amp out) (apply_kernel n (entry m) (amp psi)).
Proof.
  intros w n psi g vals K fs HS HG HN P.
  destruct (ordered_gate_tensor w n vals g K fs HG P) as (m & Em & Mm & Km).
  destruct (apply_gate_dense w n vals UNITARY false true g K psi HN (ordered_gate_opk _ _ _ _ _ HG) HS) as (out & Eo & So & Ao).
  exists m, out; repeat split; try assumption; try apply Mm; try apply So.
  rewrite Ao. symmetry; rewrite Km. reflexivity.
Qed.
Lemma c16_library : forall w n psi g vals fs,
    is_state n psi -> usable n vals g -> dense_gate g -> noiseless g -> Permutation fs (seq 0 n) ->
    exists m out,
      gate_tensor w g vals (Some fs) = Ok m /\
      apply_gates w (SDense psi) (GOne g) vals UNITARY false true = Ok (SDense out) /\
      is_matrix n m /\ is_state n out /\
      veq n (amp out) (apply_kernel n (entry m) (amp psi)).
Proof.
  intros w n psi g vals fs HS (M & cs & ts & HG) HD HN P.
  destruct (lib_gate_tensor w n vals g M cs ts fs HG HD P) as (m & Em & Mm & Km).
  destruct (apply_gate_dense w n vals UNITARY false true g (gate_op M cs ts) psi HN (gate_on_opk w _ _ _ _ _ _ HG HD) HS)
    as (out & Eo & So & Ao).
  exists m, out; repeat split; try assumption; try apply Mm; try apply So.
  rewrite Ao. symmetry; rewrite Km. reflexivity.
Qed.

(** ** composites *)
Lemma denotes_induction : forall (w : world) (n : nat) (vals : values) (seq : bool) (P : oper -> op -> Prop),
    (forall g M cs ts, gate_on n vals g M cs ts -> dense_gate g -> noiseless g -> P (OGate g) (gate_op M cs ts)) ->
    (forall g K, ordered_gate w n vals g K -> noiseless g -> P (OGate g) K) ->
    (forall l Ks, l <> [] -> Forall2 P l Ks -> P (OAdd l) (ksum Ks)) ->
    (forall o K p c, P o K -> param_value p vals = Ok c -> P (OScale [o] p) (kscale (RtoC c) K)) ->
    (forall l Ks p c, sequences n seq Ks -> Forall2 P l Ks -> param_value p vals = Ok c -> P (OScale l p) (kscale (RtoC c) (kprod n Ks))) ->
    (forall l Ks, sequences n seq Ks -> Forall2 P l Ks -> P (OSeq l) (kprod n Ks)) ->
    (forall m l fp Ks, sequences n seq Ks -> Forall2 P l Ks -> P (OQC m l fp) (kprod n Ks)) ->
    forall o K, denotes w n vals seq o K -> P o K.
Proof.
  intros w n vals seq P H1 H2 H3 H4 H7 H5 H6.
  fix IH 3. intros o K D; destruct D as [g M cs ts G HD HN|g K G HN|l Ks NE F|o K p c D E|l Ks p c ES F E|l Ks ES F|m l fp Ks ES F].
  - apply H1; assumption.
  - apply H2; assumption.
  - apply H3; [assumption|]. clear NE. induction F as [|o K l Ks D F IHF]; constructor; [apply IH; exact D|exact IHF].
  - apply H4; [apply IH; exact D|assumption].
  - apply H7; [assumption| |assumption]. clear ES. induction F as [|o K l Ks D F IHF]; constructor; [apply IH; exact D|exact IHF].
  - apply H5; [assumption|]. clear ES. induction F as [|o K l Ks D F IHF]; constructor; [apply IH; exact D|exact IHF].
  - apply H6; [assumption|]. clear ES. induction F as [|o K l Ks D F IHF]; constructor; [apply IH; exact D|exact IHF].
Qed.

(** what it means that a (dense) tensor / call computes the operator [K] *)
Definition tensor_is (w : world) (n : nat) (vals : values) (o : oper) (K : op) : Prop :=
  forall fs, Permutation fs (seq 0 n) -> exists m, tensor w vals o (Some fs) = Ok m /\ is_matrix n m /\ keq n (entry m) K.
Definition call_is (w : world) (n : nat) (vals : values) (o : oper) (K : op) : Prop :=
  forall psi, is_state n psi -> exists out, call w vals o (Some (SDense psi)) = Ok (Some (SDense out)) /\ is_state n out /\
    veq n (amp out) (apply_kernel n K (amp psi)).
Definition support_in (w : world) (n : nat) (o : oper) : Prop :=
  exists s, support w o = Ok s /\ forall q, In q s -> q < n.

Lemma gate_support_in : forall w n g cs, control_qubits (control g) cs -> valid_qubits n (cs ++ target g) ->
    support_in w n (OGate g).
Proof.
  intros w n g cs HC HV; exists (sorted (cs ++ target g)); split; [apply gate_support_spec; [exact HC|apply HV]|].
  intros q Hq; rewrite sorted_In in Hq; exact (valid_lt _ _ _ HV Hq).
Qed.
Lemma supports_in : forall w n l, Forall (support_in w n) l ->
    exists ss, mapM (support w) l = Ok ss /\ forall q, In q (List.concat ss) -> q < n.
Proof.
  intros w n l F; induction F as [|o l (s & E & H) F (ss & Es & Hs)].
  - exists []; split; [reflexivity|intros q []].
  - exists (s :: ss); cbn [mapM]; rewrite E; cbn [bind]; rewrite Es; split; [reflexivity|].
    intros q Hq; cbn [List.concat] in Hq; apply in_app_or in Hq as [Hq|Hq]; auto.
Qed.
Lemma supports_set : forall w n l, set_order (set_iter w) -> Forall (support_in w n) l ->
    exists s, (let! ss := mapM (support w) l in Ok (set_iter w (List.concat ss))) = Ok s /\ forall q, In q s -> q < n.
Proof.
  intros w n l SO F; destruct (supports_in w n l F) as (ss & -> & H); cbn [bind].
  eexists; split; [reflexivity|]. intros q Hq; rewrite (proj2 (SO _)) in Hq; auto.
Qed.
Lemma resolve_full : forall w n l fs, set_order (set_iter w) -> Forall (support_in w n) l -> Permutation fs (seq 0 n) ->
    resolve_support w l (Some fs) = Ok fs.
Proof.
  intros w n l fs SO F P; unfold resolve_support; destruct (supports_in w n l F) as (ss & -> & H); cbn [bind].
  replace (subsetb (set_iter w (List.concat ss)) fs) with true; [reflexivity|].
  symmetry; apply subsetb_incl; intros q Hq; rewrite (proj2 (SO _)) in Hq.
  eapply Permutation_in; [apply Permutation_sym; exact P|]. apply in_seq; split; [lia|]; apply H; exact Hq.
Qed.

Lemma Forall2_Forall_l : forall {A B} (P : A -> Prop) (R : A -> B -> Prop) l l', (forall a b, R a b -> P a) ->
    Forall2 R l l' -> Forall P l.
Proof. intros A B P R l l' H F; induction F; constructor; eauto. Qed.

Lemma denotes_support : forall w n vals sq o K, set_order (set_iter w) -> denotes w n vals sq o K -> support_in w n o.
Proof.
  intros w n vals sq o K SO; revert o K.
  apply (denotes_induction w n vals sq (fun o K => support_in w n o)).
  - intros g M cs ts [GM GC GT GV] _ _; subst ts; eapply gate_support_in; eassumption.
  - intros g K (u & cs & E & HM & HC & HV & _) _; eapply gate_support_in; eassumption.
  - intros l Ks _ F; apply supports_set; [exact SO|]; eapply Forall2_Forall_l; [|exact F]; auto.
  - intros o K p c H _; apply supports_set; [exact SO|]; constructor; [exact H|constructor].
  - intros l Ks p c _ F _; apply supports_set; [exact SO|]; eapply Forall2_Forall_l; [|exact F]; auto.
  - intros l Ks _ F; apply supports_set; [exact SO|]; eapply Forall2_Forall_l; [|exact F]; auto.
  - intros m l fp Ks _ F; apply supports_set; [exact SO|]; eapply Forall2_Forall_l; [|exact F]; auto.
Qed.

Lemma add_matrix : forall k a b, is_matrix k a -> is_matrix k b ->
    exists r, add a b = Ok r /\ is_matrix k r /\ keq k (entry r) (kadd (entry a) (entry b)).
Proof.
  intros k a b [SA WA] [SB WB]. unfold add; rewrite zip_arr_eq by congruence.
  eexists; split; [reflexivity|]; split; [split; [exact SA|apply wf_build]|].
  intros x y Hx Hy; unfold entry, kadd. rewrite get_build; [reflexivity|].
  rewrite SA; apply inb_2; apply binval_lt; assumption.
Qed.
Lemma add_states : forall n a b, is_state n a -> is_state n b ->
    exists r, add a b = Ok r /\ is_state n r /\ veq n (amp r) (fun x => Cadd (amp a x) (amp b x)).
Proof.
  intros n a b [SA WA] [SB WB]. unfold add; rewrite zip_arr_eq by congruence.
  eexists; split; [reflexivity|]; split; [split; [exact SA|apply wf_build]|].
  intros x Hx; unfold amp. rewrite get_build; [reflexivity|].
  rewrite SA; apply bitstrings_inb; exact Hx.
Qed.
Lemma scale_matrix : forall k c a, is_matrix k a -> is_matrix k (scale c a) /\ keq k (entry (scale c a)) (kscale c (entry a)).
Proof.
  intros k c a [SA WA]; split; [split; [exact SA|apply wf_map_arr; exact WA]|].
  intros x y Hx Hy; unfold entry, kscale, scale. apply get_map_arr; [exact WA|].
  rewrite SA; apply inb_2; apply binval_lt; assumption.
Qed.
Lemma scale_state_vec : forall n c a, is_state n a -> is_state n (scale c a) /\ veq n (amp (scale c a)) (fun x => Cmul c (amp a x)).
Proof.
  intros n c a [SA WA]; split; [split; [exact SA|apply wf_map_arr; exact WA]|].
  intros x Hx; unfold amp, scale. apply get_map_arr; [exact WA|]. rewrite SA; apply bitstrings_inb; exact Hx.
Qed.

Lemma ksum_acc : forall n l K, keq n (fold_left kadd l K) (kadd K (ksum l)).
Proof.
  intros n l; induction l as [|L l IH]; intros K x y Hx Hy; cbn [fold_left ksum].
  - unfold kadd; ring.
  - rewrite (IH (kadd K L) x y Hx Hy); unfold kadd; ring.
Qed.

Lemma foldM_tensor_add : forall w n vals fs l Ks acc A, Permutation fs (seq 0 n) ->
    Forall2 (tensor_is w n vals) l Ks -> is_matrix n acc -> keq n (entry acc) A ->
    exists m, foldM (fun acc y => let! c := tensor w vals y (Some fs) in add acc c) l acc = Ok m /\ is_matrix n m /\
              keq n (entry m) (kadd A (ksum Ks)).
Proof.
  intros w n vals fs l Ks acc A P F; revert acc A; induction F as [|o K l Ks H F IH]; intros acc A HM HE.
  - exists acc; split; [reflexivity|split; [exact HM|]].
    intros x y Hx Hy; rewrite (HE x y Hx Hy); unfold kadd; cbn [ksum]; ring.
  - destruct (H fs P) as (t & Et & Mt & Kt). destruct (add_matrix n acc t HM Mt) as (r & Er & Mr & Kr).
    cbn [foldM]; rewrite Et; cbn [bind]; rewrite Er; cbn [bind].
    destruct (IH r (kadd A K) Mr) as (m & Em & Mm & Km).
    { rewrite Kr, HE, Kt; reflexivity. }
    exists m; split; [exact Em|split; [exact Mm|]].
    rewrite Km. intros x y Hx Hy; unfold kadd; cbn [ksum]; ring.
Qed.

Lemma kprod_snoc : forall n K L, keq n (kprod n (L ++ [K])) (kmul n K (kprod n L)).
Proof.
  intros n K; induction L as [|B L IHL]; cbn [app kprod].
  - rewrite kmul_id_l, kmul_id_r; reflexivity.
  - rewrite IHL, kmul_assoc; reflexivity.
Qed.
(** sequences: the matrices are multiplied in the order of the list *)
Lemma foldM_tensor_mul : forall w n vals fs l Ks acc A, Permutation fs (seq 0 n) ->
    Forall2 (tensor_is w n vals) l Ks -> is_matrix n acc -> keq n (entry acc) A ->
    exists m, foldM (fun acc y => let! c := tensor w vals y (Some fs) in matmul acc c) l acc = Ok m /\ is_matrix n m /\
              keq n (entry m) (kmul n A (kprod n (rev Ks))).
Proof.
  intros w n vals fs l Ks acc A P F; revert acc A; induction F as [|o K l Ks H F IH]; intros acc A HM HE.
  - exists acc; split; [reflexivity|split; [exact HM|]]. cbn [rev kprod]. rewrite HE; symmetry; apply kmul_id_r.
  - destruct (H fs P) as (t & Et & Mt & Kt). destruct (matmul_matrix n acc t HM Mt) as (r & Er & Mr & Kr).
    cbn [foldM]; rewrite Et; cbn [bind]; rewrite Er; cbn [bind].
    destruct (IH r (kmul n A K) Mr) as (m & Em & Mm & Km).
    { rewrite Kr, HE, Kt; reflexivity. }
    exists m; split; [exact Em|split; [exact Mm|]].
    rewrite Km. cbn [rev]. rewrite kmul_assoc.
    assert (E : forall L, keq n (kprod n (L ++ [K])) (kmul n K (kprod n L))).
    { induction L as [|B L IHL]; cbn [app kprod].
      - rewrite kmul_id_l, kmul_id_r; reflexivity.
      - rewrite IHL, kmul_assoc; reflexivity. }
    rewrite E; reflexivity.
Qed.

(** commuting operations: the sequence's tensor is the matrix of its action *)
Lemma kprod_comm1 : forall n K L, Forall (fun B => keq n (kmul n K B) (kmul n B K)) L ->
    keq n (kmul n K (kprod n L)) (kmul n (kprod n L) K).
Proof.
  intros n K L F; induction F as [|B L H F IH]; cbn [kprod].
  - rewrite kmul_id_l, kmul_id_r; reflexivity.
  - rewrite <- kmul_assoc, IH, kmul_assoc, H, <- kmul_assoc; reflexivity.
Qed.
Lemma kprod_rev_commuting : forall n L, commuting n L -> keq n (kprod n (rev L)) (kprod n L).
Proof.
  intros n L H; induction H as [|K L F H IH]; cbn [rev]; [reflexivity|].
  assert (E : forall L, keq n (kprod n (L ++ [K])) (kmul n K (kprod n L))).
  { clear; induction L as [|B L IHL]; cbn [app kprod].
    - rewrite kmul_id_l, kmul_id_r; reflexivity.
    - rewrite IHL, kmul_assoc; reflexivity. }
  rewrite E, IH. cbn [kprod]. apply kprod_comm1; exact F.
Qed.

Lemma reduce_tensor_mul : forall w n vals fs l Ks, Permutation fs (seq 0 n) -> sequences n false Ks ->
    Forall2 (tensor_is w n vals) l Ks ->
    exists m, reduce_map (fun o => tensor w vals o (Some fs)) matmul l = Ok m /\ is_matrix n m /\ keq n (entry m) (kprod n Ks).
Proof.
  intros w n vals fs l Ks P [ES|[NE CM]] F; [discriminate|]. destruct F as [|o K l Ks H F]; [congruence|]. cbn [reduce_map].
  destruct (H fs P) as (t & Et & Mt & Kt); rewrite Et; cbn [bind].
  destruct (foldM_tensor_mul w n vals fs l Ks t K P F Mt Kt) as (m & Em & Mm & Km). exists m; split; [exact Em|split; [exact Mm|]].
  inversion CM as [|? ? C1' C2']; subst. rewrite Km, (kprod_rev_commuting n Ks C2'). cbn [kprod]. apply kprod_comm1; exact C1'.
Qed.

Lemma denotes_tensor : forall w n vals o K, set_order (set_iter w) -> denotes w n vals false o K -> tensor_is w n vals o K.
Proof.
  intros w n vals o K SO D.
  cut (support_in w n o /\ tensor_is w n vals o K); [tauto|]. revert o K D.
  assert (LIST : forall l Ks, Forall2 (fun o K => support_in w n o /\ tensor_is w n vals o K) l Ks ->
    Forall (support_in w n) l /\ Forall2 (tensor_is w n vals) l Ks).
  { intros l Ks F; induction F as [|o K l Ks [HS HT] F [I1 I2]]; split; constructor; assumption. }
  apply (denotes_induction w n vals false (fun o K => support_in w n o /\ tensor_is w n vals o K)).
  - intros g M cs ts G HD HN; split; [|intros fs P; apply lib_gate_tensor; assumption].
    destruct G as [GM GC GT GV]; subst ts; eapply gate_support_in; eassumption.
  - intros g K G HN; split; [|intros fs P; apply ordered_gate_tensor; assumption].
    destruct G as (u & cs & E & HM & HC & HV & _); eapply gate_support_in; eassumption.
  - intros l Ks NE F.
    assert (FS : Forall (support_in w n) l) by (eapply Forall2_Forall_l; [|exact F]; cbv beta; tauto).
    split; [apply supports_set; assumption|]. intros fs P. cbn [tensor].
    rewrite (resolve_full w n l fs SO FS P); cbn [bind].
    destruct F as [|o K l Ks [_ H] F]; [contradiction NE; reflexivity|].
    cbn [reduce_map]. destruct (H fs P) as (t & Et & Mt & Kt); rewrite Et; cbn [bind].
    destruct (foldM_tensor_add w n vals fs l Ks t K P) as (m & Em & Mm & Km); try assumption.
    { clear - F; induction F as [|a b l l' [_ H] F IH]; constructor; assumption. }
    exists m; split; [exact Em|split; [exact Mm|exact Km]].
  - intros o K p c [HS H] E.
    split; [apply supports_set; [exact SO|constructor; [exact HS|constructor]]|]. intros fs P. cbn [tensor].
    rewrite E; cbn [bind]. rewrite (resolve_full w n [o] fs SO) by first [assumption|constructor; [exact HS|constructor]].
    cbn [bind reduce_map]. destruct (H fs P) as (t & Et & Mt & Kt); rewrite Et; cbn [bind foldM].
    destruct (scale_matrix n (RtoC c) t Mt) as [Ms Ks].
    exists (scale (RtoC c) t); split; [reflexivity|split; [exact Ms|]]. rewrite Ks, Kt; reflexivity.
  - intros l Ks p c ES F E. destruct (LIST l Ks F) as [FS FT]. split; [apply supports_set; assumption|]. intros fs P. cbn [tensor].
    rewrite E; cbn [bind]. rewrite (resolve_full w n l fs SO FS P); cbn [bind].
    destruct (reduce_tensor_mul w n vals fs l Ks P ES FT) as (t & Et & Mt & Kt). rewrite Et; cbn [bind].
    destruct (scale_matrix n (RtoC c) t Mt) as [Ms Es].
    exists (scale (RtoC c) t); split; [reflexivity|split; [exact Ms|]]. rewrite Es, Kt; reflexivity.
  - intros l Ks ES F. destruct (LIST l Ks F) as [FS FT]. split; [apply supports_set; assumption|]. intros fs P. cbn [tensor].
    rewrite (resolve_full w n l fs SO FS P); cbn [bind]. apply reduce_tensor_mul; assumption.
  - intros m l fp Ks ES F. destruct (LIST l Ks F) as [FS FT]. split; [apply supports_set; assumption|]. intros fs P. cbn [tensor].
    rewrite (resolve_full w n l fs SO FS P); cbn [bind]. apply reduce_tensor_mul; assumption.
Qed.

Lemma foldM_call_add : forall w n vals l Ks s acc A psi, is_state n psi -> s = Some (SDense psi) ->
    Forall2 (call_is w n vals) l Ks -> is_state n acc -> veq n (amp acc) (apply_kernel n A (amp psi)) ->
    exists m, foldM (fun acc y => let! c := call w vals y s in add_state acc c) l (Some (SDense acc)) = Ok (Some (SDense m)) /\
              is_state n m /\ veq n (amp m) (apply_kernel n (kadd A (ksum Ks)) (amp psi)).
Proof.
  intros w n vals l Ks s acc A psi HP -> F; revert acc A; induction F as [|o K l Ks H F IH]; intros acc A HS HE.
  - exists acc; split; [reflexivity|split; [exact HS|]]. rewrite HE. apply apply_kernel_ext; [|apply veq_refl].
    intros x y Hx Hy; unfold kadd; cbn [ksum]; ring.
  - destruct (H psi HP) as (t & Et & St & At). destruct (add_states n acc t HS St) as (r & Er & Sr & Ar).
    cbn [foldM]; rewrite Et; cbn [bind add_state]; rewrite Er; cbn [bind].
    destruct (IH r (kadd A K) Sr) as (m & Em & Sm & Am).
    { intros x Hx; rewrite (Ar x Hx), (HE x Hx), (At x Hx). unfold apply_kernel; rewrite <- csum_add.
      apply csum_ext; intros y Hy; unfold kadd; ring. }
    exists m; split; [exact Em|split; [exact Sm|]]. rewrite Am. apply apply_kernel_ext; [|apply veq_refl].
    intros x y Hx Hy; unfold kadd; cbn [ksum]; ring.
Qed.
Lemma foldM_call : forall w n vals l Ks, Forall2 (call_is w n vals) l Ks ->
    forall psi, is_state n psi ->
    exists m, foldM (fun s o => call w vals o s) l (Some (SDense psi)) = Ok (Some (SDense m)) /\
              is_state n m /\ veq n (amp m) (apply_kernel n (kprod n Ks) (amp psi)).
Proof.
  intros w n vals l Ks F; induction F as [|o K l Ks H F IH]; intros psi HP.
  - exists psi; split; [reflexivity|split; [exact HP|]]. cbn [kprod]; symmetry; apply apply_kernel_id.
  - destruct (H psi HP) as (t & Et & St & At). destruct (IH t St) as (m & Em & Sm & Am).
    exists m; cbn [foldM]; rewrite Et; cbn [bind]; split; [exact Em|split; [exact Sm|]].
    cbn [kprod]; rewrite Am, At. symmetry; apply apply_kernel_mul.
Qed.

Lemma denotes_call : forall w n vals sq o K, denotes w n vals sq o K -> call_is w n vals o K.
Proof.
  intros w n vals sq; apply denotes_induction.
  - intros g M cs ts G HD HN psi HS. cbn [call bind].
    destruct (apply_gate_dense w n vals UNITARY false true g (gate_op M cs ts) psi HN (gate_on_opk w _ _ _ _ _ _ G HD) HS)
      as (out & Eo & So & Ao). rewrite Eo; cbn [bind]; exists out; auto.
  - intros g K G HN psi HS. cbn [call bind].
    destruct (apply_gate_dense w n vals UNITARY false true g K psi HN (ordered_gate_opk _ _ _ _ _ G) HS)
      as (out & Eo & So & Ao). rewrite Eo; cbn [bind]; exists out; auto.
  - intros l Ks NE F psi HS. destruct F as [|o K l Ks H F]; [contradiction NE; reflexivity|].
    cbn [call reduce_map]. destruct (H psi HS) as (t & Et & St & At); rewrite Et; cbn [bind].
    apply (foldM_call_add w n vals l Ks (Some (SDense psi)) t K psi HS eq_refl F St At).
  - intros o K p c H E psi HS. cbn [call foldM]. rewrite E; cbn [bind].
    destruct (H psi HS) as (t & Et & St & At); rewrite Et; cbn [bind scale_state].
    destruct (scale_state_vec n (RtoC c) t St) as [Sr Ar].
    exists (scale (RtoC c) t); split; [reflexivity|split; [exact Sr|]].
    intros x Hx; rewrite (Ar x Hx), (At x Hx). unfold apply_kernel; rewrite <- csum_scale_l.
    apply csum_ext; intros y Hy; unfold kscale; ring.
  - intros l Ks p c _ F E psi HS; cbn [call]. rewrite E; cbn [bind].
    destruct (foldM_call w n vals l Ks F psi HS) as (t & Et & St & At); rewrite Et; cbn [bind scale_state].
    destruct (scale_state_vec n (RtoC c) t St) as [Sr Ar].
    exists (scale (RtoC c) t); split; [reflexivity|split; [exact Sr|]].
    intros x Hx; rewrite (Ar x Hx), (At x Hx). unfold apply_kernel; rewrite <- csum_scale_l.
    apply csum_ext; intros y Hy; unfold kscale; ring.
  - intros l Ks _ F psi HS; cbn [call]; apply foldM_call; assumption.
  - intros m l fp Ks _ F psi HS; cbn [call]; apply foldM_call; assumption.
Qed.

Lemma c19_agree : forall w n vals o K fs psi,
    set_order (set_iter w) -> denotes w n vals false o K -> Permutation fs (seq 0 n) -> is_state n psi ->
    exists m out,
      tensor w vals o (Some fs) = Ok m /\ is_matrix n m /\ keq n (entry m) K /\
      call w vals o (Some (SDense psi)) = Ok (Some (SDense out)) /\ is_state n out /\
      veq n (amp out) (apply_kernel n (entry m) (amp psi)).
Proof.
  intros w n vals o K fs psi SO D P HS.
  destruct (denotes_tensor w n vals o K SO D fs P) as (m & Em & Mm & Km).
  destruct (denotes_call w n vals false o K D psi HS) as (out & Eo & So & Ao).
  exists m, out; repeat split; try assumption; try apply Mm; try apply So.
  rewrite Ao; symmetry; rewrite Km; reflexivity.
Qed.

(** the tensor of a sequence is the matrix of the reversed sequence *)
Lemma c18_reversed : forall w n vals l Ks fs psi,
    set_order (set_iter w) -> l <> [] -> Forall2 (denotes w n vals false) l Ks -> Permutation fs (seq 0 n) -> is_state n psi ->
    exists m out,
      tensor w vals (OSeq l) (Some fs) = Ok m /\ is_matrix n m /\
      call w vals (OSeq (rev l)) (Some (SDense psi)) = Ok (Some (SDense out)) /\ is_state n out /\
      veq n (amp out) (apply_kernel n (entry m) (amp psi)).
Proof.
  intros w n vals l Ks fs psi SO NE F P HS.
  assert (FS : Forall (support_in w n) l).
  { eapply Forall2_Forall_l; [|exact F]; intros o K D; eapply denotes_support; eassumption. }
  assert (FR : Forall2 (call_is w n vals) (rev l) (rev Ks)).
  { clear - F. assert (FC : Forall2 (call_is w n vals) l Ks)
      by (induction F as [|o K l Ks D F IH]; constructor; [eapply denotes_call; exact D|exact IH]).
    clear F; induction FC as [|o K l Ks H F IH]; cbn [rev]; [constructor|].
    apply Forall2_app; [exact IH|constructor; [exact H|constructor]]. }
  destruct (foldM_call w n vals (rev l) (rev Ks) FR psi HS) as (out & Eo & So & Ao).
  cbn [tensor call]. rewrite (resolve_full w n l fs SO FS P); cbn [bind].
  destruct F as [|o K l Ks D F]; [contradiction NE; reflexivity|].
  cbn [reduce_map]. destruct (denotes_tensor w n vals o K SO D fs P) as (t & Et & Mt & Kt); rewrite Et; cbn [bind].
  destruct (foldM_tensor_mul w n vals fs l Ks t K P) as (m & Em & Mm & Km); try assumption.
  { clear - F SO; induction F as [|a b l l' D F IH]; constructor; [eapply denotes_tensor; eassumption|exact IH]. }
  exists m, out; repeat split; try assumption; try apply Mm; try apply So.
  rewrite Ao; apply apply_kernel_ext; [|apply veq_refl]. cbn [rev]. rewrite Km.
  assert (E : forall L, keq n (kprod n (L ++ [K])) (kmul n K (kprod n L))).
  { induction L as [|B L IHL]; cbn [app kprod].
    - rewrite kmul_id_l, kmul_id_r; reflexivity.
    - rewrite IHL, kmul_assoc; reflexivity. }
  rewrite E; reflexivity.
Qed.

Lemma c18_commuting : forall w n vals l Ks fs psi,
    set_order (set_iter w) -> l <> [] -> Forall2 (denotes w n vals false) l Ks -> commuting n Ks ->
    Permutation fs (seq 0 n) -> is_state n psi ->
    exists m out,
      tensor w vals (OSeq l) (Some fs) = Ok m /\ is_matrix n m /\
      call w vals (OSeq l) (Some (SDense psi)) = Ok (Some (SDense out)) /\ is_state n out /\
      veq n (amp out) (apply_kernel n (entry m) (amp psi)).
Proof.
  intros w n vals l Ks fs psi SO NE F CM P HS.
  destruct (c18_reversed w n vals l Ks fs psi SO NE F P HS) as (m & out' & Em & Mm & Er & So' & Ao').
  assert (FC : Forall2 (call_is w n vals) l Ks)
    by (clear - F; induction F as [|o K l Ks D F IH]; constructor; [eapply denotes_call; exact D|exact IH]).
  assert (FR : Forall2 (call_is w n vals) (rev l) (rev Ks)).
  { clear - FC; induction FC as [|o K l Ks H F IH]; cbn [rev]; [constructor|].
    apply Forall2_app; [exact IH|constructor; [exact H|constructor]]. }
  destruct (foldM_call w n vals l Ks FC psi HS) as (out & Eo & So & Ao).
  destruct (foldM_call w n vals (rev l) (rev Ks) FR psi HS) as (out2 & Eo2 & So2 & Ao2).
  cbn [call] in Er; rewrite Eo2 in Er; injection Er as ->.
  exists m, out; repeat split; try assumption; try apply Mm; try apply So.
  rewrite <- Ao', Ao, Ao2. apply apply_kernel_ext; [|apply veq_refl]. symmetry; apply kprod_rev_commuting; exact CM.
Qed.

(** two gates whose sequence has the wrong matrix *)
Definition XZ : oper := OSeq [OGate (gX (TInt 0) no_control None false); OGate (gZ (TInt 0) no_control None false)].
Lemma c18_refuted : forall w vals, set_order (set_iter w) -> exists m out,
    (exists KX KZ, denotes w 1 vals true XZ (kprod 1 [KX; KZ])) /\
    is_state 1 (mkArr [2] [C1; C0]) /\
    tensor w vals XZ (Some [0]) = Ok m /\
    call w vals XZ (Some (SDense (mkArr [2] [C1; C0]))) = Ok (Some (SDense out)) /\
    amp out [1] = Copp C1 /\ apply_kernel 1 (entry m) (amp (mkArr [2] [C1; C0])) [1] = C1.
Proof.
  intros w vals SO.
  assert (RS : resolve_support w [OGate (gX (TInt 0) no_control None false); OGate (gZ (TInt 0) no_control None false)]
                 (Some [0]) = Ok [0]).
  { apply (resolve_full w 1); [exact SO| |apply Permutation_refl].
    repeat constructor; (eapply gate_support_in; [apply cq_default|split; [repeat constructor; simpl; tauto|repeat constructor]]). }
  do 2 eexists. split; [|split; [split; reflexivity|split; [|split]]].
  - exists (gate_op X_matrix [] [0]), (gate_op Z_matrix [] [0]). unfold XZ; apply den_seq; [left; reflexivity|].
    repeat constructor; try (eapply gm_fixed; simpl; eauto; fail); try (simpl; tauto).
  - unfold XZ; cbn [tensor]; rewrite RS; cbn [bind]. lazy -[Rplus Rmult Ropp]; reflexivity.
  - unfold XZ; cbn [call]. lazy -[Rplus Rmult Ropp]; reflexivity.
  - unfold apply_kernel, entry, amp, get; lazy -[Rplus Rmult Ropp Rminus IZR]; split; f_equal; lra.
Qed.
