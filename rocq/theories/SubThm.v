(** * Tensors of operations over part of the register *)
From Coq Require Import String List Arith Bool Reals Lia Lra Permutation Sorted.
From Verif Require Import Cplx Py PyFacts Ndarray NdFacts NdPerm OperatorUtils ApplyOperator
  Spec SpecFacts ApplyFacts DmFacts ExpandFacts Sparse Matrices Noise Gates Apply Composite
  GateSpec PropSpec GateFacts CircuitFacts AlgebraFacts TensorFacts ApplyThm TensorThm.
Import ListNotations.
Local Open Scope nat_scope.

Lemma ctrl_kernel_kadd : forall A B ts x y, ctrl_kernel (kadd A B) [] ts x y = kadd (ctrl_kernel A [] ts) (ctrl_kernel B [] ts) x y.
Proof.
  intros A B ts x y. unfold kadd at 2; unfold ctrl_kernel; cbn [bits_at map all_ones forallb]. rewrite <- csum_add.
  apply csum_ext; intros z _. unfold kadd. ring.
Qed.
Lemma ctrl_kernel_kscale : forall c A ts x y, ctrl_kernel (kscale c A) [] ts x y = kscale c (ctrl_kernel A [] ts) x y.
Proof.
  intros c A ts x y. unfold kscale at 2; unfold ctrl_kernel; cbn [bits_at map all_ones forallb]. rewrite <- csum_scale_l.
  apply csum_ext; intros z _. unfold kscale. ring.
Qed.

Definition sub_support (n : nat) (fs : list nat) : Prop := NoDup fs /\ forall q, In q fs -> q < n.
Lemma sub_valid : forall n fs, sub_support n fs -> valid_qubits n fs.
Proof. intros n fs [A B]; split; [exact A|]. apply Forall_forall; exact B. Qed.
Lemma sub_valid_sorted : forall n fs, sub_support n fs -> valid_qubits n (sorted fs).
Proof. intros n fs [A B]; apply sub_valid; split; [apply sorted_NoDup; exact A|]. intros q Hq; apply B, sorted_In, Hq. Qed.

(** the tensor of [o] over the qubits [fs], in increasing order, is the operator [K] *)
Definition sub_is (w : world) (n : nat) (vals : values) (o : oper) (K : op) : Prop :=
  exists s, support w o = Ok s /\ sub_support n s /\
    forall fs, sub_support n fs -> incl s fs ->
      exists m, tensor w vals o (Some fs) = Ok m /\ is_matrix (length fs) m /\ keq n (ctrl_kernel (entry m) [] (sorted fs)) K.

Lemma gate_tensor_sub : forall w n g vals u cs fs,
    unitary_of w g vals = Ok (MD u) -> is_matrix (length (target g)) u -> control_qubits (control g) cs ->
    valid_qubits n (cs ++ target g) -> sub_support n fs -> incl (cs ++ target g) fs ->
    exists r, gate_tensor w g vals (Some fs) = Ok r /\ is_matrix (length fs) r /\
      keq n (ctrl_kernel (entry r) [] (sorted fs)) (ctrl_kernel (entry u) cs (sorted (target g))).
Proof.
  intros w n g vals u cs fs EU MU HC V SF HI. destruct V as [ND FV]. pose proof SF as [NF BF].
  destruct (gate_tensor_spec w g vals u cs fs EU MU HC ND NF HI) as (r & Er & Mr & Kr).
  exists r; split; [exact Er|split; [exact Mr|]].
  assert (NI : forall qs, incl qs fs -> map (fun i => nth i (sorted fs) 0) (map (fun q => index_of q (sorted fs)) qs) = qs).
  { intros qs H. rewrite map_map. rewrite <- (map_id qs) at 2. apply map_ext_in; intros q Hq. apply nth_index_of, sorted_In, H, Hq. }
  assert (IC : incl cs fs) by (intros q Hq; apply HI, in_or_app; auto).
  assert (IT : incl (sorted (target g)) fs) by (intros q Hq; apply HI, in_or_app; right; apply sorted_In, Hq).
  eapply keq_trans; [apply ctrl_kernel_ext; rewrite sorted_length; exact Kr|].
  eapply keq_trans; [apply ctrl_kernel_nested|].
  - apply sub_valid_sorted; exact SF.
  - rewrite sorted_length. apply pos_valid; auto. apply sorted_NoDup. eapply NoDup_app_remove_l; exact ND.
  - intros p Hp. apply in_map_iff in Hp as (q & <- & Hq). apply index_of_lt, sorted_In, IC, Hq.
  - rewrite !NI by assumption. apply keq_refl.
Qed.
Lemma gate_support_sub : forall n g cs, control_qubits (control g) cs -> valid_qubits n (cs ++ target g) ->
    gate_support g = Ok (sorted (cs ++ target g)) /\ sub_support n (sorted (cs ++ target g)).
Proof.
  intros n g cs HC V. split; [apply gate_support_spec; [exact HC|apply V]|]. split; [apply sorted_NoDup, V|].
  intros q Hq; rewrite sorted_In in Hq. exact (valid_lt _ _ _ V Hq).
Qed.
Lemma lib_gate_sub : forall w n vals g M cs ts, gate_on n vals g M cs ts -> dense_gate g ->
    sub_is w n vals (OGate g) (gate_op M cs ts).
Proof.
  intros w n vals g M cs ts [GM GC GT GV] HD; subst ts.
  destruct (unitary_of_ok w vals g M GM HD) as (u & E & HM & HE).
  destruct (gate_support_sub n g cs GC GV) as [ES SS]. exists (sorted (cs ++ target g)); split; [exact ES|split; [exact SS|]].
  intros fs SF HI.
  destruct (gate_tensor_sub w n g vals u cs fs E HM GC GV SF) as (r & Er & Mr & Kr).
  { intros q Hq; apply HI, sorted_In, Hq. }
  exists r; split; [exact Er|split; [exact Mr|]]. eapply keq_trans; [exact Kr|]. unfold gate_op.
  eapply keq_trans; [apply ctrl_kernel_ext; rewrite sorted_length; exact HE|].
  destruct (gate_matrix_order _ _ _ GM) as [L|(a & b & ET & SY)].
  - destruct (target g) as [|a [|b l]]; try discriminate. apply keq_refl.
  - rewrite ET, sorted2 in *. destruct (Nat.leb a b); [apply keq_refl|].
    apply ctrl_kernel_exchange; [|exact SY].
    apply valid_app_r in GV; apply valid_swap; exact GV.
Qed.
Lemma ordered_gate_sub : forall w n vals g K, ordered_gate w n vals g K -> sub_is w n vals (OGate g) K.
Proof.
  intros w n vals g K (u & cs & E & HM & HC & HV & HS & ->).
  destruct (gate_support_sub n g cs HC HV) as [ES SS]. exists (sorted (cs ++ target g)); split; [exact ES|split; [exact SS|]].
  intros fs SF HI.
  destruct (gate_tensor_sub w n g vals u cs fs E HM HC HV SF) as (r & Er & Mr & Kr).
  { intros q Hq; apply HI, sorted_In, Hq. }
  exists r; split; [exact Er|split; [exact Mr|]].
  rewrite (sorted_id (target g)) in Kr; [exact Kr|]. clear - HS. induction HS as [|q l HS IH F]; constructor; [exact IH|].
  eapply Forall_impl; [|exact F]. intros; lia.
Qed.

(** supports of lists *)
Definition set_of (w : world) (n : nat) (l : list oper) (s : list nat) : Prop :=
  (exists ss, mapM (support w) l = Ok ss /\ s = set_iter w (List.concat ss)) /\ sub_support n s /\
  Forall (fun o => exists t, support w o = Ok t /\ incl t s) l.
Lemma set_of_ok : forall w n l, set_order (set_iter w) ->
    Forall (fun o => exists s, support w o = Ok s /\ sub_support n s) l -> exists s, set_of w n l s.
Proof.
  intros w n l SO F.
  assert (H : exists ss, mapM (support w) l = Ok ss /\ (forall q, In q (List.concat ss) -> q < n) /\
              Forall (fun o => exists t, support w o = Ok t /\ incl t (List.concat ss)) l).
  { induction F as [|o l (s & E & N & B) F (ss & Es & Bs & Fs)].
    - exists []; split; [reflexivity|split; [intros q []|constructor]].
    - exists (s :: ss); cbn [mapM]; rewrite E; cbn [bind]; rewrite Es; split; [reflexivity|]. cbn [List.concat]. split.
      + intros q Hq; apply in_app_or in Hq as [Hq|Hq]; auto.
      + constructor; [exists s; split; [exact E|]; intros q Hq; apply in_or_app; auto|].
        eapply Forall_impl; [|exact Fs]. intros a (t & Et & It). exists t; split; [exact Et|]. intros q Hq; apply in_or_app; right; auto. }
  destruct H as (ss & Es & Bs & Fs). destruct (SO (List.concat ss)) as [ND HI].
  exists (set_iter w (List.concat ss)); split; [eauto|]. split.
  - split; [exact ND|]. intros q Hq; apply Bs, HI, Hq.
  - eapply Forall_impl; [|exact Fs]. intros a (t & Et & It). exists t; split; [exact Et|]. intros q Hq; apply HI, It, Hq.
Qed.
Lemma resolve_sub : forall w n l s fs, set_of w n l s -> incl s fs -> resolve_support w l (Some fs) = Ok fs.
Proof.
  intros w n l s fs ((ss & E & ->) & _) HI. unfold resolve_support. rewrite E; cbn [bind].
  replace (subsetb (set_iter w (List.concat ss)) fs) with true; [reflexivity|]. symmetry; apply subsetb_incl; exact HI.
Qed.
Lemma resolve_none : forall w n l s, set_of w n l s -> resolve_support w l None = Ok s.
Proof. intros w n l s ((ss & E & ->) & _). unfold resolve_support. rewrite E; reflexivity. Qed.
Lemma support_set : forall w n l s, set_of w n l s -> (let! ss := mapM (support w) l in Ok (set_iter w (List.concat ss))) = Ok s.
Proof. intros w n l s ((ss & E & ->) & _). rewrite E; reflexivity. Qed.

Lemma foldM_sub_add : forall w n vals fs l Ks acc A, sub_support n fs ->
    Forall2 (fun o K => exists m, tensor w vals o (Some fs) = Ok m /\ is_matrix (length fs) m /\
                          keq n (ctrl_kernel (entry m) [] (sorted fs)) K) l Ks ->
    is_matrix (length fs) acc -> keq n (ctrl_kernel (entry acc) [] (sorted fs)) A ->
    exists m, foldM (fun acc y => let! c := tensor w vals y (Some fs) in add acc c) l acc = Ok m /\ is_matrix (length fs) m /\
              keq n (ctrl_kernel (entry m) [] (sorted fs)) (kadd A (ksum Ks)).
Proof.
  intros w n vals fs l Ks acc A SF F; revert acc A; induction F as [|o K l Ks (t & Et & Mt & Kt) F IH]; intros acc A HM HE.
  - exists acc; split; [reflexivity|split; [exact HM|]]. rewrite HE. intros x y _ _; unfold kadd; cbn [ksum]; ring.
  - cbn [foldM]. rewrite Et; cbn [bind].
    destruct (add_matrix _ _ _ HM Mt) as (r & Er & Mr & Kr). rewrite Er; cbn [bind].
    destruct (IH r (kadd A K) Mr) as (m & Em & Mm & Km).
    + eapply keq_trans; [apply ctrl_kernel_ext; rewrite sorted_length; exact Kr|].
      intros x y Hx Hy. rewrite ctrl_kernel_kadd. unfold kadd. rewrite (HE x y Hx Hy), (Kt x y Hx Hy). reflexivity.
    + exists m; split; [exact Em|split; [exact Mm|]]. rewrite Km. intros x y _ _; unfold kadd; cbn [ksum]; ring.
Qed.

Lemma reduce_sub_add : forall w n vals fs l Ks, l <> [] -> sub_support n fs ->
    Forall2 (fun o K => exists m, tensor w vals o (Some fs) = Ok m /\ is_matrix (length fs) m /\
                          keq n (ctrl_kernel (entry m) [] (sorted fs)) K) l Ks ->
    exists m, reduce_map (fun o => tensor w vals o (Some fs)) add l = Ok m /\ is_matrix (length fs) m /\
              keq n (ctrl_kernel (entry m) [] (sorted fs)) (ksum Ks).
Proof.
  intros w n vals fs l Ks NE SF F. destruct F as [|o K l Ks (t & Et & Mt & Kt) F]; [congruence|]. cbn [reduce_map].
  rewrite Et; cbn [bind]. apply (foldM_sub_add w n vals fs l Ks t K SF F Mt Kt).
Qed.
Lemma subs_over : forall w n vals l Ks s fs, Forall2 (sub_is w n vals) l Ks -> set_of w n l s -> sub_support n fs -> incl s fs ->
    Forall2 (fun o K => exists m, tensor w vals o (Some fs) = Ok m /\ is_matrix (length fs) m /\
                          keq n (ctrl_kernel (entry m) [] (sorted fs)) K) l Ks.
Proof.
  intros w n vals l Ks s fs F (_ & _ & FS) SF HI. induction F as [|o K l Ks (t & Et & St & Ht) F IH]; [constructor|].
  inversion FS as [|? ? (t' & Et' & It) FS']; subst. rewrite Et in Et'; injection Et' as <-.
  constructor; [|apply IH; exact FS']. apply Ht; [exact SF|]. intros q Hq; apply HI, It, Hq.
Qed.
Lemma subs_supports : forall w n vals l Ks, Forall2 (sub_is w n vals) l Ks ->
    Forall (fun o => exists s, support w o = Ok s /\ sub_support n s) l.
Proof. intros w n vals l Ks F; induction F as [|o K l Ks (t & Et & St & Ht) F IH]; constructor; eauto. Qed.

Lemma foldM_sub_mul : forall w n vals fs l Ks acc A, sub_support n fs ->
    Forall2 (fun o K => exists m, tensor w vals o (Some fs) = Ok m /\ is_matrix (length fs) m /\
                          keq n (ctrl_kernel (entry m) [] (sorted fs)) K) l Ks ->
    is_matrix (length fs) acc -> keq n (ctrl_kernel (entry acc) [] (sorted fs)) A ->
    exists m, foldM (fun acc y => let! c := tensor w vals y (Some fs) in matmul acc c) l acc = Ok m /\ is_matrix (length fs) m /\
              keq n (ctrl_kernel (entry m) [] (sorted fs)) (kmul n A (kprod n (rev Ks))).
Proof.
  intros w n vals fs l Ks acc A SF F; revert acc A; induction F as [|o K l Ks (t & Et & Mt & Kt) F IH]; intros acc A HM HE.
  - exists acc; split; [reflexivity|split; [exact HM|]]. cbn [rev kprod]. rewrite HE; symmetry; apply kmul_id_r.
  - cbn [foldM]. rewrite Et; cbn [bind].
    destruct (matmul_matrix _ _ _ HM Mt) as (r & Er & Mr & Kr). rewrite Er; cbn [bind].
    destruct (IH r (kmul n A K) Mr) as (m & Em & Mm & Km).
    + eapply keq_trans; [apply ctrl_kernel_ext; rewrite sorted_length; exact Kr|].
      rewrite <- (sorted_length fs). eapply keq_trans; [apply keq_sym, ctrl_kernel_mul; cbn [app]; apply sub_valid_sorted; exact SF|].
      apply kmul_ext; assumption.
    + exists m; split; [exact Em|split; [exact Mm|]].
      rewrite Km. cbn [rev]. rewrite kmul_assoc, kprod_snoc; reflexivity.
Qed.
Lemma reduce_sub_mul : forall w n vals fs l Ks, sequences n false Ks -> sub_support n fs ->
    Forall2 (fun o K => exists m, tensor w vals o (Some fs) = Ok m /\ is_matrix (length fs) m /\
                          keq n (ctrl_kernel (entry m) [] (sorted fs)) K) l Ks ->
    exists m, reduce_map (fun o => tensor w vals o (Some fs)) matmul l = Ok m /\ is_matrix (length fs) m /\
              keq n (ctrl_kernel (entry m) [] (sorted fs)) (kprod n Ks).
Proof.
  intros w n vals fs l Ks [ES|[NE CM]] SF F; [discriminate|]. destruct F as [|o K l Ks (t & Et & Mt & Kt) F]; [congruence|]. cbn [reduce_map].
  rewrite Et; cbn [bind]. destruct (foldM_sub_mul w n vals fs l Ks t K SF F Mt Kt) as (m & Em & Mm & Km). exists m; split; [exact Em|split; [exact Mm|]].
  inversion CM as [|? ? C1' C2']; subst. rewrite Km, (kprod_rev_commuting n Ks C2'). cbn [kprod]. apply kprod_comm1; exact C1'.
Qed.

Lemma denotes_sub : forall w n vals o K, set_order (set_iter w) -> denotes w n vals false o K -> sub_is w n vals o K.
Proof.
  intros w n vals o K SO D; revert o K D.
  apply (denotes_induction w n vals false (sub_is w n vals)).
  - intros g M cs ts G HD HN; apply lib_gate_sub; assumption.
  - intros g K G HN; apply ordered_gate_sub; assumption.
  - intros l Ks NE F. destruct (set_of_ok w n l SO (subs_supports _ _ _ _ _ F)) as (s & HS).
    exists s; split; [apply (support_set _ n); exact HS|split; [apply HS|]]. intros fs SF HI. cbn [tensor].
    rewrite (resolve_sub w n l s fs HS HI); cbn [bind]. apply reduce_sub_add; [exact NE|exact SF|]. eapply subs_over; eassumption.
  - intros o K p c H E. destruct (set_of_ok w n [o] SO) as (s & HS).
    { destruct H as (t & Et & St & _). constructor; [eauto|constructor]. }
    exists s; split; [apply (support_set _ n); exact HS|split; [apply HS|]]. intros fs SF HI. cbn [tensor].
    rewrite E; cbn [bind]. rewrite (resolve_sub w n [o] s fs HS HI); cbn [bind reduce_map].
    assert (F : Forall2 (sub_is w n vals) [o] [K]) by (constructor; [exact H|constructor]).
    pose proof (subs_over w n vals _ _ s fs F HS SF HI) as F'. inversion F' as [|? ? ? ? (t & Et & Mt & Kt)]; subst.
    rewrite Et; cbn [bind foldM]. destruct (scale_matrix _ (RtoC c) t Mt) as [Ms Ks].
    exists (scale (RtoC c) t); split; [reflexivity|split; [exact Ms|]].
    eapply keq_trans; [apply ctrl_kernel_ext; rewrite sorted_length; exact Ks|].
    intros x y Hx Hy. rewrite ctrl_kernel_kscale. unfold kscale. rewrite (Kt x y Hx Hy); reflexivity.
  - intros l Ks p c ES F E. destruct (set_of_ok w n l SO (subs_supports _ _ _ _ _ F)) as (s & HS).
    exists s; split; [apply (support_set _ n); exact HS|split; [apply HS|]]. intros fs SF HI. cbn [tensor].
    rewrite E; cbn [bind]. rewrite (resolve_sub w n l s fs HS HI); cbn [bind].
    destruct (reduce_sub_mul w n vals fs l Ks ES SF) as (t & Et & Mt & Kt); [eapply subs_over; eassumption|]. rewrite Et; cbn [bind].
    destruct (scale_matrix _ (RtoC c) t Mt) as [Ms Es].
    exists (scale (RtoC c) t); split; [reflexivity|split; [exact Ms|]].
    eapply keq_trans; [apply ctrl_kernel_ext; rewrite sorted_length; exact Es|].
    intros x y Hx Hy. rewrite ctrl_kernel_kscale. unfold kscale. rewrite (Kt x y Hx Hy); reflexivity.
  - intros l Ks ES F. destruct (set_of_ok w n l SO (subs_supports _ _ _ _ _ F)) as (s & HS).
    exists s; split; [apply (support_set _ n); exact HS|split; [apply HS|]]. intros fs SF HI. cbn [tensor].
    rewrite (resolve_sub w n l s fs HS HI); cbn [bind]. apply reduce_sub_mul; [exact ES|exact SF|]. eapply subs_over; eassumption.
  - intros m l fp Ks ES F. destruct (set_of_ok w n l SO (subs_supports _ _ _ _ _ F)) as (s & HS).
    exists s; split; [apply (support_set _ n); exact HS|split; [apply HS|]]. intros fs SF HI. cbn [tensor].
    rewrite (resolve_sub w n l s fs HS HI); cbn [bind]. apply reduce_sub_mul; [exact ES|exact SF|]. eapply subs_over; eassumption.
Qed.
