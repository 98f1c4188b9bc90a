(** * Tensors of gates over their own qubits, and over sorted targets (C16, C17) *)
From Coq Require Import String List Arith Bool Reals Lia Lra Permutation Sorted.
From Verif Require Import Cplx Py PyFacts Ndarray NdFacts NdPerm OperatorUtils ApplyOperator
  Spec SpecFacts ApplyFacts DmFacts ExpandFacts Sparse Matrices Noise Gates Apply Composite
  GateSpec PropSpec GateFacts CircuitFacts AlgebraFacts TensorFacts ApplyThm TensorThm SubThm.
Import ListNotations.
Local Open Scope nat_scope.

Lemma gate_tensor_own : forall w n g vals u cs,
    unitary_of w g vals = Ok (MD u) -> is_matrix (length (target g)) u -> control_qubits (control g) cs -> valid_qubits n (cs ++ target g) ->
    exists r, gate_tensor w g vals None = Ok r /\ is_matrix (length (cs ++ target g)) r /\ (cs = [] -> r = u) /\
      (cs <> [] -> keq n (ctrl_kernel (entry r) [] (sorted (cs ++ target g))) (ctrl_kernel (entry u) cs (sorted (target g)))).
Proof.
  intros w n g vals u cs EU MU HC V. unfold gate_tensor. rewrite EU. cbn [bind]. destruct (controlled_cases _ _ HC) as [[E ->]|[E EC]]; rewrite E; cbn [bind].
  - exists u. split; [reflexivity|split; [exact MU|split; [reflexivity|intro N; elim N; reflexivity]]].
  - rewrite EC. pose proof (proj1 V) as ND. destruct (controlled_spec u (target g) (map QInt cs) cs MU (mapM_QInt cs) ND) as (uc & -> & Mc & Kc). cbn [bind].
    exists uc. split; [reflexivity|split; [exact Mc|split; [intro Z; subst cs; rewrite EC in E; discriminate|]]]. intros _.
    set (s := sorted (cs ++ target g)) in *. assert (Ls : length s = length (cs ++ target g)) by apply sorted_length.
    eapply keq_trans; [apply ctrl_kernel_ext; rewrite Ls; exact Kc|]. eapply keq_trans; [apply ctrl_kernel_nested|].
    + split; [apply sorted_NoDup; exact ND|]. apply Forall_forall. intros q Hq. unfold s in Hq. rewrite sorted_In in Hq. exact (valid_lt _ _ _ V Hq).
    + apply tgt_pos_valid.
    + intros p Hp; eapply ctl_pos_lt; exact Hp.
    + unfold s; rewrite tgt_pos_qubits by exact ND. intros x y Hx Hy; apply ctrl_kernel_controls_perm, ctl_pos_qubits; exact ND.
Qed.
Lemma ssorted_id : forall l, StronglySorted lt l -> sorted l = l.
Proof. intros l HS. apply sorted_id. induction HS as [|q l HS IH F]; constructor; [exact IH|]. eapply Forall_impl; [|exact F]. intros; lia. Qed.
Lemma c16_own : forall w n psi g vals K,
    is_state n psi -> ordered_gate w n vals g K -> noiseless g ->
    exists s m out,
      gate_support g = Ok s /\ gate_tensor w g vals None = Ok m /\
      apply_gates w (SDense psi) (GOne g) vals UNITARY false true = Ok (SDense out) /\
      valid_qubits n s /\ is_matrix (List.length s) m /\ is_state n out /\
      veq n (amp out) (apply_kernel n (gate_op (entry m) [] s) (amp psi)).
Proof.
  intros w n psi g vals K HS HG HN. pose proof HG as (u & cs & E & HM & HC & HV & SS & EK).
  destruct (gate_tensor_own w n g vals u cs E HM HC HV) as (m & Em & Mm & M0 & M1).
  destruct (apply_gate_dense w n vals UNITARY false true g K psi HN (ordered_gate_opk _ _ _ _ _ HG) HS) as (out & Eo & So & Ao).
  destruct (gate_support_sub n g cs HC HV) as [ES SB]. exists (sorted (cs ++ target g)), m, out. repeat (split; [first [assumption|apply sub_valid; exact SB|rewrite sorted_length; exact Mm]|]).
  rewrite Ao, EK. apply apply_kernel_ext; [|intros x Hx; reflexivity]. apply keq_sym. unfold gate_op. destruct cs as [|c cs].
  - rewrite (M0 eq_refl). cbn [app]. rewrite (ssorted_id _ SS). apply keq_refl.
  - eapply keq_trans; [apply M1; discriminate|]. rewrite (ssorted_id _ SS). apply keq_refl.
Qed.
Lemma c17_own : forall w n psi g vals u,
    is_state n psi -> unitary_of w g vals = Ok (MD u) -> is_matrix (List.length (target g)) u -> control_qubits (control g) [] -> valid_qubits n (target g) -> noiseless g ->
    exists m out,
      gate_tensor w g vals None = Ok m /\
      apply_gates w (SDense psi) (GOne g) vals UNITARY false true = Ok (SDense out) /\
      is_matrix (List.length (target g)) m /\ is_state n out /\
      veq n (amp out) (apply_kernel n (gate_op (entry m) [] (target g)) (amp psi)).
Proof.
  intros w n psi g vals u HS E HM HC HV HN. destruct (gate_tensor_own w n g vals u [] E HM HC HV) as (m & Em & Mm & M0 & _). rewrite (M0 eq_refl) in *.
  destruct (apply_gate_dense w n vals UNITARY false true g (gate_op (entry u) [] (target g)) psi HN) as (out & Eo & So & Ao); [|exact HS|].
  - exists u, []. repeat (split; [first [exact E|exact HM|exact HC|exact HV]|]). apply keq_refl.
  - exists u, out. repeat (split; [assumption|]). exact Ao.
Qed.
Lemma c17_sorted : forall w n psi ts c cs vals u fs,
    is_state n psi -> unitary_of w (HamiltonianEvolution (TTup ts) c) vals = Ok (MD u) -> is_matrix (List.length ts) u ->
    control_qubits (parse_control c) cs -> valid_qubits n (cs ++ ts) -> Permutation fs (seq 0 n) ->
    exists m out,
      gate_tensor w (HamiltonianEvolution (TTup ts) c) vals (Some fs) = Ok m /\
      apply_gates w (SDense psi) (GOne (HamiltonianEvolution (TTup (sorted ts)) c)) vals UNITARY false true = Ok (SDense out) /\
      is_matrix n m /\ is_state n out /\
      veq n (amp out) (apply_kernel n (entry m) (amp psi)).
Proof.
  intros w n psi ts c cs vals u fs HS E HM HC HV P.
  destruct (gate_tensor_full w n (HamiltonianEvolution (TTup ts) c) vals u cs fs E HM HC HV P) as (m & Em & Mm & Km). cbn [target HamiltonianEvolution parse_target] in Km.
  assert (HV' : valid_qubits n (cs ++ sorted ts)).
  { destruct HV as [ND F]. assert (PM : Permutation (cs ++ ts) (cs ++ sorted ts)) by (apply Permutation_app_head, Permutation_sym, sorted_perm).
    split; [eapply Permutation_NoDup; eassumption|eapply Permutation_Forall; eassumption]. }
  destruct (apply_gate_dense w n vals UNITARY false true (HamiltonianEvolution (TTup (sorted ts)) c) (entry m) psi eq_refl) as (out & Eo & So & Ao); [|exact HS|].
  - exists u, cs. split; [exact E|]. split; [cbn [target HamiltonianEvolution parse_target]; rewrite sorted_length; exact HM|]. split; [exact HC|split; [exact HV'|exact Km]].
  - exists m, out. repeat (split; [assumption|]). exact Ao.
Qed.
Lemma c16_sub : forall w n psi g vals K s fs,
    is_state n psi -> ordered_gate w n vals g K -> noiseless g -> gate_support g = Ok s -> incl s fs -> valid_qubits n fs ->
    exists m out,
      gate_tensor w g vals (Some fs) = Ok m /\
      apply_gates w (SDense psi) (GOne g) vals UNITARY false true = Ok (SDense out) /\
      is_matrix (List.length fs) m /\ is_state n out /\
      veq n (amp out) (apply_kernel n (gate_op (entry m) [] (sorted fs)) (amp psi)).
Proof.
  intros w n psi g vals K s fs HS HG HN ES HI VF. destruct (ordered_gate_sub w n vals g K HG) as (s' & ES' & _ & T). change (gate_support g = Ok s') in ES'. rewrite ES in ES'. injection ES' as <-.
  destruct (T fs) as (m & Em & Mm & Km); [split; [apply VF|intros q Hq; exact (valid_lt _ _ _ VF Hq)]|exact HI|].
  destruct (apply_gate_dense w n vals UNITARY false true g K psi HN (ordered_gate_opk _ _ _ _ _ HG) HS) as (out & Eo & So & Ao).
  exists m, out. repeat (split; [assumption|]). rewrite Ao. apply apply_kernel_ext; [apply keq_sym; exact Km|intros x Hx; reflexivity].
Qed.
Lemma c19_sub : forall w n vals o K s fs psi,
    set_order (set_iter w) -> denotes w n vals false o K -> support w o = Ok s -> incl s fs -> valid_qubits n fs -> is_state n psi ->
    exists m out,
      tensor w vals o (Some fs) = Ok m /\ is_matrix (List.length fs) m /\
      call w vals o (Some (SDense psi)) = Ok (Some (SDense out)) /\ is_state n out /\
      veq n (amp out) (apply_kernel n (gate_op (entry m) [] (sorted fs)) (amp psi)).
Proof.
  intros w n vals o K s fs psi SO D ES HI VF HS. destruct (denotes_sub w n vals o K SO D) as (s' & ES' & _ & T). rewrite ES in ES'. injection ES' as <-.
  destruct (T fs) as (m & Em & Mm & Km); [split; [apply VF|intros q Hq; exact (valid_lt _ _ _ VF Hq)]|exact HI|].
  destruct (denotes_call w n vals false o K D psi HS) as (out & Eo & So & Ao).
  exists m, out. repeat (split; [assumption|]). rewrite Ao. apply apply_kernel_ext; [apply keq_sym; exact Km|intros x Hx; reflexivity].
Qed.
Lemma tensor_none : forall w vals o s, (forall g, o <> OGate g) -> support w o = Ok s -> tensor w vals o None = tensor w vals o (Some s).
Proof.
  intros w vals o s NG ES. destruct o as [g|l|l p|l|l|m l fp]; [elim (NG g eq_refl)| | | | |]; cbn [tensor support] in *; unfold resolve_support;
    (destruct (mapM (support w) l) as [ss|e]; cbn [bind] in *; [|discriminate]); injection ES as <-;
    (replace (subsetb (set_iter w (List.concat ss)) (set_iter w (List.concat ss))) with true by (symmetry; apply subsetb_incl; apply incl_refl)); reflexivity.
Qed.
Lemma c19_own : forall w n vals o K psi,
    set_order (set_iter w) -> denotes w n vals false o K -> (forall g, o <> OGate g) -> is_state n psi ->
    exists s m out,
      support w o = Ok s /\ tensor w vals o None = Ok m /\ valid_qubits n s /\ is_matrix (List.length s) m /\
      call w vals o (Some (SDense psi)) = Ok (Some (SDense out)) /\ is_state n out /\
      veq n (amp out) (apply_kernel n (gate_op (entry m) [] (sorted s)) (amp psi)).
Proof.
  intros w n vals o K psi SO D NG HS. destruct (denotes_sub w n vals o K SO D) as (s & ES & SS & _).
  destruct (c19_sub w n vals o K s s psi SO D ES (incl_refl s) (sub_valid n s SS) HS) as (m & out & Em & Mm & Eo & So & Ao).
  exists s, m, out. rewrite (tensor_none w vals o s NG ES). repeat (split; [first [assumption|apply sub_valid; exact SS]|]). exact Ao.
Qed.
