(** * What the code does where a property fails: JACOBIAN of controlled PHASE gates (C24), noise on controlled gates (C31), overlap (C73) *)
From Coq Require Import String List Arith Bool Reals Lia Lra ZArith Permutation.
From Verif Require Import Cplx Py PyFacts Ndarray OperatorUtils ApplyOperator Sparse Matrices Noise Gates Apply Composite Shots Api
  Spec SpecFacts Deriv GateSpec PropSpec NoiseSpec SampleSpec ExpectSpec StructSpec GateFacts CircuitFacts AlgebraFacts ApplyThm GateThm EvolThm TensorThm KrausThm NoiseThm NoiseThm2 SeqThm StructThm3 GpsrFacts.
Import ListNotations.
Local Open Scope nat_scope.

Lemma ctrl_off_row : forall n M cs ts f x, In x (bitstrings n) -> all_ones (bits_at x cs) = false -> apply_kernel n (ctrl_kernel M cs ts) f x = f x.
Proof.
  intros n M cs ts f x Hx E. transitivity (apply_kernel n kid f x); [|apply apply_kernel_id; exact Hx]. unfold apply_kernel. apply csum_ext. intros y _. unfold ctrl_kernel. rewrite E. reflexivity.
Qed.
Lemma c24_controlled : forall w n psi g (V : R -> values) b t cs,
    is_state n psi -> gclass g = KPhase -> dense_gate g -> noiseless g -> List.length (target g) = 1 ->
    control_qubits (control g) cs -> valid_qubits n (cs ++ target g) ->
    (forall s, angle (V s) g (s + b)%R) ->
    exists out dout,
      (forall s, apply_gates w (SDense psi) (GOne g) (V s) UNITARY false true = Ok (SDense (out s))) /\
      apply_gates w (SDense psi) (GOne g) (V t) JACOBIAN false true = Ok (SDense dout) /\ is_state n dout /\
      forall x, In x (bitstrings n) ->
        (all_ones (bits_at x cs) = true -> Cderiv (fun s => amp (out s) x) t (amp dout x)) /\
        (all_ones (bits_at x cs) = false -> Cderiv (fun s => amp (out s) x) t C0 /\ amp dout x = amp psi x).
Proof.
  intros w n psi g V b t cs HS K D N L HC HV A.
  destruct (phase_family w g V b K D A) as [HU HJ].
  assert (OU : forall s, opk w UNITARY (V s) n g (ctrl_kernel (entry (phase_matrix (s + b))) cs (target g))).
  { intro s; exists (phase_matrix (s + b)), cs; cbn [operator_of]; repeat split; try apply HV; auto; try (rewrite L; reflexivity). }
  assert (OJ : opk w JACOBIAN (V t) n g (ctrl_kernel (entry (phase_jacobian (t + b))) cs (target g))).
  { exists (phase_jacobian (t + b)), cs; cbn [operator_of]; repeat split; try apply HV; auto; try (rewrite L; reflexivity). }
  set (out := fun s => match apply_gates w (SDense psi) (GOne g) (V s) UNITARY false true with Ok (SDense r) => r | _ => psi end).
  assert (HO : forall s, apply_gates w (SDense psi) (GOne g) (V s) UNITARY false true = Ok (SDense (out s)) /\
                 veq n (amp (out s)) (apply_kernel n (ctrl_kernel (entry (phase_matrix (s + b))) cs (target g)) (amp psi))).
  { intro s; destruct (apply_gate_dense w n (V s) UNITARY false true g _ psi N (OU s) HS) as (r & E & _ & Ar).
    unfold out; rewrite E; auto. }
  destruct (apply_gate_dense w n (V t) JACOBIAN false true g _ psi N OJ HS) as (dout & Ed & Sd & Ad).
  exists out, dout; split; [intro s; apply HO|split; [exact Ed|split; [exact Sd|]]].
  intros x Hx. split; intro EO.
  - rewrite (Ad x Hx). eapply Cderiv_ext; [intro s; symmetry; apply HO; exact Hx|].
    assert (ON : forall M, apply_kernel n (ctrl_kernel M cs (target g)) (amp psi) x = apply_kernel n (ctrl_kernel M [] (target g)) (amp psi) x).
    { intro M. unfold apply_kernel. apply csum_ext. intros y _. unfold ctrl_kernel. rewrite EO. reflexivity. }
    rewrite ON. eapply Cderiv_ext; [intro s; symmetry; apply ON|].
    apply apply_kernel_deriv; [|exact Hx].
    eapply kderiv_eq; [|apply (ctrl_kernel_deriv n (fun s => entry (phase_matrix (s + b))) (entry (phase_jacobian (t + b))) [])].
    + intros u v _ _; reflexivity.
    + rewrite L, phase_jacobian_eq.
      eapply kderiv_ext; [|eapply kderiv_eq; [|apply (PHASE_deriv t b)]].
      * intro s; cbv beta; rewrite phase_matrix_eq; apply keq_sym, matrix2_entry.
      * apply keq_sym, matrix2_entry.
  - split; [|rewrite (Ad x Hx); apply ctrl_off_row; assumption]. eapply Cderiv_ext; [|apply (Cderiv_const (amp psi x))].
    intro s. symmetry. rewrite (proj2 (HO s) x Hx). apply ctrl_off_row; assumption.
Qed.
Lemma c73_exact : forall n a b, is_state n a -> is_state n b ->
    overlap a b = Ok (re (Cmul (inner_product n (amp a) (amp b)) (inner_product n (amp a) (amp b)))) /\
    (overlap a b = Ok (Cnorm2 (inner_product n (amp a) (amp b))) <-> im (inner_product n (amp a) (amp b)) = 0%R).
Proof.
  intros n a b A B. rewrite (overlap_spec n) by assumption. split; [reflexivity|]. set (z := inner_product n (amp a) (amp b)). unfold Cnorm2. split; intro E.
  - injection E as E. assert (Q : (im z * im z = 0)%R) by lra. apply Rmult_integral in Q. tauto.
  - rewrite E. f_equal. ring.
Qed.
(** noise on a gate with one target and any number of controls *)
Lemma c31_controlled : forall w n vals g M cs q l s gr mg,
    set_order (set_iter w) -> gate_on n vals g M cs [q] -> dense_gate g -> noise g = Some l -> Forall (fun i => well_typed i /\ valid_parameter i) l ->
    (exists psi, is_state n psi /\ s = SDense psi) \/ (exists rho, is_density n rho /\ s = SDM rho) ->
    exists out rho', apply_gates w s (GOne g) vals UNITARY gr mg = Ok (SDM out) /\ is_density n out /\
      through n q l (sandwiched n (gate_op M cs [q]) (density_of s)) rho' /\ keq n (rho_entry out) rho'.
Proof.
  intros w n vals g M cs q l s gr mg SO HG HD HN F [(psi & HS & ->)|(rho & HS & ->)].
  - destruct (c28_gate_pure w n vals g M cs q l psi _ gr mg SO HG HD HN HS (GpsrFacts.through_fold n q l F _)) as (out & E & D & K).
    exists out. eexists. split; [exact E|split; [exact D|split; [|exact K]]]. apply GpsrFacts.through_fold. exact F.
  - destruct (c28_gate w n vals g M cs q l rho _ gr mg SO HG HD HN HS (GpsrFacts.through_fold n q l F _)) as (out & E & D & K).
    exists out. eexists. split; [exact E|split; [exact D|split; [|exact K]]]. apply GpsrFacts.through_fold. exact F.
Qed.
