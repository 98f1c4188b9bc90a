(** * Evolution as a function of the angles, and its derivative *)
From Coq Require Import String List Arith Bool Reals Lia Lra.
From Verif Require Import Cplx Py PyFacts Ndarray OperatorUtils Sparse Matrices Noise Gates Apply Composite Conversion Shots Gpsr Api
  Spec SpecFacts Deriv GateSpec PropSpec NoiseSpec SampleSpec ExpectSpec GpsrSpec GateFacts AlgebraFacts GateThm NoiseThm SeqThm ExpectThm.
Import ListNotations.
Local Open Scope nat_scope.

(** ** the evolution as a function *)
Definition angle_of (vals : values) (g : gate) : R :=
  match gparam g with
  | PNum x => (x + shift g)%R
  | PName s => match lookup vals s with Ok (VNum x) => (x + shift g)%R | _ => 0%R end
  end.
Definition pauli (name : string) : op :=
  if String.eqb name "X" then X_matrix else if String.eqb name "Y" then Y_matrix else Z_matrix.
Definition rot (name : string) (t : R) : op :=
  if String.eqb name "X" then RX_matrix t else if String.eqb name "Y" then RY_matrix t else RZ_matrix t.
Definition fixed_matrix (name : string) : op :=
  if String.eqb name "I" then I_matrix else if String.eqb name "X" then X_matrix else if String.eqb name "Y" then Y_matrix
  else if String.eqb name "Z" then Z_matrix else if String.eqb name "H" then H_matrix else if String.eqb name "S" then S_matrix
  else if String.eqb name "T" then T_matrix else SWAP_matrix.
Definition mat_of (vals : values) (g : gate) : op :=
  match gclass g with
  | KParam => rot (generator_name g) (angle_of vals g)
  | KPhase => PHASE_matrix (angle_of vals g)
  | _ => fixed_matrix (generator_name g)
  end.
Definition ctrl_of (c : cspec) : list nat :=
  match c with CNone => [] | CTup l => flat_map (fun q => match q with QInt i => [i] | _ => [] end) l end.
Definition kraus_of (i : noise_inst) : list arr := match kraus i with Ok ks => ks | Err _ => [] end.
Definition channels (n : nat) (ts : list nat) (ns : option (list noise_inst)) (r : op) : op :=
  match ns with
  | None => r
  | Some l => fold_left (fun r i => kraus_sum n (hd 0 ts) (kraus_of i) r) l r
  end.
Definition step (n : nat) (vals : values) (g : gate) (r : op) : op :=
  channels n (target g) (noise g) (sandwiched n (gate_op (mat_of vals g) (ctrl_of (control g)) (target g)) r).
Fixpoint evolve (n : nat) (vals : values) (gs : list gate) (r : op) : op :=
  match gs with [] => r | g :: gs' => evolve n vals gs' (step n vals g r) end.

Lemma ctrl_of_spec : forall c cs, control_qubits c cs -> ctrl_of c = cs.
Proof.
  intros c cs H. destruct H; try reflexivity. cbn [ctrl_of]. induction cs as [|c cs IH]; [reflexivity|]. cbn [map flat_map]. rewrite IH; reflexivity.
Qed.
Lemma angle_of_spec : forall vals g t, angle vals g t -> angle_of vals g = t.
Proof.
  intros vals g t H. unfold angle in H. unfold angle_of. destruct (gparam g) as [s|x]; [|symmetry; exact H]. destruct H as (x & E & ->). rewrite E; reflexivity.
Qed.
Lemma mat_of_spec : forall vals g M, gate_matrix vals g M -> mat_of vals g = M.
Proof.
  intros vals g M H. unfold mat_of. destruct H as [name M C N _ I|C N _|name R_ t C N _ A I|t C _ A].
  - rewrite C, N. simpl in I. decompose [or] I; try contradiction; match goal with H : (_, _) = _ |- _ => injection H as <- <- end; reflexivity.
  - rewrite C, N. reflexivity.
  - rewrite C, N, (angle_of_spec _ _ _ A). simpl in I. decompose [or] I; try contradiction; match goal with H : (_, _) = _ |- _ => injection H as <- <- end; reflexivity.
  - rewrite C, (angle_of_spec _ _ _ A). reflexivity.
Qed.
Lemma through_fold : forall n q l, Forall (fun i => well_typed i /\ valid_parameter i) l -> forall r,
    through n q l r (fold_left (fun r i => kraus_sum n q (kraus_of i) r) l r).
Proof.
  intros n q l F. induction F as [|i l [T V] F IH]; intro r; [constructor|]. destruct (KrausThm.c26_valid i T V) as (ks & E & _).
  cbn [fold_left]. econstructor; [exact E|]. unfold kraus_of at 2. rewrite E. apply IH.
Qed.
Lemma evolve_run : forall n vals gs, Forall (usable n vals) gs -> Forall noise_ok gs -> forall r, noisy_run n vals gs r (evolve n vals gs r).
Proof.
  intros n vals gs FU. induction FU as [|g gs (M & cs & ts & HG) FU IH]; intros FN r; [constructor|].
  inversion FN as [|? ? N1 N2]; subst. cbn [evolve]. unfold step. rewrite (ctrl_of_spec _ _ (go_control _ _ _ _ _ _ HG)), (mat_of_spec _ _ _ (go_matrix _ _ _ _ _ _ HG)).
  unfold noise_ok in N1. rewrite (go_target _ _ _ _ _ _ HG) in N1 |- *. destruct (noise g) as [l|] eqn:EN.
  - destruct N1 as [L FL]. destruct ts as [|q [|? ?]]; try discriminate. cbn [channels hd].
    eapply nrun_noise; [exact HG|exact EN|apply through_fold; exact FL|apply IH; exact N2].
  - cbn [channels]. eapply nrun_plain; [exact HG|exact EN|apply IH; exact N2].
Qed.

(** ** linearity *)
Definition kzero : op := fun _ _ => C0.
Definition linear (n : nat) (L : op -> op) : Prop :=
  (forall A B, keq n A B -> keq n (L A) (L B)) /\ (forall A B, keq n (L (kadd A B)) (kadd (L A) (L B))) /\
  (forall c A, keq n (L (kscale c A)) (kscale c (L A))) /\
  (forall F t D, kderiv n F t D -> kderiv n (fun s => L (F s)) t (L D)).
Lemma linear_id : forall n, linear n (fun r => r).
Proof. intro n. split; [auto|split; [intros; apply keq_refl|split; [intros; apply keq_refl|auto]]]. Qed.
Lemma linear_comp : forall n L M, linear n L -> linear n M -> linear n (fun r => L (M r)).
Proof.
  intros n L M (L1 & L2 & L3 & L4) (M1 & M2 & M3 & M4). split; [|split; [|split]].
  - intros; apply L1, M1; assumption.
  - intros. eapply keq_trans; [apply L1, M2|apply L2].
  - intros. eapply keq_trans; [apply L1, M3|apply L3].
  - intros F t D H. apply (L4 (fun s => M (F s))), M4, H.
Qed.
Lemma kadd_zero_l : forall n A, keq n (kadd kzero A) A.
Proof. intros n A x y _ _. unfold kadd, kzero. ring. Qed.
Lemma kadd_zero_r : forall n A, keq n (kadd A kzero) A.
Proof. intros n A x y _ _. unfold kadd, kzero. ring. Qed.
Lemma kmul_zero_l : forall n A, keq n (kmul n kzero A) kzero.
Proof. intros n A x y _ _. unfold kmul, kzero. apply csum_zero. intros; ring. Qed.
Lemma kmul_zero_r : forall n A, keq n (kmul n A kzero) kzero.
Proof. intros n A x y _ _. unfold kmul, kzero. apply csum_zero. intros; ring. Qed.
Lemma linear_sandwich : forall n A, linear n (sandwiched n A).
Proof.
  intros n A. split; [|split; [|split]].
  - intros; apply sandwiched_ext; [apply keq_refl|assumption].
  - intros X Y. unfold sandwiched. rewrite kmul_kadd_r, kmul_kadd_l. apply keq_refl.
  - intros c X. unfold sandwiched. rewrite kmul_kscale_r, kmul_kscale_l. apply keq_refl.
  - intros F t D H. unfold sandwiched.
    eapply kderiv_eq; [|apply (kderiv_mul n (fun s => kmul n A (F s)) (fun _ => kadj A) t);
      [apply (kderiv_mul n (fun _ => A) F t); [apply kderiv_const|exact H]|apply kderiv_const]].
    change (fun _ _ => C0) with kzero. cbv beta. rewrite kmul_zero_r, kadd_zero_r, kmul_kadd_l, kmul_zero_l, kmul_zero_l, kadd_zero_l. apply keq_refl.
Qed.
Lemma kderiv_add : forall n F G t D E, kderiv n F t D -> kderiv n G t E -> kderiv n (fun s => kadd (F s) (G s)) t (kadd D E).
Proof. intros n F G t D E HF HG x y Hx Hy. unfold kadd. apply (Cderiv_add (fun s => F s x y) (fun s => G s x y)); auto. Qed.
Lemma linear_add : forall n L M, linear n L -> linear n M -> linear n (fun r => kadd (L r) (M r)).
Proof.
  intros n L M (L1 & L2 & L3 & L4) (M1 & M2 & M3 & M4). split; [|split; [|split]].
  - intros; apply kadd_ext; auto.
  - intros A B. eapply keq_trans; [apply kadd_ext; [apply L2|apply M2]|]. intros x y _ _. unfold kadd; ring.
  - intros c A. eapply keq_trans; [apply kadd_ext; [apply L3|apply M3]|]. intros x y _ _. unfold kadd, kscale; ring.
  - intros F t D H. apply (kderiv_add n (fun s => L (F s)) (fun s => M (F s))); auto.
Qed.
Lemma linear_zero : forall n, linear n (fun _ => kzero).
Proof.
  intro n. split; [intros; apply keq_refl|split; [|split]].
  - intros A B. apply keq_sym, kadd_zero_l.
  - intros c A x y _ _. unfold kscale, kzero; ring.
  - intros; apply kderiv_const.
Qed.
Lemma linear_kraus : forall n q ks, linear n (kraus_sum n q ks).
Proof.
  intros n q ks. unfold kraus_sum. induction ks as [|K ks IH]; [apply linear_zero|]. cbn [map ksum].
  apply (linear_add n (sandwiched n (ctrl_kernel (entry K) [] [q])) (fun rho => ksum (map (fun K => sandwiched n (ctrl_kernel (entry K) [] [q]) rho) ks))); [apply linear_sandwich|exact IH].
Qed.
Lemma linear_channels : forall n ts ns, linear n (channels n ts ns).
Proof.
  intros n ts [l|]; [|apply linear_id]. cbn [channels]. induction l as [|i l IH]; [apply linear_id|]. cbn [fold_left].
  apply (linear_comp n (fun r => fold_left (fun r i => kraus_sum n (hd 0 ts) (kraus_of i) r) l r) (kraus_sum n (hd 0 ts) (kraus_of i))); [exact IH|apply linear_kraus].
Qed.
Lemma linear_step : forall n vals g, linear n (step n vals g).
Proof. intros n vals g. unfold step. apply (linear_comp n (channels n (target g) (noise g))); [apply linear_channels|apply linear_sandwich]. Qed.
Lemma linear_evolve : forall n vals gs, linear n (evolve n vals gs).
Proof.
  intros n vals gs. induction gs as [|g gs IH]; [apply linear_id|]. cbn [evolve].
  apply (linear_comp n (evolve n vals gs) (step n vals g)); [exact IH|apply linear_step].
Qed.

(** ** the parameter-shift identity for one rotation *)
Definition half_diff (A B : op) : op := kscale (RtoC (1 / 2)) (kadd A (kscale (RtoC (-1)) B)).
Definition trigA (n : nat) (P r : op) : op := kscale (RtoC (1 / 2)) (kadd r (kmul n (kmul n P r) P)).
Definition trigB (n : nat) (P r : op) : op := kscale (RtoC (1 / 2)) (kadd r (kscale (RtoC (-1)) (kmul n (kmul n P r) P))).
Definition trigD (n : nat) (P r : op) : op := kscale (Cmul (RtoC (1 / 2)) Ci) (kadd (kmul n r P) (kscale (RtoC (-1)) (kmul n P r))).
Definition trig (n : nat) (P r : op) (t : R) : op :=
  kadd (trigA n P r) (kadd (kscale (RtoC (cos t)) (trigB n P r)) (kscale (RtoC (sin t)) (trigD n P r))).
Lemma half_angle : forall t, (cos t = cos (t / 2) * cos (t / 2) - sin (t / 2) * sin (t / 2) /\ sin t = 2 * (sin (t / 2) * cos (t / 2)) /\
    cos (t / 2) * cos (t / 2) + sin (t / 2) * sin (t / 2) = 1)%R.
Proof.
  intro t. assert (E : t = (t / 2 + t / 2)%R) by lra. split; [|split].
  - rewrite E at 1. apply cos_plus.
  - rewrite E at 1. rewrite sin_plus. ring.
  - pose proof (sin2_cos2 (t / 2)) as H. unfold Rsqr in H. lra.
Qed.
Lemma trig_spec : forall n P t r, keq n (kadj P) P -> keq n (sandwiched n (rotk P t) r) (trig n P r t).
Proof.
  intros n P t r HP. unfold sandwiched.
  assert (E : keq n (kadj (rotk P t)) (kadd (kscale (RtoC (cos (t / 2))) kid) (kscale (Cmul Ci (RtoC (sin (t / 2)))) P))).
  { rewrite (rotk_adj n P t HP). unfold rotk. replace (- t / 2)%R with (- (t / 2))%R by lra. rewrite cos_neg, sin_neg.
    intros x y _ _. unfold kadd, kscale. apply C_ext; simpl; ring. }
  rewrite E. unfold rotk.
  repeat first [rewrite kmul_kadd_l | rewrite kmul_kadd_r | rewrite kmul_kscale_l | rewrite kmul_kscale_r | rewrite kmul_id_l | rewrite kmul_id_r].
  destruct (half_angle t) as (HC & HS & H1). intros x y _ _. unfold trig, trigA, trigB, trigD, kadd, kscale.
  set (a := r x y). set (b := kmul n r P x y). set (c := kmul n P r x y). set (d := kmul n (kmul n P r) P x y).
  set (co := cos (t / 2)) in *. set (si := sin (t / 2)) in *. rewrite HC, HS.
  assert (S2 : (si * si = 1 - co * co)%R) by lra.
  apply C_ext; simpl; ring_simplify; rewrite ?Rmult_1_r; 
  repeat match goal with |- context [(si ^ 2)%R] => replace (si ^ 2)%R with (1 - co ^ 2)%R by (simpl; lra) end; field.
Qed.
Lemma shift_identity : forall n P r t, keq n (half_diff (trig n P r (t + PI / 2)) (trig n P r (t - PI / 2)))
    (kadd (kscale (RtoC (- sin t)) (trigB n P r)) (kscale (RtoC (cos t)) (trigD n P r))).
Proof.
  intros n P r t x y _ _. unfold half_diff, trig, kadd, kscale.
  assert (C1' : cos (t + PI / 2) = (- sin t)%R) by (rewrite cos_plus, cos_PI2, sin_PI2; ring).
  assert (S1' : sin (t + PI / 2) = cos t) by (rewrite sin_plus, cos_PI2, sin_PI2; ring).
  assert (C2' : cos (t - PI / 2) = sin t) by (rewrite cos_minus, cos_PI2, sin_PI2; ring).
  assert (S2' : sin (t - PI / 2) = (- cos t)%R) by (rewrite sin_minus, cos_PI2, sin_PI2; ring).
  rewrite C1', S1', C2', S2'. apply C_ext; simpl; field.
Qed.
Lemma kderiv_scale : forall n c F t D, kderiv n F t D -> kderiv n (fun s => kscale c (F s)) t (kscale c D).
Proof. intros n c F t D H x y Hx Hy. unfold kscale. apply (Cderiv_scale c (fun s => F s x y)); auto. Qed.
Lemma kderiv_lmul : forall n A F t D, kderiv n F t D -> kderiv n (fun s => kmul n A (F s)) t (kmul n A D).
Proof.
  intros n A F t D H. eapply kderiv_eq; [|apply (kderiv_mul n (fun _ => A) F t); [apply kderiv_const|exact H]].
  change (fun _ _ => C0) with kzero. cbv beta. rewrite kmul_zero_l, kadd_zero_l. apply keq_refl.
Qed.
Lemma kderiv_rmul : forall n A F t D, kderiv n F t D -> kderiv n (fun s => kmul n (F s) A) t (kmul n D A).
Proof.
  intros n A F t D H. eapply kderiv_eq; [|apply (kderiv_mul n F (fun _ => A) t); [exact H|apply kderiv_const]].
  change (fun _ _ => C0) with kzero. cbv beta. rewrite kmul_zero_r, kadd_zero_r. apply keq_refl.
Qed.
Lemma kderiv_trigs : forall n P F t D, kderiv n F t D ->
    kderiv n (fun s => trigA n P (F s)) t (trigA n P D) /\ kderiv n (fun s => trigB n P (F s)) t (trigB n P D) /\
    kderiv n (fun s => trigD n P (F s)) t (trigD n P D).
Proof.
  intros n P F t D H. assert (PP : kderiv n (fun s => kmul n (kmul n P (F s)) P) t (kmul n (kmul n P D) P)).
  { apply (kderiv_rmul n P (fun s => kmul n P (F s))), kderiv_lmul, H. }
  split; [|split].
  - apply (kderiv_scale n _ (fun s => kadd (F s) (kmul n (kmul n P (F s)) P))), (kderiv_add n F); assumption.
  - apply (kderiv_scale n _ (fun s => kadd (F s) (kscale (RtoC (-1)) (kmul n (kmul n P (F s)) P)))), (kderiv_add n F); [exact H|].
    apply (kderiv_scale n _ (fun s => kmul n (kmul n P (F s)) P)); exact PP.
  - apply (kderiv_scale n _ (fun s => kadd (kmul n (F s) P) (kscale (RtoC (-1)) (kmul n P (F s))))).
    apply (kderiv_add n (fun s => kmul n (F s) P)); [apply kderiv_rmul; exact H|].
    apply (kderiv_scale n _ (fun s => kmul n P (F s))), kderiv_lmul, H.
Qed.
Lemma kderiv_rscale : forall n f F t a D, derivable_pt_lim f t a -> kderiv n F t D ->
    kderiv n (fun s => kscale (RtoC (f s)) (F s)) t (kadd (kscale (RtoC a) (F t)) (kscale (RtoC (f t)) D)).
Proof.
  intros n f F t a D Hf HF x y Hx Hy. unfold kscale, kadd. apply (Cderiv_mul (fun s => RtoC (f s)) (fun s => F s x y)); [apply Cderiv_RtoC; exact Hf|auto].
Qed.
Lemma trig_deriv : forall n P F b t D, kderiv n F t D ->
    kderiv n (fun s => trig n P (F s) (s + b)) t
      (kadd (trig n P D (t + b)) (half_diff (trig n P (F t) (t + b + PI / 2)) (trig n P (F t) (t + b - PI / 2)))).
Proof.
  intros n P F b t D H. destruct (kderiv_trigs n P F t D H) as (HA & HB & HD).
  assert (LC : derivable_pt_lim (fun s => cos (s + b)) t (- sin (t + b))%R).
  { eapply dpl_ext; [|eapply dpl_eq; [|apply (dpl_affine cos 1 b t), derivable_pt_lim_cos]]; [intro s; cbv beta; f_equal; ring|].
    replace (1 * t + b)%R with (t + b)%R by ring. ring. }
  assert (LS : derivable_pt_lim (fun s => sin (s + b)) t (cos (t + b))%R).
  { eapply dpl_ext; [|eapply dpl_eq; [|apply (dpl_affine sin 1 b t), derivable_pt_lim_sin]]; [intro s; cbv beta; f_equal; ring|].
    replace (1 * t + b)%R with (t + b)%R by ring. ring. }
  eapply kderiv_eq; [|apply (kderiv_add n (fun s => trigA n P (F s))); [exact HA|];
    apply (kderiv_add n (fun s => kscale (RtoC (cos (s + b))) (trigB n P (F s))) (fun s => kscale (RtoC (sin (s + b))) (trigD n P (F s))));
    [apply (kderiv_rscale n (fun s => cos (s + b)) (fun s => trigB n P (F s))); [exact LC|exact HB]
    |apply (kderiv_rscale n (fun s => sin (s + b)) (fun s => trigD n P (F s))); [exact LS|exact HD]]].
  eapply keq_trans; [|apply kadd_ext; [apply keq_refl|apply keq_sym, shift_identity]].
  intros x y _ _. unfold trig, kadd, kscale. ring.
Qed.

(** ** gates *)
Lemma pauli_adj : forall name, keq 1 (kadj (pauli name)) (pauli name).
Proof. intro name. unfold pauli. destruct (String.eqb name "X"); [apply X_adj|destruct (String.eqb name "Y"); [apply Y_adj|apply Z_adj]]. Qed.
Lemma rot_rotk : forall name t, keq 1 (rot name t) (rotk (pauli name) t).
Proof. intros name t. unfold rot, pauli. destruct (String.eqb name "X"); [apply RX_rotk|destruct (String.eqb name "Y"); [apply RY_rotk|apply RZ_rotk]]. Qed.
Lemma ctrl_kernel_kscale : forall n c A ts, keq n (ctrl_kernel (kscale c A) [] ts) (kscale c (ctrl_kernel A [] ts)).
Proof.
  intros n c A ts x y Hx Hy. unfold kscale, ctrl_kernel. cbn [bits_at map all_ones forallb].
  rewrite <- csum_scale_l. apply csum_ext; intros; ring.
Qed.
Lemma gate_op_rotk : forall n name t q, q < n -> keq n (gate_op (rot name t) [] [q]) (rotk (gate_op (pauli name) [] [q]) t).
Proof.
  intros n name t q Hq. assert (V : valid_qubits n [q]) by (split; [repeat constructor; simpl; tauto|repeat constructor; exact Hq]).
  eapply keq_trans; [apply ctrl_kernel_ext; apply rot_rotk|]. unfold rotk at 1. eapply keq_trans; [apply ctrl_kernel_add|]. unfold rotk.
  apply kadd_ext; (eapply keq_trans; [apply ctrl_kernel_kscale|]); intros x y Hx Hy; unfold kscale; [|reflexivity].
  rewrite (ctrl_kernel_id n [] [q] V x y Hx Hy); reflexivity.
Qed.
Lemma gate_op_adj : forall n name q, q < n -> keq n (kadj (gate_op (pauli name) [] [q])) (gate_op (pauli name) [] [q]).
Proof.
  intros n name q Hq. unfold gate_op. eapply keq_trans; [apply ctrl_kernel_adj; split; [repeat constructor; simpl; tauto|repeat constructor; exact Hq]|apply ctrl_kernel_ext, pauli_adj].
Qed.

(** a gate with its stored shift increased *)
Definition shiftg (g : gate) (s : R) : gate :=
  mkGate (gclass g) (generator_name g) (target g) (control g) (noise g) (sparse g) (gparam g) (shift g + s)%R.
Fixpoint shift_at (gs : list gate) (i : nat) (s : R) : list gate :=
  match gs, i with
  | [], _ => []
  | g :: gs', 0 => shiftg g s :: gs'
  | g :: gs', S i' => g :: shift_at gs' i' s
  end.
Lemma lookup_set : forall (d : values) k v s, lookup (dict_set d k v) s = if String.eqb s k then Ok v else lookup d s.
Proof.
  induction d as [|[k' v'] d IH]; intros k v s; cbn [dict_set lookup].
  - destruct (String.eqb_spec s k); reflexivity.
  - destruct (String.eqb_spec k k') as [<-|N]; cbn [lookup]; [destruct (String.eqb_spec s k); reflexivity|].
    rewrite IH. destruct (String.eqb_spec s k') as [->|]; [|reflexivity]. destruct (String.eqb_spec k' k) as [E|]; [congruence|reflexivity].
Qed.
Lemma uses_names : forall n vals g name, usable n vals g -> (uses_param name g = true <-> In name (names_of_gate g)).
Proof.
  intros n vals g name (M & cs & ts & HG). unfold uses_param, is_parametric, names_of_gate.
  destruct (go_matrix _ _ _ _ _ _ HG) as [? ? C|C|? ? ? C|? C]; rewrite C; [simpl; intuition discriminate|simpl; intuition discriminate| |];
    (destruct (gparam g) as [s|x]; cbn [andb]; [|simpl; intuition discriminate]; destruct (String.eqb_spec s name) as [->|N]; simpl; intuition congruence).
Qed.
Lemma angle_unused : forall n vals g name t, usable n vals g -> uses_param name g = false -> mat_of (at_value vals name t) g = mat_of vals g.
Proof.
  intros n vals g name t U E. unfold mat_of. destruct (gclass g) eqn:C; try reflexivity;
    (assert (A : angle_of (at_value vals name t) g = angle_of vals g); [|rewrite A; reflexivity]);
    unfold angle_of; destruct (gparam g) as [s|x] eqn:G; try reflexivity;
    unfold at_value; rewrite lookup_set; destruct (String.eqb_spec s name) as [->|]; try reflexivity;
    exfalso; unfold uses_param, is_parametric in E; rewrite C, G, String.eqb_refl in E; discriminate.
Qed.
Lemma step_unused : forall n vals g name t r, usable n vals g -> uses_param name g = false -> step n (at_value vals name t) g r = step n vals g r.
Proof. intros n vals g name t r U E. unfold step. rewrite (angle_unused n) by assumption. reflexivity. Qed.
Lemma angle_used : forall vals g name t, uses_param name g = true -> angle_of (at_value vals name t) g = (t + shift g)%R.
Proof.
  intros vals g name t E. unfold uses_param in E. apply andb_prop in E as [_ E]. unfold angle_of. destruct (gparam g) as [s|x]; [|discriminate].
  apply String.eqb_eq in E; subst s. unfold at_value. rewrite lookup_set, String.eqb_refl. reflexivity.
Qed.
Lemma shiftg_angle : forall vals g s name x, uses_param name g = true -> lookup vals name = Ok (VNum x) -> angle_of vals (shiftg g s) = (x + shift g + s)%R.
Proof.
  intros vals g s name x E L. unfold uses_param in E. apply andb_prop in E as [_ E]. unfold angle_of, shiftg; cbn [gparam shift]. destruct (gparam g) as [s'|y]; [|discriminate].
  apply String.eqb_eq in E; subst s'. rewrite L. ring.
Qed.
Definition shiftable (g : gate) : Prop := gclass g = KParam \/ gclass g = KPhase.
Definition gen_of (g : gate) : string := match gclass g with KPhase => "Z" | _ => generator_name g end.
Lemma plain_target : forall n vals g, usable n vals g -> shiftable g -> exists q, target g = [q] /\ q < n.
Proof.
  intros n vals g (M & cs & ts & HG) C.
  assert (T1 : length (target g) = 1) by (destruct C as [C|C]; destruct (go_matrix _ _ _ _ _ _ HG) as [? ? C'|C'|? ? ? C' _ L|? C' L]; try congruence; exact L).
  destruct (target g) as [|q [|? ?]] eqn:T; try discriminate. exists q; split; [reflexivity|].
  pose proof (go_qubits _ _ _ _ _ _ HG) as [_ F]. rewrite <- (go_target _ _ _ _ _ _ HG), T in F. rewrite Forall_forall in F. apply F, in_or_app; right; left; reflexivity.
Qed.
Lemma PHASE_rotk : forall t, keq 1 (PHASE_matrix t) (kscale (Cexpi (t / 2)) (rot "Z" t)).
Proof.
  intros t x y Hx Hy. assert (E : Cexpi t = Cmul (Cexpi (t / 2)) (Cexpi (t / 2))) by (rewrite <- Cexpi_add; f_equal; field).
  assert (E1 : C1 = Cmul (Cexpi (t / 2)) (Cexpi (- t / 2))) by (rewrite <- Cexpi_add, <- Cexpi_0; f_equal; field).
  unfold rot, kscale; cbn [String.eqb Ascii.eqb Bool.eqb]. unfold PHASE_matrix, RZ_matrix. rewrite E. rewrite E1 at 1. unfold mat2.
  destruct x as [|[|[|?]] [|? ?]]; destruct y as [|[|[|?]] [|? ?]]; cbn; try ring.
Qed.
Lemma sandwiched_phase : forall n t A r, keq n (sandwiched n (kscale (Cexpi t) A) r) (sandwiched n A r).
Proof.
  intros n t A r. unfold sandwiched. assert (E : keq n (kadj (kscale (Cexpi t) A)) (kscale (Cconj (Cexpi t)) (kadj A))).
  { intros x y _ _. unfold kadj, kscale. apply C_ext; simpl; ring. }
  rewrite E. repeat first [rewrite kmul_kscale_l | rewrite kmul_kscale_r]. intros x y _ _. unfold kscale.
  rewrite Cexpi_conj. transitivity (Cmul (Cmul (Cexpi (- t)) (Cexpi t)) (kmul n (kmul n A r) (kadj A) x y)); [ring|].
  rewrite <- Cexpi_add. replace (- t + t)%R with 0%R by ring. rewrite Cexpi_0. ring.
Qed.
Lemma step_rotation : forall n vals' g q r t, shiftable g -> control_qubits (control g) [] -> target g = [q] -> q < n -> angle_of vals' g = t ->
    keq n (step n vals' g r) (channels n (target g) (noise g) (trig n (gate_op (pauli (gen_of g)) [] [q]) r t)).
Proof.
  intros n vals' g q r t C CQ T Hq A. unfold step. apply (proj1 (linear_channels n (target g) (noise g))).
  rewrite (ctrl_of_spec _ _ CQ), T. unfold mat_of, gen_of. destruct C as [C|C]; rewrite C, A.
  - eapply keq_trans; [apply sandwiched_ext; [apply gate_op_rotk; exact Hq|apply keq_refl]|]. apply trig_spec, gate_op_adj; exact Hq.
  - eapply keq_trans; [apply sandwiched_ext; [eapply keq_trans; [apply ctrl_kernel_ext, PHASE_rotk|apply ctrl_kernel_kscale]|apply keq_refl]|].
    eapply keq_trans; [apply sandwiched_phase|].
    eapply keq_trans; [apply sandwiched_ext; [apply gate_op_rotk; exact Hq|apply keq_refl]|]. apply trig_spec, gate_op_adj; exact Hq.
Qed.
Lemma step_shiftg : forall n vals g s q r t, shiftable g -> control_qubits (control g) [] -> target g = [q] -> q < n -> angle_of vals (shiftg g s) = t ->
    keq n (step n vals (shiftg g s) r) (channels n (target g) (noise g) (trig n (gate_op (pauli (gen_of g)) [] [q]) r t)).
Proof. intros n vals g s q r t C CQ T Hq A. apply (step_rotation n vals (shiftg g s) q r t); assumption. Qed.

Lemma linear_half : forall n L A B, linear n L -> keq n (L (half_diff A B)) (half_diff (L A) (L B)).
Proof.
  intros n L A B (L1 & L2 & L3 & _). unfold half_diff. eapply keq_trans; [apply L3|]. intros x y Hx Hy. unfold kscale at 1 3. f_equal.
  rewrite (L2 A (kscale (RtoC (-1)) B) x y Hx Hy). unfold kadd. f_equal. apply L3; assumption.
Qed.
Lemma param_indices_cons : forall g gs name, param_indices (g :: gs) name = (if uses_param name g then [0] else []) ++ map S (param_indices gs name).
Proof.
  intros g gs name. unfold param_indices. cbn [length seq combine filter snd].
  assert (Q : map fst (filter (fun ig => uses_param name (snd ig)) (combine (seq 1 (length gs)) gs)) = map S (map fst (filter (fun ig => uses_param name (snd ig)) (combine (seq 0 (length gs)) gs)))).
  { rewrite <- seq_shift. generalize (seq 0 (length gs)) as l. intro l. revert gs. induction l as [|i l IH]; intros [|h gs]; try reflexivity.
    cbn [map combine filter snd]. destruct (uses_param name h); cbn [map fst]; rewrite IH; reflexivity. }
  destruct (uses_param name g); cbn [map app fst]; rewrite Q; reflexivity.
Qed.
Definition shift_terms (n : nat) (vals : values) (gs : list gate) (r : op) (inds : list nat) : op :=
  ksum (map (fun i => half_diff (evolve n vals (shift_at gs i (PI / 2)) r) (evolve n vals (shift_at gs i (- (PI / 2))) r)) inds).
Lemma evolve_deriv : forall n vals name x gs, lookup vals name = Ok (VNum x) -> Forall (usable n vals) gs -> phase_or_rotation_only gs name ->
    forall F D, kderiv n F x D ->
    kderiv n (fun t => evolve n (at_value vals name t) gs (F t)) x
      (kadd (evolve n vals gs D) (shift_terms n vals gs (F x) (param_indices gs name))).
Proof.
  intros n vals name x gs L. induction gs as [|g gs IH]; intros FU RO F D HF.
  - cbn [evolve]. unfold shift_terms, param_indices; cbn [length seq combine filter map ksum]. eapply kderiv_eq; [apply keq_sym, kadd_zero_r|exact HF].
  - inversion FU as [|? ? U FU']; subst. assert (RO' : phase_or_rotation_only gs name) by (intros h Hh; apply RO; right; exact Hh).
    rewrite param_indices_cons. cbn [evolve]. unfold shift_terms. rewrite map_app, map_map.
    set (rest := fun r => map (fun i => half_diff (evolve n vals (shift_at gs i (PI / 2)) r) (evolve n vals (shift_at gs i (- (PI / 2))) r)) (param_indices gs name)).
    assert (ER : map (fun i => half_diff (evolve n vals (shift_at (g :: gs) (S i) (PI / 2)) (F x)) (evolve n vals (shift_at (g :: gs) (S i) (- (PI / 2))) (F x))) (param_indices gs name)
                 = rest (step n vals g (F x))) by reflexivity.
    rewrite ER. destruct (uses_param name g) eqn:EU.
    + assert (CC : shiftable g /\ control_qubits (control g) []) by (destruct (RO g (or_introl eq_refl) (proj1 (uses_names n vals g name U) EU)) as [(C & _ & CQ)|(C & CQ)]; split; try exact CQ; [left|right]; exact C).
      destruct CC as (C & CQ). destruct (plain_target n vals g U C) as (q & T & Hq).
      set (P := gate_op (pauli (gen_of g)) [] [q]). set (Ch := channels n (target g) (noise g)). pose proof (linear_channels n (target g) (noise g)) as LC. fold Ch in LC.
      assert (ANG : angle_of vals g = (x + shift g)%R).
      { unfold uses_param in EU. apply andb_prop in EU as [_ EU]. unfold angle_of. destruct (gparam g) as [s|y]; [|discriminate]. apply String.eqb_eq in EU; subst s. rewrite L; reflexivity. }
      assert (HS : kderiv n (fun t => step n (at_value vals name t) g (F t)) x
                (kadd (step n vals g D) (half_diff (step n vals (shiftg g (PI / 2)) (F x)) (step n vals (shiftg g (- (PI / 2))) (F x))))).
      { eapply kderiv_ext; [intro t; apply keq_sym, (step_rotation n (at_value vals name t) g q (F t) (t + shift g)); try assumption; apply angle_used; exact EU|].
        fold P Ch. eapply kderiv_eq; [|apply (proj2 (proj2 (proj2 LC)) (fun t => trig n P (F t) (t + shift g))), trig_deriv; exact HF].
        eapply keq_trans; [apply LC|]. apply kadd_ext.
        - apply keq_sym, (step_rotation n vals g q D (x + shift g)); assumption.
        - eapply keq_trans; [apply (linear_half n Ch); exact LC|]. unfold half_diff. intros a b Ha Hb. unfold kscale, kadd.
          rewrite (step_shiftg n vals g (PI / 2) q (F x) (x + shift g + PI / 2) C CQ T Hq (shiftg_angle vals g _ name x EU L) a b Ha Hb).
          rewrite (step_shiftg n vals g (- (PI / 2)) q (F x) (x + shift g - PI / 2) C CQ T Hq) by (try assumption; rewrite (shiftg_angle vals g _ name x EU L); ring).
          reflexivity. }
      assert (E0 : keq n (step n (at_value vals name x) g (F x)) (step n vals g (F x))).
      { eapply keq_trans; [apply (step_rotation n _ g q (F x) (x + shift g)); try assumption; apply angle_used; exact EU|].
        apply keq_sym, (step_rotation n vals g q (F x) (x + shift g)); assumption. }
      eapply kderiv_eq; [|apply (IH FU' RO' (fun t => step n (at_value vals name t) g (F t))); exact HS].
      assert (E1 : keq n (shift_terms n vals gs (step n (at_value vals name x) g (F x)) (param_indices gs name)) (ksum (rest (step n vals g (F x))))).
      { unfold shift_terms, rest. clear -E0. induction (param_indices gs name) as [|i l IHl]; [apply keq_refl|]. cbn [map ksum].
        intros a b Ha Hb. rewrite (IHl a b Ha Hb). f_equal. unfold half_diff, kscale, kadd.
        rewrite (proj1 (linear_evolve n vals (shift_at gs i (PI / 2))) _ _ E0 a b Ha Hb), (proj1 (linear_evolve n vals (shift_at gs i (- (PI / 2)))) _ _ E0 a b Ha Hb). reflexivity. }
      eapply keq_trans; [apply kadd_ext; [apply (linear_evolve n vals gs)|exact E1]|].
      cbn [map app ksum]. intros a b Ha Hb. unfold kadd. rewrite (linear_half n _ _ _ (linear_evolve n vals gs) a b Ha Hb). cbn [shift_at evolve]. ring.
    + cbn [map app]. eapply kderiv_ext; [intro t; rewrite (step_unused n vals g name t (F t) U EU); apply keq_refl|].
      apply (IH FU' RO' (fun t => step n vals g (F t))). apply linear_step; exact HF.
Qed.
Lemma evolve_gradient : forall n vals name x gs r, lookup vals name = Ok (VNum x) -> Forall (usable n vals) gs -> phase_or_rotation_only gs name ->
    kderiv n (fun t => evolve n (at_value vals name t) gs r) x (shift_terms n vals gs r (param_indices gs name)).
Proof.
  intros n vals name x gs r L FU RO. eapply kderiv_eq; [|apply (evolve_deriv n vals name x gs L FU RO (fun _ => r) kzero), kderiv_const].
  eapply keq_trans; [apply kadd_ext; [|apply keq_refl]|apply kadd_zero_l].
  assert (Z : keq n kzero (kscale C0 kzero)) by (intros a b _ _; unfold kscale, kzero; ring).
  eapply keq_trans; [apply (proj1 (linear_evolve n vals gs)); exact Z|]. eapply keq_trans; [apply (linear_evolve n vals gs)|].
  intros a b _ _. unfold kscale, kzero. ring.
Qed.
(** ** expectation values *)
Lemma mean_density_deriv : forall n K F t D, kderiv n F t D -> derivable_pt_lim (fun s => mean_density n K (F s)) t (mean_density n K D).
Proof.
  intros n K F t D H. unfold mean_density, ktrace. pose proof (kderiv_lmul n K F t D H) as HK.
  apply (Cderiv_csum (bitstrings n) (fun x s => kmul n K (F s) x x) t (fun x => kmul n K D x x)). intros x Hx. apply HK; assumption.
Qed.
Lemma mean_density_add : forall n K A B, mean_density n K (kadd A B) = (mean_density n K A + mean_density n K B)%R.
Proof.
  intros n K A B. unfold mean_density. rewrite (ktrace_ext n _ _ (kmul_kadd_r n A B K)), ktrace_add. reflexivity.
Qed.
Lemma mean_density_scale : forall n K c A, mean_density n K (kscale (RtoC c) A) = (c * mean_density n K A)%R.
Proof.
  intros n K c A. unfold mean_density. rewrite (ktrace_ext n _ _ (kmul_kscale_r n (RtoC c) A K)).
  unfold ktrace, kscale. rewrite csum_scale_l. simpl. ring.
Qed.
Lemma mean_density_half : forall n K A B, mean_density n K (half_diff A B) = ((mean_density n K A - mean_density n K B) / 2)%R.
Proof. intros n K A B. unfold half_diff. rewrite mean_density_scale, mean_density_add, mean_density_scale. field. Qed.
Lemma mean_density_sum : forall {A} n K (f : A -> op) l, mean_density n K (ksum (map f l)) = rsum l (fun a => mean_density n K (f a)).
Proof.
  intros A n K f l. induction l as [|a l IH]; cbn [map ksum rsum].
  - unfold mean_density. change (fun _ _ : list nat => C0) with kzero. rewrite (ktrace_ext n _ _ (kmul_zero_r n K)). unfold ktrace, kzero. rewrite csum_zero by auto. reflexivity.
  - rewrite <- IH. change (fun x y => Cadd (f a x y) (ksum (map f l) x y)) with (kadd (f a) (ksum (map f l))). apply mean_density_add.
Qed.
