(** * Proofs for C130: overlaps and purity *)
From Coq Require Import String List Arith Bool Reals Lia Lra ZArith.
From Verif Require Import Cplx Py PyFacts Ndarray OperatorUtils Sparse Matrices Noise Gates Apply Composite Conversion Shots Gpsr Api
  Spec SpecFacts Deriv GateSpec PropSpec NoiseSpec SampleSpec ExpectSpec GpsrSpec GateFacts CircuitFacts AlgebraFacts ApplyThm GateThm TensorFacts TensorThm
  KrausThm NoiseThm NoiseThm2 SeqThm SampleThm ShotsSpec ShotsThm ShotsThm2 ExpectThm ExpectThm2 GpsrFacts GpsrThm GpsrThm2 StructSpec StructThm3 PhysSpec PhysThm PhysThm2 PhysThm3 PhysThm8 NoiseLawSpec NoiseLawThm VarSpec PuritySpec.
From Verif Require HessThm.
From Verif Require Import VarThm.
Import ListNotations.
Local Open Scope list_scope.
Local Open Scope nat_scope.

Lemma overlap_is_trace : forall n st st', overlap_trace n st st' = ktrace n (kmul n (density_of st) (density_of st')).
Proof. reflexivity. Qed.
Lemma trace_product_ext : forall n A A' B B', keq n A A' -> keq n B B' -> ktrace n (kmul n A B) = ktrace n (kmul n A' B').
Proof. intros n A A' B B' E F. rewrite E, F. reflexivity. Qed.
Lemma trace_product_sandwich : forall n U A B, unitary n U -> ktrace n (kmul n (sandwiched n U A) (sandwiched n U B)) = ktrace n (kmul n A B).
Proof.
  intros n U A B HU. rewrite <- (ktrace_conjugation n U (kmul n A B) HU). apply ktrace_ext. unfold sandwiched. destruct HU as [U1 _].
  rewrite (kmul_assoc n (kmul n U A) (kadj U)), <- (kmul_assoc n (kadj U) (kmul n U B)), <- (kmul_assoc n (kadj U) U B), U1, kmul_id_l.
  rewrite <- (kmul_assoc n (kmul n U A) B), (kmul_assoc n U A B). reflexivity.
Qed.
Lemma trace_product_evolve : forall n vals gs, Forall (usable n vals) gs -> Forall noiseless gs -> forall A B,
    ktrace n (kmul n (evolve n vals gs A) (evolve n vals gs B)) = ktrace n (kmul n A B).
Proof.
  intros n vals gs FU. induction FU as [|g gs HU FU IH]; intros FN A B; [reflexivity|]. inversion FN as [|? ? N1 N2]; subst. cbn [evolve]. rewrite (IH N2).
  assert (HN : noise_ok g) by (unfold noise_ok; rewrite N1; exact Logic.I).
  destruct (step_form n vals g HU HN) as (M & cs & ts & HG & _ & [(_ & E)|(q & l & EN & _)]); [|rewrite N1 in EN; discriminate].
  rewrite !E. apply trace_product_sandwich, (gate_op_unitary _ _ _ _ _ _ HG).
Qed.
Lemma c130_overlap : forall w n vals c gs st st', set_order (set_iter w) -> runnable n vals c gs -> Forall noiseless gs -> state_of n st -> state_of n st' ->
    exists out out', run w c st vals = Ok (Some out) /\ run w c st' vals = Ok (Some out') /\ overlap_trace n out out' = overlap_trace n st st'.
Proof.
  intros w n vals c gs st st' SO RN NN S S'. destruct (output_spec w n vals c gs st SO RN S) as (out & E & _ & _ & _ & K & _). destruct (output_spec w n vals c gs st' SO RN S') as (out' & E' & _ & _ & _ & K' & _).
  exists out, out'. split; [exact E|split; [exact E'|]]. rewrite !overlap_is_trace, (trace_product_ext _ _ _ _ _ K K'). destruct RN as (_ & _ & FU & _). apply trace_product_evolve; assumption.
Qed.
Lemma c130_pure : forall n a b, overlap_trace n (SDense a) (SDense b) = RtoC (Cnorm2 (inner_product n (amp a) (amp b))).
Proof.
  intros n a b. unfold overlap_trace. cbn [density_of]. unfold pure_density.
  assert (I : inner_product n (amp b) (amp a) = Cconj (inner_product n (amp a) (amp b))) by apply inner_conj.
  assert (P : forall z, RtoC (Cnorm2 z) = Cmul z (Cconj z)) by (intros [u v]; apply C_ext; unfold Cnorm2; simpl; ring).
  rewrite P, <- I. transitivity (Cmul (inner_product n (amp b) (amp a)) (inner_product n (amp a) (amp b))); [|ring]. unfold inner_product. rewrite <- csum_scale_r. apply csum_ext; intros x _. rewrite <- csum_scale_l. apply csum_ext; intros y _. ring.
Qed.

(** ** the Frobenius norm *)
Definition frob (n : nat) (A : op) : R := rsum (bitstrings n) (fun x => rsum (bitstrings n) (fun y => Cnorm2 (A x y))).
Lemma frob_ext : forall n A B, keq n A B -> frob n A = frob n B.
Proof. intros n A B E. unfold frob. apply rsum_ext; intros x Hx. apply rsum_ext; intros y Hy. rewrite E by assumption. reflexivity. Qed.
Lemma frob_trace : forall n A, RtoC (frob n A) = ktrace n (kmul n A (kadj A)).
Proof.
  intros n A. unfold frob, ktrace, kmul, kadj. rewrite rsum_csum. apply csum_ext; intros x _. rewrite rsum_csum. apply csum_ext; intros y _. destruct (A x y); apply C_ext; unfold Cnorm2; simpl; ring.
Qed.
Lemma frob_purity : forall n A, hermitian n A -> ktrace n (kmul n A A) = RtoC (frob n A).
Proof. intros n A H. rewrite frob_trace. unfold hermitian in H. rewrite H. reflexivity. Qed.
Lemma frob_sandwich : forall n U A, unitary n U -> frob n (sandwiched n U A) = frob n A.
Proof.
  intros n U A HU. assert (E : RtoC (frob n (sandwiched n U A)) = RtoC (frob n A)); [|injection E; auto]. rewrite !frob_trace. rewrite <- (trace_product_sandwich n U A (kadj A) HU).
  apply trace_product_ext; [apply keq_refl|]. unfold sandwiched. rewrite kadj_mul, kadj_mul, kmul_assoc. 
  assert (E : keq n (kadj (kadj U)) U) by (intros x y _ _; unfold kadj; apply Cconj_invol). rewrite E. reflexivity.
Qed.
Lemma jensen : forall {A} (l : list A) (w : A -> R) (z : A -> C), (forall a, In a l -> 0 <= w a)%R ->
    (Cnorm2 (csum l (fun a => Cmul (RtoC (w a)) (z a))) <= rsum l w * rsum l (fun a => w a * Cnorm2 (z a)))%R.
Proof.
  intros A l w z. induction l as [|a l IH]; intro P; [unfold Cnorm2; simpl; lra|]. cbn [csum rsum].
  assert (IH' := IH (fun b H => P b (or_intror H))). assert (W : (0 <= w a)%R) by (apply P; left; reflexivity).
  assert (S : (0 <= rsum l w)%R) by (apply rsum_nonneg; intros; apply P; right; assumption).
  assert (T : (0 <= rsum l (fun b => w b * Cnorm2 (z b)))%R) by (apply rsum_nonneg; intros b Hb; apply Rmult_le_pos; [apply P; right; exact Hb|unfold Cnorm2; nra]).
  set (s := rsum l w) in *. set (t := rsum l (fun b => (w b * Cnorm2 (z b))%R)) in *. destruct (csum l (fun b => Cmul (RtoC (w b)) (z b))) as [u v]. destruct (z a) as [p q]. set (c := w a) in *. clearbody s t c.
  unfold Cnorm2 in *. simpl in *.
  (* |c z + S|^2 <= (c + s)(c|z|^2 + t), from |S|^2 <= s t *)
  destruct (Req_dec s 0) as [->|NZ].
  - rewrite Rmult_0_l in IH'. assert (U : (u * u = 0)%R) by nra. assert (V : (v * v = 0)%R) by nra. apply Rmult_integral in U. apply Rmult_integral in V.
    assert (u = 0)%R as -> by (destruct U; assumption). assert (v = 0)%R as -> by (destruct V; assumption). assert (0 <= c * t)%R by (apply Rmult_le_pos; assumption). lra.
  - assert (0 < s)%R by (destruct S as [S|S]; [exact S|elim NZ; symmetry; exact S]). assert (X : (0 <= c * ((s * p - u) * (s * p - u) + (s * q - v) * (s * q - v)))%R) by (apply Rmult_le_pos; [exact W|apply Rplus_le_le_0_compat; apply Rle_0_sqr]).
    assert (Y : (s * ((c * p - 0 * q + u) * (c * p - 0 * q + u) + (c * q + 0 * p + v) * (c * q + 0 * p + v)) <= s * ((c + s) * (c * (p * p + q * q) + t)))%R).
    { apply Rle_trans with (s * (c * c * (p * p + q * q) + 2 * c * (p * u + q * v)) + s * (u * u + v * v))%R; [right; ring|].
      assert (Z1 : (s * (u * u + v * v) <= s * (s * t))%R) by (apply Rmult_le_compat_l; lra).
      assert (Z2 : (c * (u * u + v * v) <= c * (s * t))%R) by (apply Rmult_le_compat_l; lra). nra. }
    apply (Rmult_le_reg_l s); assumption.
Qed.
Lemma ksum_entry : forall {A} (l : list A) (f : A -> op) x y, ksum (map f l) x y = csum l (fun a => f a x y).
Proof. intros A l f x y. induction l as [|a l IH]; [reflexivity|]. cbn [map ksum csum]. unfold kadd. rewrite IH. reflexivity. Qed.
Lemma frob_mixture : forall {A} n (l : list A) (w : A -> R) (f : A -> op) F, (forall a, In a l -> 0 <= w a)%R -> rsum l w = 1%R -> (forall a, In a l -> frob n (f a) = F) ->
    (frob n (ksum (map (fun a => kscale (RtoC (w a)) (f a)) l)) <= F)%R.
Proof.
  intros A n l w f F P S E. apply Rle_trans with (rsum l (fun a => w a * frob n (f a)))%R.
  - unfold frob at 1. apply Rle_trans with (rsum (bitstrings n) (fun x => rsum (bitstrings n) (fun y => rsum l (fun a => w a * Cnorm2 (f a x y)))))%R.
    + apply rsum_le; intros x _. apply rsum_le; intros y _. rewrite ksum_entry. unfold kscale.
      eapply Rle_trans; [apply jensen; exact P|]. rewrite S. lra.
    + right. unfold frob. transitivity (rsum (bitstrings n) (fun x => rsum l (fun a => rsum (bitstrings n) (fun y => w a * Cnorm2 (f a x y))%R))).
      * apply rsum_ext; intros x _. apply HessThm.rsum_swap.
      * rewrite HessThm.rsum_swap. apply rsum_ext; intros a _. rewrite <- rsum_scale. apply rsum_ext; intros x _. apply rsum_scale.
  - right. transitivity (rsum l (fun a => w a * F))%R; [apply rsum_ext; intros a Ha; rewrite (E a Ha); reflexivity|].
    transitivity (rsum l (fun a => F * w a))%R; [apply rsum_ext; intros; ring|]. rewrite rsum_scale, S. ring.
Qed.
Lemma weights_prob : forall i, pauli_type i -> accepted i -> (forall e, In e (error_weights i) -> 0 <= fst e)%R /\ rsum (error_weights i) fst = 1%R.
Proof.
  intros i PT A. destruct PT as [p|p|p|px py pz].
  - apply accept_bitflip in A as [? ?]. split; [intros e HE; simpl in HE; decompose [or] HE; subst; simpl; try lra; contradiction|simpl; ring].
  - apply accept_phaseflip in A as [? ?]. split; [intros e HE; simpl in HE; decompose [or] HE; subst; simpl; try lra; contradiction|simpl; ring].
  - apply accept_depolarizing in A as [? ?]. split; [intros e HE; simpl in HE; decompose [or] HE; subst; simpl; try lra; contradiction|simpl; field].
  - apply accept_pauli in A as (? & ? & ? & ?). split; [intros e HE; simpl in HE; decompose [or] HE; subst; simpl; try lra; contradiction|simpl; ring].
Qed.
Lemma pauli_unitary : forall P, unitary 1 (pauli_op P).
Proof. intros []; [apply X_unitary|apply Y_unitary|apply Z_unitary]. Qed.
Lemma single_valid : forall n q, q < n -> valid_qubits n ([] ++ [q]).
Proof. intros n q Hq. split; [repeat constructor; intros []|repeat constructor; exact Hq]. Qed.
Lemma error_op_frob : forall n q e r, q < n -> frob n (error_op n q e r) = frob n r.
Proof. intros n q [P|] r Hq; [|reflexivity]. cbn [error_op]. apply frob_sandwich, ctrl_kernel_unitary; [apply single_valid; exact Hq|apply pauli_unitary]. Qed.
(** every mixing channel is a mixture of Pauli errors *)
Lemma mixing_pauli : forall i, mixing_type (ntype i) -> accepted i -> exists j, pauli_type j /\ accepted j /\ forall n q r, q < n -> keq n (kraus_sum n q (kraus_of i) r) (kraus_sum n q (kraus_of j) r).
Proof.
  intros [t p] MT A. pose proof A as [T V]. destruct t; cbn in MT; try contradiction; destruct p as [p|l]; cbn in T; try contradiction.
  - exists (bitflip p). split; [constructor|split; [exact A|intros; apply keq_refl]].
  - exists (phaseflip p). split; [constructor|split; [exact A|intros; apply keq_refl]].
  - exists (depolarizing p). split; [constructor|split; [exact A|intros; apply keq_refl]].
  - destruct l as [|px [|py [|pz l]]]; cbn in T; try lia. exists (pauli_channel px py pz).
    assert (A' : accepted (pauli_channel px py pz)).
    { apply accept_pauli. destruct V as [F [_ S1]]. inversion F as [|? ? B1 F1]; inversion F1 as [|? ? B2 F2]; inversion F2 as [|? ? B3 F3]; subst. cbn [fold_right] in S1.
      assert (0 <= fold_right Rplus 0 l)%R by (clear -F3; induction F3 as [|? ? B F3 IH]; [simpl; lra|cbn [fold_right]; destruct B; lra]). destruct B1, B2, B3. lra. }
    split; [constructor|split; [exact A'|]]. intros n q r Hq. apply (fold_law n q [mkNoise PAULI_CHANNEL (PTuple (px :: py :: pz :: l))] [pauli_channel px py pz] Hq). intro b.
    change (keq 1 (channel1 (kraus_of (mkNoise PAULI_CHANNEL (PTuple (px :: py :: pz :: l)))) b) (channel1 (kraus_of (pauli_channel px py pz)) b)).
    eapply keq_trans; [apply channel1_doc; exact A|]. eapply keq_trans; [|apply keq_sym, channel1_doc; exact A']. apply keq_refl.
  - set (s := sqrt (1 - p)). destruct V as [V1 V2]. assert (S2 : (s * s = 1 - p)%R) by (apply sqrt_sqrt; lra). assert (S0 : (0 <= s)%R) by apply sqrt_pos. assert (S1 : (s <= 1)%R) by nra.
    assert (A' : accepted (phaseflip ((1 - s) / 2))) by (apply accept_phaseflip; split; lra).
    exists (phaseflip ((1 - s) / 2)). split; [constructor|split; [exact A'|]]. intros n q r Hq. apply keq_sym.
    replace p with (4 * ((1 - s) / 2) * (1 - (1 - s) / 2))%R at 1 by (replace p with (1 - s * s)%R by lra; field).
    apply (fold_law n q [phaseflip ((1 - s) / 2)] [phase_damping (4 * ((1 - s) / 2) * (1 - (1 - s) / 2))] Hq). apply law_fold; [apply nl_phaseflip_damping; lra|apply Forall_cons; [exact A'|apply Forall_nil]].
Qed.
Lemma channel_mixture : forall n q i r, q < n -> mixing_type (ntype i) -> accepted i -> exists j, pauli_type j /\ accepted j /\
    keq n (kraus_sum n q (kraus_of i) r) (ksum (map (fun e => kscale (RtoC (fst e)) (error_op n q (snd e) r)) (error_weights j))).
Proof.
  intros n q i r Hq MT A. destruct (mixing_pauli i MT A) as (j & PJ & AJ & E). exists j. split; [exact PJ|split; [exact AJ|]]. eapply keq_trans; [apply E; exact Hq|]. apply pauli_unravel; assumption.
Qed.
Lemma channel_frob : forall n q i r, q < n -> mixing_type (ntype i) -> accepted i -> (frob n (kraus_sum n q (kraus_of i) r) <= frob n r)%R.
Proof.
  intros n q i r Hq MT A. destruct (channel_mixture n q i r Hq MT A) as (j & PJ & AJ & E). rewrite (frob_ext n _ _ E). destruct (weights_prob j PJ AJ) as [W1 W2].
  apply (frob_mixture n (error_weights j) fst (fun e => error_op n q (snd e) r)); [exact W1|exact W2|intros; apply error_op_frob; exact Hq].
Qed.
Lemma channels_frob : forall n q l r, q < n -> Forall (fun i => mixing_type (ntype i)) l -> Forall accepted l -> (frob n (channels n [q] (Some l) r) <= frob n r)%R.
Proof.
  intros n q l r Hq FM FA. cbn [channels hd]. revert r. induction FM as [|i l M FM IH]; intro r; [apply Rle_refl|]. inversion FA as [|? ? A FA']; subst. cbn [fold_left].
  eapply Rle_trans; [apply IH; exact FA'|apply channel_frob; assumption].
Qed.
Lemma evolve_frob : forall n vals gs, Forall (usable n vals) gs -> Forall noise_ok gs -> Forall mixing_noise gs -> forall r, (frob n (evolve n vals gs r) <= frob n r)%R.
Proof.
  intros n vals gs FU. induction FU as [|g gs HU FU IH]; intros FN FM r; [apply Rle_refl|]. inversion FN as [|? ? N1 N2]; inversion FM as [|? ? M1 M2]; subst. cbn [evolve].
  eapply Rle_trans; [apply IH; assumption|]. destruct (step_form n vals g HU N1) as (M & cs & ts & HG & _ & [(_ & E)|(q & l & EN & _ & Hq & F & E)]); rewrite E.
  - right. apply frob_sandwich, (gate_op_unitary _ _ _ _ _ _ HG).
  - unfold mixing_noise in M1. rewrite EN in M1. eapply Rle_trans; [apply channels_frob; assumption|]. right. apply frob_sandwich, (gate_op_unitary _ _ _ _ _ _ HG).
Qed.
Lemma positive_hermitian' : forall n A, positive n A -> hermitian n A.
Proof.
  intros n A P. destruct (positive_pure n A P) as (vs & E). apply (hermitian_ext n (ksum (map pure vs)) A (keq_sym n _ _ E)). apply ksum_hermitian. intro v. apply pure_hermitian.
Qed.
Lemma purity_frob : forall n st, state_of n st -> physical n st -> purity n st = frob n (density_of st).
Proof.
  intros n st S P. apply (physical_density n st S) in P as [P _]. unfold purity. rewrite overlap_is_trace, frob_purity by (apply positive_hermitian'; exact P). reflexivity.
Qed.
Lemma physical_output : forall w n vals c gs st, set_order (set_iter w) -> runnable n vals c gs -> state_of n st -> physical n st ->
    exists out, run w c st vals = Ok (Some out) /\ state_of n out /\ physical n out /\ keq n (density_of out) (evolve n vals gs (density_of st)).
Proof.
  intros w n vals c gs st SO RN S P. destruct (output_spec w n vals c gs st SO RN S) as (out & E & _ & _ & So & K & _). exists out. split; [exact E|split; [exact So|split; [|exact K]]].
  apply (physical_density n out So). apply (physical_density n st S) in P as [P T]. destruct RN as (_ & _ & FU & _ & FN). destruct (evolve_physical n vals gs _ FU FN P T) as [P' T']. split.
  - intro f. specialize (P' f). replace (qform n (density_of out) f) with (qform n (evolve n vals gs (density_of st)) f); [exact P'|]. unfold qform. apply inner_proper; [reflexivity|]. apply apply_kernel_proper; [symmetry; exact K|reflexivity].
  - rewrite K. exact T'.
Qed.
Lemma c130_purity : forall w n vals c gs st, set_order (set_iter w) -> runnable n vals c gs -> Forall mixing_noise gs -> state_of n st -> physical n st ->
    exists out, run w c st vals = Ok (Some out) /\ (purity n out <= purity n st)%R.
Proof.
  intros w n vals c gs st SO RN FM S P. destruct (physical_output w n vals c gs st SO RN S P) as (out & E & So & Po & K). exists out. split; [exact E|].
  rewrite (purity_frob n out So Po), (purity_frob n st S P), (frob_ext n _ _ K). destruct RN as (_ & _ & FU & _ & FN). apply evolve_frob; assumption.
Qed.

(** ** bounds *)
Lemma cauchy : forall {A} (l : list A) (f g : A -> C), (Cnorm2 (csum l (fun a => Cmul (f a) (Cconj (g a)))) <= rsum l (fun a => Cnorm2 (f a)) * rsum l (fun a => Cnorm2 (g a)))%R.
Proof.
  intros A l f g. induction l as [|a l IH]; [unfold Cnorm2; simpl; lra|]. cbn [csum rsum].
  assert (P : (0 <= rsum l (fun b => Cnorm2 (f b)))%R) by (apply rsum_nonneg; intros; unfold Cnorm2; nra). assert (Q : (0 <= rsum l (fun b => Cnorm2 (g b)))%R) by (apply rsum_nonneg; intros; unfold Cnorm2; nra).
  set (p := rsum l (fun b => Cnorm2 (f b))) in *. set (q := rsum l (fun b => Cnorm2 (g b))) in *. clearbody p q. destruct (csum l (fun b => Cmul (f b) (Cconj (g b)))) as [u v].
  destruct (f a) as [x x'], (g a) as [y y']. unfold Cnorm2 in *. simpl in *.
  set (al := (x * x + x' * x')%R). set (be := (y * y + y' * y')%R). assert (Ha : (0 <= al)%R) by (unfold al; nra). assert (Hb : (0 <= be)%R) by (unfold be; nra).
  set (r1 := (x * y - x' * - y')%R). set (r2 := (x * - y' + x' * y)%R). assert (R12 : (r1 * r1 + r2 * r2 = al * be)%R) by (unfold r1, r2, al, be; ring). clearbody al be r1 r2.
  assert (X : (2 * (r1 * u + r2 * v) <= al * q + be * p)%R).
  { apply Rsqr_incr_0_var; [|apply Rplus_le_le_0_compat; apply Rmult_le_pos; assumption]. unfold Rsqr.
    assert (C1 : ((r1 * u + r2 * v) * (r1 * u + r2 * v) <= (al * be) * (p * q))%R).
    { apply Rle_trans with ((r1 * r1 + r2 * r2) * (u * u + v * v))%R; [|rewrite R12; apply Rmult_le_compat_l; [apply Rmult_le_pos; assumption|exact IH]].
      pose proof (Rle_0_sqr (r1 * v - r2 * u)) as Q0. unfold Rsqr in Q0. lra. }
    pose proof (Rle_0_sqr (al * q - be * p)) as Q0. unfold Rsqr in Q0. lra. }
  lra.
Qed.
Lemma positive_minor : forall n A x y, positive n A -> In x (bitstrings n) -> In y (bitstrings n) -> (Cnorm2 (A x y) <= re (A x x) * re (A y y))%R.
Proof.
  intros n A x y P Hx Hy. destruct (positive_pure n A P) as (vs & E). rewrite !E by assumption. rewrite !ksum_entry. unfold pure.
  assert (D : forall z, re (csum vs (fun v : vec => Cmul (v z) (Cconj (v z)))) = rsum vs (fun v : vec => Cnorm2 (v z))).
  { intro z. transitivity (re (RtoC (rsum vs (fun v : vec => Cnorm2 (v z))))); [|reflexivity]. rewrite rsum_csum. f_equal. apply csum_ext; intros v _. apply Cmul_conj_r. }
  rewrite !D. apply (cauchy vs (fun v : vec => v x) (fun v : vec => v y)).
Qed.
Lemma re_csum : forall {A} (l : list A) f, re (csum l f) = rsum l (fun a => re (f a)).
Proof. intros A l f. induction l as [|a l IH]; [reflexivity|]. cbn [csum rsum]. rewrite <- IH. reflexivity. Qed.
Lemma frob_upper : forall n A, positive n A -> ktrace n A = C1 -> (frob n A <= 1)%R.
Proof.
  intros n A P T. assert (T' : rsum (bitstrings n) (fun x => re (A x x)) = 1%R) by (rewrite <- re_csum; change (re (ktrace n A) = 1%R); rewrite T; reflexivity).
  apply Rle_trans with (rsum (bitstrings n) (fun x => rsum (bitstrings n) (fun y => re (A x x) * re (A y y)))%R).
  - apply rsum_le; intros x Hx. apply rsum_le; intros y Hy. apply (positive_minor n); assumption.
  - right. transitivity (rsum (bitstrings n) (fun x => re (A x x) * 1)%R); [apply rsum_ext; intros x _; rewrite rsum_scale, T'; reflexivity|]. transitivity (rsum (bitstrings n) (fun x => re (A x x))); [apply rsum_ext; intros; ring|exact T'].
Qed.
Lemma rsum_one : forall n, rsum (bitstrings n) (fun _ => 1%R) = (2 ^ n)%R.
Proof. intro n. rewrite rsum_const, bitstrings_count, pow_INR. replace (INR 2) with 2%R by (simpl; ring). ring. Qed.
Lemma rsum_term : forall {A} (l : list A) f a, (forall b, In b l -> 0 <= f b)%R -> In a l -> (f a <= rsum l f)%R.
Proof.
  intros A l f a P. induction l as [|b l IH]; intros []; cbn [rsum].
  - subst b. assert (0 <= rsum l f)%R by (apply rsum_nonneg; intros; apply P; right; assumption). lra.
  - assert (0 <= f b)%R by (apply P; left; reflexivity). assert (f a <= rsum l f)%R by (apply IH; [intros; apply P; right; assumption|assumption]). lra.
Qed.
Lemma frob_lower : forall n A, ktrace n A = C1 -> (/ 2 ^ n <= frob n A)%R.
Proof.
  intros n A T. pose proof (pow_lt 2 n ltac:(lra)) as PP.
  assert (J := jensen (bitstrings n) (fun _ => 1%R) (fun x => A x x) ltac:(intros; lra)). cbv beta in J.
  assert (S : csum (bitstrings n) (fun x => Cmul (RtoC 1) (A x x)) = C1) by (rewrite <- T; apply csum_ext; intros x _; apply C_ext; simpl; ring). rewrite S, rsum_one in J.
  assert (D : (rsum (bitstrings n) (fun x => 1 * Cnorm2 (A x x)) <= frob n A)%R).
  { apply rsum_le; intros x Hx. rewrite Rmult_1_l. apply (rsum_term (bitstrings n) (fun y => Cnorm2 (A x y)) x); [|exact Hx]. intros b _. destruct (A x b). unfold Cnorm2; simpl; nra. }
  apply (Rmult_le_reg_l (2 ^ n)); [exact PP|]. rewrite Rinv_r by lra. apply Rle_trans with (Cnorm2 C1); [unfold Cnorm2; simpl; lra|]. eapply Rle_trans; [exact J|]. apply Rmult_le_compat_l; lra.
Qed.
Lemma purity_bounds : forall n st, state_of n st -> physical n st -> (/ 2 ^ n <= purity n st <= 1)%R.
Proof.
  intros n st S P. rewrite (purity_frob n st S P). apply (physical_density n st S) in P as [P T]. split; [apply frob_lower; exact T|apply frob_upper; assumption].
Qed.
Lemma c130_bounds : forall w n vals c gs st, set_order (set_iter w) -> runnable n vals c gs -> state_of n st -> physical n st ->
    (/ 2 ^ n <= purity n st <= 1)%R /\ exists out, run w c st vals = Ok (Some out) /\ (/ 2 ^ n <= purity n out <= 1)%R.
Proof.
  intros w n vals c gs st SO RN S P. split; [apply purity_bounds; assumption|]. destruct (physical_output w n vals c gs st SO RN S P) as (out & E & So & Po & _). exists out. split; [exact E|apply purity_bounds; assumption].
Qed.

(** ** the maximally mixed state *)
Lemma sandwich_scaled_id : forall n U a, unitary n U -> keq n (sandwiched n U (kscale a kid)) (kscale a kid).
Proof. intros n U a [_ H]. unfold sandwiched. rewrite kmul_kscale_r, kmul_kscale_l, kmul_id_r, H. reflexivity. Qed.
Lemma error_scaled_id : forall n q e a, q < n -> keq n (error_op n q e (kscale a kid)) (kscale a kid).
Proof. intros n q [P|] a Hq; [|apply keq_refl]. cbn [error_op]. apply sandwich_scaled_id, ctrl_kernel_unitary; [apply single_valid; exact Hq|apply pauli_unitary]. Qed.
Lemma channel_scaled_id : forall n q i a, q < n -> mixing_type (ntype i) -> accepted i -> keq n (kraus_sum n q (kraus_of i) (kscale a kid)) (kscale a kid).
Proof.
  intros n q i a Hq MT A. destruct (channel_mixture n q i (kscale a kid) Hq MT A) as (j & PJ & AJ & E). eapply keq_trans; [exact E|]. destruct (weights_prob j PJ AJ) as [_ W].
  intros x y Hx Hy. rewrite ksum_entry. transitivity (csum (error_weights j) (fun e => Cmul (RtoC (fst e)) (kscale a kid x y))).
  - apply csum_ext; intros e _. unfold kscale at 1. rewrite (error_scaled_id n q (snd e) a Hq x y Hx Hy). reflexivity.
  - rewrite csum_scale_r, <- rsum_csum, W. apply C_ext; simpl; ring.
Qed.
Lemma evolve_scaled_id : forall n vals gs, Forall (usable n vals) gs -> Forall noise_ok gs -> Forall mixing_noise gs -> forall a, keq n (evolve n vals gs (kscale a kid)) (kscale a kid).
Proof.
  intros n vals gs FU. induction FU as [|g gs HU FU IH]; intros FN FM a; [apply keq_refl|]. inversion FN as [|? ? N1 N2]; inversion FM as [|? ? M1 M2]; subst. cbn [evolve].
  eapply keq_trans; [|apply (IH N2 M2 a)]. apply evolve_ext. destruct (step_form n vals g HU N1) as (M & cs & ts & HG & _ & [(_ & E)|(q & l & EN & _ & Hq & F & E)]); rewrite E.
  - apply sandwich_scaled_id, (gate_op_unitary _ _ _ _ _ _ HG).
  - unfold mixing_noise in M1. rewrite EN in M1. eapply keq_trans; [apply (linear_channels n [q] (Some l)); apply sandwich_scaled_id, (gate_op_unitary _ _ _ _ _ _ HG)|].
    cbn [channels hd]. clear E EN HG. induction M1 as [|i l MI M1 IHl]; [apply keq_refl|]. inversion F as [|? ? AI F']; subst. cbn [fold_left].
    eapply keq_trans; [|apply IHl; exact F']. apply (linear_channels n [q] (Some l)). apply channel_scaled_id; assumption.
Qed.
Lemma c130_mixed : forall w n vals c gs st, set_order (set_iter w) -> runnable n vals c gs -> Forall mixing_noise gs -> state_of n st -> maximally_mixed n st ->
    exists out, run w c st vals = Ok (Some out) /\ maximally_mixed n out.
Proof.
  intros w n vals c gs st SO RN FM S MM. destruct (output_spec w n vals c gs st SO RN S) as (out & E & _ & _ & _ & K & _). exists out. split; [exact E|]. unfold maximally_mixed in *.
  eapply keq_trans; [exact K|]. eapply keq_trans; [apply evolve_ext; exact MM|]. destruct RN as (_ & _ & FU & _ & FN). apply evolve_scaled_id; assumption.
Qed.
