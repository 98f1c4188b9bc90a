(** * Inverse circuits (C115) *)
From Coq Require Import String List Arith Bool Reals Lia Lra ZArith Permutation Nsatz.
From Verif Require Import Cplx Py PyFacts Ndarray NdFacts OperatorUtils ApplyOperator Sparse Matrices Noise Gates Apply Composite Conversion Shots Gpsr Api
  Spec SpecFacts GateSpec PropSpec NoiseSpec SampleSpec ExpectSpec GpsrSpec GateFacts CircuitFacts AlgebraFacts ApplyThm GateThm
  KrausThm NoiseThm NoiseThm2 SeqThm SampleThm ShotsSpec ShotsThm ExpectThm ExpectThm2 GpsrFacts GpsrThm StructSpec PhysSpec PhysThm CtorSpec CtorThm
  StructThm3 CircuitLawSpec CircuitLawThm InverseSpec.
Import ListNotations.
Local Open Scope nat_scope.

Lemma inv_RX : forall a, keq 1 (kmul 1 (RX_matrix (- a)) (RX_matrix a)) kid.
Proof. intro a. pose proof (lRX a (- a)) as L. pose proof lRX0 as Z. replace (a + - a)%R with 0%R in L by lra. intros x y Hx Hy. rewrite <- (Z x y Hx Hy), <- (L x y Hx Hy). apply kmul_ext; [apply keq_sym, kmul_id_l|apply keq_refl|exact Hx|exact Hy]. Qed.
Lemma inv_RY : forall a, keq 1 (kmul 1 (RY_matrix (- a)) (RY_matrix a)) kid.
Proof. intro a. pose proof (lRY a (- a)) as L. pose proof lRY0 as Z. replace (a + - a)%R with 0%R in L by lra. intros x y Hx Hy. rewrite <- (Z x y Hx Hy), <- (L x y Hx Hy). apply kmul_ext; [apply keq_sym, kmul_id_l|apply keq_refl|exact Hx|exact Hy]. Qed.
Lemma inv_RZ : forall a, keq 1 (kmul 1 (RZ_matrix (- a)) (RZ_matrix a)) kid.
Proof. intro a. pose proof (lRZ a (- a)) as L. pose proof lRZ0 as Z. replace (a + - a)%R with 0%R in L by lra. intros x y Hx Hy. rewrite <- (Z x y Hx Hy), <- (L x y Hx Hy). apply kmul_ext; [apply keq_sym, kmul_id_l|apply keq_refl|exact Hx|exact Hy]. Qed.
Lemma inv_P : forall a, keq 1 (kmul 1 (PHASE_matrix (- a)) (PHASE_matrix a)) kid.
Proof. intro a. pose proof (lP a (- a)) as L. pose proof lP0 as Z. replace (a + - a)%R with 0%R in L by lra. intros x y Hx Hy. rewrite <- (Z x y Hx Hy), <- (L x y Hx Hy). apply kmul_ext; [apply keq_sym, kmul_id_l|apply keq_refl|exact Hx|exact Hy]. Qed.
Lemma unid : forall A B, keq 1 (kmul 1 kid A) (kmul 1 kid B) -> keq 1 A B.
Proof. intros A B E. eapply keq_trans; [apply keq_sym, kmul_id_l|]. eapply keq_trans; [exact E|apply kmul_id_l]. Qed.
Lemma inv_S : keq 1 (kmul 1 (PHASE_matrix (- (PI / 2))) S_matrix) kid.
Proof. eapply keq_trans; [apply kmul_ext; [apply keq_refl|apply keq_sym, unid, lPS]|apply inv_P]. Qed.
Lemma inv_T : keq 1 (kmul 1 (PHASE_matrix (- (PI / 4))) T_matrix) kid.
Proof. eapply keq_trans; [apply kmul_ext; [apply keq_refl|apply keq_sym, unid, lPT]|apply inv_P]. Qed.
Lemma inv_self1 : forall M, In M [I_matrix; X_matrix; Y_matrix; Z_matrix; H_matrix] -> keq 1 (kmul 1 M M) kid.
Proof.
  intros M [<-|[<-|[<-|[<-|[<-|[]]]]]];
    [|eapply keq_trans; [|exact lXX]|eapply keq_trans; [|exact lYY]|eapply keq_trans; [|exact lZZ]|eapply keq_trans; [|exact lHH]];
    try (apply kmul_ext; [apply keq_sym, kmul_id_l|apply keq_refl]).
  eapply keq_trans; [apply kmul_ext; [apply (unid I_matrix kid); eapply keq_trans; [exact lII|apply keq_sym, kmul_id_l]|apply keq_refl]|exact lII].
Qed.
Lemma inv_SWAP : keq 2 (kmul 2 SWAP_matrix SWAP_matrix) kid.
Proof. intros x y Hx Hy. bits2 Hx; bits2 Hy; lazy -[Rplus Rmult Ropp Rminus IZR]; f_equal; ring. Qed.

(** the two gates, built by constructors, with inverse matrices *)
Lemma inverse_built : forall vals g g', inverse_gate vals g g' -> exists t c k M M', built vals t c None k g M /\ built vals t c None k g' M' /\ keq k (kmul k M' M) kid /\
    target g = parse_target t /\ control g = parse_control c.
Proof.
  intros vals g g' H. destruct H as [mk t c Hm|rot p p' a t c Hr A A'|t c|t c].
  - destruct Hm as [<-|[<-|[<-|[<-|[<-|[<-|[<-|[]]]]]]]].
    + exists t, c, 1, I_matrix, I_matrix. repeat split; [constructor|constructor|apply inv_self1; simpl; tauto].
    + exists t, c, 1, X_matrix, X_matrix. repeat split; [constructor|constructor|apply inv_self1; simpl; tauto].
    + exists t, c, 1, X_matrix, X_matrix. repeat split; [apply b_NOT|apply b_NOT|apply inv_self1; simpl; tauto].
    + exists t, c, 1, Y_matrix, Y_matrix. repeat split; [constructor|constructor|apply inv_self1; simpl; tauto].
    + exists t, c, 1, Z_matrix, Z_matrix. repeat split; [constructor|constructor|apply inv_self1; simpl; tauto].
    + exists t, c, 1, H_matrix, H_matrix. repeat split; [constructor|constructor|apply inv_self1; simpl; tauto].
    + exists t, c, 2, SWAP_matrix, SWAP_matrix. repeat split; [constructor|constructor|exact inv_SWAP].
  - destruct Hr as [<-|[<-|[<-|[<-|[]]]]].
    + exists t, c, 1, (RX_matrix a), (RX_matrix (- a)). repeat split; [constructor; exact A|constructor; exact A'|apply inv_RX].
    + exists t, c, 1, (RY_matrix a), (RY_matrix (- a)). repeat split; [constructor; exact A|constructor; exact A'|apply inv_RY].
    + exists t, c, 1, (RZ_matrix a), (RZ_matrix (- a)). repeat split; [constructor; exact A|constructor; exact A'|apply inv_RZ].
    + exists t, c, 1, (PHASE_matrix a), (PHASE_matrix (- a)). repeat split; [constructor; exact A|constructor; exact A'|apply inv_P].
  - exists t, c, 1, S_matrix, (PHASE_matrix (- (PI / 2))). repeat split; [constructor|constructor; constructor|apply inv_S].
  - exists t, c, 1, T_matrix, (PHASE_matrix (- (PI / 4))). repeat split; [constructor|constructor; constructor|apply inv_T].
Qed.
Lemma built_matrix : forall vals t c ns k g M, built vals t c ns k g M -> length (parse_target t) = k -> gate_matrix vals g M.
Proof.
  intros vals t c ns k g M B L. destruct B;
    first [eapply gm_SWAP; [reflexivity|reflexivity|exact L]
          |eapply gm_fixed; [reflexivity|reflexivity|exact L|simpl; eauto 10]
          |eapply gm_rotation; [reflexivity|reflexivity|exact L|eapply angle_parse; [eassumption|reflexivity|reflexivity]|simpl; eauto 10]
          |eapply gm_PHASE; [reflexivity|exact L|eapply angle_parse; [eassumption|reflexivity|reflexivity]]].
Qed.
Lemma built_plain : forall vals t c k g M, built vals t c None k g M -> dense_gate g /\ noiseless g /\ target g = parse_target t /\ control g = parse_control c.
Proof. intros vals t c k g M B. destruct B; repeat split. Qed.
Lemma built_arity : forall vals t c ns k g M M', built vals t c ns k g M -> gate_matrix vals g M' -> length (target g) = k.
Proof.
  intros vals t c ns k g M M' B G. destruct B; inversion G as [name M0 E1 E2 E3 E4|E1 E2 E3|name R_ t0 E1 E2 E3 E4 E5|t0 E1 E2 E3]; try discriminate; try assumption;
    cbn in *; subst; repeat match goal with H : _ \/ _ |- _ => destruct H as [H|H]; [discriminate H|] | H : False |- _ => destruct H end.
Qed.
Lemma inverse_step : forall n vals g g', inverse_gate vals g g' -> usable n vals g ->
    usable n vals g' /\ keq n (kmul n (kop vals g') (kop vals g)) kid /\ dense_gate g /\ dense_gate g' /\ noiseless g /\ noiseless g'.
Proof.
  intros n vals g g' H (M0 & cs & ts & HG). destruct (inverse_built vals g g' H) as (t & c & k & M & M' & B & B' & E & _).
  destruct (built_plain _ _ _ _ _ _ B) as (D & N & T & K). destruct (built_plain _ _ _ _ _ _ B') as (D' & N' & T' & K').
  pose proof HG as [G1 G2 G3 G4]. pose proof (built_arity _ _ _ _ _ _ _ _ B G1) as L. rewrite T in L.
  assert (GM : gate_matrix vals g M) by (eapply built_matrix; eassumption). assert (GM' : gate_matrix vals g' M') by (eapply built_matrix; eassumption).
  rewrite K in G2. rewrite T in G3. assert (HG' : gate_on n vals g' M' cs ts) by (split; [exact GM'|rewrite K'; exact G2|rewrite T'; exact G3|exact G4]).
  split; [exists M', cs, ts; exact HG'|]. split; [|repeat split; assumption].
  unfold kop, gate_op. rewrite (mat_of_spec _ _ _ GM), (mat_of_spec _ _ _ GM'), K, K', T, T', (ctrl_of_spec _ _ G2), G3. rewrite G3 in L.
  eapply keq_trans; [apply ctrl_kernel_mul; exact G4|]. rewrite L. eapply keq_trans; [apply ctrl_kernel_ext; rewrite L; exact E|]. apply ctrl_kernel_id. eapply valid_app_r; exact G4.
Qed.
Lemma inverse_all : forall n vals gs gs', inverse_circuit vals gs gs' -> Forall (usable n vals) gs ->
    Forall (usable n vals) gs' /\ keq n (kmul n (uop n vals gs') (uop n vals gs)) kid /\ Forall dense_gate gs /\ Forall dense_gate gs' /\ Forall noiseless gs /\ Forall noiseless gs'.
Proof.
  intros n vals gs. induction gs as [|g gs IH]; intros gs' H F; unfold inverse_circuit in H; cbn [rev] in H.
  - inversion H; subst. cbn [uop]. split; [constructor|split; [apply kmul_id_l|repeat split; constructor]].
  - apply Forall2_app_inv_l in H. destruct H as (l1 & l2 & H1 & H2 & ->). inversion H2 as [|? g' ? l3 HG H3]; subst. inversion H3; subst. inversion F as [|? ? U F']; subst.
    destruct (IH l1 H1 F') as (FU & E & D & D' & N & N'). destruct (inverse_step n vals g g' HG U) as (U' & E' & Dg & Dg' & Ng & Ng').
    split; [apply Forall_app; split; [exact FU|constructor; [exact U'|constructor]]|]. split.
    + cbn [uop]. eapply keq_trans; [apply kmul_ext; [apply uop_app|apply keq_refl]|]. cbn [uop].
      eapply keq_trans; [rewrite kmul_assoc; apply keq_refl|]. eapply keq_trans; [apply kmul_ext; [apply kmul_id_l|rewrite <- kmul_assoc; apply kmul_ext; [exact E|apply keq_refl]]|].
      eapply keq_trans; [apply kmul_ext; [apply keq_refl|apply kmul_id_l]|exact E'].
    + repeat split; try (constructor; assumption); apply Forall_app; split; try assumption; constructor; [assumption|constructor|assumption|constructor].
Qed.
Lemma noiseless_ok : forall gs, Forall noiseless gs -> Forall noise_ok gs.
Proof. intros gs F. eapply Forall_impl; [|exact F]. intros g N. unfold noise_ok. rewrite N. exact Logic.I. Qed.

(** a circuit followed by its inverse, anywhere in a circuit, can be removed *)
Lemma c115_cancel : forall w n vals c c' gs1 gs gs' gs2 st, set_order (set_iter w) -> inverse_circuit vals gs gs' -> Forall (usable n vals) gs ->
    sequence_of c (gs1 ++ (gs ++ gs') ++ gs2) -> runnable n vals c' (gs1 ++ gs2) -> state_of n st ->
    (exists out, run w c st vals = Ok (Some out) /\ run w c' st vals = Ok (Some out)) /\
    (forall k, fst (sample w st c vals k) = fst (sample w st c' vals k)) /\
    (flat_values vals -> forall obs mode shots key, expectation w st c obs vals mode shots key = expectation w st c' obs vals mode shots key).
Proof.
  intros w n vals c c' gs1 gs gs' gs2 st SO HI FU SQ RN HS. destruct (inverse_all n vals gs gs' HI FU) as (FU' & E & D & D' & N & N').
  apply (replace_exact w n vals c c' gs1 (gs ++ gs') [] gs2 st SO); [apply Forall_app; split; assumption|constructor| | |exact RN|exact HS].
  - eapply keq_trans; [apply uop_app|exact E].
  - destruct RN as (_ & NE & U & DG & NO). split; [exact SQ|]. split.
    + intro Z. apply NE. apply app_eq_nil in Z. destruct Z as [-> Z]. apply app_eq_nil in Z. destruct Z as [_ ->]. reflexivity.
    + apply Forall_app in U. apply Forall_app in DG. apply Forall_app in NO. destruct U as [U1 U2], DG as [D1 D2], NO as [O1 O2].
      repeat split; (apply Forall_app; split; [assumption|apply Forall_app; split; [apply Forall_app; split; try assumption; apply noiseless_ok; assumption|assumption]]).
Qed.
(** a circuit followed by its inverse returns every state *)
Lemma c115_undo : forall w n vals c gs gs' st, set_order (set_iter w) -> inverse_circuit vals gs gs' -> gs <> [] -> Forall (usable n vals) gs ->
    sequence_of c (gs ++ gs') -> state_of n st -> run w c st vals = Ok (Some st).
Proof.
  intros w n vals c gs gs' st SO HI NE FU SQ HS. destruct (inverse_all n vals gs gs' HI FU) as (FU' & E & D & D' & N & N').
  assert (FN : Forall noiseless (gs ++ gs')) by (apply Forall_app; split; assumption).
  assert (RN : runnable n vals c (gs ++ gs')).
  { split; [exact SQ|]. split; [intro Z; apply app_eq_nil in Z; tauto|]. repeat split; [apply Forall_app; split; assumption|apply Forall_app; split; assumption|apply noiseless_ok; exact FN]. }
  destruct (output_spec w n vals c _ st SO RN HS) as (out & E1 & _ & _ & So & KO & MX & PX). rewrite E1. f_equal. f_equal.
  assert (EU : keq n (uop n vals (gs ++ gs')) kid) by (eapply keq_trans; [apply uop_app|exact E]).
  destruct st as [psi|b|rho]; [|destruct HS|].
  - destruct (call_pure w n vals c (gs ++ gs') (uop n vals (gs ++ gs')) psi SQ) as (phi & Ep & Sp & Vp);
      [apply RN|exact FN|apply uop_circuit, RN|exact HS|]. rewrite E1 in Ep; injection Ep as ->. f_equal. apply (state_ext n); [exact Sp|exact HS|].
    intros x Hx. rewrite (Vp x Hx). rewrite (apply_kernel_ext n _ kid (amp psi) (amp psi) EU (veq_refl n _) x Hx). apply apply_kernel_id. exact Hx.
  - destruct MX as (a & ->); [left; eauto|]. f_equal. apply (density_ext n); [exact So|exact HS|]. eapply keq_trans; [exact KO|].
    eapply keq_trans; [apply evolve_plain; exact FN|]. eapply keq_trans; [apply sandwiched_keq; [exact EU|apply keq_refl]|apply sandwiched_kid].
Qed.
Lemma inverse_adjoint : forall n V V', unitary n V -> keq n (kmul n V' V) kid -> keq n V' (kadj V).
Proof.
  intros n V V' [A B] E. eapply keq_trans; [apply keq_sym, kmul_id_r|]. eapply keq_trans; [apply kmul_ext; [apply keq_refl|apply keq_sym; exact B]|].
  rewrite <- kmul_assoc. eapply keq_trans; [apply kmul_ext; [exact E|apply keq_refl]|]. apply kmul_id_l.
Qed.
(** compute and uncompute: the amplitude of the initial state is the inner product of the two outputs *)
Lemma c115_uncompute : forall w n vals c1 c2 c gs1 gs2 gs2' psi, inverse_circuit vals gs2 gs2' ->
    Forall (usable n vals) gs1 -> Forall dense_gate gs1 -> Forall noiseless gs1 -> Forall (usable n vals) gs2 ->
    sequence_of c1 gs1 -> sequence_of c2 gs2 -> sequence_of c (gs1 ++ gs2') -> is_state n psi ->
    exists a b out, run w c1 (SDense psi) vals = Ok (Some (SDense a)) /\ run w c2 (SDense psi) vals = Ok (Some (SDense b)) /\
      run w c (SDense psi) vals = Ok (Some (SDense out)) /\
      inner_product n (amp psi) (amp out) = inner_product n (amp b) (amp a) /\
      forall x, In x (bitstrings n) -> psi = product_state x -> Cnorm2 (amp out x) = Cnorm2 (inner_product n (amp b) (amp a)).
Proof.
  intros w n vals c1 c2 c gs1 gs2 gs2' psi HI U1 D1 N1 U2 S1 S2 S HS. destruct (inverse_all n vals gs2 gs2' HI U2) as (FU' & E & D & D' & N & N').
  destruct (call_pure w n vals c1 gs1 _ psi S1 D1 N1 (uop_circuit n vals gs1 U1) HS) as (a & Ea & Sa & Va).
  destruct (call_pure w n vals c2 gs2 _ psi S2 D N (uop_circuit n vals gs2 U2) HS) as (b & Eb & Sb & Vb).
  destruct (call_pure w n vals c (gs1 ++ gs2') (uop n vals (gs1 ++ gs2')) psi S) as (out & Eo & So & Vo);
    [apply Forall_app; split; assumption|apply Forall_app; split; assumption|apply uop_circuit, Forall_app; split; assumption|exact HS|].
  exists a, b, out. do 3 (split; [assumption|]).
  assert (IA : keq n (uop n vals gs2') (kadj (uop n vals gs2))) by (apply inverse_adjoint; [eapply circuit_unitary, uop_circuit; exact U2|exact E]).
  assert (VO : veq n (amp out) (apply_kernel n (kadj (uop n vals gs2)) (amp a))).
  { intros x Hx. rewrite (Vo x Hx). rewrite (apply_kernel_ext n _ (kmul n (kadj (uop n vals gs2)) (uop n vals gs1)) (amp psi) (amp psi)
      (keq_trans _ _ _ _ (uop_app n vals gs1 gs2') (kmul_ext _ _ _ _ _ IA (keq_refl _ _))) (veq_refl n _) x Hx).
    rewrite apply_kernel_mul by exact Hx. apply apply_kernel_ext; [apply keq_refl|intros z Hz; symmetry; apply Va; exact Hz|exact Hx]. }
  assert (Q : inner_product n (amp psi) (amp out) = inner_product n (amp b) (amp a)).
  { transitivity (inner_product n (amp psi) (apply_kernel n (kadj (uop n vals gs2)) (amp a))); [apply csum_ext; intros x Hx; rewrite (VO x Hx); reflexivity|].
    rewrite inner_adj. apply inner_ext; [|apply veq_refl]. intros x Hx. rewrite (Vb x Hx). apply apply_kernel_ext; [intros p q _ _; unfold kadj; apply Cconj_invol|apply veq_refl|exact Hx]. }
  split; [exact Q|]. intros x Hx ->. rewrite <- Q. f_equal. destruct (c72_product_thm n x Hx) as (_ & K & _ & _).
  unfold inner_product. rewrite (csum_ext _ _ (fun y => Cmul (kid x y) (amp out y))); [symmetry; apply csum_kid_l; exact Hx|].
  intros y Hy. rewrite (K y Hy). unfold ket, kid. destruct (list_eq_dec Nat.eq_dec y x) as [->|Z]; destruct (list_eq_dec Nat.eq_dec x _) as [Z'|Z']; try congruence; f_equal; apply C_ext; simpl; ring.
Qed.
