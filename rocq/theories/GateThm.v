(** * Gate matrices: unitarity, rotations, derivatives, Hamiltonian evolution (C20-C24, C76, C17) *)
From Coq Require Import String List Arith Bool Reals Lia Lra Permutation Sorted.
From Verif Require Import Cplx Py PyFacts Ndarray NdFacts NdPerm OperatorUtils ApplyOperator
  Spec SpecFacts Deriv ApplyFacts DmFacts ExpandFacts Sparse Matrices Noise Gates Apply Composite
  GateSpec PropSpec GateFacts CircuitFacts AlgebraFacts TensorFacts TensorThm ApplyThm.
Import ListNotations.
Local Open Scope nat_scope.

(** ** algebra of operators *)
Lemma kmul_kadd_l : forall n A B D, keq n (kmul n (kadd A B) D) (kadd (kmul n A D) (kmul n B D)).
Proof.
  intros n A B D x y _ _; unfold kmul, kadd; rewrite <- csum_add; apply csum_ext; intros; ring.
Qed.
Lemma kmul_kadd_r : forall n A B D, keq n (kmul n D (kadd A B)) (kadd (kmul n D A) (kmul n D B)).
Proof.
  intros n A B D x y _ _; unfold kmul, kadd; rewrite <- csum_add; apply csum_ext; intros; ring.
Qed.
Lemma kmul_kscale_l : forall n c A D, keq n (kmul n (kscale c A) D) (kscale c (kmul n A D)).
Proof.
  intros n c A D x y _ _; unfold kmul, kscale; rewrite <- csum_scale_l; apply csum_ext; intros; ring.
Qed.
Lemma kmul_kscale_r : forall n c A D, keq n (kmul n D (kscale c A)) (kscale c (kmul n D A)).
Proof.
  intros n c A D x y _ _; unfold kmul, kscale; rewrite <- csum_scale_l; apply csum_ext; intros; ring.
Qed.

(** cos(t/2) 1 - i sin(t/2) G *)
Definition rotk (G : op) (t : R) : op :=
  kadd (kscale (RtoC (cos (t / 2))) kid) (kscale (Cmul (Copp Ci) (RtoC (sin (t / 2)))) G).

Lemma rotk_mul : forall n G a b, keq n (kmul n G G) kid -> keq n (kmul n (rotk G a) (rotk G b)) (rotk G (a + b)).
Proof.
  intros n G a b HG; unfold rotk.
  rewrite kmul_kadd_l, !kmul_kadd_r, !kmul_kscale_l, !kmul_kscale_r, HG, !kmul_id_l, kmul_id_r.
  intros x y _ _; unfold kadd, kscale.
  replace ((a + b) / 2)%R with (a / 2 + b / 2)%R by lra. rewrite cos_plus, sin_plus.
  apply C_ext; simpl; ring.
Qed.
Lemma rotk_0 : forall n G, keq n (rotk G 0) kid.
Proof.
  intros n G x y _ _; unfold rotk, kadd, kscale. replace (0 / 2)%R with 0%R by lra. rewrite cos_0, sin_0.
  apply C_ext; simpl; ring.
Qed.
Lemma rotk_adj : forall n G a, keq n (kadj G) G -> keq n (kadj (rotk G a)) (rotk G (- a)).
Proof.
  intros n G a HG x y Hx Hy; specialize (HG x y Hx Hy); unfold kadj, rotk, kadd, kscale in *.
  replace (- a / 2)%R with (- (a / 2))%R by lra. rewrite cos_neg, sin_neg.
  rewrite Cconj_add, !Cconj_mul, kid_conj, (kid_sym y x), HG. apply C_ext; simpl; ring.
Qed.
Lemma rotk_2pi : forall n G, keq n (rotk G (2 * PI)) (kscale (RtoC (-1)) kid).
Proof.
  intros n G x y _ _; unfold rotk, kadd, kscale. replace (2 * PI / 2)%R with PI by lra. rewrite cos_PI, sin_PI.
  apply C_ext; simpl; ring.
Qed.
Lemma dpl_half : forall f t l, derivable_pt_lim f (t / 2) l -> derivable_pt_lim (fun s => f (s / 2))%R t (l / 2)%R.
Proof.
  intros f t l H. eapply dpl_ext; [|eapply dpl_eq; [|apply (dpl_affine f (1 / 2) 0 t l)]].
  - intro s; cbv beta; f_equal; lra.
  - lra.
  - replace (1 / 2 * t + 0)%R with (t / 2)%R by lra; exact H.
Qed.
Lemma rotk_deriv_entry : forall G t x y,
    Cderiv (fun s => rotk G s x y) t
      (Cadd (Cmul (RtoC (- sin (t / 2) / 2)) (kid x y)) (Cmul (Cmul (Copp Ci) (RtoC (cos (t / 2) / 2))) (G x y))).
Proof.
  intros G t x y; unfold rotk, kadd, kscale.
  apply Cderiv_add; apply Cderiv_scale_r.
  - apply (Cderiv_RtoC (fun s => cos (s / 2))). apply (dpl_half cos), derivable_pt_lim_cos.
  - apply Cderiv_scale, (Cderiv_RtoC (fun s => sin (s / 2))), (dpl_half sin), derivable_pt_lim_sin.
Qed.
Lemma rotk_deriv : forall n G t, keq n (kmul n G G) kid ->
    kderiv n (rotk G) t (kmul n (kscale (Cmul (RtoC (1 / 2)) (Copp Ci)) G) (rotk G t)).
Proof.
  intros n G t HG x y Hx Hy.
  assert (E : keq n (kmul n (kscale (Cmul (RtoC (1 / 2)) (Copp Ci)) G) (rotk G t))
                (kadd (kscale (RtoC (- sin (t / 2) / 2)) kid) (kscale (Cmul (Copp Ci) (RtoC (cos (t / 2) / 2))) G))).
  { unfold rotk; rewrite kmul_kadd_r, !kmul_kscale_r, !kmul_kscale_l, HG, kmul_id_r.
    intros u v _ _; unfold kadd, kscale; apply C_ext; simpl; field. }
  rewrite (E x y Hx Hy). apply rotk_deriv_entry.
Qed.

Lemma X_adj : keq 1 (kadj X_matrix) X_matrix.
Proof. intros x y Hx Hy; bits1 Hx; bits1 Hy; unfold kadj; apply C_ext; simpl; ring. Qed.
Lemma Y_adj : keq 1 (kadj Y_matrix) Y_matrix.
Proof. intros x y Hx Hy; bits1 Hx; bits1 Hy; unfold kadj; apply C_ext; simpl; ring. Qed.
Lemma Z_adj : keq 1 (kadj Z_matrix) Z_matrix.
Proof. intros x y Hx Hy; bits1 Hx; bits1 Hy; unfold kadj; apply C_ext; simpl; ring. Qed.
Lemma I_adj : keq 1 (kadj I_matrix) I_matrix.
Proof. intros x y Hx Hy; bits1 Hx; bits1 Hy; unfold kadj; apply C_ext; simpl; ring. Qed.
Lemma H_adj : keq 1 (kadj H_matrix) H_matrix.
Proof. intros x y Hx Hy; bits1 Hx; bits1 Hy; unfold kadj; apply C_ext; simpl; ring. Qed.
Lemma unitary_adj_sq : forall n A, unitary n A -> keq n (kadj A) A -> keq n (kmul n A A) kid.
Proof. intros n A [U1 _] HA. rewrite <- U1. rewrite HA; reflexivity. Qed.

Lemma RX_rotk : forall t, keq 1 (RX_matrix t) (rotk X_matrix t).
Proof. intros t x y Hx Hy; bits1 Hx; bits1 Hy; unfold rotk, kadd, kscale, kid; simpl; apply C_ext; simpl; ring. Qed.
Lemma RY_rotk : forall t, keq 1 (RY_matrix t) (rotk Y_matrix t).
Proof. intros t x y Hx Hy; bits1 Hx; bits1 Hy; unfold rotk, kadd, kscale, kid; simpl; apply C_ext; simpl; ring. Qed.
Lemma RZ_rotk : forall t, keq 1 (RZ_matrix t) (rotk Z_matrix t).
Proof.
  intros t x y Hx Hy; bits1 Hx; bits1 Hy; unfold rotk, kadd, kscale, kid; simpl; apply C_ext; simpl;
    replace (- t / 2)%R with (- (t / 2))%R by lra; rewrite ?cos_neg, ?sin_neg; ring.
Qed.

(** ** C20 *)
Lemma c20_unitary : forall w vals g M, gate_matrix vals g M -> dense_gate g ->
    exists u, unitary_of w g vals = Ok (MD u) /\ is_matrix (List.length (target g)) u /\
              keq (List.length (target g)) (entry u) M /\ unitary (List.length (target g)) (entry u).
Proof.
  intros w vals g M G D; destruct (unitary_of_ok w vals g M G D) as (u & E & HM & HK).
  exists u; repeat split; try assumption; try apply HM;
    (apply (unitary_ext _ M); [apply keq_sym; exact HK|apply (gate_matrix_unitary vals); exact G]).
Qed.
Lemma c20_hermitian : forall w vals g M, gate_matrix vals g M -> dense_gate g -> gclass g = KPrim ->
    In (generator_name g) ["I"; "X"; "Y"; "Z"; "H"; "SWAP"]%string ->
    exists u, unitary_of w g vals = Ok (MD u) /\ hermitian (List.length (target g)) (entry u) /\
              keq (List.length (target g)) (kmul (List.length (target g)) (entry u) (entry u)) kid.
Proof.
  intros w vals g M G D KP I.
  destruct (c20_unitary w vals g M G D) as (u & E & HM & HK & HU).
  assert (HA : keq (List.length (target g)) (kadj (entry u)) (entry u)).
  { rewrite HK. destruct G as [name M' K N L I'|K N L|name R_ t K N L A I'|t K L A]; try congruence; rewrite L.
    - rewrite N in I; simpl in I'; repeat (destruct I' as [I'|I']; [injection I' as <- <-|]); [| | | | | | |contradiction].
      + apply I_adj. + apply X_adj. + apply Y_adj. + apply Z_adj. + apply H_adj.
      + simpl in I; repeat (destruct I as [I|I]; [discriminate|]); contradiction.
      + simpl in I; repeat (destruct I as [I|I]; [discriminate|]); contradiction.
    - apply SWAP_kadj. }
  exists u; split; [exact E|split; [exact HA|apply unitary_adj_sq; assumption]].
Qed.

(** ** C21 *)
Definition rotations : list ((param -> target_arg -> index_arg -> option (list noise_inst) -> bool -> gate) * op) :=
  [(RX, X_matrix); (RY, Y_matrix); (RZ, Z_matrix)].
Lemma rotation_unitary : forall w vals rot G a tgt c ns, In (rot, G) rotations ->
    exists u, unitary_of w (rot (PNum a) tgt c ns false) vals = Ok (MD u) /\ is_matrix 1 u /\ keq 1 (entry u) (rotk G a).
Proof.
  intros w vals rot G a tgt c ns I.
  assert (E0 : (a + 0)%R = a) by ring.
  simpl in I; destruct I as [I|[I|[I|[]]]]; injection I as <- <-;
    [change (unitary_of w (RX (PNum a) tgt c ns false) vals) with (let! u := unitary_of_generator m_X (a + 0) in Ok (MD u))
    |change (unitary_of w (RY (PNum a) tgt c ns false) vals) with (let! u := unitary_of_generator m_Y (a + 0) in Ok (MD u))
    |change (unitary_of w (RZ (PNum a) tgt c ns false) vals) with (let! u := unitary_of_generator m_Z (a + 0) in Ok (MD u))];
    rewrite E0.
  - destruct (RX_lib a) as (u & -> & HM & HK); exists u; split; [reflexivity|split; [exact HM|]]. rewrite HK; apply RX_rotk.
  - destruct (RY_lib a) as (u & -> & HM & HK); exists u; split; [reflexivity|split; [exact HM|]]. rewrite HK; apply RY_rotk.
  - destruct (RZ_lib a) as (u & -> & HM & HK); exists u; split; [reflexivity|split; [exact HM|]]. rewrite HK; apply RZ_rotk.
Qed.
Lemma rotations_pauli : forall rot G, In (rot, G) rotations -> keq 1 (kadj G) G /\ keq 1 (kmul 1 G G) kid.
Proof.
  intros rot G I; simpl in I; destruct I as [I|[I|[I|[]]]]; injection I as <- <-; (split;
    [first [apply X_adj|apply Y_adj|apply Z_adj]|]); apply unitary_adj_sq;
    first [apply X_unitary|apply Y_unitary|apply Z_unitary|apply X_adj|apply Y_adj|apply Z_adj].
Qed.
Lemma c21_rotations : forall w vals rot G tgt c ns, In (rot, G) rotations ->
    exists U : R -> arr,
      (forall a, unitary_of w (rot (PNum a) tgt c ns false) vals = Ok (MD (U a)) /\ is_matrix 1 (U a)) /\
      (forall a b, keq 1 (kmul 1 (entry (U a)) (entry (U b))) (entry (U (a + b)%R))) /\
      keq 1 (entry (U 0%R)) kid /\
      (forall a, keq 1 (kadj (entry (U a))) (entry (U (- a)%R))) /\
      keq 1 (entry (U (2 * PI)%R)) (kscale (RtoC (-1)) kid) /\
      (forall a, kderiv 1 (fun s => entry (U s)) a (kmul 1 (kscale (Cmul (RtoC (1 / 2)) (Copp Ci)) G) (entry (U a)))).
Proof.
  intros w vals rot G tgt c ns I.
  set (U := fun a => match unitary_of w (rot (PNum a) tgt c ns false) vals with Ok (MD u) => u | _ => eye 2 end).
  exists U.
  assert (HU : forall a, unitary_of w (rot (PNum a) tgt c ns false) vals = Ok (MD (U a)) /\ is_matrix 1 (U a) /\
                         keq 1 (entry (U a)) (rotk G a)).
  { intro a; unfold U; destruct (rotation_unitary w vals rot G a tgt c ns I) as (u & -> & HM & HK); auto. }
  destruct (rotations_pauli rot G I) as [GA GS].
  assert (HK : forall a, keq 1 (entry (U a)) (rotk G a)) by (intro; apply HU).
  split; [intro a; split; apply HU|split; [|split; [|split; [|split]]]].
  - intros a b; rewrite !HK; apply rotk_mul; exact GS.
  - rewrite HK; apply rotk_0.
  - intro a; rewrite !HK; apply rotk_adj; exact GA.
  - rewrite HK; apply rotk_2pi.
  - intro a. eapply kderiv_ext with (F := rotk G); [intro s; symmetry; apply HK|].
    eapply kderiv_eq; [|apply rotk_deriv; exact GS]. rewrite HK; reflexivity.
Qed.

(** ** C22 *)
Definition fixed_gates : list (target_arg -> index_arg -> option (list noise_inst) -> bool -> gate) :=
  [gI; gX; NOT; gY; gZ; gH; gS; gT].
Definition parametric_gates : list (param -> target_arg -> index_arg -> option (list noise_inst) -> bool -> gate) :=
  [RX; RY; RZ; PHASE].
Lemma usable_applies : forall w n vals g psi, usable n vals g -> dense_gate g -> noiseless g -> is_state n psi ->
    exists out, apply_gates w (SDense psi) (GOne g) vals UNITARY false true = Ok (SDense out) /\ is_state n out.
Proof.
  intros w n vals g psi (M & cs & ts & HG) D N HS.
  destruct (apply_gate_dense w n vals UNITARY false true g _ psi N (gate_on_opk w _ _ _ _ _ _ HG D) HS) as (out & E & S & _); eauto.
Qed.
Lemma fixed_usable : forall n vals ctor q c cs, In ctor fixed_gates -> control_qubits (parse_control c) cs ->
    valid_qubits n (cs ++ [q]) -> usable n vals (ctor (TInt q) c None false).
Proof.
  intros n vals ctor q c cs I HC HV.
  simpl in I; repeat (destruct I as [<-|I]; [do 2 eexists; exists [q];
    (split; [eapply gm_fixed; [reflexivity|reflexivity|reflexivity|simpl; tauto]|exact HC|reflexivity|exact HV])|]); contradiction.
Qed.
Lemma SWAP_usable : forall n vals a b c cs, control_qubits (parse_control c) cs ->
    valid_qubits n (cs ++ [a; b]) -> usable n vals (SWAP (TTup [a; b]) c None false).
Proof.
  intros n vals a b c cs HC HV. do 2 eexists; exists [a; b]; split; [apply gm_SWAP; reflexivity|exact HC|reflexivity|exact HV].
Qed.
(** the value of a parameter *)
Definition param_angle (p : param) (vals : values) : Prop :=
  match p with PNum _ => True | PName s => exists x, lookup vals s = Ok (VNum x) end.
Lemma parametric_usable : forall n vals ctor p q c cs, In ctor parametric_gates -> param_angle p vals ->
    control_qubits (parse_control c) cs -> valid_qubits n (cs ++ [q]) -> usable n vals (ctor p (TInt q) c None false).
Proof.
  intros n vals ctor p q c cs I A HC HV.
  assert (EA : forall g, gparam g = p -> shift g = 0%R -> exists t, angle vals g t).
  { intros g Eg Sg; unfold angle; rewrite Eg; destruct p as [s|x]; simpl in A; [destruct A as (x & Ex); exists (x + shift g)%R, x; auto|eauto]. }
  simpl in I; destruct I as [<-|[<-|[<-|[<-|[]]]]].
  - destruct (EA (RX p (TInt q) c None false)) as (t & At); [reflexivity|reflexivity|]; do 2 eexists; exists [q].
    split; [|exact HC|reflexivity|exact HV].
    eapply (gm_rotation vals _ "X" RX_matrix t); [reflexivity|reflexivity|reflexivity|exact At|simpl; tauto].
  - destruct (EA (RY p (TInt q) c None false)) as (t & At); [reflexivity|reflexivity|]; do 2 eexists; exists [q].
    split; [|exact HC|reflexivity|exact HV].
    eapply (gm_rotation vals _ "Y" RY_matrix t); [reflexivity|reflexivity|reflexivity|exact At|simpl; tauto].
  - destruct (EA (RZ p (TInt q) c None false)) as (t & At); [reflexivity|reflexivity|]; do 2 eexists; exists [q].
    split; [|exact HC|reflexivity|exact HV].
    eapply (gm_rotation vals _ "Z" RZ_matrix t); [reflexivity|reflexivity|reflexivity|exact At|simpl; tauto].
  - destruct (EA (PHASE p (TInt q) c None false)) as (t & At); [reflexivity|reflexivity|]; do 2 eexists; exists [q].
    split; [|exact HC|reflexivity|exact HV].
    eapply (gm_PHASE vals _ t); [reflexivity|reflexivity|exact At].
Qed.
Lemma c22_applicable : forall w n vals psi c cs, is_state n psi -> control_qubits (parse_control c) cs ->
    (forall ctor q, In ctor [gI; gX; NOT; gY; gZ; gH; gS; gT] -> valid_qubits n (cs ++ [q]) ->
       exists out, apply_gates w (SDense psi) (GOne (ctor (TInt q) c None false)) vals UNITARY false true = Ok (SDense out) /\
                   is_state n out) /\
    (forall a b, valid_qubits n (cs ++ [a; b]) ->
       exists out, apply_gates w (SDense psi) (GOne (SWAP (TTup [a; b]) c None false)) vals UNITARY false true = Ok (SDense out) /\
                   is_state n out) /\
    (forall ctor p q, In ctor [RX; RY; RZ; PHASE] ->
       match p with PNum _ => True | PName s => exists x, lookup vals s = Ok (VNum x) end ->
       valid_qubits n (cs ++ [q]) ->
       exists out, apply_gates w (SDense psi) (GOne (ctor p (TInt q) c None false)) vals UNITARY false true = Ok (SDense out) /\
                   is_state n out).
Proof.
  intros w n vals psi c cs HS HC; repeat split.
  - intros ctor q I HV; apply usable_applies; [eapply fixed_usable; eassumption| | |exact HS];
      simpl in I; repeat (destruct I as [<-|I]; [reflexivity|]); contradiction.
  - intros a b HV; apply usable_applies; [eapply SWAP_usable; eassumption|reflexivity|reflexivity|exact HS].
  - intros ctor p q I A HV; apply usable_applies; [eapply parametric_usable; eassumption| | |exact HS];
      simpl in I; repeat (destruct I as [<-|I]; [reflexivity|]); contradiction.
Qed.
Lemma c22_refuted : forall w s vals t c ns sp ctor gr mg, In ctor [SQRTSWAP; ISWAP; ISQRTSWAP] ->
    apply_gates w s (GOne (ctor t c ns sp)) vals UNITARY gr mg = Err KeyError.
Proof. intros w s vals t c ns sp ctor gr mg I; simpl in I; destruct I as [<-|[<-|[<-|[]]]]; reflexivity. Qed.

(** ** C23 *)
Lemma PHASE_deriv : forall t b, kderiv 1 (fun s => PHASE_matrix (s + b)) t (mat2 C0 C0 C0 (Cmul Ci (Cexpi (t + b)))).
Proof.
  intros t b x y Hx Hy; bits1 Hx; bits1 Hy; simpl; try apply Cderiv_const.
  eapply Cderiv_ext; [|eapply Cderiv_eq; [|apply (Cderiv_affine Cexpi 1 b t); rewrite Rmult_1_l; apply Cderiv_expi]].
  - intro s; cbv beta; rewrite Rmult_1_l; reflexivity.
  - apply C_ext; simpl; ring.
Qed.
Lemma phase_family : forall w g (V : R -> values) b, gclass g = KPhase -> dense_gate g ->
    (forall s, angle (V s) g (s + b)%R) ->
    (forall s, unitary_of w g (V s) = Ok (MD (phase_matrix (s + b)))) /\
    (forall s, jacobian_of w g (V s) = Ok (MD (phase_jacobian (s + b)))).
Proof.
  intros w g V b K D A; unfold dense_gate in D.
  split; intro s; specialize (A s); apply angle_parse in A; unfold unitary_of, jacobian_of; rewrite K, A; cbn [bind];
    unfold maybe_sparse; rewrite D; reflexivity.
Qed.
Lemma phase_jacobian_eq : forall t, phase_jacobian t = matrix [[C0; C0]; [C0; Cmul Ci (Cexpi t)]].
Proof. reflexivity. Qed.

Lemma c23_phase : forall w g (V : R -> values) b t, gclass g = KPhase -> dense_gate g ->
    (forall s, angle (V s) g (s + b)%R) ->
    exists U J, (forall s, unitary_of w g (V s) = Ok (MD (U s))) /\ jacobian_of w g (V t) = Ok (MD J) /\
      is_matrix 1 J /\ kderiv 1 (fun s => entry (U s)) t (entry J).
Proof.
  intros w g V b t K D A. destruct (phase_family w g V b K D A) as [HU HJ].
  exists (fun s => phase_matrix (s + b)), (phase_jacobian (t + b)).
  split; [exact HU|]. split; [apply HJ|]. rewrite phase_jacobian_eq. split; [apply matrix2_is|].
  eapply kderiv_ext; [|eapply kderiv_eq; [|apply (PHASE_deriv t b)]].
  - intro s; cbv beta; rewrite phase_matrix_eq; apply keq_sym, matrix2_entry.
  - apply keq_sym, matrix2_entry.
Qed.

Lemma c23_refuted : forall w vals tgt c ns rot G, In (rot, G) [(RX, X_matrix); (RY, Y_matrix); (RZ, Z_matrix)] ->
    exists U J, (forall s, unitary_of w (rot (PNum s) tgt c ns false) vals = Ok (MD (U s))) /\
      jacobian_of w (rot (PNum PI) tgt c ns false) vals = Ok (MD J) /\
      ~ kderiv 1 (fun s => entry (U s)) PI (entry J).
Proof.
  intros w vals tgt c ns rot G I.
  destruct (c21_rotations w vals rot G tgt c ns I) as (U & HU & _).
  assert (HK : forall a, keq 1 (entry (U a)) (rotk G a)).
  { intro a; destruct (rotation_unitary w vals rot G a tgt c ns I) as (u & E & HM & HK).
    rewrite (proj1 (HU a)) in E; injection E as <-; exact HK. }
  assert (J : exists J, jacobian_of w (rot (PNum PI) tgt c ns false) vals = Ok (MD J) /\
            (entry J [0] [0] = C0 \/ entry J [1] [1] = RtoC (1 / 2))).
  { assert (C2 : cos ((PI + 0) / 2) = 0%R) by (replace ((PI + 0) / 2)%R with (PI / 2)%R by lra; apply cos_PI2).
    assert (S2 : sin ((PI + 0) / 2) = 1%R) by (replace ((PI + 0) / 2)%R with (PI / 2)%R by lra; apply sin_PI2).
    simpl in I; destruct I as [I|[I|[I|[]]]]; injection I as <- <-.
    - change (jacobian_of w (RX (PNum PI) tgt c ns false) vals) with (let! u := jacobian_of_generator m_X (PI + 0) in Ok (MD u)).
      unfold jacobian_of_generator; rewrite C2, S2. eexists; split; [reflexivity|left].
      unfold entry, get; cbn; apply C_ext; simpl; ring.
    - change (jacobian_of w (RY (PNum PI) tgt c ns false) vals) with (let! u := jacobian_of_generator m_Y (PI + 0) in Ok (MD u)).
      unfold jacobian_of_generator; rewrite C2, S2. eexists; split; [reflexivity|left].
      unfold entry, get; cbn; apply C_ext; simpl; ring.
    - change (jacobian_of w (RZ (PNum PI) tgt c ns false) vals) with (let! u := jacobian_of_generator m_Z (PI + 0) in Ok (MD u)).
      unfold jacobian_of_generator; rewrite C2, S2. eexists; split; [reflexivity|right].
      unfold entry, get; cbn; apply C_ext; simpl; field. }
  destruct J as (J & EJ & HJ). exists U, J; split; [intro s; apply HU|split; [exact EJ|]].
  intro D.
  assert (DI : forall x, x = [0] \/ x = [1] -> re (entry J x x) = (- (1 / 2))%R).
  { intros x Hx. assert (Hb : In x (bitstrings 1)) by (simpl; destruct Hx; subst; tauto).
    assert (D1 := D x x Hb Hb).
    assert (D2 : Cderiv (fun s => entry (U s) x x) PI
       (Cadd (Cmul (RtoC (- sin (PI / 2) / 2)) (kid x x)) (Cmul (Cmul (Copp Ci) (RtoC (cos (PI / 2) / 2))) (G x x)))).
    { eapply Cderiv_ext; [|apply rotk_deriv_entry]. intro s; symmetry; apply HK; assumption. }
    rewrite (Cderiv_unique _ _ _ _ D1 D2), sin_PI2, cos_PI2, kid_eq. simpl; lra. }
  destruct HJ as [HJ|HJ].
  - specialize (DI [0] (or_introl eq_refl)); rewrite HJ in DI; simpl in DI; lra.
  - specialize (DI [1] (or_intror eq_refl)); rewrite HJ in DI; simpl in DI; lra.
Qed.
