(** * Circuit identities in any context *)
From Coq Require Import String List Arith Bool Reals Lia Lra ZArith Permutation Sorted Nsatz.
From Verif Require Import Cplx Py PyFacts Ndarray OperatorUtils Sparse Matrices Noise Gates Apply Composite Conversion Shots Gpsr Api
  Spec SpecFacts Deriv GateSpec PropSpec NoiseSpec SampleSpec ExpectSpec GpsrSpec GateFacts CircuitFacts AlgebraFacts ApplyThm GateThm TensorFacts TensorThm
  KrausThm NoiseThm NoiseThm2 SeqThm SampleThm ShotsSpec ShotsThm ExpectThm ExpectThm2 GpsrFacts GpsrThm GpsrThm2 StructSpec PhysSpec PhysThm NoiseLawThm EvolThm2 CircuitLawSpec.
Import ListNotations.
Local Open Scope list_scope.
Local Open Scope nat_scope.

(** ** the operator of a list of gates *)
Definition kop (vals : values) (g : gate) : op := gate_op (mat_of vals g) (ctrl_of (control g)) (target g).
Fixpoint uop (n : nat) (vals : values) (gs : list gate) : op :=
  match gs with [] => kid | g :: gs' => kmul n (uop n vals gs') (kop vals g) end.
Lemma usable_valid : forall n vals g, usable n vals g -> valid_qubits n (ctrl_of (control g) ++ target g) /\ gate_on n vals g (mat_of vals g) (ctrl_of (control g)) (target g).
Proof.
  intros n vals g (M & cs & ts & HG). pose proof HG as [HM HC HT HV]. rewrite (mat_of_spec _ _ _ HM), (ctrl_of_spec _ _ HC), HT. split; [exact HV|]. exact HG.
Qed.
Lemma uop_circuit : forall n vals gs, Forall (usable n vals) gs -> circuit_on n vals gs (uop n vals gs).
Proof.
  intros n vals gs F. induction F as [|g gs U F IH]; [constructor|]. cbn [uop]. apply circ_cons; [apply usable_valid, U|exact IH].
Qed.
Lemma uop_app : forall n vals a b, keq n (uop n vals (a ++ b)) (kmul n (uop n vals b) (uop n vals a)).
Proof.
  intros n vals a b. induction a as [|g a IH]; cbn [app uop]; [apply keq_sym, kmul_id_r|].
  eapply keq_trans; [apply kmul_ext; [exact IH|apply keq_refl]|]. rewrite kmul_assoc. apply keq_refl.
Qed.
Lemma sandwiched_kmul : forall n A B r, keq n (sandwiched n A (sandwiched n B r)) (sandwiched n (kmul n A B) r).
Proof.
  intros n A B r. unfold sandwiched. eapply keq_trans; [|apply kmul_ext; [apply keq_refl|apply keq_sym, kadj_kmul]]. rewrite !kmul_assoc. apply keq_refl.
Qed.
Lemma sandwiched_kid : forall n r, keq n (sandwiched n kid r) r.
Proof. intros n r. unfold sandwiched. eapply keq_trans; [apply kmul_ext; [apply kmul_id_l|apply kadj_id]|apply kmul_id_r]. Qed.
Lemma sandwiched_keq : forall n A B r r', keq n A B -> keq n r r' -> keq n (sandwiched n A r) (sandwiched n B r').
Proof. intros n A B r r' E E'. unfold sandwiched. apply kmul_ext; [apply kmul_ext; assumption|apply kadj_ext; exact E]. Qed.
Lemma evolve_plain : forall n vals l r, Forall noiseless l -> keq n (evolve n vals l r) (sandwiched n (uop n vals l) r).
Proof.
  intros n vals l; induction l as [|g l IH]; intros r F; cbn [evolve uop]; [apply keq_sym, sandwiched_kid|]. inversion F as [|? ? N F']; subst.
  eapply keq_trans; [apply IH; exact F'|]. unfold step. rewrite N. cbn [channels]. apply sandwiched_kmul.
Qed.
(** ** replacing a part of a circuit *)
Lemma replace_exact : forall w n vals c c' gs1 l l' gs2 st, set_order (set_iter w) -> Forall noiseless l -> Forall noiseless l' ->
    keq n (uop n vals l) (uop n vals l') -> runnable n vals c (gs1 ++ l ++ gs2) -> runnable n vals c' (gs1 ++ l' ++ gs2) -> state_of n st ->
    (exists out, run w c st vals = Ok (Some out) /\ run w c' st vals = Ok (Some out)) /\
    (forall k, fst (sample w st c vals k) = fst (sample w st c' vals k)) /\
    (flat_values vals -> forall obs mode shots key, expectation w st c obs vals mode shots key = expectation w st c' obs vals mode shots key).
Proof.
  intros w n vals c c' gs1 l l' gs2 st SO NL NL' E RN RN' HT.
  destruct (output_spec w n vals c _ st SO RN HT) as (out & E1 & _ & E2 & S1 & K1 & M1 & P1).
  destruct (output_spec w n vals c' _ st SO RN' HT) as (out' & E1' & _ & E2' & S1' & K1' & M1' & P1').
  assert (MM : mixes st (gs1 ++ l ++ gs2) <-> mixes st (gs1 ++ l' ++ gs2)).
  { rewrite Forall_forall in NL, NL'. unfold noiseless in *. split; (intros [D|(g & I & N)]; [left; exact D|right]); rewrite !in_app_iff in I; destruct I as [I|[I|I]];
      try (exists g; split; [rewrite !in_app_iff; tauto|exact N]); elim N; auto. }
  assert (Q : out = out').
  { destruct (mixes_dec st (gs1 ++ l ++ gs2) (or_intror Logic.I)) as [MX|MX].
    - apply (state_eq n); auto; [|apply M1'; tauto]. eapply keq_trans; [exact K1|]. eapply keq_trans; [|apply keq_sym; exact K1']. rewrite !PhysThm.evolve_app.
      apply PhysThm.evolve_ext. eapply keq_trans; [apply evolve_plain; exact NL|]. eapply keq_trans; [|apply keq_sym, evolve_plain; exact NL'].
      apply sandwiched_keq; [exact E|apply keq_refl].
    - assert (SD : exists psi, st = SDense psi). { destruct st as [a|b|a]; [eauto|destruct HT|]. elim MX. left. eauto. }
      destruct SD as (psi & ->).
      assert (NN : Forall noiseless (gs1 ++ l ++ gs2)). { apply Forall_forall. intros g I. unfold noiseless. destruct (noise g) eqn:NG; [|reflexivity]. elim MX. right. exists g. split; [exact I|congruence]. }
      assert (NN' : Forall noiseless (gs1 ++ l' ++ gs2)). { apply Forall_forall. intros g I. unfold noiseless. destruct (noise g) eqn:NG; [|reflexivity]. elim MX. apply MM. right. exists g. split; [exact I|congruence]. }
      destruct RN as (_ & NE & FU & FD & _). destruct RN' as (_ & NE' & FU' & FD' & _).
      destruct (apply_gates_dense w n vals UNITARY true _ _ psi NE NN (circuit_on_gseq w n vals _ _ (uop_circuit n vals _ FU) FD) HT) as (a & Ea & Sa & Va).
      destruct (apply_gates_dense w n vals UNITARY true _ _ psi NE' NN' (circuit_on_gseq w n vals _ _ (uop_circuit n vals _ FU') FD') HT) as (a' & Ea' & Sa' & Va').
      rewrite Ea in E2; injection E2 as <-. rewrite Ea' in E2'; injection E2' as <-. f_equal. apply (state_ext n); [exact Sa|exact Sa'|].
      intros x Hx. rewrite (Va x Hx), (Va' x Hx). apply apply_kernel_ext; [|intros ? ?; reflexivity|exact Hx].
      eapply keq_trans; [apply uop_app|]. eapply keq_trans; [|apply keq_sym, uop_app]. apply kmul_ext; [|apply keq_refl].
      eapply keq_trans; [apply uop_app|]. eapply keq_trans; [|apply keq_sym, uop_app]. apply kmul_ext; [apply keq_refl|exact E]. }
  subst out'. split; [eauto|]. eapply same_everything; [apply RN|apply RN'|eassumption|eassumption|eassumption|eassumption].
Qed.
(** ** identities on one qubit, for any controls *)
Lemma valid_app : forall n a b, valid_qubits n (a ++ b) -> valid_qubits n a /\ valid_qubits n b.
Proof.
  intros n a b V. split; [eapply valid_app_l; exact V|eapply valid_app_r; exact V].
Qed.
Fixpoint prod1 (vals : values) (gs : list gate) : op :=
  match gs with [] => kid | g :: gs' => kmul 1 (prod1 vals gs') (mat_of vals g) end.
Definition placed (cs : list nat) (q : nat) (g : gate) : Prop := ctrl_of (control g) = cs /\ target g = [q].
Lemma uop_prod : forall n vals cs q gs, valid_qubits n (cs ++ [q]) -> Forall (placed cs q) gs -> keq n (uop n vals gs) (ctrl_kernel (prod1 vals gs) cs [q]).
Proof.
  intros n vals cs q gs V F. induction F as [|g gs [EC ET] F IH]; cbn [uop prod1].
  - apply keq_sym, ctrl_kernel_id. apply valid_app in V. apply V.
  - eapply keq_trans; [apply kmul_ext; [exact IH|]|apply ctrl_kernel_mul; exact V]. unfold kop, gate_op. rewrite EC, ET. apply keq_refl.
Qed.
Lemma one_qubit_law : forall n vals cs q l l', valid_qubits n (cs ++ [q]) -> Forall (placed cs q) l -> Forall (placed cs q) l' ->
    keq 1 (prod1 vals l) (prod1 vals l') -> keq n (uop n vals l) (uop n vals l').
Proof.
  intros n vals cs q l l' V F F' E. eapply keq_trans; [apply uop_prod; eassumption|]. eapply keq_trans; [|apply keq_sym, uop_prod; eassumption].
  apply ctrl_kernel_ext. exact E.
Qed.
(** conjugation of a controlled gate by uncontrolled gates on its target *)
Lemma conj_ctrl : forall n A B M cs q, valid_qubits n (cs ++ [q]) -> keq 1 (kmul 1 B A) kid ->
    keq n (kmul n (kmul n (ctrl_kernel B [] [q]) (ctrl_kernel M cs [q])) (ctrl_kernel A [] [q])) (ctrl_kernel (kmul 1 (kmul 1 B M) A) cs [q]).
Proof.
  intros n A B M cs q V BA. assert (V1 : valid_qubits n ([] ++ [q])) by (apply valid_app in V; apply V).
  eapply keq_trans; [rewrite kmul_assoc; apply keq_refl|]. intros x y Hx Hy. rewrite ctrl_split.
  assert (R : kmul n (ctrl_kernel B [] [q]) (kmul n (ctrl_kernel M cs [q]) (ctrl_kernel A [] [q])) x y =
              kmul n (ctrl_kernel B [] [q]) (if on cs x then kmul n (ctrl_kernel M [] [q]) (ctrl_kernel A [] [q]) else ctrl_kernel A [] [q]) x y).
  { apply ctrl_row; [exact V1|exact Hx|]. intros z Hz. assert (Hu : In (overwrite x [q] z) (bitstrings n)) by (apply overwrite_bits; assumption).
    assert (O : on cs (overwrite x [q] z) = on cs x) by (unfold on; rewrite (controls_kept n cs [q] x z V); reflexivity).
    destruct (on cs x) eqn:OX.
    - unfold kmul. apply csum_ext. intros u Hu'. rewrite ctrl_split, O. reflexivity.
    - transitivity (kmul n kid (ctrl_kernel A [] [q]) (overwrite x [q] z) y); [|apply kmul_id_l; assumption].
      unfold kmul. apply csum_ext. intros u Hu'. rewrite ctrl_split, O. reflexivity. }
  rewrite R. destruct (on cs x).
  - assert (K : keq n (kmul n (ctrl_kernel B [] [q]) (kmul n (ctrl_kernel M [] [q]) (ctrl_kernel A [] [q]))) (ctrl_kernel (kmul 1 (kmul 1 B M) A) [] [q])); [|exact (K x y Hx Hy)].
    rewrite <- kmul_assoc. eapply keq_trans; [apply kmul_ext; [apply (ctrl_kernel_mul n _ _ [] [q] V1)|apply keq_refl]|]. apply (ctrl_kernel_mul n _ _ [] [q] V1).
  - assert (K : keq n (kmul n (ctrl_kernel B [] [q]) (ctrl_kernel A [] [q])) kid); [|exact (K x y Hx Hy)].
    eapply keq_trans; [apply (ctrl_kernel_mul n _ _ [] [q] V1)|]. eapply keq_trans; [apply ctrl_kernel_ext; exact BA|]. apply ctrl_kernel_id. exact V1.
Qed.
Lemma conj_law : forall n vals cs q a g b g', valid_qubits n (cs ++ [q]) -> Forall (placed [] q) a -> Forall (placed [] q) b -> placed cs q g -> placed cs q g' ->
    keq 1 (kmul 1 (prod1 vals b) (prod1 vals a)) kid -> keq 1 (kmul 1 (kmul 1 (prod1 vals b) (mat_of vals g)) (prod1 vals a)) (mat_of vals g') ->
    keq n (uop n vals (a ++ g :: b)) (uop n vals [g']).
Proof.
  intros n vals cs q a g b g' V Fa Fb [Gc Gt] [Gc' Gt'] E1 E2. assert (V1 : valid_qubits n ([] ++ [q])) by (apply valid_app in V; apply V).
  eapply keq_trans; [apply uop_app|]. cbn [uop]. unfold kop at 1, gate_op. rewrite Gc, Gt.
  eapply keq_trans; [apply kmul_ext; [apply kmul_ext; [apply (uop_prod n vals [] q b V1 Fb)|apply keq_refl]|apply (uop_prod n vals [] q a V1 Fa)]|].
  eapply keq_trans; [apply conj_ctrl; [exact V|exact E1]|]. eapply keq_trans; [apply ctrl_kernel_ext; exact E2|].
  eapply keq_trans; [|apply keq_sym, kmul_id_l]. unfold kop, gate_op. rewrite Gc', Gt'. apply keq_refl.
Qed.
(** identities on two qubits *)
Lemma nested2 : forall n M a b, valid_qubits n [a; b] ->
    keq n (ctrl_kernel M [a] [b]) (ctrl_kernel (ctrl_kernel M [0] [1]) [] [a; b]) /\ keq n (ctrl_kernel M [b] [a]) (ctrl_kernel (ctrl_kernel M [1] [0]) [] [a; b]).
Proof.
  intros n M a b V. split; apply keq_sym.
  - apply (ctrl_kernel_nested n M [0] [1] [a; b] V); [split; [repeat constructor; simpl; tauto|repeat constructor]|intros p [<-|[]]; simpl; lia].
  - apply (ctrl_kernel_nested n M [1] [0] [a; b] V); [split; [repeat constructor; simpl; tauto|repeat constructor; lia]|intros p [<-|[]]; simpl; lia].
Qed.
Lemma swap_cnots : keq 2 SWAP_matrix (kmul 2 (ctrl_kernel X_matrix [0] [1]) (kmul 2 (ctrl_kernel X_matrix [1] [0]) (ctrl_kernel X_matrix [0] [1]))).
Proof. intros x y Hx Hy. bits2 Hx; bits2 Hy; lazy -[Rplus Rmult Ropp Rminus IZR]; f_equal; ring. Qed.
Lemma diag_symmetric : forall z, keq 2 (ctrl_kernel (mat2 C1 C0 C0 z) [0] [1]) (ctrl_kernel (mat2 C1 C0 C0 z) [1] [0]).
Proof. intros [u v] x y Hx Hy. bits2 Hx; bits2 Hy; lazy -[Rplus Rmult Ropp Rminus IZR]; f_equal; ring. Qed.
(** ** the matrices *)
Lemma mI : forall vals q c, mat_of vals (Ig q c) = I_matrix. Proof. reflexivity. Qed.
Lemma mX : forall vals q c, mat_of vals (Xg q c) = X_matrix. Proof. reflexivity. Qed.
Lemma mY : forall vals q c, mat_of vals (Yg q c) = Y_matrix. Proof. reflexivity. Qed.
Lemma mZ : forall vals q c, mat_of vals (Zg q c) = Z_matrix. Proof. reflexivity. Qed.
Lemma mH : forall vals q c, mat_of vals (Hg q c) = H_matrix. Proof. reflexivity. Qed.
Lemma mS : forall vals q c, mat_of vals (Sg q c) = S_matrix. Proof. reflexivity. Qed.
Lemma mT : forall vals q c, mat_of vals (Tg q c) = T_matrix. Proof. reflexivity. Qed.
Lemma mRX : forall vals t q c, mat_of vals (RXg t q c) = RX_matrix t.
Proof. intros. change (RX_matrix (t + 0) = RX_matrix t). rewrite Rplus_0_r. reflexivity. Qed.
Lemma mRY : forall vals t q c, mat_of vals (RYg t q c) = RY_matrix t.
Proof. intros. change (RY_matrix (t + 0) = RY_matrix t). rewrite Rplus_0_r. reflexivity. Qed.
Lemma mRZ : forall vals t q c, mat_of vals (RZg t q c) = RZ_matrix t.
Proof. intros. change (RZ_matrix (t + 0) = RZ_matrix t). rewrite Rplus_0_r. reflexivity. Qed.
Lemma mP : forall vals t q c, mat_of vals (Pg t q c) = PHASE_matrix t.
Proof. intros. change (PHASE_matrix (t + 0) = PHASE_matrix t). rewrite Rplus_0_r. reflexivity. Qed.
Ltac mats := cbn [prod1]; rewrite ?mI, ?mX, ?mY, ?mZ, ?mH, ?mS, ?mT, ?mRX, ?mRY, ?mRZ, ?mP.
Lemma half_sqrt2 : ((1 / sqrt 2) * (1 / sqrt 2) = 1 / 2)%R.
Proof. assert (sqrt 2 * sqrt 2 = 2)%R by (apply sqrt_sqrt; lra). assert (sqrt 2 <> 0)%R by (intro E; rewrite E in H; lra). field_simplify; [|assumption]. replace (sqrt 2 ^ 2)%R with (sqrt 2 * sqrt 2)%R by ring. rewrite H. field. Qed.
Ltac entries1 := intros x y Hx Hy; unfold kmul, kid, I_matrix, X_matrix, Y_matrix, Z_matrix, H_matrix, S_matrix, T_matrix, RX_matrix, RY_matrix, RZ_matrix, PHASE_matrix, Cn; cbv zeta;
  bits1 Hx; bits1 Hy; cbn [bitstrings map app csum fold_right mat2]; unfold Cexpi;
  repeat match goal with |- context [list_eq_dec Nat.eq_dec ?a ?b] => destruct (list_eq_dec Nat.eq_dec a b) as [E|E]; try discriminate E; try (elim E; reflexivity); clear E end.
Ltac trig := rewrite ?cos_PI4, ?sin_PI4, ?cos_PI2, ?sin_PI2, ?cos_PI, ?sin_PI, ?cos_0, ?sin_0.
Lemma half_sqrt2' : (2 * ((1 / sqrt 2) * (1 / sqrt 2)) = 1)%R. Proof. rewrite half_sqrt2. lra. Qed.
Ltac root := pose proof half_sqrt2' as Hr; set (h := (1 / sqrt 2)%R) in *; clearbody h.
Lemma lXX : keq 1 (kmul 1 (kmul 1 kid X_matrix) X_matrix) kid. Proof. entries1; apply C_ext; simpl; ring. Qed.
Lemma lYY : keq 1 (kmul 1 (kmul 1 kid Y_matrix) Y_matrix) kid. Proof. entries1; apply C_ext; simpl; ring. Qed.
Lemma lZZ : keq 1 (kmul 1 (kmul 1 kid Z_matrix) Z_matrix) kid. Proof. entries1; apply C_ext; simpl; ring. Qed.
Ltac fin := apply C_ext; simpl; (ring || nsatz).
Lemma lHH : keq 1 (kmul 1 (kmul 1 kid H_matrix) H_matrix) kid. Proof. entries1; root; fin. Qed.
Lemma lII : keq 1 (kmul 1 kid I_matrix) kid. Proof. entries1; fin. Qed.
Lemma lSS : keq 1 (kmul 1 (kmul 1 kid S_matrix) S_matrix) (kmul 1 kid Z_matrix). Proof. entries1; fin. Qed.
Lemma lTT : keq 1 (kmul 1 (kmul 1 kid T_matrix) T_matrix) (kmul 1 kid S_matrix). Proof. entries1; trig; root; fin. Qed.
Lemma lRX : forall s t, keq 1 (kmul 1 (kmul 1 kid (RX_matrix t)) (RX_matrix s)) (kmul 1 kid (RX_matrix (s + t))).
Proof. intros s t. entries1; replace ((s + t) / 2)%R with (s / 2 + t / 2)%R by lra; rewrite ?cos_plus, ?sin_plus; fin. Qed.
Lemma lRY : forall s t, keq 1 (kmul 1 (kmul 1 kid (RY_matrix t)) (RY_matrix s)) (kmul 1 kid (RY_matrix (s + t))).
Proof. intros s t. entries1; replace ((s + t) / 2)%R with (s / 2 + t / 2)%R by lra; rewrite ?cos_plus, ?sin_plus; fin. Qed.
Lemma lRZ : forall s t, keq 1 (kmul 1 (kmul 1 kid (RZ_matrix t)) (RZ_matrix s)) (kmul 1 kid (RZ_matrix (s + t))).
Proof. intros s t. entries1; replace (- (s + t) / 2)%R with (- s / 2 + - t / 2)%R by lra; replace ((s + t) / 2)%R with (s / 2 + t / 2)%R by lra; rewrite ?cos_plus, ?sin_plus; fin. Qed.
Lemma lP : forall s t, keq 1 (kmul 1 (kmul 1 kid (PHASE_matrix t)) (PHASE_matrix s)) (kmul 1 kid (PHASE_matrix (s + t))).
Proof. intros s t. entries1; rewrite ?cos_plus, ?sin_plus; fin. Qed.
Lemma lRX0 : keq 1 (kmul 1 kid (RX_matrix 0)) kid. Proof. entries1; replace (0 / 2)%R with 0%R by lra; trig; fin. Qed.
Lemma lRY0 : keq 1 (kmul 1 kid (RY_matrix 0)) kid. Proof. entries1; replace (0 / 2)%R with 0%R by lra; trig; fin. Qed.
Lemma lRZ0 : keq 1 (kmul 1 kid (RZ_matrix 0)) kid. Proof. entries1; replace (- 0 / 2)%R with 0%R by lra; replace (0 / 2)%R with 0%R by lra; trig; fin. Qed.
Lemma lP0 : keq 1 (kmul 1 kid (PHASE_matrix 0)) kid. Proof. entries1; trig; fin. Qed.
Lemma lPZ : keq 1 (kmul 1 kid (PHASE_matrix PI)) (kmul 1 kid Z_matrix). Proof. entries1; trig; fin. Qed.
Lemma lPS : keq 1 (kmul 1 kid (PHASE_matrix (PI / 2))) (kmul 1 kid S_matrix). Proof. entries1; trig; fin. Qed.
Lemma lPT : keq 1 (kmul 1 kid (PHASE_matrix (PI / 4))) (kmul 1 kid T_matrix). Proof. entries1; fin. Qed.
Lemma lHXH : keq 1 (kmul 1 (kmul 1 (kmul 1 kid H_matrix) X_matrix) (kmul 1 kid H_matrix)) Z_matrix. Proof. entries1; root; fin. Qed.
Lemma lHZH : keq 1 (kmul 1 (kmul 1 (kmul 1 kid H_matrix) Z_matrix) (kmul 1 kid H_matrix)) X_matrix. Proof. entries1; root; fin. Qed.
Lemma lHH' : keq 1 (kmul 1 (kmul 1 kid H_matrix) (kmul 1 kid H_matrix)) kid. Proof. entries1; root; fin. Qed.
Lemma lXX' : keq 1 (kmul 1 (kmul 1 kid X_matrix) (kmul 1 kid X_matrix)) kid. Proof. entries1; fin. Qed.
Lemma lHRXH : forall t, keq 1 (kmul 1 (kmul 1 (kmul 1 kid H_matrix) (RX_matrix t)) (kmul 1 kid H_matrix)) (RZ_matrix t).
Proof. intro t. entries1; replace (- t / 2)%R with (- (t / 2))%R by lra; rewrite ?cos_neg, ?sin_neg; root; fin. Qed.
Lemma lXRZX : forall t, keq 1 (kmul 1 (kmul 1 (kmul 1 kid X_matrix) (RZ_matrix t)) (kmul 1 kid X_matrix)) (RZ_matrix (- t)).
Proof. intro t. entries1; replace (- - t / 2)%R with (t / 2)%R by lra; fin. Qed.
Lemma lSX : keq 1 (kmul 1 (kmul 1 (kmul 1 kid S_matrix) X_matrix) (kmul 1 (kmul 1 (kmul 1 kid S_matrix) S_matrix) S_matrix)) Y_matrix. Proof. entries1; fin. Qed.
Lemma lSSSS : keq 1 (kmul 1 (kmul 1 kid S_matrix) (kmul 1 (kmul 1 (kmul 1 kid S_matrix) S_matrix) S_matrix)) kid. Proof. entries1; fin. Qed.

Lemma law_noiseless : forall l l', same_circuit l l' -> Forall noiseless l /\ Forall noiseless l'.
Proof. intros l l' H; destruct H; split; repeat (apply Forall_cons; [first [assumption|reflexivity]|]); apply Forall_nil. Qed.
Ltac one U law := destruct (usable_valid _ _ _ U) as [V _]; eapply one_qubit_law; [exact V|repeat (apply Forall_cons; [split; reflexivity|]); apply Forall_nil
  |repeat (apply Forall_cons; [split; reflexivity|]); apply Forall_nil|mats; apply law].
Ltac sandwich U a g b law1 law2 := destruct (usable_valid _ _ _ U) as [V _]; apply (conj_law _ _ _ _ a g b _ V);
  [repeat (apply Forall_cons; [split; reflexivity|]); apply Forall_nil|repeat (apply Forall_cons; [split; reflexivity|]); apply Forall_nil|split; reflexivity|split; reflexivity|mats; apply law1|mats; apply law2].
Lemma same_uop : forall n vals l l', same_circuit l l' -> Forall (usable n vals) l -> Forall (usable n vals) l' -> keq n (uop n vals l) (uop n vals l').
Proof.
  intros n vals l l' H F F'. destruct H; pose proof F as F0; inversion F as [|? ? U F1]; subst.
  - one U lII.
  - one U lXX.
  - one U lYY.
  - one U lZZ.
  - one U lHH.
  - one U lSS.
  - one U lTT.
  - inversion F1 as [|? ? U1 _]; subst. sandwich U1 [Hg q no_control] (Xg q c) [Hg q no_control] lHH' lHXH.
  - inversion F1 as [|? ? U1 _]; subst. sandwich U1 [Hg q no_control] (Zg q c) [Hg q no_control] lHH' lHZH.
  - inversion F1 as [|? ? _ F2]; inversion F2 as [|? ? _ F3]; inversion F3 as [|? ? U1 _]; subst.
    sandwich U1 [Sg q no_control; Sg q no_control; Sg q no_control] (Xg q c) [Sg q no_control] lSSSS lSX.
  - one U lRX.
  - one U lRY.
  - one U lRZ.
  - one U lP.
  - one U lRX0.
  - one U lRY0.
  - one U lRZ0.
  - one U lP0.
  - one U lPZ.
  - one U lPS.
  - one U lPT.
  - inversion F1 as [|? ? U1 _]; subst. sandwich U1 [Hg q no_control] (RXg t q c) [Hg q no_control] lHH' lHRXH.
  - inversion F1 as [|? ? U1 _]; subst. sandwich U1 [Xg q no_control] (RZg t q c) [Xg q no_control] lXX' lXRZX.
  - destruct (usable_valid _ _ _ U) as [V _]. change (valid_qubits n [a; b]) in V.
    cbn [uop]. eapply keq_trans; [apply kmul_id_l|]. change (kop vals (SWAPg a b)) with (ctrl_kernel SWAP_matrix [] [a; b]).
    change (kop vals (Xg b (IInt a))) with (ctrl_kernel X_matrix [a] [b]). change (kop vals (Xg a (IInt b))) with (ctrl_kernel X_matrix [b] [a]).
    destruct (nested2 n X_matrix a b V) as [N1 N2]. apply keq_sym.
    eapply keq_trans; [apply kmul_ext; [apply kmul_ext; [eapply keq_trans; [apply kmul_id_l|exact N1]|exact N2]|exact N1]|].
    eapply keq_trans; [apply kmul_ext; [apply (ctrl_kernel_mul n _ _ [] [a; b] V)|apply keq_refl]|]. eapply keq_trans; [apply (ctrl_kernel_mul n _ _ [] [a; b] V)|].
    apply ctrl_kernel_ext. eapply keq_trans; [|apply keq_sym, swap_cnots]. rewrite kmul_assoc. apply keq_refl.
  - destruct (usable_valid _ _ _ U) as [V _]. change (valid_qubits n [a; b]) in V.
    cbn [uop]. apply kmul_ext; [apply keq_refl|]. change (keq n (ctrl_kernel Z_matrix [a] [b]) (ctrl_kernel Z_matrix [b] [a])).
    destruct (nested2 n Z_matrix a b V) as [N1 N2]. eapply keq_trans; [exact N1|]. eapply keq_trans; [|apply keq_sym; exact N2]. apply ctrl_kernel_ext. apply diag_symmetric.
  - destruct (usable_valid _ _ _ U) as [V _]. change (valid_qubits n [a; b]) in V.
    cbn [uop]. apply kmul_ext; [apply keq_refl|]. unfold kop. rewrite !mP. change (keq n (ctrl_kernel (PHASE_matrix t) [a] [b]) (ctrl_kernel (PHASE_matrix t) [b] [a])).
    destruct (nested2 n (PHASE_matrix t) a b V) as [N1 N2]. eapply keq_trans; [exact N1|]. eapply keq_trans; [|apply keq_sym; exact N2]. apply ctrl_kernel_ext. apply diag_symmetric.
  - inversion F1 as [|? ? U1 _]; subst. destruct (usable_valid _ _ _ U) as [V G]. destruct (usable_valid _ _ _ U1) as [V1 G1]. cbn [uop].
    eapply keq_trans; [apply kmul_ext; [apply kmul_id_l|apply keq_refl]|]. eapply keq_trans; [|apply kmul_ext; [apply keq_sym, kmul_id_l|apply keq_refl]].
    apply ctrl_kernel_comm. destruct V as [N Q], V1 as [N' Q']. split; [|apply Forall_app; split; assumption]. apply NoDup_app_intro; [assumption|assumption|].
    intros q I I'. apply (H1 q); [exists (ctrl_of (control g)); split; [apply (go_control _ _ _ _ _ _ G)|exact I']|exists (ctrl_of (control g')); split; [apply (go_control _ _ _ _ _ _ G1)|exact I]].
Qed.
Lemma c102_identities : forall w n vals c c' gs1 l l' gs2 st, set_order (set_iter w) -> same_circuit l l' ->
    runnable n vals c (gs1 ++ l ++ gs2) -> runnable n vals c' (gs1 ++ l' ++ gs2) -> state_of n st ->
    (exists out, run w c st vals = Ok (Some out) /\ run w c' st vals = Ok (Some out)) /\
    (forall k, fst (sample w st c vals k) = fst (sample w st c' vals k)) /\
    (flat_values vals -> forall obs mode shots key, expectation w st c obs vals mode shots key = expectation w st c' obs vals mode shots key).
Proof.
  intros w n vals c c' gs1 l l' gs2 st SO SC RN RN' HT. destruct (law_noiseless l l' SC) as [NL NL'].
  apply (replace_exact w n vals c c' gs1 l l' gs2); auto. apply same_uop; [exact SC| |].
  - destruct RN as (_ & _ & FU & _). apply Forall_app in FU as [_ FU]. apply Forall_app in FU as [FU _]. exact FU.
  - destruct RN' as (_ & _ & FU & _). apply Forall_app in FU as [_ FU]. apply Forall_app in FU as [FU _]. exact FU.
Qed.
