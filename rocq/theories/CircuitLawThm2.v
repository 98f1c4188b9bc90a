(** * Circuit identities up to a global phase *)
From Coq Require Import String List Arith Bool Reals Lia Lra ZArith Permutation Sorted Nsatz.
From Verif Require Import Cplx Py PyFacts Ndarray OperatorUtils Sparse Matrices Noise Gates Apply Composite Conversion Shots Gpsr Api
  Spec SpecFacts Deriv GateSpec PropSpec NoiseSpec SampleSpec ExpectSpec GpsrSpec GateFacts CircuitFacts AlgebraFacts ApplyThm GateThm TensorFacts TensorThm
  KrausThm NoiseThm NoiseThm2 SeqThm SampleThm ShotsSpec ShotsThm ExpectThm ExpectThm2 GpsrFacts GpsrThm GpsrThm2 StructSpec PhysSpec PhysThm NoiseLawThm EvolThm2 CircuitLawSpec CircuitLawThm.
Import ListNotations.
Local Open Scope list_scope.
Local Open Scope nat_scope.
(** ** identities up to a global phase *)
Lemma sandwiched_scale : forall n z A r, Cnorm2 z = 1%R -> keq n (sandwiched n (kscale z A) r) (sandwiched n A r).
Proof.
  intros n z A r Z x y Hx Hy. unfold sandwiched. unfold kmul at 1 3. apply csum_ext. intros u Hu.
  assert (E1 : kmul n (kscale z A) r x u = (z * kmul n A r x u)%C). { unfold kmul. rewrite <- csum_scale_l. apply csum_ext. intros v Hv. unfold kscale. ring. }
  rewrite E1. unfold kadj, kscale. rewrite Cconj_mul. transitivity ((z * Cconj z) * (kmul n A r x u * Cconj (A y u)))%C; [ring|].
  replace (z * Cconj z)%C with C1; [ring|]. apply C_ext; unfold Cnorm2 in Z; simpl in *; [rewrite <- Z; ring|ring].
Qed.
Lemma uop_phase : forall n vals a b l l' z, keq n (uop n vals l) (kscale z (uop n vals l')) -> keq n (uop n vals (a ++ l ++ b)) (kscale z (uop n vals (a ++ l' ++ b))).
Proof.
  intros n vals a b l l' z E. 
  assert (S1 : forall A B, keq n (kmul n A (kscale z B)) (kscale z (kmul n A B))). { intros A B x y _ _. unfold kmul, kscale. rewrite <- csum_scale_l. apply csum_ext. intros. ring. }
  assert (S2 : forall A B, keq n (kmul n (kscale z A) B) (kscale z (kmul n A B))). { intros A B x y _ _. unfold kmul, kscale. rewrite <- csum_scale_l. apply csum_ext. intros. ring. }
  assert (S3 : forall A B, keq n A B -> keq n (kscale z A) (kscale z B)). { intros A B H x y Hx Hy. unfold kscale. rewrite H by assumption. reflexivity. }
  eapply keq_trans; [apply uop_app|]. eapply keq_trans; [|apply S3, keq_sym, uop_app]. eapply keq_trans; [|apply S2]. apply kmul_ext; [|apply keq_refl].
  eapply keq_trans; [apply uop_app|]. eapply keq_trans; [|apply S3, keq_sym, uop_app]. eapply keq_trans; [apply kmul_ext; [apply keq_refl|exact E]|apply S1].
Qed.
Lemma replace_phase : forall w n vals c c' gs1 l l' gs2 st z, set_order (set_iter w) -> choice_contract w -> 1 <= n -> Forall noiseless l -> Forall noiseless l' ->
    Cnorm2 z = 1%R -> keq n (uop n vals l) (kscale z (uop n vals l')) ->
    runnable n vals c (gs1 ++ l ++ gs2) -> runnable n vals c' (gs1 ++ l' ++ gs2) -> state_of n st ->
    (exists out out', run w c st vals = Ok (Some out) /\ run w c' st vals = Ok (Some out') /\ equal_up_to_phase n out out') /\
    (forall k, fst (sample w st c vals k) = fst (sample w st c' vals k)) /\
    (flat_values vals -> forall obs Ks mode key, obs <> [] -> Forall2 (readable w n vals st (gs1 ++ l ++ gs2)) obs Ks -> exact_mode mode ->
      exists v, expectation w st c obs vals mode 0 key = Ok v /\ expectation w st c' obs vals mode 0 key = Ok v).
Proof.
  intros w n vals c c' gs1 l l' gs2 st z SO CC Hn NL NL' Z E RN RN' HT.
  assert (EV : keq n (evolve n vals (gs1 ++ l ++ gs2) (density_of st)) (evolve n vals (gs1 ++ l' ++ gs2) (density_of st))).
  { rewrite !PhysThm.evolve_app. apply PhysThm.evolve_ext. eapply keq_trans; [apply evolve_plain; exact NL|]. eapply keq_trans; [|apply keq_sym, evolve_plain; exact NL'].
    eapply keq_trans; [apply sandwiched_keq; [exact E|apply keq_refl]|]. apply sandwiched_scale. exact Z. }
  assert (MM : mixes st (gs1 ++ l ++ gs2) <-> mixes st (gs1 ++ l' ++ gs2)).
  { rewrite Forall_forall in NL, NL'. unfold noiseless in *. split; (intros [D|(g & I & N)]; [left; exact D|right]); rewrite !in_app_iff in I; destruct I as [I|[I|I]];
      try (exists g; split; [rewrite !in_app_iff; tauto|exact N]); elim N; auto. }
  split; [|split].
  - destruct (output_spec w n vals c _ st SO RN HT) as (out & E1 & _ & E2 & S1 & K1 & M1 & P1).
    destruct (output_spec w n vals c' _ st SO RN' HT) as (out' & E1' & _ & E2' & S1' & K1' & M1' & P1').
    exists out, out'. split; [exact E1|]. split; [exact E1'|].
    destruct (mixes_dec st (gs1 ++ l ++ gs2) (or_intror Logic.I)) as [MX|MX].
    + assert (Q : out = out'). { apply (state_eq n); auto; [|apply M1'; tauto]. eapply keq_trans; [exact K1|]. eapply keq_trans; [exact EV|]. apply keq_sym; exact K1'. }
      subst out'. destruct (M1 MX) as (a & ->). apply eup_density.
    + assert (SD : exists psi, st = SDense psi). { destruct st as [a|b|a]; [eauto|destruct HT|]. elim MX. left. eauto. }
      destruct SD as (psi & ->).
      assert (NN : Forall noiseless (gs1 ++ l ++ gs2)). { apply Forall_forall. intros g I. unfold noiseless. destruct (noise g) eqn:NG; [|reflexivity]. elim MX. right. exists g. split; [exact I|congruence]. }
      assert (NN' : Forall noiseless (gs1 ++ l' ++ gs2)). { apply Forall_forall. intros g I. unfold noiseless. destruct (noise g) eqn:NG; [|reflexivity]. elim MX. apply MM. right. exists g. split; [exact I|congruence]. }
      destruct RN as (_ & NE & FU & FD & _). destruct RN' as (_ & NE' & FU' & FD' & _).
      destruct (apply_gates_dense w n vals UNITARY true _ _ psi NE NN (circuit_on_gseq w n vals _ _ (uop_circuit n vals _ FU) FD) HT) as (a & Ea & Sa & Va).
      destruct (apply_gates_dense w n vals UNITARY true _ _ psi NE' NN' (circuit_on_gseq w n vals _ _ (uop_circuit n vals _ FU') FD') HT) as (a' & Ea' & Sa' & Va').
      rewrite Ea in E2; injection E2 as <-. rewrite Ea' in E2'; injection E2' as <-. apply (eup_vector n a a' z Z).
      intros x Hx. rewrite (Va x Hx), (Va' x Hx). 
      transitivity (apply_kernel n (kscale z (uop n vals (gs1 ++ l' ++ gs2))) (amp psi) x).
      * apply apply_kernel_ext; [|intros ? ?; reflexivity|exact Hx]. apply uop_phase. exact E.
      * unfold apply_kernel, kscale. rewrite <- csum_scale_l. apply csum_ext. intros. ring.
  - intro k. destruct (Z.ltb k 1) eqn:KZ; [unfold sample; rewrite KZ; reflexivity|]. apply Z.ltb_ge in KZ.
    rewrite (sample_spec w n vals c _ st k SO CC Hn KZ RN HT), (sample_spec w n vals c' _ st k SO CC Hn KZ RN' HT).
    assert (Q : map (fun x => re (evolve n vals (gs1 ++ l ++ gs2) (density_of st) x x)) (bitstrings n) = map (fun x => re (evolve n vals (gs1 ++ l' ++ gs2) (density_of st) x x)) (bitstrings n)).
    { apply map_ext_in. intros x Hx. rewrite (EV x x Hx Hx). reflexivity. }
    rewrite Q. reflexivity.
  - intros FV obs Ks mode key NO F EM. exists (map (fun K => mean_density n K (evolve n vals (gs1 ++ l ++ gs2) (density_of st))) Ks). split.
    + apply (exact_spec w n vals c _ st obs Ks mode key); assumption.
    + rewrite (exact_spec w n vals c' (gs1 ++ l' ++ gs2) st obs Ks mode key); try assumption.
      * f_equal. apply map_ext. intro K. apply mean_density_ext; [apply keq_refl|apply keq_sym; exact EV].
      * eapply F2_impl; [|exact F]. intros o K [H1 H2]. split; [exact H1|]. intro M. apply H2. tauto.
Qed.
Lemma phase_law : forall n vals q l l' z, valid_qubits n [q] -> Forall (placed [] q) l -> Forall (placed [] q) l' ->
    keq 1 (prod1 vals l) (kscale z (prod1 vals l')) -> keq n (uop n vals l) (kscale z (uop n vals l')).
Proof.
  intros n vals q l l' z V F F' E. eapply keq_trans; [apply (uop_prod n vals [] q l V F)|].
  intros x y Hx Hy. unfold kscale. rewrite (uop_prod n vals [] q l' V F' x y Hx Hy). rewrite (ctrl_kernel_ext n _ _ [] [q] E x y Hx Hy).
  unfold ctrl_kernel, kscale. change (all_ones (bits_at x [])) with true. cbn iota. rewrite <- csum_scale_l. apply csum_ext. intros. ring.
Qed.
Ltac entries2 := intros x y Hx Hy; unfold kscale, kmul, kid, I_matrix, X_matrix, Y_matrix, Z_matrix, H_matrix, S_matrix, T_matrix, RX_matrix, RY_matrix, RZ_matrix, PHASE_matrix, Cn; cbv zeta;
  bits1 Hx; bits1 Hy; cbn [bitstrings map app csum fold_right mat2]; unfold Cexpi;
  repeat match goal with |- context [list_eq_dec Nat.eq_dec ?a ?b] => destruct (list_eq_dec Nat.eq_dec a b) as [E|E]; try discriminate E; try (elim E; reflexivity); clear E end.
Definition mi : C := Copp Ci.
Lemma pRX : keq 1 (kmul 1 kid (RX_matrix PI)) (kscale mi (kmul 1 kid X_matrix)). Proof. entries2; trig; fin. Qed.
Lemma pRY : keq 1 (kmul 1 kid (RY_matrix PI)) (kscale mi (kmul 1 kid Y_matrix)). Proof. entries2; trig; fin. Qed.
Lemma pRZ : keq 1 (kmul 1 kid (RZ_matrix PI)) (kscale mi (kmul 1 kid Z_matrix)).
Proof. entries2; replace (- PI / 2)%R with (- (PI / 2))%R by lra; rewrite ?cos_neg, ?sin_neg; trig; fin. Qed.
Lemma pP : forall t, keq 1 (kmul 1 kid (RZ_matrix t)) (kscale (Cexpi (- t / 2)) (kmul 1 kid (PHASE_matrix t))).
Proof.
  intro t. entries2; replace (- t / 2)%R with (- (t / 2))%R by lra; try replace (cos t) with (cos (t / 2 + t / 2)) by (f_equal; lra); try replace (sin t) with (sin (t / 2 + t / 2)) by (f_equal; lra);
    rewrite ?cos_plus, ?sin_plus, ?cos_neg, ?sin_neg; pose proof (sin2_cos2 (t / 2)) as SC; unfold Rsqr in SC; set (u := cos (t / 2)) in *; set (v := sin (t / 2)) in *; clearbody u v; fin.
Qed.
Lemma pXY : keq 1 (kmul 1 (kmul 1 kid Y_matrix) X_matrix) (kscale mi (kmul 1 kid Z_matrix)). Proof. entries2; fin. Qed.
Lemma pYZ : keq 1 (kmul 1 (kmul 1 kid Z_matrix) Y_matrix) (kscale mi (kmul 1 kid X_matrix)). Proof. entries2; fin. Qed.
Lemma pZX : keq 1 (kmul 1 (kmul 1 kid X_matrix) Z_matrix) (kscale mi (kmul 1 kid Y_matrix)). Proof. entries2; fin. Qed.
Lemma pXZ : keq 1 (kmul 1 (kmul 1 kid Z_matrix) X_matrix) (kscale (Copp C1) (kmul 1 (kmul 1 kid X_matrix) Z_matrix)). Proof. entries2; fin. Qed.
Lemma pH : keq 1 (kmul 1 (kmul 1 (kmul 1 kid (RZ_matrix (PI / 2))) (RX_matrix (PI / 2))) (RZ_matrix (PI / 2))) (kscale mi (kmul 1 kid H_matrix)).
Proof. entries2; replace (- (PI / 2) / 2)%R with (- (PI / 4))%R by lra; replace (PI / 2 / 2)%R with (PI / 4)%R by lra; rewrite ?cos_neg, ?sin_neg; trig; root; fin. Qed.
Lemma norm_mi : Cnorm2 mi = 1%R. Proof. unfold Cnorm2, mi; simpl. ring. Qed.
Lemma norm_m1 : Cnorm2 (Copp C1) = 1%R. Proof. unfold Cnorm2; simpl. ring. Qed.
Lemma norm_expi : forall t, Cnorm2 (Cexpi t) = 1%R. Proof. intro t. unfold Cnorm2, Cexpi; simpl. pose proof (sin2_cos2 t) as E. unfold Rsqr in E. nra. Qed.
Ltac ph z nz law V := exists z; split; [exact nz|]; eapply phase_law; [exact V|repeat (apply Forall_cons; [split; reflexivity|]); apply Forall_nil
  |repeat (apply Forall_cons; [split; reflexivity|]); apply Forall_nil|mats; apply law].
Lemma phase_uop : forall n vals l l', same_up_to_phase l l' -> Forall (usable n vals) l ->
    exists z, Cnorm2 z = 1%R /\ keq n (uop n vals l) (kscale z (uop n vals l')).
Proof.
  intros n vals l l' H F. destruct H; inversion F as [|? ? U F1]; subst; destruct (usable_valid _ _ _ U) as [V _]; change (valid_qubits n [q]) in V.
  - ph mi norm_mi pRX V.
  - ph mi norm_mi pRY V.
  - ph mi norm_mi pRZ V.
  - ph (Cexpi (- t / 2)) (norm_expi (- t / 2)) pP V.
  - ph mi norm_mi pXY V.
  - ph mi norm_mi pYZ V.
  - ph mi norm_mi pZX V.
  - ph (Copp C1) norm_m1 pXZ V.
  - ph mi norm_mi pH V.
Qed.
Lemma phase_noiseless : forall l l', same_up_to_phase l l' -> Forall noiseless l /\ Forall noiseless l' /\ exists g l0 q, l = g :: l0 /\ target g = [q].
Proof. intros l l' H; destruct H; (split; [|split; [|do 3 eexists; split; reflexivity]]); repeat (apply Forall_cons; [reflexivity|]); apply Forall_nil. Qed.
Lemma c103_phase : forall w n vals c c' gs1 l l' gs2 st, set_order (set_iter w) -> choice_contract w -> same_up_to_phase l l' ->
    runnable n vals c (gs1 ++ l ++ gs2) -> runnable n vals c' (gs1 ++ l' ++ gs2) -> state_of n st ->
    (exists out out', run w c st vals = Ok (Some out) /\ run w c' st vals = Ok (Some out') /\ equal_up_to_phase n out out') /\
    (forall k, fst (sample w st c vals k) = fst (sample w st c' vals k)) /\
    (flat_values vals -> forall obs Ks mode key, obs <> [] -> Forall2 (readable w n vals st (gs1 ++ l ++ gs2)) obs Ks -> exact_mode mode ->
      exists v, expectation w st c obs vals mode 0 key = Ok v /\ expectation w st c' obs vals mode 0 key = Ok v).
Proof.
  intros w n vals c c' gs1 l l' gs2 st SO CC SP RN RN' HT. destruct (phase_noiseless l l' SP) as (NL & NL' & g & l0 & q & -> & TG).
  assert (FL : Forall (usable n vals) (g :: l0)). { destruct RN as (_ & _ & FU & _). apply Forall_app in FU as [_ FU]. apply Forall_app in FU as [FU _]. exact FU. }
  assert (Hn : 1 <= n). { inversion FL as [|? ? U _]; subst. destruct (usable_valid _ _ _ U) as [V _]. apply valid_app in V as [_ V]. rewrite TG in V. destruct V as [_ V]. inversion V; subst. lia. }
  destruct (phase_uop n vals _ _ SP FL) as (z & Z & E). apply (replace_phase w n vals c c' gs1 (g :: l0) l' gs2 st z); assumption.
Qed.
