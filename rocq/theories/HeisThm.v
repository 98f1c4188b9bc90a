(** * Moving gates from the circuit into the observable (C116) *)
From Coq Require Import String List Arith Bool Reals Lia Lra ZArith Permutation.
From Verif Require Import Cplx Py PyFacts Ndarray NdFacts OperatorUtils ApplyOperator Sparse Matrices Noise Gates Apply Composite Conversion Shots Gpsr Api
  Spec SpecFacts GateSpec PropSpec NoiseSpec SampleSpec ExpectSpec GpsrSpec GateFacts TensorFacts CircuitFacts AlgebraFacts ApplyThm GateThm TensorThm
  KrausThm NoiseThm NoiseThm2 SeqThm SampleThm ShotsSpec ShotsThm ExpectThm ExpectThm2 GpsrFacts GpsrThm StructSpec StructThm3 PhysSpec PhysThm PhysThm2 CtorSpec CtorThm
  CircuitLawSpec CircuitLawThm PauliSpec PauliThm InverseThm HeisSpec.
Import ListNotations.
Local Open Scope nat_scope.

(** ** the operator of an operation is unique *)
Lemma denotes_unique : forall w n vals sq sq' o K K', denotes w n vals sq o K -> denotes w n vals sq' o K' -> keq n K K'.
Proof.
  intros w n vals sq sq' o K K' D D' x y Hx Hy. destruct (c72_product_thm n y Hy) as (HS & V & _ & _).
  destruct (denotes_call _ _ _ _ _ _ D _ HS) as (out & E & _ & A). destruct (denotes_call _ _ _ _ _ _ D' _ HS) as (out' & E' & _ & A').
  rewrite E in E'; injection E' as <-. specialize (A x Hx). specialize (A' x Hx). rewrite A in A'.
  assert (Q : forall L, apply_kernel n L (amp (product_state y)) x = L x y).
  { intro L. rewrite <- (apply_kernel_delta n L x y Hy). apply apply_kernel_ext; [apply keq_refl| |exact Hx]. intros z Hz. rewrite (V z Hz). reflexivity. }
  rewrite !Q in A'. exact A'.
Qed.

(** ** operators on the qubits [ts] *)
Definition lifted (n : nat) (ts : list nat) (K M : op) : Prop := keq n K (ctrl_kernel M [] ts).
Definition means (w : world) (n : nat) (vals : values) (ts : list nat) (o : oper) (M : op) : Prop := forall sq, exists K, denotes w n vals sq o K /\ lifted n ts K M.
Lemma means_one : forall w n vals q P, q < n -> means w n vals [q] (letter_gate P q) (letter_matrix P).
Proof. intros w n vals q P Hq sq. exists (lop (P, q)). split; [apply letter_denotes; exact Hq|apply keq_refl]. Qed.
Lemma means_first : forall w n vals a b P, valid_qubits n [a; b] -> means w n vals [a; b] (letter_gate P a) (ctrl_kernel (letter_matrix P) [] [0]).
Proof.
  intros w n vals a b P V sq. exists (lop (P, a)). split; [apply letter_denotes; destruct V as [_ F]; inversion F; assumption|]. apply keq_sym.
  apply (ctrl_kernel_nested n (letter_matrix P) [] [0] [a; b] V); [split; [repeat constructor; simpl; tauto|repeat constructor]|intros p []].
Qed.
Lemma means_second : forall w n vals a b P, valid_qubits n [a; b] -> means w n vals [a; b] (letter_gate P b) (ctrl_kernel (letter_matrix P) [] [1]).
Proof.
  intros w n vals a b P V sq. exists (lop (P, b)). split; [apply letter_denotes; destruct V as [_ F]; inversion F as [|? ? _ F']; inversion F'; assumption|]. apply keq_sym.
  apply (ctrl_kernel_nested n (letter_matrix P) [] [1] [a; b] V); [split; [repeat constructor; simpl; tauto|repeat constructor; lia]|intros p []].
Qed.
Lemma lifted_mul : forall n ts K M K' M', valid_qubits n ts -> lifted n ts K M -> lifted n ts K' M' -> lifted n ts (kmul n K K') (kmul (length ts) M M').
Proof. intros n ts K M K' M' V H H'. eapply keq_trans; [apply kmul_ext; [exact H|exact H']|]. apply (ctrl_kernel_mul n M M' [] ts V). Qed.
Lemma means_pair : forall w n vals a b P Q, valid_qubits n [a; b] -> means w n vals [a; b] (two_letters P a Q b) (kmul 2 (ctrl_kernel (letter_matrix Q) [] [1]) (ctrl_kernel (letter_matrix P) [] [0])).
Proof.
  intros w n vals a b P Q V sq. destruct (means_first w n vals a b P V sq) as (K & D & E). destruct (means_second w n vals a b Q V sq) as (L & D' & E').
  exists (kprod n [K; L]). split.
  - apply den_seq; [|constructor; [exact D|constructor; [exact D'|constructor]]]. right. split; [discriminate|]. constructor; [|constructor; [constructor|constructor]]. constructor; [|constructor].
    pose proof (lifted_mul n [a; b] K _ L _ V E E') as A. pose proof (lifted_mul n [a; b] L _ K _ V E' E) as B. eapply keq_trans; [exact A|]. eapply keq_trans; [|apply keq_sym; exact B].
    apply ctrl_kernel_ext. cbn [length]. apply (ctrl_kernel_comm 2 (letter_matrix P) (letter_matrix Q) [] [0] [] [1]). split; [repeat constructor; simpl; lia|repeat constructor].
  - cbn [kprod]. eapply keq_trans; [apply kmul_ext; [apply kmul_id_l|apply keq_refl]|]. apply (lifted_mul n [a; b] L _ K _ V E' E).
Qed.
Lemma means_scale : forall w n vals ts o M c, means w n vals ts o M -> means w n vals ts (OScale [o] (PNum c)) (kscale (RtoC c) M).
Proof.
  intros w n vals ts o M c H sq. destruct (H sq) as (K & D & E). exists (kscale (RtoC c) K). split; [apply den_scale; [exact D|reflexivity]|].
  eapply keq_trans; [|apply keq_sym, GpsrFacts.ctrl_kernel_kscale]. intros x y Hx Hy. unfold kscale. rewrite (E x y Hx Hy). reflexivity.
Qed.
Lemma means_mixture : forall w n vals ts o M o' M' a b, means w n vals ts o M -> means w n vals ts o' M' ->
    means w n vals ts (mixture a o b o') (kadd (kscale (RtoC a) M) (kscale (RtoC b) M')).
Proof.
  intros w n vals ts o M o' M' a b H H' sq. destruct (means_scale w n vals ts o M a H sq) as (K & D & E). destruct (means_scale w n vals ts o' M' b H' sq) as (L & D' & E').
  exists (ksum [K; L]). split; [apply den_add; [discriminate|constructor; [exact D|constructor; [exact D'|constructor]]]|].
  eapply keq_trans; [|apply keq_sym, ctrl_kernel_add]. intros x y Hx Hy. cbn [ksum]. unfold kadd. rewrite (E x y Hx Hy), (E' x y Hx Hy). ring.
Qed.

(** ** conjugation by the gate *)
Definition pulled (n : nat) (U K K' : op) : Prop := keq n K' (kmul n (kmul n (kadj U) K) U).
Lemma pulled_lift : forall n ts U M P P' K K', valid_qubits n ts -> lifted n ts U M -> lifted n ts K P -> lifted n ts K' P' ->
    keq (length ts) P' (kmul (length ts) (kmul (length ts) (kadj M) P) M) -> pulled n U K K'.
Proof.
  intros n ts U M P P' K K' V HU HK HK' E. eapply keq_trans; [exact HK'|]. eapply keq_trans; [apply ctrl_kernel_ext; exact E|]. apply keq_sym.
  apply lifted_mul; [exact V| |exact HU]. apply lifted_mul; [exact V| |exact HK]. eapply keq_trans; [apply kadj_ext; exact HU|]. apply (ctrl_kernel_adj n M [] ts V).
Qed.
Lemma pulled_mul : forall n U A A' B B', unitary n U -> pulled n U A A' -> pulled n U B B' -> pulled n U (kmul n A B) (kmul n A' B').
Proof.
  intros n U A A' B B' [_ UU] H H'. eapply keq_trans; [apply kmul_ext; [exact H|exact H']|]. rewrite !kmul_assoc. apply kmul_ext; [apply keq_refl|]. apply kmul_ext; [apply keq_refl|].
  rewrite <- kmul_assoc. eapply keq_trans; [apply kmul_ext; [exact UU|apply keq_refl]|]. apply kmul_id_l.
Qed.
Lemma pulled_id : forall n U, unitary n U -> pulled n U kid kid.
Proof. intros n U [H _]. apply keq_sym. eapply keq_trans; [apply kmul_ext; [apply kmul_id_r|apply keq_refl]|exact H]. Qed.
Lemma pulled_prod : forall n U Ks Ks', unitary n U -> Forall2 (pulled n U) Ks Ks' -> pulled n U (kprod n Ks) (kprod n Ks').
Proof. intros n U Ks Ks' HU F. induction F; cbn [kprod]; [apply pulled_id; exact HU|apply pulled_mul; assumption]. Qed.
Lemma pulled_scale : forall n U c K K', pulled n U K K' -> pulled n U (kscale c K) (kscale c K').
Proof.
  intros n U c K K' H. unfold pulled. rewrite kmul_kscale_r, kmul_kscale_l. intros x y Hx Hy. unfold kscale. rewrite (H x y Hx Hy). reflexivity.
Qed.
Lemma pulled_zero : forall n U, pulled n U (ksum []) (ksum []).
Proof. intros n U. unfold pulled. change (ksum []) with kzero. rewrite kmul_zero_r, kmul_zero_l. apply keq_refl. Qed.
Lemma pulled_sum : forall n U Ks Ks', Forall2 (pulled n U) Ks Ks' -> pulled n U (ksum Ks) (ksum Ks').
Proof.
  intros n U Ks Ks' F. induction F as [|K K' Ks Ks' H F IH]; [apply pulled_zero|]. unfold pulled. change (ksum (K :: Ks)) with (kadd K (ksum Ks)). change (ksum (K' :: Ks')) with (kadd K' (ksum Ks')).
  rewrite kmul_kadd_r, kmul_kadd_l. apply kadd_ext; assumption.
Qed.
Lemma pulled_commuting : forall n U Ks Ks', unitary n U -> Forall2 (pulled n U) Ks Ks' -> commuting n Ks -> commuting n Ks'.
Proof.
  intros n U Ks Ks' HU F. induction F as [|K K' Ks Ks' H F IH]; intro CM; [constructor|]. inversion CM as [|? ? FC CM']; subst. constructor; [|apply IH; exact CM'].
  clear IH CM CM'. induction F as [|B B' Ks Ks' HB F IHF]; constructor; inversion FC as [|? ? E FC']; subst; [|apply IHF; exact FC'].
  pose proof (pulled_mul n U K K' B B' HU H HB) as A1. pose proof (pulled_mul n U B B' K K' HU HB H) as A2. eapply keq_trans; [exact A1|]. eapply keq_trans; [|apply keq_sym; exact A2].
  apply kmul_ext; [|apply keq_refl]. apply kmul_ext; [apply keq_refl|exact E].
Qed.

(** ** the tables *)
Lemma rule_step : forall w n vals g ts M0 o P o' P', usable n vals g -> valid_qubits n ts -> lifted n ts (kop vals g) M0 ->
    means w n vals ts o P -> means w n vals ts o' P' -> keq (length ts) P' (kmul (length ts) (kmul (length ts) (kadj M0) P) M0) ->
    forall sq K, denotes w n vals sq o K -> exists K', denotes w n vals sq o' K' /\ pulled n (kop vals g) K K'.
Proof.
  intros w n vals g ts M0 o P o' P' U V L H H' E sq K D. destruct (H sq) as (K0 & D0 & E0). destruct (H' sq) as (K' & D' & E'). exists K'. split; [exact D'|].
  apply (pulled_lift n ts (kop vals g) M0 P P' K K' V L); [|exact E'|exact E]. eapply keq_trans; [apply (denotes_unique _ _ _ _ _ _ _ _ D D0)|exact E0].
Qed.
Lemma one_lifted : forall n vals q mk M, built vals (TInt q) no_control None 1 (plain mk q) M -> usable n vals (plain mk q) -> valid_qubits n [q] /\ lifted n [q] (kop vals (plain mk q)) M.
Proof.
  intros n vals q mk M B U. destruct (built_plain _ _ _ _ _ _ B) as (_ & _ & T & C). destruct (usable_valid _ _ _ U) as [V _]. unfold lifted, kop, gate_op. rewrite T, C in *.
  rewrite (mat_of_spec _ _ _ (built_matrix _ _ _ _ _ _ _ B eq_refl)). split; [exact V|apply keq_refl].
Qed.
Ltac ents := intros x y Hx Hy; unfold kmul, kadj, kscale, kadd, kid, letter_matrix, I_matrix, X_matrix, Y_matrix, Z_matrix, H_matrix, S_matrix, RX_matrix, RY_matrix, RZ_matrix, PHASE_matrix, Cn; cbv zeta;
  cbn [length] in *; bits1 Hx; bits1 Hy; cbn [bitstrings map app csum fold_right mat2]; unfold Cexpi.
Lemma half_angle : forall t, (cos t = cos (t / 2) * cos (t / 2) - sin (t / 2) * sin (t / 2) /\ sin t = 2 * sin (t / 2) * cos (t / 2) /\ cos (t / 2) * cos (t / 2) + sin (t / 2) * sin (t / 2) = 1)%R.
Proof.
  intro t. split; [|split].
  - rewrite <- cos_2a. f_equal. lra.
  - rewrite <- sin_2a. f_equal. lra.
  - pose proof (sin2_cos2 (t / 2)) as H. unfold Rsqr in H. lra.
Qed.
Lemma full_angle : forall t, (cos t * cos t + sin t * sin t = 1)%R.
Proof. intro t. pose proof (sin2_cos2 t) as H. unfold Rsqr in H. lra. Qed.
Ltac meaning := first [apply means_one|apply means_scale, means_one|apply means_mixture; apply means_one];
  match goal with V : valid_qubits _ [_] |- _ => destruct V as [_ V]; inversion V; assumption end.
Ltac one_rule U mk B tac := let V := fresh "V" in let L := fresh "L" in destruct (one_lifted _ _ _ mk _ B U) as [V L];
  eapply (rule_step _ _ _ _ _ _ _ _ _ _ U V L); [meaning|meaning|tac].
Lemma one_step : forall w n vals g q P o', In (g, P, o') (one_qubit_rules q) -> usable n vals g ->
    forall sq K, denotes w n vals sq (letter_gate P q) K -> exists K', denotes w n vals sq o' K' /\ pulled n (kop vals g) K K'.
Proof.
  intros w n vals g q P o' I U. cbn [one_qubit_rules In] in I.
  repeat (destruct I as [I|I]; [injection I as <- <- <-;
    first [one_rule U gH (b_H vals (TInt q) no_control None) ltac:(ents; root; fin)
          |one_rule U gS (b_S vals (TInt q) no_control None) ltac:(ents; fin)
          |one_rule U gX (b_X vals (TInt q) no_control None) ltac:(ents; fin)
          |one_rule U gY (b_Y vals (TInt q) no_control None) ltac:(ents; fin)
          |one_rule U gZ (b_Z vals (TInt q) no_control None) ltac:(ents; fin)]|]). destruct I.
Qed.
Ltac halves t := let E1 := fresh in let E2 := fresh in let E3 := fresh in destruct (half_angle t) as (E1 & E2 & E3); rewrite ?E1, ?E2; clear E1 E2;
  replace (- t / 2)%R with (- (t / 2))%R by lra; rewrite ?cos_neg, ?sin_neg; set (cc := cos (t / 2)) in *; set (ss := sin (t / 2)) in *; clearbody cc ss; fin.
Ltac wholes t := let E := fresh in pose proof (full_angle t) as E; set (cc := cos t) in *; set (ss := sin t) in *; clearbody cc ss; fin.
Lemma rotation_step : forall w n vals g p t q P o', angle_is vals p t -> In (g, P, o') (rotation_rules p t q) -> usable n vals g ->
    forall sq K, denotes w n vals sq (letter_gate P q) K -> exists K', denotes w n vals sq o' K' /\ pulled n (kop vals g) K K'.
Proof.
  intros w n vals g p t q P o' A I U. cbn [rotation_rules In] in I.
  repeat (destruct I as [I|I]; [injection I as <- <- <-;
    first [one_rule U (RX p) (b_RX vals (TInt q) no_control None p t A) ltac:(ents; halves t)
          |one_rule U (RY p) (b_RY vals (TInt q) no_control None p t A) ltac:(ents; halves t)
          |one_rule U (RZ p) (b_RZ vals (TInt q) no_control None p t A) ltac:(ents; halves t)
          |one_rule U (PHASE p) (b_PHASE vals (TInt q) no_control None p t A) ltac:(ents; wholes t)]|]). destruct I.
Qed.
Lemma z1 : forall x, Cmul C0 x = C0. Proof. intro; ring. Qed.
Lemma z2 : forall x, Cmul x C0 = C0. Proof. intro; ring. Qed.
Lemma z3 : forall x, Cmul C1 x = x. Proof. intro; ring. Qed.
Lemma z4 : forall x, Cmul x C1 = x. Proof. intro; ring. Qed.
Lemma z5 : forall x, Cadd C0 x = x. Proof. intro; ring. Qed.
Lemma z6 : forall x, Cadd x C0 = x. Proof. intro; ring. Qed.
Lemma z7 : Cconj C0 = C0. Proof. apply C_ext; simpl; ring. Qed.
Lemma z8 : Cconj C1 = C1. Proof. apply C_ext; simpl; ring. Qed.
Ltac ents2 := intros x y Hx Hy; cbn [length] in Hx, Hy; bits2 Hx; bits2 Hy; lazy -[Cadd Cmul Copp Cconj C0 C1 Ci RtoC];
  repeat progress rewrite ?z1, ?z2, ?z3, ?z4, ?z5, ?z6, ?z7, ?z8; first [reflexivity | apply C_ext; simpl; ring].
Lemma two_lifted : forall n vals a b, 
    (usable n vals (gX (TInt b) (IInt a) None false) -> valid_qubits n [a; b] /\ lifted n [a; b] (kop vals (gX (TInt b) (IInt a) None false)) (ctrl_kernel X_matrix [0] [1])) /\
    (usable n vals (gZ (TInt b) (IInt a) None false) -> valid_qubits n [a; b] /\ lifted n [a; b] (kop vals (gZ (TInt b) (IInt a) None false)) (ctrl_kernel Z_matrix [0] [1])) /\
    (usable n vals (SWAP (TTup [a; b]) no_control None false) -> valid_qubits n [a; b] /\ lifted n [a; b] (kop vals (SWAP (TTup [a; b]) no_control None false)) SWAP_matrix).
Proof.
  intros n vals a b. split; [|split]; intro U; destruct (usable_valid _ _ _ U) as [V _]; change (valid_qubits n [a; b]) in V; (split; [exact V|]).
  - apply (proj1 (nested2 n X_matrix a b V)).
  - apply (proj1 (nested2 n Z_matrix a b V)).
  - apply keq_refl.
Qed.
Ltac meaning2 := first [apply means_first|apply means_second|apply means_pair]; assumption.
Lemma two_step : forall w n vals g a b o o', In (g, o, o') (two_qubit_rules a b) -> usable n vals g ->
    forall sq K, denotes w n vals sq o K -> exists K', denotes w n vals sq o' K' /\ pulled n (kop vals g) K K'.
Proof.
  intros w n vals g a b o o' I U. cbn [two_qubit_rules In] in I. destruct (two_lifted n vals a b) as (T1 & T2 & T3).
  repeat (destruct I as [I|I]; [injection I as <- <- <-; first [destruct (T1 U) as [V L]|destruct (T2 U) as [V L]|destruct (T3 U) as [V L]];
    eapply (rule_step _ _ _ _ _ _ _ _ _ _ U V L); [meaning2|meaning2|ents2]|]). destruct I.
Qed.

(** ** all operations *)
Lemma other_step : forall w n vals g o, (forall h q, In h (all_gates o) -> occupies h q -> ~ occupies g q) -> usable n vals g ->
    forall sq K, denotes w n vals sq o K -> pulled n (kop vals g) K K.
Proof.
  intros w n vals g o D U sq K H. destruct (usable_valid _ _ _ U) as [V G]. pose proof (denotes_local _ _ _ _ _ _ H (mat_of vals g) (ctrl_of (control g)) (target g) V) as C.
  destruct (gate_op_unitary _ _ _ _ _ _ G) as [U1 _]. unfold pulled. eapply keq_trans; [|apply keq_sym, kmul_assoc].
  eapply keq_trans; [|apply keq_sym, kmul_ext; [apply keq_refl|apply C]].
  - apply keq_sym. rewrite <- kmul_assoc. eapply keq_trans; [apply kmul_ext; [exact U1|apply keq_refl]|apply kmul_id_l].
  - intros q Q (h & Ih & O). apply (D h q Ih O). exists (ctrl_of (control g)). split; [apply (go_control _ _ _ _ _ _ G)|exact Q].
Qed.
Definition moves (w : world) (n : nat) (vals : values) (sq : bool) (g : gate) (o : oper) (K : op) : Prop :=
  denotes w n vals sq o K /\ forall o', moved vals g o o' -> exists K', denotes w n vals sq o' K' /\ pulled n (kop vals g) K K'.
Lemma moves_list : forall w n vals sq g l Ks l', Forall2 (moves w n vals sq g) l Ks -> Forall2 (moved vals g) l l' ->
    exists Ks', Forall2 (denotes w n vals sq) l' Ks' /\ Forall2 (pulled n (kop vals g)) Ks Ks'.
Proof.
  intros w n vals sq g l Ks l' F. revert l'. induction F as [|o K l Ks [_ H] F IH]; intros l' F'; inversion F' as [|? o' ? l1 M F1]; subst; [exists []; split; constructor|].
  destruct (H o' M) as (K' & D' & E'). destruct (IH l1 F1) as (Ks' & D & E). exists (K' :: Ks'). split; constructor; assumption.
Qed.
Lemma F2_first : forall w n vals sq g l Ks, Forall2 (moves w n vals sq g) l Ks -> Forall2 (denotes w n vals sq) l Ks.
Proof. intros w n vals sq g l Ks F. eapply F2_impl; [|exact F]. intros o K [H _]; exact H. Qed.
Lemma unitary_kop : forall n vals g, usable n vals g -> unitary n (kop vals g).
Proof. intros n vals g U. destruct (usable_valid _ _ _ U) as [_ G]. apply (gate_op_unitary _ _ _ _ _ _ G). Qed.
Lemma sequences_pulled : forall n sq U Ks Ks', unitary n U -> Forall2 (pulled n U) Ks Ks' -> sequences n sq Ks -> sequences n sq Ks'.
Proof.
  intros n sq U Ks Ks' HU F [E|[NE CM]]; [left; exact E|right]. split; [intro E; subst; inversion F; subst; apply NE; reflexivity|]. apply (pulled_commuting n U Ks Ks' HU F CM).
Qed.
Lemma moved_step : forall w n vals sq g, usable n vals g -> forall o K, denotes w n vals sq o K -> moves w n vals sq g o K.
Proof.
  intros w n vals sq g U. pose proof (unitary_kop _ _ _ U) as HU.
  assert (T : forall o K, denotes w n vals sq o K ->
     (forall l l', o = OSeq l -> Forall2 (moved vals g) l l' -> exists K', denotes w n vals sq (OSeq l') K' /\ pulled n (kop vals g) K K') ->
     (forall l l' p, o = OScale l p -> Forall2 (moved vals g) l l' -> exists K', denotes w n vals sq (OScale l' p) K' /\ pulled n (kop vals g) K K') ->
     (forall l l', o = OAdd l -> Forall2 (moved vals g) l l' -> exists K', denotes w n vals sq (OAdd l') K' /\ pulled n (kop vals g) K K') -> moves w n vals sq g o K).
  { intros o K D H1 H2 H3. split; [exact D|]. intros o' M. destruct M as [q P o' I|q p t P o' A I|a b o o' I|o H|l l' F|l l' p F|l l' F].
    - eapply one_step; eassumption.
    - eapply rotation_step; eassumption.
    - eapply two_step; eassumption.
    - exists K. split; [exact D|]. eapply other_step; eassumption.
    - apply (H1 l l' eq_refl F).
    - apply (H2 l l' p eq_refl F).
    - apply (H3 l l' eq_refl F). }
  apply denotes_induction.
  - intros h M cs ts HG HD HN. apply T; [apply den_gate; assumption|discriminate|discriminate|discriminate].
  - intros h K HG HN. apply T; [apply den_matrix; assumption|discriminate|discriminate|discriminate].
  - intros l Ks NE F. apply T; [apply den_add; [exact NE|eapply F2_first; exact F]|discriminate|discriminate|]. intros l0 l' E F'. injection E as <-.
    destruct (moves_list _ _ _ _ _ _ _ _ F F') as (Ks' & D & P). exists (ksum Ks'). split; [apply den_add; [|exact D]|apply pulled_sum; exact P].
    intro E; subst l'. inversion F'; subst. apply NE; reflexivity.
  - intros o K p c [D H] E. apply T; [apply den_scale; assumption|discriminate| |discriminate]. intros l0 l' p0 E0 F'. injection E0 as <- <-.
    inversion F' as [|? o' ? l1 M F1]; subst. inversion F1; subst. destruct (H o' M) as (K' & D' & P). exists (kscale (RtoC c) K'). split; [apply den_scale; assumption|apply pulled_scale; exact P].
  - intros l Ks p c SQ F E. apply T; [apply den_multiple; [exact SQ|eapply F2_first; exact F|exact E]|discriminate| |discriminate]. intros l0 l' p0 E0 F'. injection E0 as <- <-.
    destruct (moves_list _ _ _ _ _ _ _ _ F F') as (Ks' & D & P). exists (kscale (RtoC c) (kprod n Ks')).
    split; [apply den_multiple; [eapply sequences_pulled; eassumption|exact D|exact E]|apply pulled_scale, pulled_prod; assumption].
  - intros l Ks SQ F. apply T; [apply den_seq; [exact SQ|eapply F2_first; exact F]| |discriminate|discriminate]. intros l0 l' E0 F'. injection E0 as <-.
    destruct (moves_list _ _ _ _ _ _ _ _ F F') as (Ks' & D & P). exists (kprod n Ks').
    split; [apply den_seq; [eapply sequences_pulled; eassumption|exact D]|apply pulled_prod; assumption].
  - intros m l fp Ks SQ F. apply T; [apply den_circuit; [exact SQ|eapply F2_first; exact F]|discriminate|discriminate|discriminate].
Qed.

(** ** circuits *)
Lemma pulled_compose : forall n U V K K1 K2, pulled n U K K1 -> pulled n V K1 K2 -> pulled n (kmul n U V) K K2.
Proof.
  intros n U V K K1 K2 H1 H2. eapply keq_trans; [exact H2|]. unfold pulled in *.
  eapply keq_trans; [apply kmul_ext; [apply kmul_ext; [apply keq_refl|exact H1]|apply keq_refl]|]. apply keq_sym.
  eapply keq_trans; [apply kmul_ext; [apply kmul_ext; [apply kadj_mul|apply keq_refl]|apply keq_refl]|]. rewrite !kmul_assoc. apply keq_refl.
Qed.
Lemma moved_all_step : forall w n vals gs l l', moved_all vals gs l l' -> Forall (usable n vals) gs -> forall sq K, observable_on w n vals sq l K ->
    exists K', observable_on w n vals sq l' K' /\ pulled n (uop n vals gs) K K'.
Proof.
  intros w n vals gs l l' H. induction H as [l|gs g l l1 l' F H IH]; intros FU sq K HO.
  - exists K. split; [exact HO|]. unfold pulled. cbn [uop]. apply keq_sym. eapply keq_trans; [apply kmul_id_r|]. eapply keq_trans; [apply kmul_ext; [apply kadj_id|apply keq_refl]|apply kmul_id_l].
  - apply Forall_app in FU as [FU FG]. inversion FG as [|? ? U _]; subst. destruct HO as (Ks & NE & D & ->).
    destruct (moves_list w n vals sq g l Ks l1) as (Ks' & D' & P); [eapply F2_impl; [|exact D]; intros o K; apply moved_step; exact U|exact F|].
    destruct (IH FU sq (ksum Ks')) as (K' & HO' & P').
    { exists Ks'. split; [intro E; subst l1; inversion F; subst; apply NE; reflexivity|]. split; [exact D'|reflexivity]. }
    exists K'. split; [exact HO'|]. eapply keq_trans; [apply (pulled_compose n (kop vals g) (uop n vals gs) (ksum Ks) (ksum Ks') K'); [apply pulled_sum; exact P|exact P']|].
    assert (E : keq n (kmul n (kop vals g) (uop n vals gs)) (uop n vals (gs ++ [g]))).
    { apply keq_sym. eapply keq_trans; [apply uop_app|]. cbn [uop]. apply kmul_ext; [apply kmul_id_l|apply keq_refl]. }
    apply kmul_ext; [apply kmul_ext; [apply kadj_ext; exact E|apply keq_refl]|exact E].
Qed.
Lemma pulled_mean : forall n U K K' r, pulled n U K K' -> mean_density n K (sandwiched n U r) = mean_density n K' r.
Proof.
  intros n U K K' r H. unfold mean_density. f_equal. rewrite (ktrace_ext n (kmul n K' r) (kmul n (kmul n (kmul n (kadj U) K) U) r)) by (apply kmul_ext; [exact H|apply keq_refl]).
  unfold sandwiched. rewrite (ktrace_ext n _ (kmul n (kmul n K (kmul n U r)) (kadj U))) by (symmetry; apply kmul_assoc). rewrite ktrace_cyclic. apply ktrace_ext. rewrite !kmul_assoc. apply keq_refl.
Qed.
Lemma evolve_app : forall n vals a b r, evolve n vals (a ++ b) r = evolve n vals b (evolve n vals a r).
Proof. intros n vals a. induction a as [|g a IH]; intros b r; [reflexivity|]. cbn [app evolve]. apply IH. Qed.
Lemma c116_heisenberg : forall w n vals c c' gs1 gs st obs obs' mode key, set_order (set_iter w) -> flat_values vals -> runnable n vals c (gs1 ++ gs) -> Forall noiseless gs ->
    runnable n vals c' gs1 -> state_of n st -> obs <> [] -> Forall (fun l => exists K, readable w n vals st (gs1 ++ gs) l K) obs ->
    Forall2 (moved_all vals gs) obs obs' -> (mixes st gs1 -> Forall (increasing_support w) obs') -> exact_mode mode ->
    exists v, expectation w st c obs vals mode 0 key = Ok v /\ expectation w st c' obs' vals mode 0 key = Ok v.
Proof.
  intros w n vals c c' gs1 gs st obs obs' mode key SO FV RN NG RN' HT NO FR FM FI EM. pose proof RN as (_ & _ & FU & _). apply Forall_app in FU as [_ FU].
  assert (MX : mixes st gs1 -> mixes st (gs1 ++ gs)).
  { intros [H|(g & I & N)]; [left; exact H|right]. exists g. split; [apply in_or_app; left; exact I|exact N]. }
  assert (X : exists Ks Ks', Forall2 (readable w n vals st (gs1 ++ gs)) obs Ks /\ Forall2 (readable w n vals st gs1) obs' Ks' /\ Forall2 (pulled n (uop n vals gs)) Ks Ks').
  { clear NO. revert FI. induction FM as [|l l' obs obs' M FM IH]; intro FI; [exists [], []; repeat split; constructor|]. inversion FR as [|? ? (K & [(sq & HO) HD]) FR']; subst.
    destruct (IH FR') as (Ks & Ks' & F1 & F2 & F3); [intro MI; specialize (FI MI); inversion FI; assumption|].
    destruct (mixes_dec st gs1 (or_intror Logic.I)) as [MI|MI].
    - destruct (HD (MX MI)) as [HO2 _]. destruct (moved_all_step w n vals gs l l' M FU false K HO2) as (K' & HO' & P). exists (K :: Ks), (K' :: Ks').
      specialize (FI MI). inversion FI as [|? ? I1 _]; subst. split; [|split]; constructor; try assumption; [split; [exists sq; exact HO|exact HD]|].
      split; [exists false; exact HO'|]. intros _. split; assumption.
    - destruct (moved_all_step w n vals gs l l' M FU sq K HO) as (K' & HO' & P). exists (K :: Ks), (K' :: Ks'). split; [|split]; constructor; try assumption; [split; [exists sq; exact HO|exact HD]|].
      split; [exists sq; exact HO'|]. intro MI'. elim (MI MI'). }
  destruct X as (Ks & Ks' & F1 & F2 & F3). eexists. split; [apply (exact_spec w n vals c (gs1 ++ gs)); eassumption|].
  rewrite (exact_spec w n vals c' gs1 st obs' Ks' mode key SO FV RN' HT); [|intro E; subst obs'; inversion FM; subst; apply NO; reflexivity|exact F2|exact EM].
  f_equal. clear - F3 NG. induction F3 as [|K K' Ks Ks' P F IH]; [reflexivity|]. cbn [map]. rewrite IH. f_equal. rewrite evolve_app.
  rewrite <- (pulled_mean n (uop n vals gs) K K' _ P). unfold mean_density. f_equal. apply ktrace_ext. apply kmul_ext; [apply keq_refl|]. apply keq_sym, evolve_plain. exact NG.
Qed.

(** ** measuring Pauli strings by sampling *)
Definition zop (Pq : letter * nat) : op := gate_op (match fst Pq with LI => I_matrix | _ => Z_matrix end) [] [snd Pq].
Lemma local_step : forall n vals g S K, usable n vals g -> local_to n S K -> (forall q, In q (ctrl_of (control g) ++ target g) -> ~ S q) -> pulled n (kop vals g) K K.
Proof.
  intros n vals g S K U H D. destruct (usable_valid _ _ _ U) as [V G]. pose proof (H (mat_of vals g) (ctrl_of (control g)) (target g) V D) as C.
  destruct (gate_op_unitary _ _ _ _ _ _ G) as [U1 _]. unfold pulled. eapply keq_trans; [|apply keq_sym, kmul_assoc].
  eapply keq_trans; [|apply keq_sym, kmul_ext; [apply keq_refl|exact C]]. apply keq_sym. rewrite <- kmul_assoc. eapply keq_trans; [apply kmul_ext; [exact U1|apply keq_refl]|apply kmul_id_l].
Qed.
Lemma pulled_ext : forall n U V K K', keq n U V -> pulled n U K K' -> pulled n V K K'.
Proof. intros n U V K K' E H. eapply keq_trans; [exact H|]. apply kmul_ext; [apply kmul_ext; [apply kadj_ext; exact E|apply keq_refl]|exact E]. Qed.
Lemma pulled_nil : forall n vals K, pulled n (uop n vals []) K K.
Proof. intros n vals K. unfold pulled. cbn [uop]. apply keq_sym. eapply keq_trans; [apply kmul_id_r|]. eapply keq_trans; [apply kmul_ext; [apply kadj_id|apply keq_refl]|apply kmul_id_l]. Qed.
Lemma pulled_app : forall n vals a b K K1 K2, pulled n (uop n vals b) K K1 -> pulled n (uop n vals a) K1 K2 -> pulled n (uop n vals (a ++ b)) K K2.
Proof. intros n vals a b K K1 K2 H1 H2. eapply pulled_ext; [apply keq_sym, uop_app|]. eapply pulled_compose; eassumption. Qed.
Lemma pulled_one : forall n vals g K K1, pulled n (kop vals g) K K1 -> pulled n (uop n vals [g]) K K1.
Proof. intros n vals g K K1 H. eapply pulled_ext; [|exact H]. cbn [uop]. apply keq_sym, kmul_id_l. Qed.
Lemma one_local : forall n q M, q < n -> local_to n (fun p => p = q) (gate_op M [] [q]).
Proof. intros n q M Hq. apply local_kernel; [apply valid_one; exact Hq|]. intros p [<-|[]]. reflexivity. Qed.
Lemma letter_gates : forall n vals Pq, snd Pq < n -> Forall (fun g => usable n vals g /\ ctrl_of (control g) ++ target g = [snd Pq] /\ noiseless g) (to_letter Pq).
Proof.
  intros n vals [P q] Hq. cbn [snd] in *. assert (UH : usable n vals (plain gH q)) by (do 3 eexists; split; [eapply gm_fixed; simpl; eauto 10|apply cq_default|reflexivity|apply valid_one; exact Hq]).
  assert (UP : usable n vals (plain (PHASE (PNum (- (PI / 2)))) q)).
  { exists (PHASE_matrix (- (PI / 2))), [], [q]. split; [eapply (built_matrix vals (TInt q) no_control None 1); [apply b_PHASE; apply an_number|reflexivity]|apply cq_default|reflexivity|apply valid_one; exact Hq]. }
  destruct P; cbn [to_letter fst snd]; repeat (apply Forall_cons; [split; [assumption|split; reflexivity]|]); apply Forall_nil.
Qed.
Lemma other_letter : forall n vals Pq K, snd Pq < n -> local_to n (fun p => p <> snd Pq) K -> pulled n (uop n vals (to_letter Pq)) K K.
Proof.
  intros n vals Pq K Hq H. pose proof (letter_gates n vals Pq Hq) as F. induction F as [|g l (U & E & _) F IH]; [apply pulled_nil|]. change (g :: l) with ([g] ++ l).
  eapply pulled_app; [exact IH|]. apply pulled_one. eapply local_step; [exact U|exact H|]. rewrite E. intros p [<-|[]] N. apply N; reflexivity.
Qed.
Lemma own_letter : forall n vals Pq, snd Pq < n -> pulled n (uop n vals (to_letter Pq)) (zop Pq) (lop Pq).
Proof.
  intros n vals [P q] Hq. cbn [snd] in *. pose proof (letter_gates n vals (P, q) Hq) as F. assert (V : valid_qubits n [q]) by (apply valid_one; exact Hq).
  assert (HH : usable n vals (plain gH q) -> pulled n (uop n vals [plain gH q]) (zop (LX, q)) (lop (LX, q))).
  { intro U. destruct (one_lifted n vals q gH _ (b_H vals (TInt q) no_control None) U) as [_ L]. apply pulled_one.
    apply (pulled_lift n [q] _ H_matrix Z_matrix X_matrix _ _ V L); [apply keq_refl|apply keq_refl|]. ents; root; fin. }
  destruct P; cbn [to_letter fst snd] in *.
  - apply pulled_nil.
  - inversion F as [|? ? (U & _) _]; subst. apply HH, U.
  - inversion F as [|? ? (U & _) F1]; subst. inversion F1 as [|? ? (U1 & _) _]; subst. change [plain (PHASE (PNum (- (PI / 2)))) q; plain gH q] with ([plain (PHASE (PNum (- (PI / 2)))) q] ++ [plain gH q]).
    eapply pulled_app; [apply HH, U1|]. apply pulled_one.
    destruct (one_lifted n vals q (PHASE (PNum (- (PI / 2)))) _ (b_PHASE vals (TInt q) no_control None _ _ (an_number _ _)) U) as [_ L].
    apply (pulled_lift n [q] _ (PHASE_matrix (- (PI / 2))) X_matrix Y_matrix _ _ V L); [apply keq_refl|apply keq_refl|]. ents; rewrite ?cos_neg, ?sin_neg, ?cos_PI2, ?sin_PI2; fin.
  - apply pulled_nil.
Qed.
Lemma change_letter : forall n vals s, NoDup (map snd s) -> Forall (fun q => q < n) (map snd s) -> forall Pq, In Pq s -> pulled n (uop n vals (basis_change s)) (zop Pq) (lop Pq).
Proof.
  intros n vals s. assert (OT : forall (s : pauli_string) (Pq : letter * nat) (M : op), Forall (fun q => q < n) (map snd s) -> snd Pq < n -> ~ In (snd Pq) (map snd s) -> pulled n (uop n vals (basis_change s)) (gate_op M [] [snd Pq]) (gate_op M [] [snd Pq])).
  { clear s. intros s Pq M F Hq. induction s as [|p s IH]; intro NI; [apply pulled_nil|]. cbn [map] in *. inversion F; subst. unfold basis_change. cbn [flat_map].
    eapply pulled_app; [apply IH; [assumption|intro I; apply NI; right; exact I]|]. apply other_letter; [assumption|]. eapply local_mono; [|apply one_local; exact Hq].
    intros q -> E. apply NI. left. symmetry. exact E. }
  induction s as [|p s IH]; intros N F Pq I; [destruct I|]. cbn [map] in *. inversion N as [|? ? NI N']; inversion F as [|? ? Hq F']; subst. unfold basis_change. cbn [flat_map].
  destruct I as [<-|I].
  - eapply pulled_app; [apply OT; assumption|]. apply own_letter; exact Hq.
  - assert (Hq' : snd Pq < n) by (rewrite Forall_forall in F'; apply F', in_map, I). eapply pulled_app; [apply IH; assumption|]. apply other_letter; [exact Hq|].
    eapply local_mono; [|apply one_local; exact Hq']. intros q -> E. apply NI. rewrite <- E. apply in_map, I.
Qed.
Lemma z_entry : forall n Pq x y, snd Pq < n -> In x (bitstrings n) -> In y (bitstrings n) -> zop Pq x y = Cmul (RtoC (match fst Pq with LI => 1 | _ => if Nat.eqb (nth (snd Pq) x 0) 0 then 1 else -1 end)) (kid x y).
Proof.
  intros n [P q] x y Hq Hx Hy. cbn [fst snd] in *. pose proof (bitstrings_length n x Hx) as Lx. pose proof (bitstrings_nth_lt n x q Hx) as B.
  assert (O : overwrite x [q] [nth q x 0] = x).
  { apply (nth_ext _ _ 0 0); [apply overwrite_length|]. intros i Hi. rewrite overwrite_length in Hi. destruct (Nat.eq_dec i q) as [->|D]; [cbn [overwrite]; rewrite nth_set_bit_eq by lia; reflexivity|].
    apply nth_overwrite_notin. intros [E|[]]; congruence. }
  unfold zop, gate_op, ctrl_kernel. cbn [fst snd bits_at map all_ones forallb length]. change (bitstrings 1) with [[0]; [1]]. cbn [csum].
  destruct (nth q x 0) as [|[|b]] eqn:E; [| |lia]; rewrite ?O; destruct P; cbn [I_matrix Z_matrix mat2 Nat.eqb]; apply C_ext; simpl; ring.
Qed.
Lemma z_string : forall n s, Forall (fun q => q < n) (map snd s) -> forall x y, In x (bitstrings n) -> In y (bitstrings n) -> kprod n (map zop s) x y = Cmul (RtoC (parity s x)) (kid x y).
Proof.
  intros n s F. induction s as [|Pq s IH]; intros x y Hx Hy; cbn [map kprod]; [cbn [parity]; apply C_ext; simpl; ring|]. cbn [map] in F. inversion F as [|? ? Hq F']; subst.
  unfold kmul. rewrite (csum_ext _ _ (fun z => Cmul (Cmul (RtoC (parity s x)) (zop Pq z y)) (kid x z))) by (intros z Hz; rewrite IH by assumption; ring).
  transitivity (Cmul (RtoC (parity s x)) (zop Pq x y)).
  - rewrite <- (csum_kid_l n x (fun z => Cmul (RtoC (parity s x)) (zop Pq z y)) Hx). apply csum_ext. intros; ring.
  - rewrite (z_entry n) by assumption. destruct Pq as [P q]. destruct P; cbn [fst snd parity]; apply C_ext; simpl; ring.
Qed.
Lemma uop_unitary : forall n vals gs, Forall (usable n vals) gs -> unitary n (uop n vals gs).
Proof. intros n vals gs F. induction F as [|g gs U F IH]; cbn [uop]; [apply unitary_kid|]. apply unitary_kmul; [exact IH|apply unitary_kop; exact U]. Qed.
Lemma c116_parity : forall w n vals c c' gs s st, set_order (set_iter w) -> runnable n vals c gs -> runnable n vals c' (gs ++ basis_change s) -> state_of n st -> string_ok n s ->
    exists out out', run w c st vals = Ok (Some out) /\ run w c' st vals = Ok (Some out') /\
      mean n (string_matrix n s) out = rsum (bitstrings n) (fun x => parity s x * outcome_probability out' x)%R.
Proof.
  intros w n vals c c' gs s st SO RN RN' HT (NE & N & F). destruct (output_spec w n vals c gs st SO RN HT) as (out & E & _ & _ & So & K & _).
  destruct (output_spec w n vals c' _ st SO RN' HT) as (out' & E' & _ & _ & So' & K' & _). exists out, out'. do 2 (split; [assumption|]).
  assert (NB : Forall noiseless (basis_change s)).
  { clear - F vals. induction s as [|p s IH]; [constructor|]. cbn [map] in F. inversion F; subst. apply Forall_app. split; [|auto].
    eapply Forall_impl; [|apply (letter_gates n vals p); assumption]. intros g (_ & _ & H'); exact H'. }
  assert (M : mean n (string_matrix n s) out = mean_density n (string_matrix n s) (density_of out)).
  { destruct out as [a|b|a]; [|destruct So|reflexivity]. cbn [mean density_of]. symmetry. apply mean_pure_density. }
  assert (P : pulled n (uop n vals (basis_change s)) (kprod n (map zop s)) (kprod n (map lop s))).
  { apply pulled_prod.
    - destruct RN' as (_ & _ & FU & _). apply Forall_app in FU as [_ FU]. apply uop_unitary. exact FU.
    - assert (X : forall s', (forall Pq, In Pq s' -> In Pq s) -> Forall2 (pulled n (uop n vals (basis_change s))) (map zop s') (map lop s')); [|apply X; auto].
      induction s' as [|p s' IH]; intro I; cbn [map]; constructor; [apply change_letter; auto; apply I; left; reflexivity|apply IH; intros; apply I; right; assumption]. }
  rewrite M, (mean_density_ext n _ (kprod n (map lop s)) _ (evolve n vals gs (density_of st)) (keq_sym _ _ _ (string_prod n s N F)) K).
  rewrite <- (pulled_mean n _ _ _ _ P). rewrite (mean_density_ext n _ (kprod n (map zop s)) _ (density_of out') (keq_refl n _)).
  - unfold mean_density, ktrace. rewrite re_csum_rsum. apply rsum_ext. intros x Hx. unfold kmul.
    rewrite (csum_ext _ _ (fun z => Cmul (kid x z) (Cmul (RtoC (parity s x)) (density_of out' z x)))) by (intros z Hz; rewrite z_string by assumption; ring).
    rewrite (csum_kid_l n x (fun z => Cmul (RtoC (parity s x)) (density_of out' z x)) Hx). unfold outcome_probability. simpl. ring.
  - apply keq_sym. eapply keq_trans; [exact K'|]. rewrite evolve_app. apply evolve_plain. exact NB.
Qed.
