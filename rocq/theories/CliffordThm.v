(** * Clifford circuits (C132) *)
From Coq Require Import String List Arith Bool Reals Lia Lra ZArith Permutation.
From Verif Require Import Cplx Py PyFacts Ndarray NdFacts OperatorUtils ApplyOperator Sparse Matrices Noise Gates Apply Composite Conversion Shots Gpsr Api
  Spec SpecFacts GateSpec PropSpec NoiseSpec SampleSpec ExpectSpec GpsrSpec GateFacts TensorFacts CircuitFacts AlgebraFacts ApplyThm GateThm TensorThm
  KrausThm NoiseThm NoiseThm2 SeqThm SampleThm ShotsSpec ShotsThm ExpectThm ExpectThm2 GpsrFacts GpsrThm StructSpec StructThm3 PhysSpec PhysThm PhysThm2 PhysThm3 CtorSpec CtorThm
  CircuitLawSpec CircuitLawThm PauliSpec PauliThm InverseThm HeisSpec HeisThm CliffordSpec.
Import ListNotations.
Local Open Scope nat_scope.

(** ** products of Pauli letters with phases 1, -1, i, -i *)
Definition unit4 (c : C) : Prop := c = C1 \/ c = Copp C1 \/ c = Ci \/ c = Copp Ci.
Lemma unit4_mul : forall a b, unit4 a -> unit4 b -> unit4 (Cmul a b).
Proof.
  intros a b [->|[->|[->| ->]]] [->|[->|[->| ->]]]; unfold unit4;
    first [left; apply C_ext; simpl; ring|right; left; apply C_ext; simpl; ring|right; right; left; apply C_ext; simpl; ring|right; right; right; apply C_ext; simpl; ring].
Qed.
Lemma unit4_minus : unit4 (RtoC (-1)).
Proof. right; left. apply C_ext; simpl; ring. Qed.
Inductive pg (n : nat) : op -> Prop :=
| pg_id : pg n kid
| pg_mul : forall P q K, q < n -> pg n K -> pg n (kmul n (lop (P, q)) K)
| pg_ph : forall c K, unit4 c -> pg n K -> pg n (kscale c K)
| pg_eq : forall K K', keq n K K' -> pg n K -> pg n K'.
Lemma pg_letter : forall n P q, q < n -> pg n (lop (P, q)).
Proof. intros n P q Hq. eapply pg_eq; [apply kmul_id_r|]. apply pg_mul; [exact Hq|apply pg_id]. Qed.
Lemma pg_prod : forall n A B, pg n A -> pg n B -> pg n (kmul n A B).
Proof.
  intros n A B HA HB. induction HA as [|P q K Hq HK IH|c K Hc HK IH|K K' E HK IH].
  - eapply pg_eq; [apply keq_sym, kmul_id_l|exact HB].
  - eapply pg_eq; [apply keq_sym, kmul_assoc|]. apply pg_mul; assumption.
  - eapply pg_eq; [apply keq_sym, kmul_kscale_l|]. apply pg_ph; assumption.
  - eapply pg_eq; [apply kmul_ext; [exact E|apply keq_refl]|exact IH].
Qed.

(** ** one entry per row *)
Definition mono (n : nat) (K : op) : Prop :=
  forall x, In x (bitstrings n) -> exists y c, In y (bitstrings n) /\ unit4 c /\ forall z, In z (bitstrings n) -> K x z = Cmul c (kid y z).
Lemma letter_mono : forall n P q, q < n -> mono n (lop (P, q)).
Proof.
  intros n P q Hq x Hx. pose proof (bitstrings_nth_lt n x q Hx) as B.
  assert (OV : forall b, b < 2 -> In (overwrite x [q] [b]) (bitstrings n)).
  { intros b Hb. apply overwrite_bits; [exact Hx|]. simpl. destruct b as [|[|b]]; [tauto|tauto|lia]. }
  assert (G : exists b c, b < 2 /\ unit4 c /\ letter_matrix P [nth q x 0] [b] = c /\ letter_matrix P [nth q x 0] [1 - b] = C0).
  { destruct (nth q x 0) as [|[|k]]; [| |lia]; destruct P; cbn [letter_matrix];
      first [exists 0; eexists; split; [lia|]; split; [|split; [reflexivity|reflexivity]]; unfold unit4; cbn; first [left; apply C_ext; simpl; ring|right; left; apply C_ext; simpl; ring|right; right; left; apply C_ext; simpl; ring|right; right; right; apply C_ext; simpl; ring]
            |exists 1; eexists; split; [lia|]; split; [|split; [reflexivity|reflexivity]]; unfold unit4; cbn; first [left; apply C_ext; simpl; ring|right; left; apply C_ext; simpl; ring|right; right; left; apply C_ext; simpl; ring|right; right; right; apply C_ext; simpl; ring]]. }
  destruct G as (b & c & Hb & Hc & E1 & E2). exists (overwrite x [q] [b]), c. split; [apply OV; exact Hb|split; [exact Hc|]]. intros z Hz.
  unfold lop, gate_op, ctrl_kernel. cbn [fst snd bits_at map all_ones forallb length]. change (bitstrings 1) with [[0]; [1]]. cbn [csum].
  destruct b as [|[|b]]; [| |lia]; cbn [Nat.sub] in E2; rewrite E1, E2; ring.
Qed.
Lemma pg_mono : forall n K, pg n K -> mono n K.
Proof.
  intros n K H. induction H as [|P q K Hq HK IH|c K Hc HK IH|K K' E HK IH]; intros x Hx.
  - exists x, C1. split; [exact Hx|split; [left; reflexivity|]]. intros z _. ring.
  - destruct (letter_mono n P q Hq x Hx) as (y & c & Hy & Hc & E). destruct (IH y Hy) as (y' & c' & Hy' & Hc' & E'). exists y', (Cmul c c'). split; [exact Hy'|split; [apply unit4_mul; assumption|]].
    intros z Hz. unfold kmul. rewrite (csum_ext _ _ (fun v => Cmul (kid y v) (Cmul c (K v z)))) by (intros v Hv; rewrite E by exact Hv; ring).
    rewrite (csum_kid_l n y (fun v => Cmul c (K v z)) Hy), E' by exact Hz. ring.
  - destruct (IH x Hx) as (y & c' & Hy & Hc' & E). exists y, (Cmul c c'). split; [exact Hy|split; [apply unit4_mul; assumption|]]. intros z Hz. unfold kscale. rewrite E by exact Hz. ring.
  - destruct (IH x Hx) as (y & c & Hy & Hc & E'). exists y, c. split; [exact Hy|split; [exact Hc|]]. intros z Hz. rewrite <- (E x z Hx Hz). apply E'; exact Hz.
Qed.
Lemma pg_value : forall n K b, pg n K -> In b (bitstrings n) -> sign_or_zero (re (K b b)).
Proof.
  intros n K b H Hb. destruct (pg_mono n K H b Hb) as (y & c & _ & Hc & E). rewrite (E b Hb). unfold kid. unfold sign_or_zero.
  destruct (list_eq_dec Nat.eq_dec y b); [destruct Hc as [->|[->|[->| ->]]]; simpl; [right; right; ring|left; ring|right; left; ring|right; left; ring]|right; left; simpl; ring].
Qed.

(** ** a Clifford gate turns products of letters into products of letters *)
Lemma shape_pg : forall w n vals sq o K, denotes w n vals sq o K ->
    (forall P q, q < n -> o = letter_gate P q -> pg n K) /\ (forall P q, q < n -> o = minus (letter_gate P q) -> pg n K) /\
    (forall P a Q b, valid_qubits n [a; b] -> o = two_letters P a Q b -> pg n K).
Proof.
  intros w n vals sq o K D. split; [|split].
  - intros P q Hq ->. eapply pg_eq; [apply keq_sym, (denotes_unique _ _ _ _ _ _ _ _ D (letter_denotes w n vals sq P q Hq))|]. apply pg_letter; exact Hq.
  - intros P q Hq ->. eapply pg_eq; [apply keq_sym, (denotes_unique _ _ _ _ sq _ _ (kscale (RtoC (-1)) (lop (P, q))) D)|].
    + apply den_scale; [apply letter_denotes; exact Hq|reflexivity].
    + apply pg_ph; [exact unit4_minus|apply pg_letter; exact Hq].
  - intros P a Q b V ->. destruct V as [ND F]. inversion F as [|? ? Ha F1]; subst. inversion F1 as [|? ? Hb _]; subst.
    eapply pg_eq; [apply keq_sym, (denotes_unique _ _ _ _ true _ _ (kprod n [lop (P, a); lop (Q, b)]) D)|].
    + apply den_seq; [left; reflexivity|]. constructor; [apply letter_denotes; exact Ha|constructor; [apply letter_denotes; exact Hb|constructor]].
    + cbn [kprod]. apply pg_prod; [apply pg_prod; [apply pg_id|apply pg_letter; exact Hb]|apply pg_letter; exact Ha].
Qed.
Lemma letter_I : forall n q, q < n -> keq n (lop (LI, q)) kid.
Proof. intros n q Hq x y Hx Hy. change (lop (LI, q)) with (zop (LI, q)). rewrite (z_entry n) by assumption. cbn [fst]. apply C_ext; simpl; ring. Qed.
Lemma pulled_left : forall n U K L K', keq n K L -> pulled n U K K' -> pulled n U L K'.
Proof. intros n U K L K' E H. eapply keq_trans; [exact H|]. apply kmul_ext; [apply kmul_ext; [apply keq_refl|exact E]|apply keq_refl]. Qed.
Lemma letter_other : forall n vals g P q, usable n vals g -> q < n -> ~ In q (ctrl_of (control g) ++ target g) -> exists K', pg n K' /\ pulled n (kop vals g) (lop (P, q)) K'.
Proof.
  intros n vals g P q U Hq NI. exists (lop (P, q)). split; [apply pg_letter; exact Hq|]. eapply local_step; [exact U|apply (one_local n q); exact Hq|]. intros p I ->. exact (NI I).
Qed.
Lemma letter_LI : forall n vals g q, usable n vals g -> q < n -> exists K', pg n K' /\ pulled n (kop vals g) (lop (LI, q)) K'.
Proof.
  intros n vals g q U Hq. exists kid. split; [apply pg_id|]. eapply pulled_left; [apply keq_sym, letter_I; exact Hq|]. apply pulled_id. apply unitary_kop; exact U.
Qed.
Lemma one_letter : forall (w : world) n vals mk q P, In mk [gI; gX; NOT; gY; gZ; gH; gS] -> usable n vals (plain mk q) -> q < n -> P <> LI ->
    exists K', pg n K' /\ pulled n (kop vals (plain mk q)) (lop (P, q)) K'.
Proof.
  intros w n vals mk q P I U Hq NP.
  assert (ST : forall o', In (plain mk q, P, o') (one_qubit_rules q) -> (exists Q, o' = letter_gate Q q \/ o' = minus (letter_gate Q q)) -> exists K', pg n K' /\ pulled n (kop vals (plain mk q)) (lop (P, q)) K').
  { intros o' R (Q & S). destruct (one_step w n vals _ q P o' R U true _ (letter_denotes w n vals true P q Hq)) as (K' & D & PL). exists K'. split; [|exact PL].
    destruct (shape_pg _ _ _ _ _ _ D) as (S1 & S2 & _). destruct S as [S|S]; [apply (S1 Q q Hq S)|apply (S2 Q q Hq S)]. }
  assert (V : valid_qubits n [q]) by (apply valid_one; exact Hq).
  destruct I as [<-|[<-|[<-|[<-|[<-|[<-|[<-|[]]]]]]]].
  - destruct (one_lifted n vals q gI _ (b_I vals (TInt q) no_control None) U) as [_ L]. exists (lop (P, q)). split; [apply pg_letter; exact Hq|].
    apply (pulled_lift n [q] _ I_matrix (letter_matrix P) (letter_matrix P) _ _ V L); [apply keq_refl|apply keq_refl|]. destruct P; ents; fin.
  - destruct P; [congruence| | |]; (eapply ST; [simpl; tauto|eauto]).
  - destruct P; [congruence| | |]; (eapply ST; [change NOT with gX; simpl; tauto|eauto]).
  - destruct P; [congruence| | |]; (eapply ST; [simpl; tauto|eauto]).
  - destruct P; [congruence| | |]; (eapply ST; [simpl; tauto|eauto]).
  - destruct P; [congruence| | |]; (eapply ST; [simpl; tauto|eauto]).
  - destruct P; [congruence| | |]; (eapply ST; [simpl; tauto|eauto]).
Qed.
Lemma two_letter : forall (w : world) n vals g a b, (g = gX (TInt b) (IInt a) None false \/ g = gZ (TInt b) (IInt a) None false \/ g = SWAP (TTup [a; b]) no_control None false) ->
    usable n vals g -> forall P q, q < n -> P <> LI -> In q [a; b] -> exists K', pg n K' /\ pulled n (kop vals g) (lop (P, q)) K'.
Proof.
  intros w n vals g a b HG U P q Hq NP I. assert (V : valid_qubits n [a; b]).
  { destruct (two_lifted n vals a b) as (T1 & T2 & T3). destruct HG as [E|[E|E]]; rewrite E in U; [apply (T1 U)|apply (T2 U)|apply (T3 U)]. }
  assert (AB : a < n /\ b < n) by (destruct V as [_ F]; inversion F as [|? ? H1 F1]; subst; inversion F1; subst; split; assumption). destruct AB as [Ha Hb].
  assert (ST : forall o', In (g, letter_gate P q, o') (two_qubit_rules a b) -> ((exists Q p, p < n /\ o' = letter_gate Q p) \/ (exists Q R, o' = two_letters Q a R b)) ->
     exists K', pg n K' /\ pulled n (kop vals g) (lop (P, q)) K').
  { intros o' R S. destruct (two_step w n vals _ a b _ o' R U true _ (letter_denotes w n vals true P q Hq)) as (K' & D & PL). exists K'. split; [|exact PL].
    destruct (shape_pg _ _ _ _ _ _ D) as (S1 & _ & S3). destruct S as [(Q & p & Hp & S)|(Q & R' & S)]; [apply (S1 Q p Hp S)|apply (S3 Q a R' b V S)]. }
  destruct HG as [->|[->| ->]]; destruct I as [<-|[<-|[]]]; destruct P; try congruence; (eapply ST; [simpl; tauto|first [left; do 2 eexists; split; [|reflexivity]; assumption|right; do 2 eexists; reflexivity]]).
Qed.
Lemma clifford_letter : forall (w : world) n vals g P q, clifford g -> usable n vals g -> q < n -> exists K', pg n K' /\ pulled n (kop vals g) (lop (P, q)) K'.
Proof.
  intros w n vals g P q CL U Hq. destruct (in_dec Nat.eq_dec q (ctrl_of (control g) ++ target g)) as [I|NI]; [|apply letter_other; assumption].
  assert (D : P = LI \/ P <> LI) by (destruct P; [left; reflexivity|right; discriminate|right; discriminate|right; discriminate]).
  destruct D as [->|NP]; [apply letter_LI; assumption|]. destruct CL as [mk q' M|a b|a b|a b].
  - assert (E : q' = q). { destruct M as [<-|[<-|[<-|[<-|[<-|[<-|[<-|[]]]]]]]]; destruct I as [I|[]]; exact I. } subst q'. eapply one_letter; eassumption.
  - eapply (two_letter w n vals _ a b); eauto.
  - eapply (two_letter w n vals _ a b); eauto.
  - eapply (two_letter w n vals _ a b); eauto.
Qed.
Lemma clifford_pg : forall (w : world) n vals g K, clifford g -> usable n vals g -> pg n K -> exists K', pg n K' /\ pulled n (kop vals g) K K'.
Proof.
  intros w n vals g K CL U H. pose proof (unitary_kop n vals g U) as HU. induction H as [|P q K Hq HK (K' & HK' & PL)|c K Hc HK (K' & HK' & PL)|K L E HK (K' & HK' & PL)].
  - exists kid. split; [apply pg_id|apply pulled_id; exact HU].
  - destruct (clifford_letter w n vals g P q CL U Hq) as (L' & HL' & PL'). exists (kmul n L' K'). split; [apply pg_prod; assumption|apply pulled_mul; assumption].
  - exists (kscale c K'). split; [apply pg_ph; assumption|apply pulled_scale; exact PL].
  - exists K'. split; [exact HK'|eapply pulled_left; eassumption].
Qed.
Lemma circuit_pg : forall (w : world) n vals gs, Forall clifford gs -> Forall (usable n vals) gs -> forall K, pg n K -> exists K', pg n K' /\ pulled n (uop n vals gs) K K'.
Proof.
  intros w n vals gs. induction gs as [|g gs IH] using rev_ind; intros FC FU K HK; [exists K; split; [exact HK|apply pulled_nil]|].
  apply Forall_app in FC as [FC C1']. apply Forall_app in FU as [FU U1]. inversion C1' as [|? ? CG _]; inversion U1 as [|? ? UG _]; subst.
  destruct (clifford_pg w n vals g K CG UG HK) as (K1 & H1 & P1). destruct (IH FC FU K1 H1) as (K2 & H2 & P2). exists K2. split; [exact H2|].
  eapply pulled_app; [apply pulled_one; exact P1|exact P2].
Qed.

(** ** measured in a basis state *)
Definition bproj (b : list nat) : op := fun x y => if list_eq_dec Nat.eq_dec x b then (if list_eq_dec Nat.eq_dec y b then C1 else C0) else C0.
Lemma mean_bproj : forall n K b, In b (bitstrings n) -> mean_density n K (bproj b) = re (K b b).
Proof.
  intros n K b Hb. unfold mean_density, ktrace, kmul. f_equal. rewrite (csum_single _ b); [| |exact Hb|].
  - rewrite (csum_single _ b); [|apply bitstrings_NoDup|exact Hb|].
    + unfold bproj. destruct (list_eq_dec Nat.eq_dec b b); [ring|congruence].
    + intros z _ D. unfold bproj. destruct (list_eq_dec Nat.eq_dec z b); [congruence|ring].
  - apply bitstrings_NoDup.
  - intros x _ D. apply csum_zero. intros z _. unfold bproj. destruct (list_eq_dec Nat.eq_dec z b); [|ring]. destruct (list_eq_dec Nat.eq_dec x b); [congruence|ring].
Qed.
Lemma clifford_mean : forall (w : world) n vals gs b r K, Forall clifford gs -> Forall (usable n vals) gs -> Forall noiseless gs -> In b (bitstrings n) -> keq n r (bproj b) -> pg n K ->
    sign_or_zero (mean_density n K (evolve n vals gs r)).
Proof.
  intros w n vals gs b r K FC FU FN Hb ER HK. destruct (circuit_pg w n vals gs FC FU K HK) as (K' & HK' & PL).
  rewrite (mean_density_ext n K K _ (sandwiched n (uop n vals gs) r) (keq_refl n K) (evolve_plain n vals gs r FN)), (pulled_mean n _ K K' r PL), (mean_density_ext n K' K' r _ (keq_refl n K') ER), mean_bproj by exact Hb.
  apply pg_value with n; assumption.
Qed.
Lemma pg_string : forall n s, Forall (fun q => q < n) (map snd s) -> pg n (kprod n (map lop s)).
Proof. intros n s F. induction s as [|[P q] s IH]; cbn [map kprod]; [apply pg_id|]. cbn [map snd] in F. inversion F; subst. apply pg_prod; [auto|apply pg_letter; assumption]. Qed.
Lemma c132_values : forall w n vals c gs st b H mode key, set_order (set_iter w) -> flat_values vals -> runnable n vals c gs -> Forall clifford gs -> in_basis_state n st b ->
    hamiltonian_ok n H -> (mixes st gs -> increasing_support w (hamiltonian_operations H)) -> exact_mode mode ->
    exists es, length es = length H /\ Forall sign_or_zero es /\ expectation w st c [hamiltonian_operations H] vals mode 0 key = Ok [weighted H es].
Proof.
  intros w n vals c gs st b H mode key SO FV RN FC (Hb & HT & ER) HO IS EM. pose proof RN as (_ & _ & FU & _).
  assert (FN : Forall noiseless gs).
  { eapply Forall_impl; [|exact FC]. intros g [mk q M|x y|x y|x y]; [|reflexivity|reflexivity|reflexivity]. destruct M as [<-|[<-|[<-|[<-|[<-|[<-|[<-|[]]]]]]]]; reflexivity. }
  set (r := evolve n vals gs (density_of st)). exists (map (fun t : R * pauli_string => mean_density n (kprod n (map lop (snd t))) r) H). split; [apply map_length|split].
  - apply Forall_map. destruct HO as [_ F]. eapply Forall_impl; [|exact F]. intros t (_ & _ & B). unfold r. eapply clifford_mean; try eassumption. apply pg_string; exact B.
  - assert (FR : Forall2 (readable w n vals st gs) [hamiltonian_operations H] [hop n H]).
    { constructor; [|constructor]. split; [exists false; apply hamiltonian_on; exact HO|]. intro M. split; [apply hamiltonian_on; exact HO|auto]. }
    assert (NE : [hamiltonian_operations H] <> []) by discriminate. rewrite (exact_spec w n vals c gs st _ _ mode key SO FV RN HT NE FR EM). cbn [map]. do 2 f_equal. fold r. unfold hop. rewrite mean_ksum. unfold total, weighted. clear.
    induction H as [|[k s] H IH]; [reflexivity|]. cbn [map rsum combine fst snd]. rewrite IH, mean_kscale. reflexivity.
Qed.

(** ** the probabilities of the outcomes *)
Definition zsign (b : nat) : C := if Nat.eqb b 0 then C1 else Copp C1.
Definition two_proj (x : list nat) (q : nat) : op := kadd kid (kscale (zsign (nth q x 0)) (lop (LZ, q))).
Definition zg (n : nat) (K : op) : Prop := exists Ks, Forall (pg n) Ks /\ keq n K (ksum Ks).
Lemma ksum_app2 : forall n A B, keq n (ksum (A ++ B)) (kadd (ksum A) (ksum B)).
Proof. intros n A B x y Hx Hy. induction A as [|K A IH]; [unfold kadd; cbn [app ksum]; ring|]. cbn [app ksum]. rewrite IH. unfold kadd. cbn [ksum]. ring. Qed.
Lemma ksum_mul_r : forall n Ks L, keq n (kmul n (ksum Ks) L) (ksum (map (fun K => kmul n K L) Ks)).
Proof.
  intros n Ks L. induction Ks as [|K Ks IH]; [change (ksum []) with kzero; apply kmul_zero_l|]. cbn [map]. change (ksum (K :: Ks)) with (kadd K (ksum Ks)).
  eapply keq_trans; [apply kmul_kadd_l|]. change (ksum (kmul n K L :: map (fun K => kmul n K L) Ks)) with (kadd (kmul n K L) (ksum (map (fun K => kmul n K L) Ks))). apply kadd_ext; [apply keq_refl|exact IH].
Qed.
Lemma zg_step : forall n x q K, q < n -> zg n K -> zg n (kmul n K (two_proj x q)).
Proof.
  intros n x q K Hq (Ks & F & E). exists (Ks ++ map (fun K => kmul n K (kscale (zsign (nth q x 0)) (lop (LZ, q)))) Ks). split.
  - apply Forall_app. split; [exact F|]. apply Forall_map. eapply Forall_impl; [|exact F]. intros L HL. apply pg_prod; [exact HL|]. apply pg_ph; [|apply pg_letter; exact Hq].
    unfold zsign. destruct (Nat.eqb _ 0); [left; reflexivity|right; left; reflexivity].
  - eapply keq_trans; [|apply keq_sym, ksum_app2]. unfold two_proj. eapply keq_trans; [apply kmul_kadd_r|]. apply kadd_ext; [eapply keq_trans; [apply kmul_id_r|exact E]|].
    eapply keq_trans; [apply kmul_ext; [exact E|apply keq_refl]|]. apply ksum_mul_r.
Qed.
Lemma zg_proj : forall n x l, Forall (fun q => q < n) l -> zg n (kprod n (map (two_proj x) l)).
Proof.
  intros n x l F. induction F as [|q l Hq F IH]; cbn [map kprod].
  - exists [kid]. split; [constructor; [apply pg_id|constructor]|]. intros a b _ _. cbn [ksum]. ring.
  - apply zg_step; assumption.
Qed.
Lemma proj_entry : forall n x l, In x (bitstrings n) -> Forall (fun q => q < n) l -> forall y z, In y (bitstrings n) -> In z (bitstrings n) ->
    kprod n (map (two_proj x) l) y z = Cmul (RtoC (if forallb (fun q => Nat.eqb (nth q y 0) (nth q x 0)) l then 2 ^ length l else 0)) (kid y z).
Proof.
  intros n x l Hx F. induction F as [|q l Hq F IH]; intros y z Hy Hz; cbn [map kprod forallb length]; [apply C_ext; simpl; ring|].
  set (cl := RtoC (if forallb (fun q => Nat.eqb (nth q y 0) (nth q x 0)) l then 2 ^ length l else 0)) in *.
  unfold kmul. rewrite (csum_ext _ _ (fun v => Cmul (kid y v) (Cmul cl (two_proj x q v z)))) by (intros v Hv; rewrite IH by assumption; fold cl; ring).
  rewrite (csum_kid_l n y (fun v => Cmul cl (two_proj x q v z)) Hy). unfold two_proj, kadd, kscale. change (lop (LZ, q)) with (zop (LZ, q)). rewrite (z_entry n) by assumption. cbn [fst snd]. unfold cl.
  pose proof (bitstrings_nth_lt n y q Hy) as By. pose proof (bitstrings_nth_lt n x q Hx) as Bx. unfold zsign.
  destruct (forallb (fun q => Nat.eqb (nth q y 0) (nth q x 0)) l); rewrite ?andb_true_r, ?andb_false_r;
    destruct (nth q y 0) as [|[|k]]; try lia; destruct (nth q x 0) as [|[|k']]; try lia; cbn [Nat.eqb andb]; apply C_ext; simpl; ring.
Qed.
Lemma proj_full : forall n x, In x (bitstrings n) -> keq n (kprod n (map (two_proj x) (seq 0 n))) (kscale (RtoC (2 ^ n)) (bproj x)).
Proof.
  intros n x Hx y z Hy Hz. rewrite proj_entry; [|exact Hx|apply Forall_forall; intros q I; apply in_seq in I; lia|exact Hy|exact Hz]. unfold kscale, bproj.
  destruct (list_eq_dec Nat.eq_dec y x) as [->|D].
  - replace (forallb (fun q => Nat.eqb (nth q x 0) (nth q x 0)) (seq 0 n)) with true by (symmetry; apply forallb_forall; intros; apply Nat.eqb_refl). rewrite seq_length.
    unfold kid. destruct (list_eq_dec Nat.eq_dec x z) as [E1|E1], (list_eq_dec Nat.eq_dec z x) as [E2|E2]; [reflexivity|elim E2; symmetry; exact E1|elim E1; symmetry; exact E2|reflexivity].
  - destruct (forallb (fun q => Nat.eqb (nth q y 0) (nth q x 0)) (seq 0 n)) eqn:E; [|apply C_ext; simpl; ring]. elim D. rewrite forallb_forall in E.
    apply (nth_ext _ _ 0 0); [rewrite (bitstrings_length n y Hy), (bitstrings_length n x Hx); reflexivity|]. intros i Hi. rewrite (bitstrings_length n y Hy) in Hi. apply Nat.eqb_eq, E, in_seq. lia.
Qed.
Lemma sum_integer : forall l, Forall sign_or_zero l -> exists k : Z, total l = IZR k.
Proof.
  intros l F. unfold total. induction F as [|e l He F (k & E)]; [exists 0%Z; reflexivity|]. cbn [rsum]. rewrite E.
  destruct He as [->|[->| ->]]; [exists (-1 + k)%Z|exists k|exists (1 + k)%Z]; rewrite ?plus_IZR; simpl; ring.
Qed.
Lemma clifford_diagonal : forall n U b x, In b (bitstrings n) -> In x (bitstrings n) -> (0 <= re (sandwiched n U (bproj b) x x))%R.
Proof.
  intros n U b x Hb Hx. assert (E : sandwiched n U (bproj b) x x = Cmul (U x b) (Cconj (U x b))).
  { unfold sandwiched, kmul. rewrite (csum_single _ b); [|apply bitstrings_NoDup|exact Hb|].
    - rewrite (csum_single _ b); [|apply bitstrings_NoDup|exact Hb|].
      + unfold bproj, kadj. destruct (list_eq_dec Nat.eq_dec b b); [ring|congruence].
      + intros z _ D. unfold bproj. destruct (list_eq_dec Nat.eq_dec z b); [congruence|ring].
    - intros z _ D. rewrite csum_zero; [ring|]. intros v _. unfold bproj. destruct (list_eq_dec Nat.eq_dec v b); [destruct (list_eq_dec Nat.eq_dec z b); [congruence|ring]|ring]. }
  rewrite E. simpl. pose proof (Rle_0_sqr (re (U x b))) as H1. pose proof (Rle_0_sqr (im (U x b))) as H2. unfold Rsqr in *. lra.
Qed.
Lemma c132_outcomes : forall w n vals c gs st b, set_order (set_iter w) -> runnable n vals c gs -> Forall clifford gs -> in_basis_state n st b ->
    exists out, run w c st vals = Ok (Some out) /\ forall x, In x (bitstrings n) -> exists k : nat, outcome_probability out x = (INR k / 2 ^ n)%R.
Proof.
  intros w n vals c gs st b SO RN FC (Hb & HT & ER). pose proof RN as (_ & _ & FU & _).
  assert (FN : Forall noiseless gs).
  { eapply Forall_impl; [|exact FC]. intros g [mk q M|x y|x y|x y]; [|reflexivity|reflexivity|reflexivity]. destruct M as [<-|[<-|[<-|[<-|[<-|[<-|[<-|[]]]]]]]]; reflexivity. }
  destruct (output_spec w n vals c gs st SO RN HT) as (out & E & _ & _ & So & KO & _). exists out. split; [exact E|]. intros x Hx.
  assert (P2 : (0 < 2 ^ n)%R) by (apply pow_lt; lra).
  assert (M : (2 ^ n * outcome_probability out x)%R = mean_density n (kprod n (map (two_proj x) (seq 0 n))) (evolve n vals gs (density_of st))).
  { rewrite (mean_density_ext n _ _ _ (density_of out) (proj_full n x Hx) (keq_sym _ _ _ KO)), mean_kscale. f_equal. unfold outcome_probability, mean_density.
    rewrite ktrace_cyclic. exact (eq_sym (mean_bproj n (density_of out) x Hx)). }
  assert (Z : exists k : BinNums.Z, (2 ^ n * outcome_probability out x)%R = IZR k).
  { destruct (zg_proj n x (seq 0 n)) as (Ks & FK & EK); [apply Forall_forall; intros q I; apply in_seq in I; lia|].
    rewrite M, (mean_density_ext n _ _ _ _ EK (keq_refl n _)), mean_ksum. apply sum_integer. apply Forall_map. eapply Forall_impl; [|exact FK]. intros K HK. apply (clifford_mean w n vals gs b (density_of st) K FC FU FN Hb ER HK). }
  assert (NN : (0 <= outcome_probability out x)%R).
  { unfold outcome_probability. rewrite (KO x x Hx Hx), (evolve_plain n vals gs (density_of st) FN x x Hx Hx).
    rewrite (sandwiched_ext n _ _ _ (bproj b) (keq_refl n _) ER x x Hx Hx). apply clifford_diagonal; assumption. }
  destruct Z as (k & Ek). assert (K0 : (0 <= k)%Z) by (apply le_IZR; rewrite <- Ek; apply Rmult_le_pos; lra).
  exists (Z.to_nat k). rewrite INR_IZR_INZ, Z2Nat.id by exact K0. rewrite <- Ek. field. lra.
Qed.
