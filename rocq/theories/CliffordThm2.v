(** * The outcomes of a Clifford circuit are equally likely (C132) *)
From Coq Require Import String List Arith Bool Reals Lia Lra ZArith Permutation.
From Verif Require Import Cplx Py PyFacts Ndarray NdFacts OperatorUtils ApplyOperator Sparse Matrices Noise Gates Apply Composite Conversion Shots Gpsr Api
  Spec SpecFacts GateSpec PropSpec NoiseSpec SampleSpec ExpectSpec GpsrSpec GateFacts TensorFacts CircuitFacts AlgebraFacts ApplyThm GateThm TensorThm
  KrausThm NoiseThm NoiseThm2 SeqThm SampleThm ShotsSpec ShotsThm ShotsThm2 ExpectThm ExpectThm2 GpsrFacts GpsrThm StructSpec StructThm3 PhysSpec PhysThm PhysThm2 PhysThm3 CtorSpec CtorThm
  CircuitLawSpec CircuitLawThm PauliSpec PauliThm InverseThm HeisSpec HeisThm HessThm VarThm ShotGradThm ContractThm CliffordSpec CliffordThm.
Import ListNotations.
Local Open Scope nat_scope.

(** ** subsets of qubits and their parities *)
Fixpoint subsets (l : list nat) : list (list nat) := match l with [] => [[]] | q :: l' => subsets l' ++ map (cons q) (subsets l') end.
Definition zs (S : list nat) : pauli_string := map (fun q => (LZ, q)) S.
Definition sg (b : nat) : R := if Nat.eqb b 0 then 1%R else (-1)%R.
Lemma zs_snd : forall S, map snd (zs S) = S.
Proof. intro S. unfold zs. rewrite map_map. apply map_id. Qed.
Lemma parity_cons : forall q S x, parity (zs (q :: S)) x = (sg (nth q x 0%nat) * parity (zs S) x)%R.
Proof. reflexivity. Qed.
Lemma parity_pm : forall S x, parity (zs S) x = 1%R \/ parity (zs S) x = (-1)%R.
Proof.
  induction S as [|q S IH]; intro x; [left; reflexivity|]. rewrite parity_cons. unfold sg. destruct (Nat.eqb _ 0); destruct (IH x) as [-> | ->]; [left|right|right|left]; ring.
Qed.
Lemma subsets_bound : forall (P : nat -> Prop) l, Forall P l -> forall S, In S (subsets l) -> Forall P S.
Proof.
  intros P l F. induction F as [|q l Hq F IH]; intros S I; [destruct I as [<-|[]]; constructor|]. cbn [subsets] in I. apply in_app_or in I as [I|I]; [auto|].
  apply in_map_iff in I as (T & <- & I). constructor; auto.
Qed.
Lemma subsets_product : forall l x y, rsum (subsets l) (fun S => parity (zs S) x * parity (zs S) y)%R = fold_right (fun q a => (1 + sg (nth q x 0%nat) * sg (nth q y 0%nat)) * a)%R 1%R l.
Proof.
  induction l as [|q l IH]; intros x y; cbn [subsets fold_right]; [cbn [rsum zs map parity]; ring|]. rewrite rsum_app, rsum_map, <- IH.
  rewrite (rsum_ext (subsets l) (fun S => parity (zs (q :: S)) x * parity (zs (q :: S)) y)%R (fun S => sg (nth q x 0%nat) * sg (nth q y 0%nat) * (parity (zs S) x * parity (zs S) y))%R) by (intros S _; rewrite !parity_cons; ring).
  rewrite rsum_scale. ring.
Qed.
Lemma product_equal : forall l x, fold_right (fun q a => (1 + sg (nth q x 0%nat) * sg (nth q x 0%nat)) * a)%R 1%R l = (2 ^ length l)%R.
Proof. induction l as [|q l IH]; intro x; [reflexivity|]. cbn [fold_right length pow]. rewrite IH. unfold sg. destruct (Nat.eqb _ 0); ring. Qed.
Lemma product_differ : forall n x y l, In x (bitstrings n) -> In y (bitstrings n) -> (exists q, In q l /\ nth q x 0 <> nth q y 0) ->
    fold_right (fun q a => (1 + sg (nth q x 0%nat) * sg (nth q y 0%nat)) * a)%R 1%R l = 0%R.
Proof.
  intros n x y l Hx Hy (q & I & D). induction l as [|p l IH]; [destruct I|]. cbn [fold_right]. destruct I as [->|I]; [|rewrite IH by exact I; ring].
  pose proof (bitstrings_nth_lt n x q Hx) as Bx. pose proof (bitstrings_nth_lt n y q Hy) as By. unfold sg.
  destruct (nth q x 0) as [|[|k]]; try lia; destruct (nth q y 0) as [|[|k']]; try lia; cbn [Nat.eqb]; ring.
Qed.
Lemma subsets_delta : forall n x y, In x (bitstrings n) -> In y (bitstrings n) -> y <> x -> rsum (subsets (seq 0 n)) (fun S => parity (zs S) x * parity (zs S) y)%R = 0%R.
Proof.
  intros n x y Hx Hy D. rewrite subsets_product. apply (product_differ n); [exact Hx|exact Hy|].
  destruct (existsb (fun q => negb (Nat.eqb (nth q x 0) (nth q y 0))) (seq 0 n)) eqn:E.
  - apply existsb_exists in E as (q & I & N). exists q. split; [exact I|]. apply negb_true_iff, Nat.eqb_neq in N. exact N.
  - elim D. apply (nth_ext _ _ 0 0); [rewrite (bitstrings_length n x Hx), (bitstrings_length n y Hy); reflexivity|]. intros i Hi. rewrite (bitstrings_length n y Hy) in Hi.
    destruct (Nat.eqb (nth i x 0) (nth i y 0)) eqn:Q; [apply Nat.eqb_eq in Q; congruence|].
    assert (T : existsb (fun q => negb (Nat.eqb (nth q x 0) (nth q y 0))) (seq 0 n) = true) by (apply existsb_exists; exists i; split; [apply in_seq; lia|rewrite Q; reflexivity]). congruence.
Qed.

(** ** arithmetic *)
Lemma divides_power : forall n k m, k * m = 2 ^ n -> exists i, i <= n /\ m = 2 ^ i.
Proof.
  induction n as [|n IH]; intros k m E.
  - simpl in E. exists 0. split; [lia|]. apply Nat.eq_mul_1 in E. simpl. tauto.
  - change (2 ^ S n) with (2 * 2 ^ n) in E. destruct (Nat.Even_or_Odd k) as [(k' & Ek)|(k' & Ek)].
    + destruct (IH k' m) as (i & Hi & Em); [subst k; nia|]. exists i. split; [lia|exact Em].
    + destruct (Nat.Even_or_Odd m) as [(m' & Em)|(m' & Em)].
      * destruct (IH k m') as (i & Hi & Em'); [subst m; nia|]. exists (S i). split; [lia|]. rewrite Em, Em'. reflexivity.
      * exfalso. assert (Q : 2 * (2 * (k' * m') + k' + m') + 1 = 2 * 2 ^ n) by (rewrite <- E, Ek, Em; ring). lia.
Qed.
Lemma sum_two_values : forall {A} (P : A -> R) c l, (forall x, In x l -> P x = 0%R \/ P x = c) -> exists m : nat, rsum l P = (INR m * c)%R.
Proof.
  intros A P c l. induction l as [|x l IH]; intro H; [exists 0; simpl; ring|]. destruct IH as (m & E); [intros y Iy; apply H; right; exact Iy|]. cbn [rsum]. rewrite E.
  destruct (H x (or_introl eq_refl)) as [-> | ->]; [exists m; ring|exists (S m); rewrite S_INR; ring].
Qed.
Lemma sum_squares : forall {A} (e : A -> R) l, (forall x, In x l -> sign_or_zero (e x)) -> exists k : nat, rsum l (fun x => e x * e x)%R = INR k.
Proof.
  intros A e l. induction l as [|x l IH]; intro H; [exists 0; reflexivity|]. destruct IH as (k & E); [intros y Iy; apply H; right; exact Iy|]. cbn [rsum]. rewrite E.
  destruct (H x (or_introl eq_refl)) as [-> |[-> | ->]]; [exists (S k)|exists k|exists (S k)]; rewrite ?S_INR; ring.
Qed.

(** ** the sum modulo 2 of three outcomes *)
Lemma xor3_nth : forall q x y z, length x = length y -> length y = length z -> q < length x -> nth q (xor3 x y z) 0 = (nth q x 0 + nth q y 0 + nth q z 0) mod 2.
Proof.
  induction q as [|q IH]; intros [|a x] [|b y] [|c z] E1 E2 L; cbn [length] in *; try lia; [reflexivity|]. unfold xor3. cbn [combine map nth]. apply IH; lia.
Qed.
Lemma xor3_bits : forall n x y z, In x (bitstrings n) -> In y (bitstrings n) -> In z (bitstrings n) -> In (xor3 x y z) (bitstrings n).
Proof.
  intros n x y z Hx Hy Hz. apply bitstrings_length in Hx. apply bitstrings_length in Hy. apply bitstrings_length in Hz.
  revert x y z Hx Hy Hz. induction n as [|n IH]; intros x y z Hx Hy Hz.
  - destruct x; [left; reflexivity|discriminate].
  - destruct x as [|a x], y as [|b y], z as [|c z]; try discriminate. injection Hx as Hx. injection Hy as Hy. injection Hz as Hz. pose proof (IH x y z Hx Hy Hz) as I.
    change (xor3 (a :: x) (b :: y) (c :: z)) with ((a + b + c) mod 2 :: xor3 x y z). pose proof (Nat.mod_upper_bound (a + b + c) 2 ltac:(lia)) as B.
    destruct ((a + b + c) mod 2) as [|[|k]]; [| |lia]; cbn [bitstrings]; apply in_or_app; [left|right]; apply in_map; exact I.
Qed.
Lemma parity_xor3 : forall n S x y z, Forall (fun q => q < n) S -> In x (bitstrings n) -> In y (bitstrings n) -> In z (bitstrings n) ->
    parity (zs S) (xor3 x y z) = (parity (zs S) x * parity (zs S) y * parity (zs S) z)%R.
Proof.
  intros n S x y z F Hx Hy Hz. induction F as [|q S Hq F IH]; [cbn [zs map parity]; ring|]. rewrite !parity_cons, IH.
  pose proof (bitstrings_length n x Hx) as Lx. pose proof (bitstrings_length n y Hy) as Ly. pose proof (bitstrings_length n z Hz) as Lz.
  rewrite xor3_nth by lia. pose proof (bitstrings_nth_lt n x q Hx) as Bx. pose proof (bitstrings_nth_lt n y q Hy) as By. pose proof (bitstrings_nth_lt n z q Hz) as Bz.
  unfold sg. destruct (nth q x 0%nat) as [|[|k]]; try lia; destruct (nth q y 0%nat) as [|[|k]]; try lia; destruct (nth q z 0%nat) as [|[|k]]; try lia; cbn [Nat.add Nat.modulo Nat.divmod fst snd Nat.sub Nat.eqb]; ring.
Qed.

(** ** a distribution whose parities all average to -1, 0 or 1 is uniform on its support *)
Lemma uniform_support : forall n (P : list nat -> R), (forall x, In x (bitstrings n) -> 0 <= P x)%R -> rsum (bitstrings n) P = 1%R ->
    (forall S, Forall (fun q => q < n) S -> sign_or_zero (rsum (bitstrings n) (fun x => parity (zs S) x * P x)%R)) ->
    (exists j, j <= n /\ forall x, In x (bitstrings n) -> P x = 0%R \/ P x = (/ 2 ^ j)%R) /\
    forall x y z, In x (bitstrings n) -> In y (bitstrings n) -> In z (bitstrings n) -> P x <> 0%R -> P y <> 0%R -> P z <> 0%R -> P (xor3 x y z) <> 0%R.
Proof.
  intros n P NN T1 SZ. set (e := fun S => rsum (bitstrings n) (fun x => parity (zs S) x * P x)%R) in *. set (L := subsets (seq 0 n)).
  assert (BD : forall S, In S L -> Forall (fun q => q < n) S).
  { apply (subsets_bound (fun q => q < n)). apply Forall_forall. intros q I. apply in_seq in I. lia. }
  assert (P2 : (0 < 2 ^ n)%R) by (apply pow_lt; lra).
  assert (INV : forall x, In x (bitstrings n) -> rsum L (fun S => parity (zs S) x * e S)%R = (2 ^ n * P x)%R).
  { intros x Hx. rewrite (rsum_ext L _ (fun S => rsum (bitstrings n) (fun y => P y * (parity (zs S) x * parity (zs S) y))%R)).
    - rewrite rsum_swap, (rsum_single (bitstrings n) x _ (bitstrings_NoDup n) Hx).
      + rewrite rsum_scale. unfold L. rewrite subsets_product, product_equal, seq_length. ring.
      + intros y Hy D. rewrite rsum_scale. unfold L. rewrite (subsets_delta n x y Hx Hy D). ring.
    - intros S _. unfold e. rewrite <- rsum_scale. apply rsum_ext. intros; ring. }
  assert (FIX : forall x S, In x (bitstrings n) -> In S L -> P x <> 0%R -> (parity (zs S) x * e S = e S * e S)%R).
  { intros x S Hx IS D. assert (G : forall t, e S = t -> (t = 1 \/ t = -1)%R -> parity (zs S) x = t).
    { intros t Et Ht. assert (Z : rsum (bitstrings n) (fun y => (1 - t * parity (zs S) y) * P y)%R = 0%R).
      { rewrite (rsum_ext _ _ (fun y => P y - t * (parity (zs S) y * P y))%R) by (intros; ring). rewrite rsum_minus, rsum_scale, T1. fold (e S). rewrite Et. destruct Ht as [-> | ->]; ring. }
      assert (N2 : forall y, In y (bitstrings n) -> (0 <= (1 - t * parity (zs S) y) * P y)%R).
      { intros y Hy. apply Rmult_le_pos; [|apply NN; exact Hy]. destruct Ht as [-> | ->]; destruct (parity_pm S y) as [-> | ->]; lra. }
      pose proof (rsum_zero_all _ _ N2 Z x Hx) as Q. apply Rmult_integral in Q as [Q|Q]; [|congruence]. destruct Ht as [-> | ->]; destruct (parity_pm S x) as [H | H]; rewrite H in *; lra. }
    destruct (SZ S (BD S IS)) as [E|[E|E]]; fold (e S) in E.
    - rewrite (G (-1)%R E); [rewrite E; ring|right; reflexivity].
    - rewrite E. ring.
    - rewrite (G 1%R E); [rewrite E; ring|left; reflexivity]. }
  destruct (sum_squares e L) as (k & Ek); [intros S IS; apply SZ, BD, IS|].
  assert (TWO : forall x, In x (bitstrings n) -> P x = 0%R \/ P x = (INR k / 2 ^ n)%R).
  { intros x Hx. destruct (Req_dec (P x) 0) as [Z|D]; [left; exact Z|right]. rewrite <- Ek, (rsum_ext L _ (fun S => parity (zs S) x * e S)%R), (INV x Hx) by (intros S IS; symmetry; apply FIX; assumption). field. lra. }
  split; cycle 1.
  { intros x y z Hx Hy Hz Dx Dy Dz. pose proof (xor3_bits n x y z Hx Hy Hz) as Hv. assert (EQ : (2 ^ n * P (xor3 x y z) = 2 ^ n * P x)%R).
    { rewrite <- (INV _ Hv), <- (INV _ Hx). apply rsum_ext. intros S IS. rewrite (parity_xor3 n S x y z (BD S IS) Hx Hy Hz).
      pose proof (FIX x S Hx IS Dx) as F1. pose proof (FIX y S Hy IS Dy) as F2. pose proof (FIX z S Hz IS Dz) as F3.
      destruct (Req_dec (e S) 0) as [Z|N]; [rewrite Z; ring|]. apply Rmult_eq_reg_r in F1; [|exact N]. apply Rmult_eq_reg_r in F2; [|exact N]. apply Rmult_eq_reg_r in F3; [|exact N].
      destruct (parity_pm S x) as [Q|Q]; rewrite F2, F3, <- F1, Q; ring. }
    intro Z. rewrite Z in EQ. apply Dx. nra. }
  destruct (sum_two_values P _ (bitstrings n) TWO) as (m & Em). rewrite T1 in Em.
  assert (KM : k * m = 2 ^ n).
  { apply INR_eq. rewrite mult_INR, pow_INR. change (INR 2) with 2%R. apply (Rmult_eq_reg_r (/ 2 ^ n)); [|apply Rinv_neq_0_compat; lra]. rewrite Rinv_r by lra. rewrite Em. unfold Rdiv. ring. }
  destruct (divides_power n k m KM) as (j & Hj & Ej). exists j. split; [exact Hj|]. intros x Hx. destruct (TWO x Hx) as [Z|Z]; [left; exact Z|right]. rewrite Z.
  assert (PJ : (0 < 2 ^ j)%R) by (apply pow_lt; lra).
  assert (MJ : INR m = (2 ^ j)%R) by (rewrite Ej, pow_INR; reflexivity). rewrite MJ in Em. apply (Rmult_eq_reg_l (2 ^ j)); [|lra]. rewrite <- Em, Rinv_r by lra. reflexivity.
Qed.

Lemma clifford_parities : forall w n vals c gs st b, set_order (set_iter w) -> runnable n vals c gs -> Forall clifford gs -> in_basis_state n st b ->
    exists out, run w c st vals = Ok (Some out) /\ (forall x, In x (bitstrings n) -> 0 <= outcome_probability out x)%R /\ rsum (bitstrings n) (outcome_probability out) = 1%R /\
      forall S, Forall (fun q => q < n) S -> sign_or_zero (rsum (bitstrings n) (fun x => parity (zs S) x * outcome_probability out x)%R).
Proof.
  intros w n vals c gs st b SO RN FC (Hb & HT & ER). pose proof RN as (_ & _ & FU & _).
  assert (FN : Forall noiseless gs).
  { eapply Forall_impl; [|exact FC]. intros g [mk q M|x y|x y|x y]; [|reflexivity|reflexivity|reflexivity]. destruct M as [<-|[<-|[<-|[<-|[<-|[<-|[<-|[]]]]]]]]; reflexivity. }
  destruct (output_spec w n vals c gs st SO RN HT) as (out & E & _ & _ & So & KO & _). exists out.
  assert (PAR : forall S, Forall (fun q => q < n) S -> rsum (bitstrings n) (fun x => parity (zs S) x * outcome_probability out x)%R = mean_density n (kprod n (map lop (zs S))) (evolve n vals gs (density_of st))).
  { intros S F. rewrite (mean_density_ext n _ _ _ (density_of out) (keq_refl n _) (keq_sym _ _ _ KO)).
    replace (map lop (zs S)) with (map zop (zs S)) by (unfold zs; rewrite !map_map; apply map_ext; reflexivity).
    unfold mean_density, ktrace, kmul. rewrite re_csum_rsum. apply rsum_ext. intros x Hx.
    rewrite (csum_ext _ _ (fun z => Cmul (kid x z) (Cmul (RtoC (parity (zs S) x)) (density_of out z x)))) by (intros z Hz; rewrite z_string by (rewrite ?zs_snd; assumption); ring).
    rewrite (csum_kid_l n x (fun z => Cmul (RtoC (parity (zs S) x)) (density_of out z x)) Hx). unfold outcome_probability. simpl. ring. }
  split; [exact E|]. split; [|split].
  - intros x Hx. unfold outcome_probability. rewrite (KO x x Hx Hx), (evolve_plain n vals gs (density_of st) FN x x Hx Hx).
    rewrite (sandwiched_ext n _ _ _ (bproj b) (keq_refl n _) ER x x Hx Hx). apply clifford_diagonal; assumption.
  - rewrite (rsum_ext _ _ (fun x => parity (zs []) x * outcome_probability out x)%R) by (intros x _; cbn [zs map parity]; ring). rewrite PAR by constructor. cbn [zs map kprod].
    assert (UU : pulled n (uop n vals gs) kid kid).
    { apply pulled_id. apply uop_unitary. exact FU. }
    rewrite (mean_density_ext n kid kid _ (sandwiched n (uop n vals gs) (density_of st)) (keq_refl n kid) (evolve_plain n vals gs _ FN)), (pulled_mean n _ kid kid _ UU), (mean_density_ext n kid kid _ (bproj b) (keq_refl n kid) ER), mean_bproj by exact Hb.
    unfold kid. destruct (list_eq_dec Nat.eq_dec b b); [reflexivity|congruence].
  - intros S F. rewrite (PAR S F). eapply clifford_mean; try eassumption. apply pg_string. rewrite zs_snd. exact F.
Qed.

Lemma clifford_support : forall w n vals c gs st b, set_order (set_iter w) -> runnable n vals c gs -> Forall clifford gs -> in_basis_state n st b ->
    exists out, run w c st vals = Ok (Some out) /\ (exists j, j <= n /\ forall x, In x (bitstrings n) -> outcome_probability out x = 0%R \/ outcome_probability out x = (/ 2 ^ j)%R) /\
      forall x y z, In x (bitstrings n) -> In y (bitstrings n) -> In z (bitstrings n) ->
        outcome_probability out x <> 0%R -> outcome_probability out y <> 0%R -> outcome_probability out z <> 0%R -> outcome_probability out (xor3 x y z) <> 0%R.
Proof.
  intros w n vals c gs st b SO RN FC IB. destruct (clifford_parities w n vals c gs st b SO RN FC IB) as (out & E & NN & T & PZ). exists out. split; [exact E|]. apply uniform_support; assumption.
Qed.
Lemma c132_uniform : forall w n vals c gs st b, set_order (set_iter w) -> runnable n vals c gs -> Forall clifford gs -> in_basis_state n st b ->
    exists out j, run w c st vals = Ok (Some out) /\ j <= n /\ forall x, In x (bitstrings n) -> outcome_probability out x = 0%R \/ outcome_probability out x = (/ 2 ^ j)%R.
Proof. intros w n vals c gs st b SO RN FC IB. destruct (clifford_support w n vals c gs st b SO RN FC IB) as (out & E & (j & Hj & U) & _). exists out, j. auto. Qed.
Lemma c132_affine : forall w n vals c gs st b, set_order (set_iter w) -> runnable n vals c gs -> Forall clifford gs -> in_basis_state n st b ->
    exists out, run w c st vals = Ok (Some out) /\ forall x y z, In x (bitstrings n) -> In y (bitstrings n) -> In z (bitstrings n) ->
      outcome_probability out x <> 0%R -> outcome_probability out y <> 0%R -> outcome_probability out z <> 0%R -> outcome_probability out (xor3 x y z) <> 0%R.
Proof. intros w n vals c gs st b SO RN FC IB. destruct (clifford_support w n vals c gs st b SO RN FC IB) as (out & E & _ & A). exists out. auto. Qed.
Lemma c132_qubit : forall w n vals c gs st b q, set_order (set_iter w) -> runnable n vals c gs -> Forall clifford gs -> in_basis_state n st b -> q < n ->
    exists out p, run w c st vals = Ok (Some out) /\ rsum (filter (fun x => Nat.eqb (nth q x 0%nat) 1%nat) (bitstrings n)) (outcome_probability out) = p /\ (p = 0 \/ p = 1 / 2 \/ p = 1)%R.
Proof.
  intros w n vals c gs st b q SO RN FC IB Hq. destruct (clifford_parities w n vals c gs st b SO RN FC IB) as (out & E & _ & T & PZ). exists out. eexists. split; [exact E|split; [reflexivity|]].
  assert (Q : rsum (bitstrings n) (fun x => parity (zs [q]) x * outcome_probability out x)%R = (1 - 2 * rsum (filter (fun x => Nat.eqb (nth q x 0%nat) 1%nat) (bitstrings n)) (outcome_probability out))%R).
  { rewrite <- rsum_filter, <- T, <- rsum_scale, <- rsum_minus. apply rsum_ext. intros x Hx. rewrite parity_cons. cbn [zs map parity]. pose proof (bitstrings_nth_lt n x q Hx) as B. unfold sg.
    destruct (nth q x 0%nat) as [|[|k]]; try lia; cbn [Nat.eqb]; ring. }
  assert (F : Forall (fun q => q < n) [q]) by (repeat constructor; exact Hq). destruct (PZ [q] F) as [H|[H|H]]; rewrite H in Q; [right; right|right; left|left]; lra.
Qed.
