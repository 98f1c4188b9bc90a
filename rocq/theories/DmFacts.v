(** * Facts about [apply_operator] on density matrices. *)
From Coq Require Import List Arith Bool Lia Permutation Reals.
From Verif Require Import Cplx Py PyFacts Ndarray NdFacts NdPerm Spec SpecFacts OperatorUtils ApplyOperator ApplyFacts.
Import ListNotations.
Local Open Scope nat_scope.

(** the order in which the elements of a set are listed is any listing without repetition *)
Lemma set_order_perm : forall so, set_order so -> forall l, Permutation (so l) (dedup l).
Proof.
  intros so H l; destruct (H l) as [ND HI]; apply NoDup_Permutation; [exact ND|apply dedup_NoDup|].
  intro x; rewrite HI, dedup_In; tauto.
Qed.

Lemma perm_shift2 : forall n s, is_perm n s -> is_perm (2 * n) (s ++ map (Nat.add n) s).
Proof. intros n s H. replace (2 * n) with (n + n) by lia. apply is_perm_app_shift; auto. Qed.

Lemma bits_2n : forall n v, In v (bitstrings (2 * n)) <-> exists x y, v = x ++ y /\ In x (bitstrings n) /\ In y (bitstrings n).
Proof.
  intros n v. replace (2 * n) with (n + n) by lia. split; intro H.
  - apply bitstrings_app_inv; auto.
  - destruct H as (x & y & -> & Hx & Hy). apply bitstrings_app; auto.
Qed.

Lemma transpose_dense : forall k a p, shape a = repeat 2 k -> is_perm k p ->
    exists r, transpose a p = Ok r /\ shape r = repeat 2 k /\ wf r /\
      forall v, In v (bitstrings k) -> get r v = get a (place p v).
Proof.
  intros k a p Sa Hp. rewrite transpose_eq by (unfold ndim; rewrite Sa, repeat_length; auto).
  rewrite Sa, restrict_repeat by (intros x Hx; apply (is_perm_In k p); auto). rewrite (is_perm_length _ _ Hp).
  eexists; split; [reflexivity|]. split; [reflexivity|]. split; [apply wf_build|].
  intros v Hv. rewrite get_build by (apply bitstrings_inb; auto). reflexivity.
Qed.

Lemma permute_basis_fwd : forall n a s, is_density n a -> is_perm n s ->
    exists r, permute_basis a s false = Ok r /\ is_density n r /\
      forall x y, In x (bitstrings n) -> In y (bitstrings n) -> get r (x ++ y) = get a (place s x ++ place s y).
Proof.
  intros n a s [Sa Wa] Hs. unfold permute_basis.
  rewrite (argsort_argsort n s Hs), (is_perm_length _ _ Hs).
  destruct (list_eqb s (seq 0 n)) eqn:E.
  - apply list_eqb_eq in E. subst s. exists a. split; auto. split; [split; auto|].
    intros x y Hx Hy. rewrite !place_seq by (apply bitstrings_length; auto). reflexivity.
  - destruct (transpose_dense (2 * n) a (s ++ map (Nat.add n) s) Sa (perm_shift2 n s Hs)) as (r & Er & Sr & Wr & Gr).
    exists r. split; auto. split; [split; auto|]. intros x y Hx Hy. rewrite Gr by (apply bits_2n; eauto).
    rewrite (place_app_shift n n) by (auto; apply bitstrings_length; auto). reflexivity.
Qed.

Lemma permute_basis_inv : forall n a s, is_density n a -> is_perm n s ->
    exists r, permute_basis a s true = Ok r /\ is_density n r /\
      forall x y, In x (bitstrings n) -> In y (bitstrings n) -> get r (x ++ y) = get a (restrict x s ++ restrict y s).
Proof.
  intros n a s [Sa Wa] Hs. unfold permute_basis.
  rewrite (argsort_argsort n s Hs), (is_perm_length _ _ Hs).
  destruct (list_eqb s (seq 0 n)) eqn:E.
  - apply list_eqb_eq in E. subst s. exists a. split; auto. split; [split; auto|].
    intros x y Hx Hy. rewrite !restrict_seq_n by (apply bitstrings_length; auto). reflexivity.
  - pose proof (perm_shift2 n s Hs) as Hp. rewrite (argsort_perm (2 * n)) by auto.
    destruct (transpose_dense (2 * n) a _ Sa (is_perm_inv _ _ Hp)) as (r & Er & Sr & Wr & Gr).
    exists r. split; auto. split; [split; auto|]. intros x y Hx Hy. rewrite Gr by (apply bits_2n; eauto).
    rewrite inv_perm_app_shift with (n := n) (m := n) by auto.
    rewrite (place_app_shift n n) by (auto using is_perm_inv; apply bitstrings_length; auto).
    rewrite !(place_inv_perm n) by (auto; apply bitstrings_length; auto). reflexivity.
Qed.

Lemma place_swap : forall n x y, length x = n -> length y = n -> place (seq n n ++ seq 0 n) (x ++ y) = y ++ x.
Proof.
  intros n x y Lx Ly.
  assert (Hp : is_perm (2 * n) (seq n n ++ seq 0 n)).
  { unfold is_perm. replace (2 * n) with (n + n) by lia. rewrite <- seq_split. apply Permutation_app_comm. }
  rewrite <- (place_restrict (2 * n) (seq n n ++ seq 0 n) (y ++ x)) by (auto; rewrite app_length; lia).
  f_equal. rewrite restrict_app. f_equal.
  - symmetry. apply list_ext; rewrite restrict_length, seq_length; auto. intros k Hk.
    rewrite nth_restrict, seq_nth by (rewrite ?seq_length; lia). rewrite app_nth2, Ly by lia. f_equal; lia.
  - symmetry. apply list_ext; rewrite restrict_length, seq_length; auto. intros k Hk.
    rewrite nth_restrict, seq_nth by (rewrite ?seq_length; lia). rewrite app_nth1 by lia. reflexivity.
Qed.
Lemma perm_swap : forall n, is_perm (2 * n) (seq n n ++ seq 0 n).
Proof. intro n. unfold is_perm. replace (2 * n) with (n + n) by lia. rewrite <- seq_split. apply Permutation_app_comm. Qed.

Lemma get_conj : forall a v, wf a -> inb (shape a) v -> get (conj a) v = Cconj (get a v).
Proof. intros; apply get_map_arr; auto. Qed.

Lemma dagger_dense : forall n a, is_density n a ->
    exists r, dagger a = Ok r /\ is_density n r /\
      forall x y, In x (bitstrings n) -> In y (bitstrings n) -> get r (x ++ y) = Cconj (get a (y ++ x)).
Proof.
  intros n a [Sa Wa]. unfold dagger, ndim. rewrite Sa, repeat_length.
  destruct (Nat.ltb_spec 2 (2 * n)) as [H|H].
  - rewrite half_2m. replace (2 * n - n) with n by lia.
    destruct (transpose_dense (2 * n) (conj a) (seq n n ++ seq 0 n) Sa (perm_swap n)) as (r & Er & Sr & Wr & Gr).
    exists r. split; auto. split; [split; auto|]. intros x y Hx Hy. rewrite Gr by (apply bits_2n; eauto).
    rewrite place_swap by (apply bitstrings_length; auto). apply get_conj; auto.
    rewrite Sa. apply bitstrings_inb, bits_2n; eauto.
  - assert (E : rev (seq 0 (2 * n)) = seq n n ++ seq 0 n) by (destruct n as [|[|n]]; [reflexivity|reflexivity|lia]).
    rewrite E.
    destruct (transpose_dense (2 * n) a (seq n n ++ seq 0 n) Sa (perm_swap n)) as (r & Er & Sr & Wr & Gr).
    rewrite Er. cbn [bind]. exists (conj r). split; auto. split; [split; [exact Sr | apply wf_map_arr; auto]|].
    intros x y Hx Hy. rewrite get_conj; auto; [|rewrite Sr; apply bitstrings_inb, bits_2n; eauto].
    rewrite Gr by (apply bits_2n; eauto). rewrite place_swap by (apply bitstrings_length; auto). reflexivity.
Qed.

(** contraction of the leading axes *)
Lemma tensordot_prefix : forall m k o b, shape o = repeat 2 (2 * m) -> shape b = repeat 2 k -> m <= k ->
    exists r, tensordot o b (seq m m) (seq 0 m) = Ok r /\ shape r = repeat 2 k /\ wf r /\
      forall u z, In u (bitstrings m) -> In z (bitstrings (k - m)) ->
        get r (u ++ z) = csum (bitstrings m) (fun c => Cmul (get o (u ++ c)) (get b (c ++ z))).
Proof.
  intros m k o b So Sb Hmk.
  assert (V : valid_qubits k (seq 0 m)).
  { split; [apply seq_NoDup|]. apply Forall_forall. intros x Hx. apply in_seq in Hx. lia. }
  destruct (tensordot_gen m k o b (seq 0 m) So Sb V (seq_length _ _)) as (r & Er & Sr & Wr & Gr).
  exists r. split; auto. split; auto. split; auto. intros u z Hu Hz. rewrite Gr by auto.
  apply csum_ext. intros c Hc. f_equal. f_equal.
  replace (free_axes k (seq 0 m)) with (seq m (k - m)).
  - rewrite seq_split. apply place_seq. rewrite app_length, (bitstrings_length _ _ Hc), (bitstrings_length _ _ Hz). lia.
  - replace k with (m + (k - m)) at 2 by lia. rewrite free_axes_prefix. reflexivity.
Qed.

Lemma place_overwrite : forall n d rest x c, is_perm n (d ++ rest) -> length x = n -> length c = length d ->
    place (d ++ rest) (c ++ restrict x rest) = overwrite x d c.
Proof.
  intros n d rest x c Hp Lx Lc.
  rewrite <- (place_restrict n (d ++ rest) (overwrite x d c)) by (auto; rewrite overwrite_length; auto).
  f_equal. rewrite restrict_app.
  pose proof (is_perm_NoDup _ _ Hp) as ND. f_equal.
  - symmetry. apply (bits_at_overwrite_same n); auto. split; [eapply NoDup_app_remove_r; eauto|].
    apply Forall_forall. intros q Hq. apply (is_perm_In n _ q Hp). apply in_app_iff; auto.
  - symmetry. apply bits_at_overwrite_disj. intros p Hp1 Hp2.
    apply in_split in Hp2. destruct Hp2 as (a & b & ->). rewrite <- app_assoc in ND.
    apply NoDup_app_remove_l in ND. simpl in ND. inversion ND as [|? ? Hn _]; subst. apply Hn, in_app_iff; auto.
Qed.

(** O rho O^dagger on tensors, as used by [apply_operator] and [apply_kraus_operator]:
    contract, dagger, contract, dagger *)
Definition sandwich (o a : arr) (m : nat) : res arr :=
  let! out := tensordot o a (seq m m) (seq 0 m) in
  let! out := dagger out in
  let! out := tensordot o out (seq m m) (seq 0 m) in
  dagger out.

Lemma sandwich_spec : forall m n o a, shape o = repeat 2 (2 * m) -> is_density n a -> m <= n ->
    exists r, sandwich o a m = Ok r /\ is_density n r /\
      forall xd xr yd yr, In xd (bitstrings m) -> In xr (bitstrings (n - m)) -> In yd (bitstrings m) -> In yr (bitstrings (n - m)) ->
        get r ((xd ++ xr) ++ (yd ++ yr)) =
        csum (bitstrings m) (fun c' => csum (bitstrings m) (fun c =>
          Cmul (Cconj (get o (yd ++ c'))) (Cmul (get o (xd ++ c)) (get a ((c ++ xr) ++ (c' ++ yr)))))).
Proof.
  intros m n o a So [Sa Wa] Hmn. unfold sandwich.
  destruct (tensordot_prefix m (2 * n) o a So Sa) as (r1 & E1 & S1 & W1 & G1); [lia|]. rewrite E1; cbn [bind].
  destruct (dagger_dense n r1 (Logic.conj S1 W1)) as (r2 & E2 & D2 & G2). rewrite E2; cbn [bind]. destruct D2 as [S2 W2].
  destruct (tensordot_prefix m (2 * n) o r2 So S2) as (r3 & E3 & S3 & W3 & G3); [lia|]. rewrite E3; cbn [bind].
  destruct (dagger_dense n r3 (Logic.conj S3 W3)) as (r4 & E4 & D4 & G4). rewrite E4.
  exists r4. split; auto. split; auto.
  intros xd xr yd yr Hxd Hxr Hyd Hyr.
  assert (Hn : forall u w, In u (bitstrings m) -> In w (bitstrings (n - m)) -> In (u ++ w) (bitstrings n)).
  { intros u w Hu Hw. replace n with (m + (n - m)) by lia. apply bitstrings_app; auto. }
  assert (Hz : forall w v, In w (bitstrings (n - m)) -> In v (bitstrings n) -> In (w ++ v) (bitstrings (2 * n - m))).
  { intros w v Hw Hv. replace (2 * n - m) with ((n - m) + n) by lia. apply bitstrings_app; auto. }
  rewrite G4 by auto. rewrite <- app_assoc. rewrite G3 by auto. rewrite csum_conj.
  apply csum_ext. intros c' Hc'. rewrite app_assoc. rewrite G2 by auto. rewrite <- app_assoc.
  rewrite G1 by auto. rewrite Cconj_mul, Cconj_invol. rewrite <- csum_scale_l. apply csum_ext. intros c Hc.
  rewrite app_assoc. reflexivity.
Qed.

(** E rho E^dagger written out *)
Lemma conjugation_expand : forall n M cs ts rho x y,
    In x (bitstrings n) -> In y (bitstrings n) -> valid_qubits n (cs ++ ts) ->
    let E := ctrl_kernel M cs ts in let d := cs ++ ts in let O := block_entry M (length cs) in
    kmul n (kmul n E rho) (kadj E) x y =
    csum (bitstrings (length d)) (fun c' => csum (bitstrings (length d)) (fun c =>
      Cmul (Cconj (O (bits_at y d) c')) (Cmul (O (bits_at x d) c) (rho (overwrite x d c) (overwrite y d c'))))).
Proof.
  intros n M cs ts rho x y Hx Hy V E d O.
  transitivity (csum (bitstrings n) (fun z => Cmul (gate_action O d (fun w => rho w z) x) (Cconj (E y z)))).
  { unfold kmul at 1. apply csum_ext. intros z Hz. unfold kadj. f_equal.
    change (kmul n E rho x z) with (apply_kernel n E (fun w => rho w z) x). unfold E.
    rewrite ctrl_kernel_action by auto. unfold O, d. symmetry. apply (block_action n); auto. }
  set (G := fun z => gate_action O d (fun w => rho w z) x).
  transitivity (Cconj (apply_kernel n E (fun z => Cconj (G z)) y)).
  { unfold apply_kernel. rewrite csum_conj. apply csum_ext. intros z Hz. rewrite Cconj_mul, Cconj_invol. unfold G. ring. }
  unfold E. rewrite ctrl_kernel_action by auto. rewrite <- (block_action n) by auto. fold O d.
  unfold gate_action at 1. rewrite csum_conj. apply csum_ext. intros c' Hc'.
  rewrite Cconj_mul, Cconj_invol. unfold G, gate_action. rewrite <- csum_scale_l. reflexivity.
Qed.

Lemma support_perm_is_perm : forall so n d, set_order so -> valid_qubits n d ->
    is_perm n (d ++ so (set_diff (seq 0 n) d)).
Proof.
  intros so n d Hso [ND HB]. rewrite Forall_forall in HB.
  pose proof (set_order_perm so Hso (set_diff (seq 0 n) d)) as HP. rewrite dedup_id in HP by apply set_diff_NoDup.
  assert (HI : forall q, In q (so (set_diff (seq 0 n) d)) <-> q < n /\ ~ In q d).
  { intro q. split; intro H.
    - apply (Permutation_in _ HP) in H. apply set_diff_In in H. rewrite in_seq in H. split; [lia | tauto].
    - apply (Permutation_in _ (Permutation_sym HP)). apply set_diff_In. rewrite in_seq. split; [lia | tauto]. }
  apply is_perm_intro'.
  - apply NoDup_app_intro; auto.
    + eapply Permutation_NoDup; [apply Permutation_sym, HP | apply set_diff_NoDup].
    + intros q H1 H2. apply HI in H2. tauto.
  - intro q. rewrite in_app_iff, HI. split; [intros [H|H]; [auto | tauto]|].
    intro H. destruct (in_dec Nat.eq_dec q d); tauto.
Qed.

Lemma apply_operator_dm_spec : forall so n rho u ts c cs,
    set_order so -> is_density n rho -> is_matrix (length ts) u -> ctl c = Ok cs -> valid_qubits n (cs ++ ts) ->
    exists r, apply_operator_dm so rho u ts c = Ok r /\ is_density n r /\
      let E := ctrl_kernel (entry u) cs ts in
      keq n (rho_entry r) (kmul n (kmul n E (rho_entry rho)) (kadj E)).
Proof.
  intros so n rho u ts c cs Hso Hr Mu Ec V.
  destruct (prepare_operator_ok _ u ts c cs Mu Ec) as (o & Eo & So & Wo & Go).
  unfold apply_operator_dm. rewrite Eo. cbn [bind fst snd].
  set (m := length cs + length ts) in *.
  assert (Ld : length (cs ++ ts) = m) by apply app_length.
  set (d := cs ++ ts) in *.
  assert (Hmn : m <= n).
  { destruct V as [ND HB]. rewrite Forall_forall in HB. pose proof (free_axes_length n d ND HB). lia. }
  pose proof Hr as [Sr0 Wr0].
  unfold ndim. rewrite So, Sr0, !repeat_length, !half_2m.
  replace (2 * m - m) with m by lia. rewrite Ld.
  set (rest := so (set_diff (seq 0 n) d)).
  pose proof (support_perm_is_perm so n d Hso V) as Hp. fold rest in Hp.
  destruct (permute_basis_fwd n rho (d ++ rest) Hr Hp) as (a & Ea & Da & Ga). rewrite Ea. cbn [bind].
  destruct (sandwich_spec m n o a So Da Hmn) as (b & Eb & Db & Gb). unfold sandwich in Eb.
  destruct (tensordot o a (seq m m) (seq 0 m)) as [r1|]; [cbn [bind] in *|discriminate Eb].
  destruct (dagger r1) as [r2|]; [cbn [bind] in *|discriminate Eb].
  destruct (tensordot o r2 (seq m m) (seq 0 m)) as [r3|]; [cbn [bind] in *|discriminate Eb].
  rewrite Eb. cbn [bind].
  destruct (permute_basis_inv n b (d ++ rest) Db Hp) as (r & Er & Dr & Gr).
  exists r. split; [exact Er|]. split; [exact Dr|]. intros x y Hx Hy.
  assert (Lrest : length rest = n - m).
  { pose proof (is_perm_length _ _ Hp) as L. rewrite app_length in L. lia. }
  rewrite conjugation_expand by auto. fold d. rewrite Ld.
  unfold rho_entry at 1. rewrite Gr by auto. rewrite !restrict_app.
  rewrite Gb.
  - apply csum_ext. intros c' Hc'. apply csum_ext. intros c0 Hc0.
    pose proof (bitstrings_length _ _ Hc') as Lc'. pose proof (bitstrings_length _ _ Hc0) as Lc0.
    rewrite !Go by (auto; rewrite <- Ld; apply (bits_at_bits n); auto).
    f_equal. f_equal. unfold rho_entry. rewrite Ga.
    + rewrite !(place_overwrite n) by (first [assumption | apply bitstrings_length; assumption | lia]). reflexivity.
    + replace n with (m + (n - m)) by lia. apply bitstrings_app; auto. rewrite <- Lrest. apply (bits_at_bits n); auto.
    + replace n with (m + (n - m)) by lia. apply bitstrings_app; auto. rewrite <- Lrest. apply (bits_at_bits n); auto.
  - rewrite <- Ld; apply (bits_at_bits n); auto.
  - rewrite <- Lrest; apply (bits_at_bits n); auto.
  - rewrite <- Ld; apply (bits_at_bits n); auto.
  - rewrite <- Lrest; apply (bits_at_bits n); auto.
Qed.

(** ** Kraus operators over the full support *)
Lemma moveaxis_id : forall m k b, shape b = repeat 2 k -> wf b -> m <= k ->
    moveaxis b (seq 0 m) (seq 0 m) = Ok b.
Proof.
  intros m k b Sb Wb Hmk.
  assert (V : valid_qubits k (seq 0 m)).
  { split; [apply seq_NoDup|]. apply Forall_forall. intros x Hx. apply in_seq in Hx. lia. }
  destruct (moveaxis_prefix_gen m k b (seq 0 m) Sb V (seq_length _ _)) as (r & Er & Sr & Wr & Gr).
  rewrite Er. f_equal. apply arr_ext; auto; [congruence|]. intros v Hv. rewrite Sr in Hv.
  apply bitstrings_inb in Hv. rewrite Gr by auto. f_equal.
  replace (free_axes k (seq 0 m)) with (seq m (k - m)).
  - rewrite <- restrict_app, seq_split. apply restrict_seq_n. rewrite (bitstrings_length _ _ Hv). lia.
  - replace k with (m + (k - m)) at 2 by lia. rewrite free_axes_prefix. reflexivity.
Qed.

Lemma apply_kraus_operator_full : forall n K rho, is_matrix n K -> is_density n rho ->
    exists r, apply_kraus_operator K rho (seq 0 n) = Ok r /\ is_density n r /\
      keq n (rho_entry r) (kmul n (kmul n (entry K) (rho_entry rho)) (kadj (entry K))).
Proof.
  intros n K rho Mk Hr. pose proof Mk as [Sk Wk]. pose proof Hr as [Sr Wr].
  unfold apply_kraus_operator, size. rewrite Sk. cbn [prod]. rewrite Nat.mul_1_r, <- Nat.pow_add_r, log2_pow.
  rewrite reshape_eq by (rewrite Sk, prod_repeat; cbn [prod]; rewrite Nat.mul_1_r, Nat.pow_add_r; reflexivity).
  cbn [bind]. unfold ndim. cbn [shape]. rewrite repeat_length, seq_length.
  replace (n + n) with (2 * n) by lia. rewrite half_2m. replace (2 * n - n) with n by lia.
  rewrite (moveaxis_id n (2 * n)) by (auto; lia). cbn [bind].
  destruct (sandwich_spec n n (mkArr (repeat 2 (2 * n)) (data K)) rho eq_refl Hr (le_n n)) as (b & Eb & Db & Gb).
  unfold sandwich in Eb.
  destruct (tensordot (mkArr (repeat 2 (2 * n)) (data K)) rho (seq n n) (seq 0 n)) as [r1|]; [cbn [bind] in *|discriminate Eb].
  destruct (dagger r1) as [r2|]; [cbn [bind] in *|discriminate Eb].
  destruct (tensordot (mkArr (repeat 2 (2 * n)) (data K)) r2 (seq n n) (seq 0 n)) as [r3|]; [cbn [bind] in *|discriminate Eb].
  rewrite Eb. cbn [bind]. destruct Db as [Sb Wb]. exists b. split; [apply (moveaxis_id n (2 * n)); auto; lia|].
  split; [split; auto|]. intros x y Hx Hy. unfold rho_entry at 1.
  pose proof (Gb x [] y []) as G. rewrite !app_nil_r in G. rewrite Nat.sub_diag in G.
  rewrite G by (simpl; auto). unfold kmul at 1.
  apply csum_ext. intros c' Hc'. unfold kmul, kadj. rewrite <- csum_scale_r.
  apply csum_ext. intros c0 Hc0. rewrite !app_nil_r. rewrite !tensor_entry by auto. unfold rho_entry. ring.
Qed.
