(** * Facts about [expand_operator], [permute_basis] and [kron]. *)
From Coq Require Import List Arith Bool Lia Permutation Sorted Reals.
From Verif Require Import Cplx Py PyFacts Ndarray NdFacts NdPerm Spec SpecFacts OperatorUtils ApplyOperator ApplyFacts DmFacts.
Import ListNotations.
Local Open Scope nat_scope.

Lemma argsort_rank : forall s, NoDup s -> argsort (argsort s) = map (fun q => index_of q (sorted s)) s.
Proof.
  intros s ND. destruct (argsort_spec s) as (L & HP & E).
  rewrite (argsort_perm (length s)) by auto.
  pose proof (is_perm_inv _ _ HP) as HI.
  apply list_ext; [rewrite map_length; apply (is_perm_length _ _ HI)|].
  intros j Hj. rewrite (is_perm_length _ _ HI) in Hj.
  rewrite (nth_inv_perm (length s)) by auto.
  rewrite nth_map_lt with (d' := 0) by auto.
  assert (Hin : In j (argsort s)) by (apply (is_perm_In _ _ j HP); auto).
  pose proof (index_of_lt _ _ Hin) as Hlt. rewrite L in Hlt.
  rewrite <- (nth_index_of j (argsort s) Hin) at 2.
  rewrite <- nth_restrict by lia. rewrite E. symmetry. apply index_of_nth.
  - apply sorted_NoDup; auto.
  - rewrite sorted_length; auto.
Qed.
Lemma rank_is_perm : forall s, is_perm (length s) (argsort (argsort s)).
Proof.
  intro s. pose proof (argsort_is_perm (argsort s)) as H. destruct (argsort_spec s) as (L & _ & _). rewrite L in H. auto.
Qed.

(** C15: for every operator tensor *)
Lemma transpose_transpose_inv : forall a p r, wf a -> is_perm (ndim a) p -> transpose a p = Ok r -> transpose r (inv_perm p) = Ok a.
Proof.
  intros a p r Wa Hp E. rewrite transpose_eq in E by auto. injection E as <-.
  pose proof (is_perm_length _ _ Hp) as Lp. unfold ndim in *.
  rewrite transpose_eq by (unfold ndim; cbn [shape build]; rewrite restrict_length, Lp; apply is_perm_inv; auto).
  transitivity (Ok (build (shape a) (get a))); [|f_equal; symmetry; apply arr_eta; auto]. f_equal. cbn [shape build].
  assert (Es : restrict (restrict (shape a) p) (inv_perm p) = shape a).
  { rewrite (restrict_inv_perm (length (shape a))) by (auto; rewrite restrict_length; auto).
    apply (place_restrict (length (shape a))); auto. }
  rewrite Es. apply build_ext. intros v Hv.
  pose proof (inb_length _ _ Hv) as Lv.
  rewrite (place_inv_perm (length (shape a))) by auto.
  rewrite get_build by (apply inb_restrict; auto; intros x Hx; apply (is_perm_In _ _ x Hp); auto).
  rewrite (place_restrict (length (shape a))) by auto. reflexivity.
Qed.
Lemma transpose_ok : forall a p, is_perm (ndim a) p -> exists r, transpose a p = Ok r /\ wf r /\ ndim r = ndim a.
Proof.
  intros a p Hp. rewrite transpose_eq by auto. eexists; split; [reflexivity|]. split; [apply wf_build|].
  unfold ndim at 1. cbn [shape build]. rewrite restrict_length. apply (is_perm_length _ _ Hp).
Qed.
Lemma permute_basis_roundtrip : forall a s b, wf a -> ndim a = 2 * length s ->
    exists r, permute_basis a s b = Ok r /\ permute_basis r s (negb b) = Ok a.
Proof.
  intros a s b Wa Na. unfold permute_basis.
  destruct (list_eqb (argsort (argsort s)) (seq 0 (length s))) eqn:E; [exists a; auto|].
  pose proof (perm_shift2 _ _ (rank_is_perm s)) as Hp.
  set (p := argsort (argsort s) ++ map (Nat.add (length s)) (argsort (argsort s))) in *.
  rewrite (argsort_perm (2 * length s) p) by auto. rewrite <- Na in Hp.
  destruct b; cbn [negb].
  - destruct (transpose_ok a (inv_perm p) (is_perm_inv _ _ Hp)) as (r & Er & Wr & Nr). exists r. split; auto.
    rewrite <- (inv_perm_invol _ p Hp). eapply transpose_transpose_inv; eauto. apply is_perm_inv; auto.
  - destruct (transpose_ok a p Hp) as (r & Er & Wr & Nr). exists r. split; auto.
    eapply transpose_transpose_inv; eauto.
Qed.

(** ** kron *)
Lemma div_mod_small : forall a b m, b < m -> (a * m + b) / m = a /\ (a * m + b) mod m = b.
Proof.
  intros a b m H. split.
  - rewrite Nat.div_add_l by lia. rewrite Nat.div_small by auto. lia.
  - rewrite Nat.add_comm, Nat.mod_add by lia. apply Nat.mod_small; auto.
Qed.
Lemma kron_spec : forall n m a b, is_matrix n a -> is_matrix m b ->
    exists r, kron a b = Ok r /\ is_matrix (n + m) r /\
      forall x1 x2 y1 y2, In x1 (bitstrings n) -> In x2 (bitstrings m) -> In y1 (bitstrings n) -> In y2 (bitstrings m) ->
        entry r (x1 ++ x2) (y1 ++ y2) = Cmul (entry a x1 y1) (entry b x2 y2).
Proof.
  intros n m a b [Sa Wa] [Sb Wb]. unfold kron. rewrite Sa, Sb. eexists; split; [reflexivity|].
  split; [split; [cbn [shape build]; rewrite <- Nat.pow_add_r; reflexivity | apply wf_build]|].
  intros x1 x2 y1 y2 H1 H2 H3 H4. unfold entry at 1.
  pose proof (binval_lt _ _ H1). pose proof (binval_lt _ _ H2). pose proof (binval_lt _ _ H3). pose proof (binval_lt _ _ H4).
  rewrite !binval_app, (bitstrings_length _ _ H2), (bitstrings_length _ _ H4).
  rewrite get_build by (apply inb_2; nia). cbn [nth].
  destruct (div_mod_small (binval x1) (binval x2) (2 ^ m)) as [-> ->]; auto.
  destruct (div_mod_small (binval y1) (binval y2) (2 ^ m)) as [-> ->]; auto.
Qed.

Definition id2 : arr := matrix [[C1; C0]; [C0; C1]].
Lemma id2_eye : id2 = eye 2.
Proof. reflexivity. Qed.
Lemma kron_ids : forall j n a, is_matrix n a ->
    exists r, foldM (fun acc i => kron acc i) (repeat id2 j) a = Ok r /\ is_matrix (n + j) r /\
      forall x1 x2 y1 y2, In x1 (bitstrings n) -> In x2 (bitstrings j) -> In y1 (bitstrings n) -> In y2 (bitstrings j) ->
        entry r (x1 ++ x2) (y1 ++ y2) = Cmul (entry a x1 y1) (kid x2 y2).
Proof.
  induction j; intros n a Ha.
  - exists a. split; auto. rewrite Nat.add_0_r. split; auto. intros x1 x2 y1 y2 H1 H2 H3 H4.
    destruct H2 as [<-|[]], H4 as [<-|[]]. rewrite !app_nil_r, kid_eq. ring.
  - cbn [repeat foldM].
    destruct (kron_spec n 1 a id2 Ha) as (r & Er & Mr & Gr); [rewrite id2_eye; apply (eye_is_matrix 1)|].
    rewrite Er. cbn [bind]. destruct (IHj (n + 1) r Mr) as (r' & Er' & Mr' & Gr').
    exists r'. split; auto. replace (n + S j) with (n + 1 + j) by lia. split; auto.
    intros x1 x2 y1 y2 H1 H2 H3 H4.
    change (S j) with (1 + j) in H2, H4.
    destruct (bitstrings_app_inv 1 j _ H2) as (b & x & -> & Hb & Hx).
    destruct (bitstrings_app_inv 1 j _ H4) as (b' & y & -> & Hb' & Hy).
    rewrite !app_assoc. rewrite Gr' by (auto; apply bitstrings_app; auto).
    rewrite Gr by auto. rewrite id2_eye, (eye_kid 1) by auto.
    unfold kid. pose proof (bitstrings_length _ _ Hb). pose proof (bitstrings_length _ _ Hb').
    destruct (list_eq_dec Nat.eq_dec b b') as [->|Hne], (list_eq_dec Nat.eq_dec x y) as [->|Hne2];
      match goal with |- context [list_eq_dec Nat.eq_dec (?u ++ ?v) (?w ++ ?z)] => destruct (list_eq_dec Nat.eq_dec (u ++ v) (w ++ z)) as [E|E] end;
      try ring; try congruence; apply app_inv_len in E; try congruence; destruct E; congruence.
Qed.

Lemma hilbert_reshape_matrix : forall n a, is_matrix n a ->
    exists r, hilbert_reshape a = Ok r /\ is_density n r /\ keq n (rho_entry r) (entry a).
Proof.
  intros n a Ma. pose proof Ma as [Sa Wa]. unfold hilbert_reshape, size. rewrite Sa. cbn [prod].
  rewrite Nat.mul_1_r, <- Nat.pow_add_r, log2_pow.
  rewrite reshape_eq by (rewrite Sa, prod_repeat; cbn [prod]; rewrite Nat.mul_1_r, Nat.pow_add_r; reflexivity).
  replace (n + n) with (2 * n) by lia.
  eexists; split; [reflexivity|]. split.
  - split; [reflexivity|]. unfold wf in *. cbn [shape data]. rewrite Wa, Sa, prod_repeat. cbn [prod].
    rewrite Nat.mul_1_r, <- Nat.pow_add_r. f_equal; lia.
  - intros x y Hx Hy. apply tensor_entry; auto.
Qed.
Lemma reshape_density : forall n a, is_density n a ->
    exists r, reshape a [2 ^ n; 2 ^ n] = Ok r /\ is_matrix n r /\ keq n (entry r) (rho_entry a).
Proof.
  intros n a [Sa Wa].
  rewrite reshape_eq by (rewrite Sa, prod_repeat; cbn [prod]; rewrite Nat.mul_1_r, <- Nat.pow_add_r; f_equal; lia).
  eexists; split; [reflexivity|].
  assert (M : is_matrix n (mkArr [2 ^ n; 2 ^ n] (data a))).
  { split; [reflexivity|]. unfold wf in *. cbn [shape data]. rewrite Wa, Sa, prod_repeat. cbn [prod].
    rewrite Nat.mul_1_r, <- Nat.pow_add_r. f_equal; lia. }
  split; auto. intros x y Hx Hy. rewrite <- (tensor_entry n _ x y M Hx Hy). cbn [data]. unfold rho_entry.
  rewrite <- Sa. destruct a; reflexivity.
Qed.

Lemma permute_basis_inv_gen : forall n a s, is_density n a -> length s = n -> NoDup s ->
    exists r, permute_basis a s true = Ok r /\ is_density n r /\
      let p := map (fun q => index_of q (sorted s)) s in
      forall x y, In x (bitstrings n) -> In y (bitstrings n) -> get r (x ++ y) = get a (restrict x p ++ restrict y p).
Proof.
  intros n a s [Sa Wa] Ls ND. unfold permute_basis.
  pose proof (rank_is_perm s) as Hs. rewrite Ls in Hs |- *.
  rewrite <- argsort_rank by auto. set (p := argsort (argsort s)) in *.
  destruct (list_eqb p (seq 0 n)) eqn:E.
  - apply list_eqb_eq in E. exists a. split; auto. split; [split; auto|]. cbn zeta.
    intros x y Hx Hy. rewrite E, !restrict_seq_n by (apply bitstrings_length; auto). reflexivity.
  - pose proof (perm_shift2 n p Hs) as Hp. rewrite (argsort_perm (2 * n)) by auto.
    destruct (transpose_dense (2 * n) a _ Sa (is_perm_inv _ _ Hp)) as (r & Er & Sr & Wr & Gr).
    exists r. split; auto. split; [split; auto|]. cbn zeta. intros x y Hx Hy. rewrite Gr by (apply bits_2n; eauto).
    rewrite inv_perm_app_shift with (n := n) (m := n) by auto.
    rewrite (place_app_shift n n) by (auto using is_perm_inv; apply bitstrings_length; auto).
    rewrite !(place_inv_perm n) by (auto; apply bitstrings_length; auto). reflexivity.
Qed.

(** M on the bits [p], identity on the bits [q], is the action of M on [p] *)
Lemma split_kernel : forall n M p q x y, is_perm n (p ++ q) -> In x (bitstrings n) -> In y (bitstrings n) ->
    Cmul (M (bits_at x p) (bits_at y p)) (kid (bits_at x q) (bits_at y q)) = ctrl_kernel M [] p x y.
Proof.
  intros n M p q x y Hp Hx Hy.
  assert (V : valid_qubits n p).
  { split; [eapply NoDup_app_remove_r, is_perm_NoDup; eauto|]. apply Forall_forall. intros k Hk.
    apply (is_perm_In _ _ k Hp). apply in_app_iff; auto. }
  rewrite (ctrl_kernel_closed n) by auto. cbn [bits_at map all_ones forallb].
  pose proof (agree_off_overwrite n p x y Hx Hy V) as HA.
  assert (HB : agree_off p x y <-> bits_at x q = bits_at y q).
  { split; intro H.
    - apply map_ext_in. intros k Hk. apply H. intro Hk'.
      pose proof (is_perm_NoDup _ _ Hp) as ND. apply in_split in Hk'. destruct Hk' as (a & b & ->).
      rewrite <- app_assoc in ND. apply NoDup_app_remove_l in ND. simpl in ND. inversion ND as [|? ? Hn _]; subst.
      apply Hn, in_app_iff; auto.
    - intros k Hk. destruct (lt_dec k n).
      + assert (Hin : In k (p ++ q)) by (apply (is_perm_In _ _ k Hp); auto).
        apply in_app_iff in Hin. destruct Hin as [?|Hin]; [contradiction|].
        destruct (In_nth _ _ 0 Hin) as (j & Hj & Ej). rewrite <- Ej, <- !nth_bits_at by auto. congruence.
      + rewrite !nth_overflow; auto; rewrite (bitstrings_length n); auto; lia. }
  unfold kid. destruct (list_eq_dec Nat.eq_dec (bits_at x q) (bits_at y q)), (list_eq_dec Nat.eq_dec (overwrite x p (bits_at y p)) y); try ring; tauto.
Qed.

Lemma restrict_map_index : forall x (f : nat -> nat) s, restrict x (map f s) = map (fun q => nth (f q) x 0) s.
Proof. intros; unfold restrict; rewrite map_map; reflexivity. Qed.

(** C14 *)
Lemma expand_operator_spec : forall k u qs fs, is_matrix k u -> length qs = k -> NoDup qs -> NoDup fs -> incl qs fs ->
    exists r, expand_operator u qs fs = Ok r /\ is_matrix (length fs) r /\
      keq (length fs) (entry r) (ctrl_kernel (entry u) [] (map (fun q => index_of q (sorted fs)) (sorted qs))).
Proof.
  intros k u qs fs Mu Lq NQ NF HI. unfold expand_operator.
  assert (Hsub : subsetb (sorted qs) (sorted fs) = true).
  { apply subsetb_incl. intros q Hq. apply sorted_In. apply HI. apply sorted_In; auto. }
  rewrite Hsub. cbn [negb].
  set (kq := sorted (set_diff (sorted fs) (sorted qs))).
  assert (HPerm : Permutation (sorted qs ++ kq) fs).
  { apply NoDup_Permutation; auto.
    - apply NoDup_app_intro; [apply sorted_NoDup; auto | apply sorted_NoDup, set_diff_NoDup|].
      intros q H1 H2. unfold kq in H2. apply sorted_In, set_diff_In in H2. tauto.
    - intro q. rewrite in_app_iff. unfold kq. rewrite sorted_In, sorted_In, set_diff_In, !sorted_In. split.
      + intros [H|H]; [apply HI; auto | tauto].
      + intro H. destruct (in_dec Nat.eq_dec q qs); tauto. }
  assert (Llen : k + length kq = length fs).
  { rewrite <- (Permutation_length HPerm), app_length, sorted_length. lia. }
  destruct (kron_ids (length kq) k u Mu) as (r1 & E1 & M1 & G1). unfold id2 in E1. rewrite E1. cbn [bind].
  rewrite Llen in M1.
  destruct (hilbert_reshape_matrix _ _ M1) as (r2 & E2 & D2 & G2). rewrite E2. cbn [bind].
  assert (NS : NoDup (sorted qs ++ kq)) by (eapply Permutation_NoDup; [apply Permutation_sym, HPerm | auto]).
  destruct (permute_basis_inv_gen (length fs) r2 (sorted qs ++ kq) D2 (Permutation_length HPerm) NS) as (r3 & E3 & D3 & G3).
  rewrite E3. cbn [bind]. rewrite sorted_length.
  destruct (reshape_density _ _ D3) as (r4 & E4 & M4 & G4). rewrite E4.
  exists r4. split; auto. split; auto. intros x y Hx Hy. rewrite G4 by auto. unfold rho_entry.
  cbn zeta in G3. rewrite G3 by auto. rewrite (sorted_perm_eq _ _ HPerm).
  set (f := fun q => index_of q (sorted fs)).
  rewrite map_app.
  assert (HP : is_perm (length fs) (map f (sorted qs) ++ map f kq)).
  { rewrite <- map_app. unfold is_perm. eapply perm_trans; [apply Permutation_map, HPerm|].
    eapply perm_trans; [apply Permutation_map, Permutation_sym, sorted_perm|].
    replace (map f (sorted fs)) with (seq 0 (length fs)); auto.
    apply list_ext; [rewrite seq_length, map_length, sorted_length; auto|]. intros j Hj. rewrite seq_length in Hj.
    rewrite seq_nth by auto. rewrite nth_map_lt with (d' := 0) by (rewrite sorted_length; auto).
    unfold f. rewrite index_of_nth; auto; [apply sorted_NoDup; auto | rewrite sorted_length; auto]. }
  rewrite <- (split_kernel (length fs) (entry u) (map f (sorted qs)) (map f kq) x y HP Hx Hy).
  rewrite !restrict_app.
  assert (B : forall z, In z (bitstrings (length fs)) -> In (restrict z (map f (sorted qs))) (bitstrings k)
                        /\ In (restrict z (map f kq)) (bitstrings (length kq))).
  { intros z Hz. split.
    - replace k with (length (map f (sorted qs))) by (rewrite map_length, sorted_length; auto). apply (bits_at_bits (length fs)); auto.
    - replace (length kq) with (length (map f kq)) by (rewrite map_length; auto). apply (bits_at_bits (length fs)); auto. }
  destruct (B x Hx), (B y Hy).
  change (get r2 ((restrict x (map f (sorted qs)) ++ restrict x (map f kq)) ++ restrict y (map f (sorted qs)) ++ restrict y (map f kq)))
    with (rho_entry r2 (restrict x (map f (sorted qs)) ++ restrict x (map f kq)) (restrict y (map f (sorted qs)) ++ restrict y (map f kq))).
  rewrite G2 by (rewrite <- Llen; apply bitstrings_app; auto).
  rewrite G1 by auto. reflexivity.
Qed.
Lemma expand_operator_raises : forall u qs fs, ~ incl qs fs -> expand_operator u qs fs = Err ValueError.
Proof.
  intros u qs fs H. unfold expand_operator.
  destruct (subsetb (sorted qs) (sorted fs)) eqn:E; auto. exfalso. apply H.
  apply subsetb_incl in E. intros q Hq. apply sorted_In. apply E. apply sorted_In; auto.
Qed.
(** over the full register the positions are the qubits themselves *)
Lemma index_of_seq : forall n q, q < n -> index_of q (seq 0 n) = q.
Proof.
  intros n q H. pose proof (index_of_nth (seq 0 n) q (seq_NoDup n 0)) as E. rewrite seq_length, seq_nth in E by auto. auto.
Qed.
Lemma positions_full : forall n fs qs, is_perm n fs -> (forall q, In q qs -> q < n) ->
    map (fun q => index_of q (sorted fs)) qs = qs.
Proof.
  intros n fs qs Hf Hq. rewrite (sorted_perm_seq n) by auto. rewrite <- (map_id qs) at 2.
  apply map_ext_in. intros q Hin. apply index_of_seq; auto.
Qed.
