(** * Facts about [apply_operator] on state vectors. *)
From Coq Require Import List Arith Bool Lia Permutation Reals.
From Verif Require Import Cplx Py PyFacts Ndarray NdFacts NdPerm Spec SpecFacts OperatorUtils ApplyOperator.
Import ListNotations.
Local Open Scope nat_scope.

Lemma seq_split : forall m k, seq 0 m ++ seq m k = seq 0 (m + k).
Proof. intros; rewrite seq_app; reflexivity. Qed.
Lemma half_2m : forall m, 2 * m / 2 = m.
Proof. intro m. rewrite Nat.mul_comm. apply Nat.div_mul; auto. Qed.
Lemma repeat_app_add : forall (d : nat) m k, repeat d m ++ repeat d k = repeat d (m + k).
Proof. intros; symmetry; apply repeat_app. Qed.
Lemma log2_pow : forall k, Nat.log2 (2 ^ k) = k.
Proof. intro; apply Nat.log2_pow2; lia. Qed.

Lemma forallb_lt : forall n d, (forall x, In x d -> x < n) -> forallb (fun i => Nat.ltb i n) d = true.
Proof. intros n d H. apply forallb_forall. intros x Hx. apply Nat.ltb_lt; auto. Qed.

(** the contraction used everywhere: last [m] axes of [o] with the axes [d] of [b] *)
Lemma tensordot_gen : forall m n o b d,
    shape o = repeat 2 (2 * m) -> shape b = repeat 2 n -> valid_qubits n d -> length d = m ->
    exists r, tensordot o b (seq m m) d = Ok r /\ shape r = repeat 2 n /\ wf r /\
      forall u z, In u (bitstrings m) -> In z (bitstrings (n - m)) ->
        get r (u ++ z) = csum (bitstrings m) (fun c =>
            Cmul (get o (u ++ c)) (get b (place (d ++ free_axes n d) (c ++ z)))).
Proof.
  intros m n o b d Ho Hb [ND HB] Ld. rewrite Forall_forall in HB.
  pose proof (free_axes_length n d ND HB) as Lf.
  unfold tensordot, ndim. rewrite Ho, Hb, !repeat_length, seq_length, Ld, Nat.eqb_refl. cbn [negb].
  rewrite (forallb_lt (2 * m) (seq m m)) by (intros x Hx; apply in_seq in Hx; lia).
  rewrite (forallb_lt n d) by auto. cbn [andb negb].
  assert (N1 : nodupb (seq m m) = true) by (apply nodupb_NoDup, seq_NoDup).
  assert (N2 : nodupb d = true) by (apply nodupb_NoDup; auto).
  rewrite N1, N2. cbn [andb negb].
  rewrite !restrict_repeat by (auto; intros x Hx; apply in_seq in Hx; lia).
  rewrite seq_length, Ld, list_eqb_refl. cbn [negb].
  replace (2 * m) with (m + m) by lia. rewrite free_axes_suffix.
  rewrite !restrict_repeat by (intros x Hx; first [apply in_seq in Hx; lia | apply free_axes_In in Hx; tauto]).
  rewrite seq_length, repeat_app_add. replace (m + length (free_axes n d)) with n by lia.
  eexists; split; [reflexivity|]. split; [reflexivity|]. split; [apply wf_build|].
  intros u z Hu Hz. rewrite get_build.
  2: { replace n with (m + (n - m)) by lia. apply bitstrings_inb, bitstrings_app; auto. }
  pose proof (bitstrings_length _ _ Hu) as Lu.
  rewrite firstn_app, skipn_app, Lu, Nat.sub_diag, firstn_all2, skipn_all2 by lia.
  cbn [firstn skipn]. rewrite app_nil_r. cbn [app].
  rewrite <- bitstrings_indices. apply csum_ext. intros c Hc.
  rewrite seq_split, place_seq; [reflexivity|]. rewrite app_length, Lu. apply bitstrings_length in Hc. lia.
Qed.

Lemma moveaxis_prefix_gen : forall m n b d,
    shape b = repeat 2 n -> valid_qubits n d -> length d = m ->
    exists r, moveaxis b (seq 0 m) d = Ok r /\ shape r = repeat 2 n /\ wf r /\
      forall v, In v (bitstrings n) -> get r v = get b (restrict v d ++ restrict v (free_axes n d)).
Proof.
  intros m n b d Hb [ND HB] Ld. rewrite Forall_forall in HB.
  pose proof (free_axes_length n d ND HB) as Lf.
  unfold moveaxis, ndim. rewrite Hb, repeat_length.
  rewrite (forallb_lt n (seq 0 m)) by (intros x Hx; apply in_seq in Hx; lia).
  rewrite (forallb_lt n d) by auto. cbn [andb negb].
  rewrite seq_length, Ld, Nat.eqb_refl. cbn [negb].
  rewrite moveaxis_order_prefix by auto.
  assert (HP : is_perm n (d ++ free_axes n d)) by (apply is_perm_free; auto).
  rewrite transpose_eq by (unfold ndim; rewrite Hb, repeat_length; apply is_perm_inv; auto).
  rewrite Hb, restrict_repeat by (intros x Hx; apply (is_perm_In n _ x (is_perm_inv _ _ HP)) in Hx; auto).
  rewrite (is_perm_length _ _ (is_perm_inv _ _ HP)).
  eexists; split; [reflexivity|]. split; [reflexivity|]. split; [apply wf_build|].
  intros v Hv. rewrite get_build by (apply bitstrings_inb; auto).
  rewrite (place_inv_perm n) by (auto; apply bitstrings_length; auto). rewrite restrict_app. reflexivity.
Qed.

(** contraction followed by [moveaxis] is the textbook action *)
Lemma contract_action : forall m n o b d,
    shape o = repeat 2 (2 * m) -> is_state n b -> valid_qubits n d -> length d = m ->
    exists r, (let! t := tensordot o b (seq m m) d in moveaxis t (seq 0 m) d) = Ok r /\ is_state n r /\
      forall v, In v (bitstrings n) -> amp r v = gate_action (fun u c => get o (u ++ c)) d (amp b) v.
Proof.
  intros m n o b d Ho [Hb Wb] V Ld.
  destruct (tensordot_gen m n o b d Ho Hb V Ld) as (t & Et & St & Wt & Gt).
  destruct (moveaxis_prefix_gen m n t d St V Ld) as (r & Er & Sr & Wr & Gr).
  exists r. rewrite Et. cbn [bind]. split; [auto|]. split; [split; auto|].
  intros v Hv. unfold amp. rewrite Gr by auto.
  pose proof V as [ND HB]. rewrite Forall_forall in HB. pose proof (free_axes_length n d ND HB) as Lf.
  rewrite Gt.
  - unfold gate_action. rewrite Ld. apply csum_ext. intros c Hc. f_equal. f_equal.
    apply overwrite_place; auto; [apply bitstrings_length; auto | rewrite (bitstrings_length _ _ Hc); auto].
  - rewrite <- Ld. apply (bits_at_bits n); auto.
  - replace (n - m) with (length (free_axes n d)) by lia. apply (bits_at_bits n); auto.
Qed.

(** ** The block embedding *)
Lemma all_ones_iff : forall n x, In x (bitstrings n) -> (all_ones x = true <-> binval x = 2 ^ n - 1).
Proof.
  induction n; intros x Hx.
  - destruct Hx as [<-|[]]. cbn. split; auto.
  - pose proof (bitstrings_length _ _ Hx) as L. destruct x as [|b x]; [discriminate|].
    assert (Hx' : In x (bitstrings n)).
    { apply bitstrings_In in Hx. apply bitstrings_In. destruct Hx as [_ H]. simpl in L. split; [lia|].
      intros k Hk. apply (H (S k)). lia. }
    assert (Hb : b < 2) by (apply (bitstrings_nth_lt _ _ 0) in Hx; auto).
    rewrite binval_cons. simpl in L. injection L as L. rewrite L.
    pose proof (binval_lt _ _ Hx') as Hl.
    unfold all_ones. cbn [forallb]. change (forallb (Nat.eqb 1) x) with (all_ones x).
    rewrite andb_true_iff, (IHn x Hx'), Nat.eqb_eq.
    assert (0 < 2 ^ n) by lia. cbn [Nat.pow]. split.
    + intros [<- E]. lia.
    + intros E. destruct b as [|[|b]]; lia.
Qed.
Lemma all_ones_ge : forall nc k uc ut, In uc (bitstrings nc) -> In ut (bitstrings k) ->
    (Nat.leb (2 ^ (nc + k) - 2 ^ k) (binval (uc ++ ut)) = all_ones uc).
Proof.
  intros nc k uc ut Hc Ht. rewrite binval_app, (bitstrings_length _ _ Ht), Nat.pow_add_r.
  pose proof (binval_lt _ _ Hc). pose proof (binval_lt _ _ Ht).
  assert (0 < 2 ^ nc) by lia. assert (0 < 2 ^ k) by lia.
  replace (2 ^ nc * 2 ^ k - 2 ^ k) with ((2 ^ nc - 1) * 2 ^ k) by nia.
  destruct (all_ones uc) eqn:E.
  - apply (all_ones_iff nc) in E; auto. rewrite E. apply Nat.leb_le. lia.
  - apply Nat.leb_gt. assert (binval uc <> 2 ^ nc - 1) by (intro Hbad; apply (all_ones_iff nc) in Hbad; auto; congruence).
    nia.
Qed.
Lemma all_ones_sub : forall nc k uc ut, In uc (bitstrings nc) -> In ut (bitstrings k) -> all_ones uc = true ->
    binval (uc ++ ut) - (2 ^ (nc + k) - 2 ^ k) = binval ut.
Proof.
  intros nc k uc ut Hc Ht E. rewrite binval_app, (bitstrings_length _ _ Ht), Nat.pow_add_r.
  apply (all_ones_iff nc) in E; auto. rewrite E.
  pose proof (binval_lt _ _ Hc). pose proof (binval_lt _ _ Ht).
  assert (0 < 2 ^ nc) by lia. assert (0 < 2 ^ k) by lia. nia.
Qed.

Lemma inb_2 : forall a b i j, i < a -> j < b -> inb [a; b] [i; j].
Proof. intros; constructor; auto; constructor; auto; constructor. Qed.

Lemma get_eye : forall n i j, i < n -> j < n -> get (eye n) [i; j] = if Nat.eqb i j then C1 else C0.
Proof. intros; unfold eye; rewrite get_build by (apply inb_2; auto). reflexivity. Qed.
Lemma eye_kid : forall n x y, In x (bitstrings n) -> In y (bitstrings n) -> entry (eye (2 ^ n)) x y = kid x y.
Proof.
  intros n x y Hx Hy. unfold entry. rewrite get_eye by (apply binval_lt; auto). unfold kid.
  destruct (list_eq_dec Nat.eq_dec x y) as [->|Hne]; [rewrite Nat.eqb_refl; auto|].
  destruct (Nat.eqb_spec (binval x) (binval y)) as [E|]; auto. exfalso; apply Hne. eapply binval_inj; eauto.
Qed.
Lemma eye_is_matrix : forall n, is_matrix n (eye (2 ^ n)).
Proof. intros; split; [reflexivity | apply wf_build]. Qed.

Definition block_entry (M : op) (nc : nat) : op := fun u c =>
  if all_ones (firstn nc u) && all_ones (firstn nc c) then M (skipn nc u) (skipn nc c) else kid u c.

Lemma firstn_app_exact : forall {A} (a b : list A) n, length a = n -> firstn n (a ++ b) = a.
Proof. intros; subst. rewrite firstn_app, Nat.sub_diag, firstn_all, firstn_O, app_nil_r; auto. Qed.
Lemma skipn_app_exact : forall {A} (a b : list A) n, length a = n -> skipn n (a ++ b) = b.
Proof. intros; subst. rewrite skipn_app, Nat.sub_diag, skipn_all; auto. Qed.

Lemma controlled_block_ok : forall k nc u, is_matrix k u ->
    exists r, controlled_block u nc = Ok r /\ is_matrix (nc + k) r /\
      keq (nc + k) (entry r) (block_entry (entry u) nc).
Proof.
  intros k nc u [Su Wu]. unfold controlled_block. rewrite Su, log2_pow.
  unfold set_corner. cbn [shape eye build]. rewrite Su, list_eqb_refl.
  eexists; split; [reflexivity|]. split; [split; [reflexivity | apply wf_build]|].
  intros x y Hx Hy. unfold entry at 1. rewrite get_build by (apply inb_2; apply binval_lt; auto).
  cbn [nth].
  destruct (bitstrings_app_inv _ _ _ Hx) as (xc & xt & -> & Hxc & Hxt).
  destruct (bitstrings_app_inv _ _ _ Hy) as (yc & yt & -> & Hyc & Hyt).
  rewrite !all_ones_ge by auto. unfold block_entry.
  rewrite !firstn_app_exact, !skipn_app_exact by (apply bitstrings_length; auto).
  destruct (all_ones xc) eqn:Ex, (all_ones yc) eqn:Ey; cbn [andb];
    try (change (entry (eye (2 ^ (nc + k))) (xc ++ xt) (yc ++ yt) = kid (xc ++ xt) (yc ++ yt)); apply eye_kid; auto).
  rewrite !all_ones_sub by auto. reflexivity.
Qed.

Lemma bits_all_ones_eq : forall n x y, In x (bitstrings n) -> In y (bitstrings n) -> all_ones x = true -> all_ones y = true -> x = y.
Proof.
  intros n x y Hx Hy Ex Ey. apply (binval_inj n); auto.
  apply (all_ones_iff n) in Ex; auto. apply (all_ones_iff n) in Ey; auto. congruence.
Qed.

(** acting with the embedded block is the controlled action *)
Lemma block_action : forall n M cs ts psi x, In x (bitstrings n) -> valid_qubits n (cs ++ ts) ->
    gate_action (block_entry M (length cs)) (cs ++ ts) psi x = ctrl_action M cs ts psi x.
Proof.
  intros n M cs ts psi x Hx V. unfold gate_action, ctrl_action.
  pose proof (bitstrings_length _ _ Hx) as Lx. pose proof (valid_app_r _ _ _ V) as Vt. pose proof (valid_app_l _ _ _ V) as Vc.
  pose proof (bits_at_bits n x cs Hx) as Hbc. pose proof (bits_at_bits n x ts Hx) as Hbt.
  rewrite bits_at_app, app_length.
  destruct (all_ones (bits_at x cs)) eqn:E.
  - rewrite csum_bits_app. rewrite (csum_single _ (bits_at x cs)); auto using bitstrings_NoDup.
    + unfold gate_action. apply csum_ext. intros y Hy. unfold block_entry.
      rewrite !firstn_app_exact, !skipn_app_exact, E by (rewrite bits_at_length; auto). cbn [andb].
      f_equal. f_equal. rewrite overwrite_app by apply bits_at_length.
      transitivity (overwrite (overwrite x ts y) cs (bits_at (overwrite x ts y) cs)).
      * f_equal. symmetry. apply bits_at_overwrite_disj. intros p Hp Hp'. eapply valid_app_disj; eauto.
      * apply overwrite_self. intros q Hq. rewrite overwrite_length, Lx. eapply valid_lt; eauto.
    + intros cc Hcc Hne. apply csum_zero. intros y Hy. unfold block_entry.
      rewrite !firstn_app_exact by (first [apply bits_at_length | apply bitstrings_length; auto]).
      rewrite E. cbn [andb]. destruct (all_ones cc) eqn:Ec.
      { exfalso. apply Hne. eapply bits_all_ones_eq; eauto. }
      rewrite kid_ne; [ring|]. intro Heq. apply app_inv_len in Heq; [|rewrite bits_at_length; symmetry; apply bitstrings_length; auto].
      destruct Heq as [Heq _]. congruence.
  - rewrite <- app_length. rewrite (csum_single _ (bits_at x cs ++ bits_at x ts)); auto using bitstrings_NoDup.
    + unfold block_entry. rewrite !firstn_app_exact, E by apply bits_at_length. cbn [andb].
      rewrite kid_eq. rewrite <- bits_at_app. rewrite overwrite_self; [ring|].
      intros q Hq; rewrite Lx; exact (valid_lt _ _ _ V Hq).
    + rewrite app_length. apply bitstrings_app; auto.
    + intros c Hc Hne. unfold block_entry. rewrite !firstn_app_exact, E by apply bits_at_length. cbn [andb].
      rewrite kid_ne by congruence. ring.
Qed.

(** the qubits a control specification stands for *)
Definition ctl (c : cspec) : res (list nat) := if is_controlled c then axes_of c else Ok [].

Lemma mapM_length : forall {A B} (f : A -> res B) l r, mapM f l = Ok r -> length r = length l.
Proof.
  induction l as [|a l IH]; simpl; intros r H; [injection H as <-; auto|].
  destruct (f a); simpl in H; [|discriminate]. destruct (mapM f l) eqn:E; simpl in H; [|discriminate].
  injection H as <-. simpl. f_equal. apply IH; auto.
Qed.
Lemma ctl_clen : forall c cs, is_controlled c = true -> axes_of c = Ok cs -> clen c = length cs.
Proof.
  intros [|l] cs H E; [discriminate|]. simpl in *. apply mapM_length in E. auto.
Qed.

Lemma tensor_entry : forall m a u c, is_matrix m a -> In u (bitstrings m) -> In c (bitstrings m) ->
    get (mkArr (repeat 2 (2 * m)) (data a)) (u ++ c) = entry a u c.
Proof.
  intros m a u c [Sa Wa] Hu Hc. unfold get, entry. cbn [shape data]. unfold get. rewrite Sa. f_equal.
  replace (2 * m) with (m + m) by lia. rewrite repeat_app, ravel_app by (rewrite repeat_length; apply bitstrings_length; auto).
  rewrite prod_repeat. rewrite !(binval_ravel m) by (apply bitstrings_length; auto). simpl. lia.
Qed.

Lemma prepare_operator_ok : forall k u ts c cs, is_matrix k u -> ctl c = Ok cs ->
    exists o, prepare_operator u ts c = Ok (o, cs ++ ts) /\ shape o = repeat 2 (2 * (length cs + k)) /\ wf o /\
      forall x y, In x (bitstrings (length cs + k)) -> In y (bitstrings (length cs + k)) ->
        get o (x ++ y) = block_entry (entry u) (length cs) x y.
Proof.
  intros k u ts c cs Mu Ec. unfold prepare_operator, ctl in *.
  destruct (is_controlled c) eqn:Ic.
  - rewrite (ctl_clen c cs Ic Ec). destruct (controlled_block_ok k (length cs) u Mu) as (o & Eo & Mo & Ho).
    rewrite Eo, Ec. cbn [bind fst snd]. pose proof Mo as [So Wo]. rewrite So, log2_pow.
    rewrite reshape_eq by (rewrite prod_repeat, So; cbn [prod]; rewrite Nat.mul_1_r, <- Nat.pow_add_r; f_equal; lia).
    cbn [bind]. eexists; split; [reflexivity|]. split; [reflexivity|]. split.
    + unfold wf in *. cbn [shape data]. rewrite Wo, So, prod_repeat. cbn [prod]. rewrite Nat.mul_1_r, <- Nat.pow_add_r; f_equal; lia.
    + intros x y Hx Hy. rewrite tensor_entry by auto. apply Ho; auto.
  - injection Ec as <-. cbn [bind fst snd]. pose proof Mu as [Su Wu]. rewrite Su, log2_pow.
    rewrite reshape_eq by (rewrite prod_repeat, Su; cbn [prod]; rewrite Nat.mul_1_r, <- Nat.pow_add_r; f_equal; lia).
    cbn [bind]. eexists; split; [reflexivity|]. split; [reflexivity|]. split.
    + unfold wf in *. cbn [shape data length Nat.add]. rewrite Wu, Su, prod_repeat. cbn [prod]. rewrite Nat.mul_1_r, <- Nat.pow_add_r; f_equal; lia.
    + intros x y Hx Hy. cbn [length Nat.add] in *. rewrite tensor_entry by auto. reflexivity.
Qed.

(** C01, in general form *)
Lemma apply_operator_spec : forall n psi u ts c cs,
    is_state n psi -> is_matrix (length ts) u -> ctl c = Ok cs -> valid_qubits n (cs ++ ts) ->
    exists phi, apply_operator psi u ts c = Ok phi /\ is_state n phi /\
      forall x, In x (bitstrings n) -> amp phi x = ctrl_action (entry u) cs ts (amp psi) x.
Proof.
  intros n psi u ts c cs Hs Mu Ec V.
  destruct (prepare_operator_ok _ u ts c cs Mu Ec) as (o & Eo & So & Wo & Go).
  unfold apply_operator. rewrite Eo. cbn [bind fst snd].
  unfold ndim. rewrite So, repeat_length, half_2m. rewrite app_length.
  replace (2 * (length cs + length ts) - (length cs + length ts)) with (length cs + length ts) by lia.
  destruct (contract_action (length cs + length ts) n o psi (cs ++ ts) So Hs V (app_length _ _)) as (r & Er & Sr & Gr).
  exists r. split; [exact Er|]. split; auto. intros x Hx. rewrite Gr by auto.
  rewrite <- (block_action n) by auto. unfold gate_action. apply csum_ext. intros y Hy. f_equal.
  rewrite app_length in *. apply Go; auto. rewrite <- app_length. apply (bits_at_bits n); auto.
Qed.

(** C02, in general form: whatever the array *)
Lemma tensordot_fails : forall m n o b d, shape o = repeat 2 (2 * m) -> shape b = repeat 2 n ->
    ~ (valid_qubits n d /\ length d = m) -> exists e, tensordot o b (seq m m) d = Err e.
Proof.
  intros m n o b d Ho Hb H. unfold tensordot, ndim. rewrite Ho, Hb, !repeat_length, seq_length.
  destruct (Nat.eqb_spec m (length d)) as [L|L]; cbn [negb]; [|eauto].
  rewrite (forallb_lt (2 * m) (seq m m)) by (intros x Hx; apply in_seq in Hx; lia). cbn [andb].
  destruct (forallb (fun i => Nat.ltb i n) d) eqn:B; cbn [negb]; [|eauto].
  assert (N1 : nodupb (seq m m) = true) by (apply nodupb_NoDup, seq_NoDup). rewrite N1. cbn [andb].
  destruct (nodupb d) eqn:N2; cbn [negb]; [|eauto].
  exfalso. apply H. split; auto. split; [apply nodupb_NoDup; auto|].
  apply Forall_forall. intros x Hx. rewrite forallb_forall in B. apply Nat.ltb_lt. apply B; auto.
Qed.

Lemma apply_operator_raises : forall n k psi u ts c cs,
    is_state n psi -> is_matrix k u -> ctl c = Ok cs -> ~ (valid_qubits n (cs ++ ts) /\ k = length ts) ->
    exists e, apply_operator psi u ts c = Err e.
Proof.
  intros n k psi u ts c cs [Hs Ws] Mu Ec H.
  destruct (prepare_operator_ok _ u ts c cs Mu Ec) as (o & Eo & So & Wo & Go).
  unfold apply_operator. rewrite Eo. cbn [bind fst snd].
  unfold ndim. rewrite So, repeat_length, half_2m.
  replace (2 * (length cs + k) - (length cs + k)) with (length cs + k) by lia.
  destruct (tensordot_fails (length cs + k) n o psi (cs ++ ts) So Hs) as (e & Ee).
  - intros [V L]. apply H. split; auto. rewrite app_length in L. lia.
  - rewrite Ee. exists e. reflexivity.
Qed.
(** a control that is neither absent nor a tuple of integers raises *)
Lemma apply_operator_raises_ctl : forall k psi u ts c e, is_matrix k u -> ctl c = Err e ->
    exists e', apply_operator psi u ts c = Err e'.
Proof.
  intros k psi u ts c e Mu Ec. unfold apply_operator, prepare_operator, ctl in *.
  destruct (is_controlled c); [|discriminate].
  destruct (controlled_block_ok k (clen c) u Mu) as (o & Eo & _). rewrite Eo, Ec. cbn. eauto.
Qed.
