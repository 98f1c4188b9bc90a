(** * Facts about the specification. *)
From Coq Require Import List Arith Bool Lia Permutation Reals Lra.
From Verif Require Import Cplx Py PyFacts Ndarray NdFacts Spec.
Import ListNotations.
Local Open Scope nat_scope.

Lemma NoDup_app_remove_l : forall (A : Type) (l l' : list A), NoDup (l ++ l') -> NoDup l'.
Proof. induction l; simpl; intros l' H; auto. inversion H; auto. Qed.
Lemma NoDup_app_remove_r : forall (A : Type) (l l' : list A), NoDup (l ++ l') -> NoDup l.
Proof.
  induction l; simpl; intros l' H; [constructor|]. inversion H as [|? ? Hn HN]; subst.
  constructor; [rewrite in_app_iff in Hn; tauto | eauto].
Qed.
Lemma bitstrings_indices : forall n, bitstrings n = indices (repeat 2 n).
Proof. induction n as [|n IH]; simpl; auto. rewrite IH, app_nil_r; reflexivity. Qed.
Lemma bitstrings_inb : forall n x, In x (bitstrings n) <-> inb (repeat 2 n) x.
Proof. intros; rewrite bitstrings_indices; apply indices_In. Qed.
Lemma bitstrings_In : forall n x, In x (bitstrings n) <-> length x = n /\ (forall k, k < n -> nth k x 0 < 2).
Proof.
  intros n x. rewrite bitstrings_inb, inb_nth, repeat_length.
  assert (Hn : forall k, k < n -> nth k (repeat 2 n) 0 = 2).
  { intros k Hk. rewrite nth_indep with (d' := 2) by (rewrite repeat_length; auto). apply nth_repeat. }
  split; intros [L H]; split; auto; intros k Hk; specialize (H k Hk); rewrite Hn in * by auto; auto.
Qed.
Lemma bitstrings_length : forall n x, In x (bitstrings n) -> length x = n.
Proof. intros n x H; apply bitstrings_In in H; tauto. Qed.
Lemma bitstrings_NoDup : forall n, NoDup (bitstrings n).
Proof. intro; rewrite bitstrings_indices; apply indices_NoDup. Qed.
Lemma bitstrings_count : forall n, length (bitstrings n) = 2 ^ n.
Proof. intro; rewrite bitstrings_indices, indices_length, prod_repeat; auto. Qed.
Lemma bitstrings_nth_lt : forall n x k, In x (bitstrings n) -> nth k x 0 < 2.
Proof.
  intros n x k H. apply bitstrings_In in H. destruct H as [L H].
  destruct (lt_dec k n); auto. rewrite nth_overflow; lia.
Qed.

Lemma binval_acc : forall x acc, fold_left (fun acc x => 2 * acc + x) x acc = acc * 2 ^ length x + binval x.
Proof.
  induction x as [|b x IH]; intros acc; unfold binval; simpl; [lia|].
  rewrite !IH. simpl. lia.
Qed.
Lemma binval_cons : forall b x, binval (b :: x) = b * 2 ^ length x + binval x.
Proof. intros; unfold binval at 1; simpl. rewrite binval_acc; lia. Qed.
Lemma binval_app : forall x y, binval (x ++ y) = binval x * 2 ^ length y + binval y.
Proof. intros; unfold binval at 1. rewrite fold_left_app. rewrite binval_acc. reflexivity. Qed.
Lemma binval_ravel : forall n x, length x = n -> binval x = ravel (repeat 2 n) x.
Proof.
  induction n; destruct x as [|b x]; simpl; intros L; try discriminate; auto.
  rewrite binval_cons, prod_repeat. injection L as L. rewrite (IHn x L), L. reflexivity.
Qed.
Lemma binval_lt : forall n x, In x (bitstrings n) -> binval x < 2 ^ n.
Proof.
  intros n x H. rewrite (binval_ravel n) by (apply bitstrings_length; auto).
  apply bitstrings_inb in H. apply ravel_lt in H. rewrite prod_repeat in H; auto.
Qed.
Lemma binval_inj : forall n x y, In x (bitstrings n) -> In y (bitstrings n) -> binval x = binval y -> x = y.
Proof.
  intros n x y Hx Hy E.
  rewrite !(binval_ravel n) in E by (apply bitstrings_length; auto).
  apply (ravel_inj (repeat 2 n)); auto; apply bitstrings_inb; auto.
Qed.
Lemma binval_bitstrings : forall n, map binval (bitstrings n) = seq 0 (2 ^ n).
Proof.
  intro n. rewrite <- prod_repeat, <- ravel_indices, bitstrings_indices.
  apply map_ext_in. intros x Hx. apply binval_ravel.
  apply indices_In, inb_length in Hx. rewrite repeat_length in Hx; auto.
Qed.

(** sums over matrix indices are sums over bitstrings *)
Lemma csum_seq_bits : forall n f, csum (seq 0 (2 ^ n)) f = csum (bitstrings n) (fun x => f (binval x)).
Proof. intros; rewrite <- binval_bitstrings, csum_map; reflexivity. Qed.

(** ** Bits *)
Lemma set_bit_length : forall x q b, length (set_bit x q b) = length x.
Proof. induction x; destruct q; simpl; intros; auto. Qed.
Lemma nth_set_bit_eq : forall x q b, q < length x -> nth q (set_bit x q b) 0 = b.
Proof. induction x; destruct q; simpl; intros; try lia; auto. apply IHx; lia. Qed.
Lemma nth_set_bit_ne : forall x q b k, k <> q -> nth k (set_bit x q b) 0 = nth k x 0.
Proof.
  induction x; destruct q; simpl; intros; auto; destruct k; auto; try congruence.
Qed.
Lemma overwrite_length : forall qs x y, length (overwrite x qs y) = length x.
Proof.
  induction qs as [|q qs IH]; destruct y; simpl; auto. rewrite set_bit_length; auto.
Qed.
Lemma nth_overwrite_in : forall qs x y k, In k qs -> k < length x -> length y = length qs ->
    nth k (overwrite x qs y) 0 = nth (index_of k qs) y 0.
Proof.
  induction qs as [|q qs IH]; intros x y k Hin Hk L; [destruct Hin|].
  destruct y as [|b y]; [discriminate|]. simpl.
  destruct (Nat.eqb_spec k q) as [->|Hne].
  - rewrite nth_set_bit_eq; auto. rewrite overwrite_length; auto.
  - rewrite nth_set_bit_ne by auto. destruct Hin as [->|Hin]; [congruence|]. apply IH; auto.
Qed.
Lemma nth_overwrite_notin : forall qs x y k, ~ In k qs -> nth k (overwrite x qs y) 0 = nth k x 0.
Proof.
  induction qs as [|q qs IH]; destruct y; simpl; intros k H; auto.
  rewrite nth_set_bit_ne by (intro; subst; tauto). apply IH; tauto.
Qed.

Lemma bits_at_length : forall x qs, length (bits_at x qs) = length qs.
Proof. intros; apply map_length. Qed.
Lemma bits_at_app : forall x p q, bits_at x (p ++ q) = bits_at x p ++ bits_at x q.
Proof. intros; apply map_app. Qed.
Lemma nth_bits_at : forall x qs k, k < length qs -> nth k (bits_at x qs) 0 = nth (nth k qs 0) x 0.
Proof. intros; apply nth_restrict; auto. Qed.
Lemma bits_at_overwrite_same : forall n x qs y, valid_qubits n qs -> length x = n -> length y = length qs ->
    bits_at (overwrite x qs y) qs = y.
Proof.
  intros n x qs y [ND HB] Lx Ly. rewrite Forall_forall in HB.
  apply list_ext; rewrite bits_at_length; auto. intros k Hk.
  rewrite nth_bits_at by auto.
  rewrite nth_overwrite_in; auto; [|apply nth_In; auto | rewrite Lx; apply HB, nth_In; auto].
  rewrite index_of_nth; auto.
Qed.
Lemma bits_at_overwrite_disj : forall x qs y ps, (forall p, In p ps -> ~ In p qs) ->
    bits_at (overwrite x qs y) ps = bits_at x ps.
Proof. intros x qs y ps H. apply map_ext_in. intros p Hp. apply nth_overwrite_notin; auto. Qed.
Lemma overwrite_ext : forall x x' qs y y', length x = length x' -> length y = length qs -> length y' = length qs ->
    (forall k, k < length x -> ~ In k qs -> nth k x 0 = nth k x' 0) -> y = y' ->
    overwrite x qs y = overwrite x' qs y'.
Proof.
  intros x x' qs y y' L Ly Ly' H E. subst y'. apply list_ext; rewrite !overwrite_length; auto.
  intros k Hk. destruct (in_dec Nat.eq_dec k qs).
  - rewrite !nth_overwrite_in; auto; lia.
  - rewrite !nth_overwrite_notin; auto.
Qed.
Lemma overwrite_overwrite : forall x qs y z, length y = length qs -> length z = length qs ->
    overwrite (overwrite x qs y) qs z = overwrite x qs z.
Proof.
  intros. apply overwrite_ext; auto using overwrite_length.
  intros k Hk Hn. apply nth_overwrite_notin; auto.
Qed.
Lemma overwrite_self : forall x qs, (forall q, In q qs -> q < length x) -> overwrite x qs (bits_at x qs) = x.
Proof.
  intros x qs H. apply list_ext; rewrite overwrite_length; auto. intros k Hk.
  destruct (in_dec Nat.eq_dec k qs) as [Hin|Hn].
  - rewrite nth_overwrite_in; auto; [|apply bits_at_length].
    rewrite nth_bits_at by (apply index_of_lt; auto). rewrite nth_index_of; auto.
  - apply nth_overwrite_notin; auto.
Qed.
Lemma overwrite_app : forall x p q u w, length u = length p ->
    overwrite x (p ++ q) (u ++ w) = overwrite (overwrite x q w) p u.
Proof.
  intros x p; revert x. induction p as [|a p IH]; destruct u as [|b u]; simpl; intros w L; try discriminate; auto.
  rewrite IH by lia. reflexivity.
Qed.
Lemma overwrite_comm : forall n x p q u w, valid_qubits n (p ++ q) -> length x = n -> length u = length p -> length w = length q ->
    overwrite (overwrite x p u) q w = overwrite (overwrite x q w) p u.
Proof.
  intros n x p q u w [ND HB] Lx Lu Lw. apply list_ext; rewrite !overwrite_length; auto. intros k Hk.
  assert (Hd : In k p -> In k q -> False).
  { intros H1 H2. apply in_split in H1. destruct H1 as (a & b & ->).
    rewrite <- app_assoc in ND. apply NoDup_app_remove_l in ND. simpl in ND. inversion ND as [|? ? Hn _]; subst.
    apply Hn, in_app_iff; auto. }
  destruct (in_dec Nat.eq_dec k p), (in_dec Nat.eq_dec k q); try tauto.
  - rewrite nth_overwrite_notin by auto. rewrite !nth_overwrite_in; auto; rewrite ?overwrite_length; auto.
  - rewrite nth_overwrite_in; auto; [|rewrite overwrite_length; auto].
    rewrite nth_overwrite_notin by auto. rewrite nth_overwrite_in; auto.
  - rewrite !nth_overwrite_notin; auto.
Qed.
Lemma overwrite_bits : forall n x qs y, In x (bitstrings n) -> In y (bitstrings (length qs)) ->
    In (overwrite x qs y) (bitstrings n).
Proof.
  intros n x qs y Hx Hy. apply bitstrings_In. pose proof (bitstrings_length _ _ Hx) as Lx.
  rewrite overwrite_length. split; auto. intros k Hk.
  destruct (in_dec Nat.eq_dec k qs).
  - rewrite nth_overwrite_in; auto; [|lia | apply bitstrings_length; auto].
    eapply bitstrings_nth_lt; eauto.
  - rewrite nth_overwrite_notin by auto. eapply bitstrings_nth_lt; eauto.
Qed.
Lemma bits_at_bits : forall n x qs, In x (bitstrings n) -> In (bits_at x qs) (bitstrings (length qs)).
Proof.
  intros n x qs Hx. apply bitstrings_In. rewrite bits_at_length; split; auto. intros k Hk.
  rewrite nth_bits_at by auto. eapply bitstrings_nth_lt; eauto.
Qed.
Lemma bitstrings_app : forall n m x y, In x (bitstrings n) -> In y (bitstrings m) -> In (x ++ y) (bitstrings (n + m)).
Proof. intros n m x y Hx Hy. apply bitstrings_inb. rewrite repeat_app. apply inb_app; apply bitstrings_inb; auto. Qed.
Lemma bitstrings_app_inv : forall n m v, In v (bitstrings (n + m)) ->
    exists x y, v = x ++ y /\ In x (bitstrings n) /\ In y (bitstrings m).
Proof.
  intros n m v H. apply bitstrings_inb in H. rewrite repeat_app in H. apply inb_app_inv in H.
  destruct H as (x & y & -> & Hx & Hy). exists x, y; split; auto. split; apply bitstrings_inb; auto.
Qed.
Lemma csum_bits_app : forall n m f,
    csum (bitstrings (n + m)) f = csum (bitstrings n) (fun x => csum (bitstrings m) (fun y => f (x ++ y))).
Proof.
  induction n; intros m f; simpl.
  - change (csum (bitstrings m) (fun y => f y)) with (csum (bitstrings m) f). ring.
  - rewrite !csum_app, !csum_map, !IHn. reflexivity.
Qed.

Lemma overwrite_place : forall n d v c, valid_qubits n d -> length v = n -> length c = length d ->
    place (d ++ free_axes n d) (c ++ restrict v (free_axes n d)) = overwrite v d c.
Proof.
  intros n d v c [ND HB] Lv Lc. rewrite Forall_forall in HB.
  assert (HP : is_perm n (d ++ free_axes n d)) by (apply is_perm_free; auto).
  rewrite <- (place_restrict n (d ++ free_axes n d) (overwrite v d c)); auto.
  - f_equal. rewrite restrict_app. f_equal.
    + symmetry. apply (bits_at_overwrite_same n); auto. split; auto. apply Forall_forall; auto.
    + symmetry. apply bits_at_overwrite_disj. intros p Hp. apply free_axes_In in Hp; tauto.
  - rewrite overwrite_length; auto.
Qed.

Lemma valid_app_l : forall n p q, valid_qubits n (p ++ q) -> valid_qubits n p.
Proof. intros n p q [ND HB]. split; [eapply NoDup_app_remove_r; eauto | apply Forall_app in HB; tauto]. Qed.
Lemma valid_app_r : forall n p q, valid_qubits n (p ++ q) -> valid_qubits n q.
Proof. intros n p q [ND HB]. split; [eapply NoDup_app_remove_l; eauto | apply Forall_app in HB; tauto]. Qed.
Lemma valid_app_disj : forall n p q k, valid_qubits n (p ++ q) -> In k p -> In k q -> False.
Proof.
  intros n p q k [ND _] H1 H2. apply in_split in H1. destruct H1 as (a & b & ->).
  rewrite <- app_assoc in ND. apply NoDup_app_remove_l in ND. simpl in ND. inversion ND as [|? ? Hn _]; subst.
  apply Hn, in_app_iff; auto.
Qed.
Lemma valid_lt : forall n p q, valid_qubits n p -> In q p -> q < n.
Proof. intros n p q [_ H] Hq. rewrite Forall_forall in H; auto. Qed.

(** ** Kernels *)
Lemma kid_eq : forall x, kid x x = C1.
Proof. intro x; unfold kid. destruct (list_eq_dec Nat.eq_dec x x); congruence. Qed.
Lemma kid_ne : forall x y, x <> y -> kid x y = C0.
Proof. intros x y H; unfold kid. destruct (list_eq_dec Nat.eq_dec x y); congruence. Qed.
Lemma kid_sym : forall x y, kid x y = kid y x.
Proof. intros x y; unfold kid. destruct (list_eq_dec Nat.eq_dec x y), (list_eq_dec Nat.eq_dec y x); congruence. Qed.
Lemma kid_conj : forall x y, Cconj (kid x y) = kid x y.
Proof. intros x y; unfold kid. destruct (list_eq_dec Nat.eq_dec x y); [apply Cconj_1 | apply Cconj_0]. Qed.
Lemma csum_kid_l : forall n x f, In x (bitstrings n) -> csum (bitstrings n) (fun y => Cmul (kid x y) (f y)) = f x.
Proof.
  intros n x f Hx. rewrite (csum_single _ x); auto using bitstrings_NoDup.
  - rewrite kid_eq; ring.
  - intros y Hy Hne. rewrite kid_ne by congruence. ring.
Qed.
Lemma csum_kid_r : forall n x f, In x (bitstrings n) -> csum (bitstrings n) (fun y => Cmul (f y) (kid y x)) = f x.
Proof.
  intros n x f Hx. rewrite <- (csum_kid_l n x f Hx) at 1. apply csum_ext. intros y Hy. rewrite kid_sym; ring.
Qed.

Lemma csum_kid_ov : forall n x (ts z : list nat) g, In x (bitstrings n) -> In z (bitstrings (length ts)) ->
    csum (bitstrings n) (fun y => Cmul (kid (overwrite x ts z) y) (g y)) = g (overwrite x ts z).
Proof. intros n x ts z g Hx Hz. apply csum_kid_l. apply overwrite_bits; auto. Qed.

(** the kernel of an action is what it says *)
Lemma ctrl_kernel_action : forall n M cs ts psi x, In x (bitstrings n) ->
    apply_kernel n (ctrl_kernel M cs ts) psi x = ctrl_action M cs ts psi x.
Proof.
  intros n M cs ts psi x Hx. unfold apply_kernel, ctrl_kernel, ctrl_action, gate_action.
  destruct (all_ones (bits_at x cs)).
  - transitivity (csum (bitstrings n) (fun y => csum (bitstrings (length ts))
       (fun z => Cmul (M (bits_at x ts) z) (Cmul (kid (overwrite x ts z) y) (psi y))))).
    { apply csum_ext. intros y Hy. rewrite <- csum_scale_r. apply csum_ext. intros; ring. }
    rewrite csum_swap. apply csum_ext. intros z Hz. rewrite csum_scale_l. f_equal.
    apply csum_kid_ov; auto.
  - apply csum_kid_l; auto.
Qed.

(** closed form of the kernel *)
Lemma ctrl_kernel_closed : forall n M cs ts x y, In x (bitstrings n) -> In y (bitstrings n) -> valid_qubits n ts ->
    ctrl_kernel M cs ts x y =
    if all_ones (bits_at x cs)
    then if list_eq_dec Nat.eq_dec (overwrite x ts (bits_at y ts)) y then M (bits_at x ts) (bits_at y ts) else C0
    else kid x y.
Proof.
  intros n M cs ts x y Hx Hy V. unfold ctrl_kernel. destruct (all_ones (bits_at x cs)); auto.
  pose proof (bits_at_bits n y ts Hy) as Hb.
  rewrite (csum_single _ (bits_at y ts)); auto using bitstrings_NoDup.
  - unfold kid. destruct (list_eq_dec Nat.eq_dec (overwrite x ts (bits_at y ts)) y); ring.
  - intros z Hz Hne. rewrite kid_ne; [ring|]. intro E. apply Hne. rewrite <- E.
    symmetry. apply (bits_at_overwrite_same n); auto; apply bitstrings_length in Hx, Hz; auto.
Qed.

Definition agree_off (ts x y : list nat) : Prop := forall k, ~ In k ts -> nth k x 0 = nth k y 0.
Lemma agree_off_overwrite : forall n ts x y, In x (bitstrings n) -> In y (bitstrings n) -> valid_qubits n ts ->
    (overwrite x ts (bits_at y ts) = y <-> agree_off ts x y).
Proof.
  intros n ts x y Hx Hy V. pose proof (bitstrings_length _ _ Hx) as Lx. pose proof (bitstrings_length _ _ Hy) as Ly.
  split; intro H.
  - intros k Hk. rewrite <- H. symmetry. apply nth_overwrite_notin; auto.
  - rewrite <- (overwrite_self y ts) at 2 by (intros; rewrite Ly; eapply valid_lt; eauto).
    apply overwrite_ext; auto using bits_at_length; lia.
Qed.
Lemma agree_off_sym : forall ts x y, agree_off ts x y -> agree_off ts y x.
Proof. intros ts x y H k Hk. symmetry; auto. Qed.
Lemma agree_off_bits_at : forall ts cs x y, agree_off ts x y -> (forall c, In c cs -> ~ In c ts) -> bits_at x cs = bits_at y cs.
Proof. intros ts cs x y H D. apply map_ext_in. intros c Hc. apply H, D, Hc. Qed.

(** adjoint of an action *)
Lemma ctrl_kernel_adj : forall n M cs ts, valid_qubits n (cs ++ ts) ->
    keq n (kadj (ctrl_kernel M cs ts)) (ctrl_kernel (kadj M) cs ts).
Proof.
  intros n M cs ts V x y Hx Hy. pose proof (valid_app_r _ _ _ V) as Vt.
  assert (D : forall c, In c cs -> ~ In c ts) by (intros c H1 H2; eapply valid_app_disj; eauto).
  unfold kadj at 1. rewrite !(ctrl_kernel_closed n) by auto.
  destruct (list_eq_dec Nat.eq_dec (overwrite y ts (bits_at x ts)) x) as [E1|E1];
  destruct (list_eq_dec Nat.eq_dec (overwrite x ts (bits_at y ts)) y) as [E2|E2].
  - apply (agree_off_overwrite n) in E2; auto. rewrite (agree_off_bits_at ts cs x y) by auto.
    destruct (all_ones (bits_at y cs)); [reflexivity|]. rewrite kid_conj, kid_sym; reflexivity.
  - exfalso; apply E2. apply (agree_off_overwrite n) in E1; auto. apply (agree_off_overwrite n); auto using agree_off_sym.
  - exfalso; apply E1. apply (agree_off_overwrite n) in E2; auto. apply (agree_off_overwrite n); auto using agree_off_sym.
  - assert (Hne : x <> y).
    { intro; subst y. apply E1. apply overwrite_self. intros q Hq.
      rewrite (bitstrings_length _ _ Hx). eapply valid_lt; eauto. }
    rewrite !kid_ne by congruence.
    destruct (all_ones (bits_at x cs)), (all_ones (bits_at y cs)); apply Cconj_0.
Qed.

(** product of actions on the same qubits *)
Lemma ctrl_kernel_mul : forall n A B cs ts, valid_qubits n (cs ++ ts) ->
    keq n (kmul n (ctrl_kernel A cs ts) (ctrl_kernel B cs ts)) (ctrl_kernel (kmul (length ts) A B) cs ts).
Proof.
  intros n A B cs ts V x y Hx Hy. pose proof (valid_app_r _ _ _ V) as Vt.
  assert (D : forall c, In c cs -> ~ In c ts) by (intros c H1 H2; eapply valid_app_disj; eauto).
  unfold kmul at 1.
  change (apply_kernel n (ctrl_kernel A cs ts) (fun z => ctrl_kernel B cs ts z y) x = ctrl_kernel (kmul (length ts) A B) cs ts x y).
  rewrite ctrl_kernel_action by auto. unfold ctrl_action, gate_action. 
  destruct (all_ones (bits_at x cs)) eqn:E; [|unfold ctrl_kernel; rewrite E; reflexivity].
  transitivity (csum (bitstrings (length ts)) (fun w => csum (bitstrings (length ts)) (fun u =>
      Cmul (Cmul (A (bits_at x ts) w) (B w u)) (kid (overwrite x ts u) y)))).
  - apply csum_ext. intros w Hw. unfold ctrl_kernel. rewrite bits_at_overwrite_disj by auto. rewrite E.
    rewrite <- csum_scale_l. apply csum_ext. intros u Hu.
    pose proof (bitstrings_length _ _ Hw). pose proof (bitstrings_length _ _ Hu).
    rewrite overwrite_overwrite by auto.
    rewrite (bits_at_overwrite_same n) by (auto; apply bitstrings_length; auto). ring.
  - rewrite csum_swap. unfold ctrl_kernel. rewrite E. apply csum_ext. intros u Hu. unfold kmul. rewrite csum_scale_r. reflexivity.
Qed.

Lemma ctrl_kernel_id : forall n cs ts, valid_qubits n ts -> keq n (ctrl_kernel kid cs ts) kid.
Proof.
  intros n cs ts V x y Hx Hy. unfold ctrl_kernel. destruct (all_ones (bits_at x cs)); auto.
  rewrite csum_kid_l by (eapply bits_at_bits; eauto).
  rewrite overwrite_self; auto. intros q Hq. rewrite (bitstrings_length _ _ Hx). eapply valid_lt; eauto.
Qed.
Lemma ctrl_kernel_ext : forall n A B cs ts, keq (length ts) A B -> keq n (ctrl_kernel A cs ts) (ctrl_kernel B cs ts).
Proof.
  intros n A B cs ts H x y Hx Hy. unfold ctrl_kernel. destruct (all_ones (bits_at x cs)); auto.
  apply csum_ext. intros z Hz. rewrite (H (bits_at x ts) z); auto. eapply bits_at_bits; eauto.
Qed.
Lemma ctrl_action_ext : forall n M cs ts f g, veq n f g -> veq n (ctrl_action M cs ts f) (ctrl_action M cs ts g).
Proof.
  intros n M cs ts f g H x Hx. unfold ctrl_action, gate_action. destruct (all_ones (bits_at x cs)); auto.
  apply csum_ext. intros y Hy. f_equal. apply H. apply overwrite_bits; auto.
Qed.

Lemma keq_refl : forall n A, keq n A A.
Proof. intros n A x y _ _; reflexivity. Qed.
Lemma keq_sym : forall n A B, keq n A B -> keq n B A.
Proof. intros n A B H x y Hx Hy; symmetry; auto. Qed.
Lemma keq_trans : forall n A B D, keq n A B -> keq n B D -> keq n A D.
Proof. intros n A B D H1 H2 x y Hx Hy; rewrite H1, H2; auto. Qed.
Lemma kmul_ext : forall n A A' B B', keq n A A' -> keq n B B' -> keq n (kmul n A B) (kmul n A' B').
Proof. intros n A A' B B' HA HB x y Hx Hy. unfold kmul. apply csum_ext. intros z Hz. rewrite HA, HB; auto. Qed.
Lemma kadj_ext : forall n A B, keq n A B -> keq n (kadj A) (kadj B).
Proof. intros n A B H x y Hx Hy. unfold kadj. rewrite H; auto. Qed.
Lemma kmul_assoc : forall n A B D, keq n (kmul n (kmul n A B) D) (kmul n A (kmul n B D)).
Proof.
  intros n A B D x y Hx Hy. unfold kmul.
  transitivity (csum (bitstrings n) (fun z => csum (bitstrings n) (fun w => Cmul (A x w) (Cmul (B w z) (D z y))))).
  { apply csum_ext; intros z Hz. rewrite <- csum_scale_r. apply csum_ext; intros; ring. }
  rewrite csum_swap. apply csum_ext; intros w Hw. rewrite csum_scale_l. reflexivity.
Qed.
Lemma kmul_id_l : forall n A, keq n (kmul n kid A) A.
Proof. intros n A x y Hx Hy. unfold kmul. apply (csum_kid_l n x (fun z => A z y)); auto. Qed.
Lemma kmul_id_r : forall n A, keq n (kmul n A kid) A.
Proof. intros n A x y Hx Hy. unfold kmul. apply (csum_kid_r n y (fun z => A x z)); auto. Qed.
Lemma kadj_mul : forall n A B, keq n (kadj (kmul n A B)) (kmul n (kadj B) (kadj A)).
Proof.
  intros n A B x y Hx Hy. unfold kadj, kmul. rewrite csum_conj. apply csum_ext; intros z Hz. rewrite Cconj_mul; ring.
Qed.
Lemma kadj_invol : forall n A, keq n (kadj (kadj A)) A.
Proof. intros n A x y Hx Hy. unfold kadj. apply Cconj_invol. Qed.
Lemma kadj_id : forall n, keq n (kadj kid) kid.
Proof. intros n x y Hx Hy. unfold kadj. rewrite kid_conj; apply kid_sym. Qed.
Lemma apply_kernel_mul : forall n A B f, veq n (apply_kernel n (kmul n A B) f) (apply_kernel n A (apply_kernel n B f)).
Proof.
  intros n A B f x Hx. unfold apply_kernel, kmul.
  transitivity (csum (bitstrings n) (fun y => csum (bitstrings n) (fun z => Cmul (A x z) (Cmul (B z y) (f y))))).
  { apply csum_ext; intros y Hy. rewrite <- csum_scale_r. apply csum_ext; intros; ring. }
  rewrite csum_swap. apply csum_ext; intros z Hz. rewrite csum_scale_l. reflexivity.
Qed.
Lemma apply_kernel_ext : forall n A B f g, keq n A B -> veq n f g -> veq n (apply_kernel n A f) (apply_kernel n B g).
Proof. intros n A B f g HA Hf x Hx. unfold apply_kernel. apply csum_ext; intros y Hy. rewrite HA, Hf; auto. Qed.
Lemma apply_kernel_id : forall n f, veq n (apply_kernel n kid f) f.
Proof. intros n f x Hx. unfold apply_kernel. apply csum_kid_l; auto. Qed.
Lemma veq_refl : forall n f, veq n f f.
Proof. intros n f x _; reflexivity. Qed.
Lemma veq_sym : forall n f g, veq n f g -> veq n g f.
Proof. intros n f g H x Hx; symmetry; auto. Qed.
Lemma veq_trans : forall n f g h, veq n f g -> veq n g h -> veq n f h.
Proof. intros n f g h H1 H2 x Hx; rewrite H1, H2; auto. Qed.

(** <f| A g> = <A* f | g> *)
Lemma inner_adj : forall n A f g,
    inner_product n f (apply_kernel n A g) = inner_product n (apply_kernel n (kadj A) f) g.
Proof.
  intros n A f g. unfold inner_product, apply_kernel, kadj.
  transitivity (csum (bitstrings n) (fun x => csum (bitstrings n) (fun y => Cmul (Cconj (f x)) (Cmul (A x y) (g y))))).
  { apply csum_ext; intros x Hx. rewrite csum_scale_l; reflexivity. }
  rewrite csum_swap. apply csum_ext; intros y Hy. rewrite csum_conj, <- csum_scale_r.
  apply csum_ext; intros x Hx. rewrite Cconj_mul, Cconj_invol. ring.
Qed.
Lemma inner_ext : forall n f f' g g', veq n f f' -> veq n g g' -> inner_product n f g = inner_product n f' g'.
Proof. intros n f f' g g' H1 H2. apply csum_ext; intros x Hx. rewrite H1, H2; auto. Qed.
Lemma inner_norm2 : forall n f, inner_product n f f = RtoC (norm2 n f).
Proof.
  intros n f. unfold inner_product, norm2. rewrite rsum_csum. apply csum_ext; intros x Hx. apply Cmul_conj.
Qed.

(** a unitary gate acts unitarily *)
Lemma ctrl_kernel_unitary : forall n M cs ts, valid_qubits n (cs ++ ts) ->
    unitary (length ts) M -> unitary n (ctrl_kernel M cs ts).
Proof.
  intros n M cs ts V [U1 U2]. pose proof (valid_app_r _ _ _ V) as Vt. split.
  - eapply keq_trans; [apply kmul_ext; [apply ctrl_kernel_adj; auto | apply keq_refl]|].
    eapply keq_trans; [apply ctrl_kernel_mul; auto|].
    eapply keq_trans; [apply ctrl_kernel_ext, U1|]. apply ctrl_kernel_id; auto.
  - eapply keq_trans; [apply kmul_ext; [apply keq_refl | apply ctrl_kernel_adj; auto]|].
    eapply keq_trans; [apply ctrl_kernel_mul; auto|].
    eapply keq_trans; [apply ctrl_kernel_ext, U2|]. apply ctrl_kernel_id; auto.
Qed.
Lemma unitary_inner : forall n A f g, unitary n A ->
    inner_product n (apply_kernel n A f) (apply_kernel n A g) = inner_product n f g.
Proof.
  intros n A f g [U _]. rewrite inner_adj.
  apply inner_ext; [|apply veq_refl].
  eapply veq_trans; [apply veq_sym, apply_kernel_mul|].
  eapply veq_trans; [apply apply_kernel_ext; [exact U | apply veq_refl]|]. apply apply_kernel_id.
Qed.
