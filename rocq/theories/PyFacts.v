(** * Facts about the Python layer (permutations, sorting, placement). *)
From Coq Require Import List Arith Bool Lia Permutation Sorted.
From Verif Require Import Py.
Import ListNotations.

Lemma mem_In : forall x l, mem x l = true <-> In x l.
Proof.
  intros x l; unfold mem; rewrite existsb_exists; split.
  - intros [y [Hy E]]; apply Nat.eqb_eq in E; subst; exact Hy.
  - intro H; exists x; split; [exact H | apply Nat.eqb_refl].
Qed.
Lemma mem_false : forall x l, mem x l = false <-> ~ In x l.
Proof. intros; rewrite <- mem_In; destruct (mem x l); split; congruence. Qed.

Lemma nodupb_NoDup : forall l, nodupb l = true <-> NoDup l.
Proof.
  induction l as [|x l IH]; simpl.
  - split; [constructor | reflexivity].
  - rewrite andb_true_iff, negb_true_iff, mem_false, IH; split.
    + intros [? ?]; constructor; assumption.
    + intro H; inversion H; auto.
Qed.

Lemma list_eqb_eq : forall a b, list_eqb a b = true <-> a = b.
Proof.
  induction a as [|x a IH]; destruct b as [|y b]; simpl; split; intro H; try congruence; auto.
  - apply andb_true_iff in H; destruct H as [H1 H2].
    apply Nat.eqb_eq in H1; apply IH in H2; congruence.
  - injection H; intros; subst. rewrite Nat.eqb_refl; simpl; apply IH; reflexivity.
Qed.

Lemma index_of_lt : forall x l, In x l -> index_of x l < length l.
Proof.
  induction l as [|y l IH]; simpl; intros H; [destruct H|].
  destruct (Nat.eqb_spec x y); [lia|].
  destruct H as [->|H]; [congruence | apply IH in H; lia].
Qed.
Lemma nth_index_of : forall x l, In x l -> nth (index_of x l) l 0 = x.
Proof.
  induction l as [|y l IH]; simpl; intros H; [destruct H|].
  destruct (Nat.eqb_spec x y); [congruence|].
  destruct H as [->|H]; [congruence | auto].
Qed.
Lemma index_of_nth : forall l k, NoDup l -> k < length l -> index_of (nth k l 0) l = k.
Proof.
  induction l as [|y l IH]; simpl; intros k ND H; [lia|].
  inversion ND as [|? ? Hn ND']; subst.
  destruct k as [|k]; [rewrite Nat.eqb_refl; reflexivity|].
  destruct (Nat.eqb_spec (nth k l 0) y) as [E|E].
  - exfalso; apply Hn; rewrite <- E; apply nth_In; lia.
  - rewrite IH; auto; lia.
Qed.
Lemma index_of_notin : forall x l, ~ In x l -> index_of x l = length l.
Proof.
  induction l as [|y l IH]; simpl; intros H; auto.
  destruct (Nat.eqb_spec x y); [subst; tauto|]. rewrite IH; tauto.
Qed.
Lemma index_of_app_l : forall x l1 l2, In x l1 -> index_of x (l1 ++ l2) = index_of x l1.
Proof.
  induction l1 as [|y l IH]; simpl; intros l2 H; [destruct H|].
  destruct (Nat.eqb_spec x y); auto.
  destruct H as [->|H]; [congruence | rewrite IH; auto].
Qed.
Lemma index_of_app_r : forall x l1 l2, ~ In x l1 -> index_of x (l1 ++ l2) = length l1 + index_of x l2.
Proof.
  induction l1 as [|y l IH]; simpl; intros l2 H; auto.
  destruct (Nat.eqb_spec x y); [subst; tauto|]. rewrite IH; tauto.
Qed.

Lemma index_of_map_add : forall n x l, index_of (n + x) (map (Nat.add n) l) = index_of x l.
Proof.
  induction l as [|y l IH]; simpl; auto.
  destruct (Nat.eqb_spec (n + x) (n + y)), (Nat.eqb_spec x y); try lia; auto.
Qed.

Lemma nth_map_lt : forall {A B} (f : A -> B) l k d d', k < length l -> nth k (map f l) d = f (nth k l d').
Proof.
  intros A B f l k d d' H. rewrite nth_indep with (d' := f d') by (rewrite map_length; exact H). apply map_nth.
Qed.
Lemma nth_map_add : forall n l k, k < length l -> nth k (map (Nat.add n) l) 0 = n + nth k l 0.
Proof.
  intros n l k H. rewrite nth_indep with (d' := Nat.add n 0) by (rewrite map_length; exact H).
  apply map_nth.
Qed.
Lemma seq_shift_add : forall n m, seq n m = map (Nat.add n) (seq 0 m).
Proof.
  intros n m. apply nth_ext with (d := 0) (d' := 0); [rewrite map_length, !seq_length; auto|].
  intros k Hk; rewrite seq_length in Hk.
  rewrite nth_map_add, !seq_nth by (rewrite ?seq_length; auto). reflexivity.
Qed.

(** ** Permutations of [range n] *)
Definition is_perm (n : nat) (p : list nat) : Prop := Permutation p (seq 0 n).

Lemma is_perm_length : forall n p, is_perm n p -> length p = n.
Proof. intros n p H; apply Permutation_length in H; rewrite seq_length in H; exact H. Qed.
Lemma is_perm_NoDup : forall n p, is_perm n p -> NoDup p.
Proof. intros n p H; eapply Permutation_NoDup; [apply Permutation_sym; exact H | apply seq_NoDup]. Qed.
Lemma is_perm_In : forall n p x, is_perm n p -> (In x p <-> x < n).
Proof.
  intros n p x H; split; intro Hx.
  - eapply Permutation_in in Hx; [|exact H]. apply in_seq in Hx; lia.
  - eapply Permutation_in; [apply Permutation_sym; exact H|]. apply in_seq; lia.
Qed.
Lemma is_perm_intro : forall n p, NoDup p -> length p = n -> (forall x, In x p -> x < n) -> is_perm n p.
Proof.
  intros n p ND L H. apply NoDup_Permutation_bis; auto.
  - rewrite seq_length; lia.
  - intros x Hx; apply in_seq; apply H in Hx; lia.
Qed.
Lemma is_perm_intro' : forall n p, NoDup p -> (forall x, In x p <-> x < n) -> is_perm n p.
Proof.
  intros n p ND H. apply NoDup_Permutation; auto using seq_NoDup.
  intro x; rewrite H, in_seq; lia.
Qed.
Lemma is_perm_seq : forall n, is_perm n (seq 0 n).
Proof. intro n; apply Permutation_refl. Qed.
Lemma is_perm_nth_lt : forall n p k, is_perm n p -> k < n -> nth k p 0 < n.
Proof.
  intros n p k H Hk; apply (is_perm_In n p); auto.
  apply nth_In; rewrite (is_perm_length n p); auto.
Qed.

Lemma permb_is_perm : forall n p, permb n p = true <-> is_perm n p.
Proof.
  intros n p; unfold permb; rewrite andb_true_iff, Nat.eqb_eq, forallb_forall; split.
  - intros [L H]. apply Permutation_sym.
    apply NoDup_Permutation_bis; auto using seq_NoDup.
    + rewrite seq_length; lia.
    + intros x Hx; apply mem_In, H, Hx.
  - intro H; split; [apply is_perm_length; auto|].
    intros x Hx; apply mem_In; apply in_seq in Hx. apply (is_perm_In n p); auto; lia.
Qed.

Lemma list_ext : forall (a b : list nat),
    length a = length b -> (forall k, k < length a -> nth k a 0 = nth k b 0) -> a = b.
Proof. intros; eapply nth_ext; eauto. Qed.

Lemma restrict_length : forall v p, length (restrict v p) = length p.
Proof. intros; apply map_length. Qed.
Lemma nth_restrict : forall v p k, k < length p -> nth k (restrict v p) 0 = nth (nth k p 0) v 0.
Proof.
  intros v p k H; unfold restrict.
  rewrite nth_indep with (d' := nth 0 v 0); [|rewrite map_length; exact H].
  apply (map_nth (fun q => nth q v 0)).
Qed.
Lemma restrict_app : forall v p q, restrict v (p ++ q) = restrict v p ++ restrict v q.
Proof. intros; apply map_app. Qed.
Lemma restrict_seq : forall v, restrict v (seq 0 (length v)) = v.
Proof.
  intro v; apply list_ext; rewrite restrict_length, seq_length; auto.
  intros k Hk; rewrite nth_restrict by (rewrite seq_length; auto).
  rewrite seq_nth by auto; reflexivity.
Qed.
Lemma restrict_seq_n : forall n v, length v = n -> restrict v (seq 0 n) = v.
Proof. intros; subst; apply restrict_seq. Qed.
Lemma restrict_restrict : forall v p q, (forall x, In x q -> x < length p) ->
    restrict (restrict v p) q = restrict v (restrict p q).
Proof.
  intros v p q H; apply list_ext; rewrite !restrict_length; auto.
  intros k Hk. rewrite !nth_restrict; try rewrite restrict_length; auto.
  apply H, nth_In, Hk.
Qed.
Lemma restrict_ext : forall v w p, (forall q, In q p -> nth q v 0 = nth q w 0) -> restrict v p = restrict w p.
Proof. intros; apply map_ext_in; auto. Qed.

Lemma place_length : forall p v, length (place p v) = length p.
Proof. intros; unfold place; rewrite map_length, seq_length; reflexivity. Qed.
Lemma nth_place : forall p v j, j < length p -> nth j (place p v) 0 = nth (index_of j p) v 0.
Proof.
  intros p v j H; unfold place.
  rewrite nth_indep with (d' := (fun j => nth (index_of j p) v 0) 0); [|rewrite map_length, seq_length; exact H].
  rewrite (map_nth (fun j => nth (index_of j p) v 0)), seq_nth; auto.
Qed.
Lemma nth_place_perm : forall n p v k, is_perm n p -> k < n ->
    nth (nth k p 0) (place p v) 0 = nth k v 0.
Proof.
  intros n p v k H Hk. pose proof (is_perm_length _ _ H) as L.
  rewrite nth_place; [|rewrite L; apply (is_perm_nth_lt n); auto].
  rewrite index_of_nth; auto; [eapply is_perm_NoDup; eauto | lia].
Qed.
Lemma restrict_place : forall n p v, is_perm n p -> length v = n -> restrict (place p v) p = v.
Proof.
  intros n p v H L. pose proof (is_perm_length _ _ H) as Lp.
  apply list_ext; rewrite restrict_length; [lia|].
  intros k Hk; rewrite nth_restrict by auto. apply (nth_place_perm n); auto; lia.
Qed.
Lemma place_restrict : forall n p v, is_perm n p -> length v = n -> place p (restrict v p) = v.
Proof.
  intros n p v H L. pose proof (is_perm_length _ _ H) as Lp.
  apply list_ext; rewrite place_length; [lia|].
  intros k Hk; rewrite nth_place by auto.
  assert (Hin : In k p) by (apply (is_perm_In n p); auto; lia).
  rewrite nth_restrict by (apply index_of_lt; auto).
  rewrite nth_index_of; auto.
Qed.
Lemma place_seq : forall n v, length v = n -> place (seq 0 n) v = v.
Proof.
  intros n v L. rewrite <- (restrict_seq_n n v L) at 1.
  apply (place_restrict n); auto using is_perm_seq.
Qed.

Lemma app_inv_len : forall {A} (a b c d : list A), length a = length c -> a ++ b = c ++ d -> a = c /\ b = d.
Proof.
  induction a as [|x a IH]; destruct c as [|y c]; simpl; intros d L E; try discriminate; auto.
  injection E as -> E. destruct (IH b c d) as [-> ->]; auto.
Qed.

(** a sub-list of a placed vector *)
Lemma restrict_place_app : forall n p q u w, is_perm n (p ++ q) -> length u = length p -> length w = length q ->
    restrict (place (p ++ q) (u ++ w)) p = u /\ restrict (place (p ++ q) (u ++ w)) q = w.
Proof.
  intros n p q u w H Lu Lw.
  assert (E : restrict (place (p ++ q) (u ++ w)) (p ++ q) = u ++ w).
  { apply (restrict_place n); auto. rewrite app_length. apply is_perm_length in H; rewrite app_length in H; lia. }
  rewrite restrict_app in E.
  apply app_inv_len in E; auto. rewrite restrict_length; auto.
Qed.

Definition inv_perm (p : list nat) : list nat := place p (seq 0 (length p)).

Lemma nth_inv_perm : forall n p j, is_perm n p -> j < n -> nth j (inv_perm p) 0 = index_of j p.
Proof.
  intros n p j H Hj. pose proof (is_perm_length _ _ H) as L.
  unfold inv_perm; rewrite nth_place by lia.
  rewrite seq_nth; [reflexivity|]. apply index_of_lt, (is_perm_In n p); auto.
Qed.
Lemma is_perm_inv : forall n p, is_perm n p -> is_perm n (inv_perm p).
Proof.
  intros n p H. pose proof (is_perm_length _ _ H) as L.
  assert (LI : length (inv_perm p) = n) by (unfold inv_perm; rewrite place_length; auto).
  apply is_perm_intro; auto.
  - apply (NoDup_nth (inv_perm p) 0). rewrite LI. intros i j Hi Hj E.
    rewrite !(nth_inv_perm n) in E by auto.
    assert (In i p) by (apply (is_perm_In n p); auto).
    assert (In j p) by (apply (is_perm_In n p); auto).
    rewrite <- (nth_index_of i p), <- (nth_index_of j p) by auto. congruence.
  - intros x Hx. destruct (In_nth _ _ 0 Hx) as [k [Hk E]]. rewrite LI in Hk.
    rewrite (nth_inv_perm n) in E by auto. subst x. rewrite <- L.
    apply index_of_lt, (is_perm_In n p); auto.
Qed.
Lemma place_inv_perm : forall n p v, is_perm n p -> length v = n -> place (inv_perm p) v = restrict v p.
Proof.
  intros n p v H Lv. pose proof (is_perm_length _ _ H) as L.
  pose proof (is_perm_inv n p H) as HI. pose proof (is_perm_length _ _ HI) as LI.
  apply list_ext; rewrite place_length, ?restrict_length; [lia|].
  intros k Hk. rewrite nth_place, nth_restrict by lia. f_equal.
  rewrite <- (index_of_nth p k) at 1 by (try lia; eapply is_perm_NoDup; eauto).
  rewrite <- (nth_inv_perm n p (nth k p 0)) by (auto; apply (is_perm_nth_lt n); auto; lia).
  apply index_of_nth; [eapply is_perm_NoDup; eauto|].
  rewrite LI; apply (is_perm_nth_lt n); auto; lia.
Qed.
Lemma inv_perm_invol : forall n p, is_perm n p -> inv_perm (inv_perm p) = p.
Proof.
  intros n p H.
  assert (LI : length (inv_perm p) = n) by (apply is_perm_length, is_perm_inv; auto).
  unfold inv_perm at 1. rewrite LI. rewrite (place_inv_perm n) by (auto; apply seq_length).
  apply list_ext; rewrite restrict_length; auto.
  intros k Hk. rewrite nth_restrict by auto.
  pose proof (is_perm_length _ _ H). rewrite seq_nth; auto. apply (is_perm_nth_lt n); auto; lia.
Qed.
Lemma restrict_inv_perm : forall n p v, is_perm n p -> length v = n -> restrict v (inv_perm p) = place p v.
Proof.
  intros n p v H L. rewrite <- (inv_perm_invol n p H) at 2.
  symmetry; apply (place_inv_perm n); auto using is_perm_inv.
Qed.

(** uniqueness: a list with [l[p[k]] = k] is the inverse permutation *)
Lemma inv_perm_unique : forall n p l, is_perm n p -> length l = n ->
    (forall k, k < n -> nth (nth k p 0) l 0 = k) -> l = inv_perm p.
Proof.
  intros n p l H L E. pose proof (is_perm_length _ _ H) as Lp.
  apply list_ext; [rewrite L; symmetry; apply is_perm_length, is_perm_inv; auto|].
  intros j Hj. rewrite L in Hj. rewrite (nth_inv_perm n) by auto.
  assert (In j p) by (apply (is_perm_In n p); auto).
  rewrite <- (nth_index_of j p) at 1 by auto. apply E. rewrite <- Lp; apply index_of_lt; auto.
Qed.

Lemma free_axes_In : forall n d x, In x (free_axes n d) <-> x < n /\ ~ In x d.
Proof.
  intros; unfold free_axes; rewrite filter_In, in_seq, negb_true_iff, mem_false; intuition lia.
Qed.
Lemma free_axes_NoDup : forall n d, NoDup (free_axes n d).
Proof. intros; apply NoDup_filter, seq_NoDup. Qed.
Lemma NoDup_app_intro : forall {A} (l1 l2 : list A), NoDup l1 -> NoDup l2 ->
    (forall x, In x l1 -> ~ In x l2) -> NoDup (l1 ++ l2).
Proof.
  induction l1 as [|x l IH]; simpl; intros l2 H1 H2 H; auto.
  inversion H1; subst; constructor.
  - rewrite in_app_iff; intros [?|?]; [contradiction|]. apply (H x); auto.
  - apply IH; auto.
Qed.
Lemma is_perm_free : forall n d, NoDup d -> (forall x, In x d -> x < n) -> is_perm n (d ++ free_axes n d).
Proof.
  intros n d ND H. apply is_perm_intro'.
  - apply NoDup_app_intro; auto using free_axes_NoDup.
    intros x Hx Hf; apply free_axes_In in Hf; tauto.
  - intro x; rewrite in_app_iff, free_axes_In. split.
    + intros [Hx|[Hx _]]; auto.
    + intro Hx. destruct (in_dec Nat.eq_dec x d); tauto.
Qed.
Lemma is_perm_free_l : forall n d, NoDup d -> (forall x, In x d -> x < n) -> is_perm n (free_axes n d ++ d).
Proof.
  intros; unfold is_perm. eapply Permutation_trans; [apply Permutation_app_comm|]. apply is_perm_free; auto.
Qed.
Lemma free_axes_length : forall n d, NoDup d -> (forall x, In x d -> x < n) -> length d + length (free_axes n d) = n.
Proof. intros n d ND H. pose proof (is_perm_length _ _ (is_perm_free n d ND H)) as L. rewrite app_length in L; exact L. Qed.

Lemma filter_none : forall {A} (f : A -> bool) l, (forall x, In x l -> f x = false) -> filter f l = [].
Proof.
  induction l as [|x l IH]; simpl; intros H; auto. rewrite (H x) by auto. apply IH; auto.
Qed.
Lemma filter_all : forall {A} (f : A -> bool) l, (forall x, In x l -> f x = true) -> filter f l = l.
Proof.
  induction l as [|x l IH]; simpl; intros H; auto. rewrite (H x) by auto. rewrite IH; auto.
Qed.
(** free axes when the first / last [m] axes are taken *)
Lemma free_axes_prefix : forall m k, free_axes (m + k) (seq 0 m) = seq m k.
Proof.
  intros; unfold free_axes. rewrite seq_app, filter_app.
  rewrite filter_none, filter_all; auto.
  - intros x Hx; apply in_seq in Hx. apply negb_true_iff, mem_false. rewrite in_seq; lia.
  - intros x Hx; apply in_seq in Hx. apply negb_false_iff, mem_In. apply in_seq; lia.
Qed.
Lemma free_axes_suffix : forall m k, free_axes (m + k) (seq m k) = seq 0 m.
Proof.
  intros; unfold free_axes. rewrite seq_app, filter_app.
  rewrite filter_all, filter_none, app_nil_r; auto.
  - intros x Hx; apply in_seq in Hx. apply negb_false_iff, mem_In. apply in_seq; lia.
  - intros x Hx; apply in_seq in Hx. apply negb_true_iff, mem_false. rewrite in_seq; lia.
Qed.

(** block placement: [p] on the first [n] axes, [q] shifted on the next *)
Lemma place_app_shift : forall n m p q u w, is_perm n p -> is_perm m q -> length u = n -> length w = m ->
    place (p ++ map (Nat.add n) q) (u ++ w) = place p u ++ place q w.
Proof.
  intros n m p q u w Hp Hq Lu Lw.
  pose proof (is_perm_length _ _ Hp) as Lp. pose proof (is_perm_length _ _ Hq) as Lq.
  apply list_ext; rewrite place_length, !app_length, ?place_length, map_length; [lia|].
  intros k Hk. rewrite nth_place by (rewrite app_length, map_length; lia).
  destruct (lt_dec k n) as [Hkn|Hkn].
  - assert (Hin : In k p) by (apply (is_perm_In n p); auto).
    pose proof (index_of_lt k p Hin).
    rewrite index_of_app_l by auto. rewrite !app_nth1 by (rewrite ?place_length; lia).
    rewrite nth_place by lia. reflexivity.
  - assert (Hn : ~ In k p) by (rewrite (is_perm_In n p); auto).
    rewrite index_of_app_r by auto. replace k with (n + (k - n)) at 1 by lia.
    rewrite index_of_map_add.
    assert (Hin : In (k - n) q) by (apply (is_perm_In m q); auto; lia).
    pose proof (index_of_lt _ _ Hin).
    rewrite !app_nth2 by (rewrite ?place_length; lia).
    rewrite place_length. replace (length p + index_of (k - n) q - length u) with (index_of (k-n) q) by lia.
    rewrite Lp, nth_place by lia. reflexivity.
Qed.
Lemma is_perm_app_shift : forall n m p q, is_perm n p -> is_perm m q -> is_perm (n + m) (p ++ map (Nat.add n) q).
Proof.
  intros n m p q Hp Hq. unfold is_perm. rewrite seq_app. apply Permutation_app; auto.
  simpl. rewrite seq_shift_add. apply Permutation_map; exact Hq.
Qed.
Lemma inv_perm_app_shift : forall n m p q, is_perm n p -> is_perm m q ->
    inv_perm (p ++ map (Nat.add n) q) = inv_perm p ++ map (Nat.add n) (inv_perm q).
Proof.
  intros n m p q Hp Hq. symmetry.
  pose proof (is_perm_length _ _ Hp) as Lp. pose proof (is_perm_length _ _ Hq) as Lq.
  pose proof (is_perm_inv _ _ Hp) as HIp. pose proof (is_perm_inv _ _ Hq) as HIq.
  pose proof (is_perm_length _ _ HIp) as LIp. pose proof (is_perm_length _ _ HIq) as LIq.
  apply (inv_perm_unique (n + m)); auto using is_perm_app_shift.
  { rewrite app_length, map_length; lia. }
  intros k Hk. destruct (lt_dec k n) as [Hkn|Hkn].
  - rewrite (app_nth1 p) by lia.
    pose proof (is_perm_nth_lt n p k Hp Hkn).
    rewrite app_nth1 by lia. rewrite (nth_inv_perm n) by auto.
    apply index_of_nth; [eapply is_perm_NoDup; eauto | lia].
  - rewrite (app_nth2 p) by lia. rewrite Lp.
    rewrite nth_map_add by lia.
    pose proof (is_perm_nth_lt m q (k - n) Hq ltac:(lia)).
    rewrite app_nth2 by lia. rewrite LIp. replace (n + nth (k - n) q 0 - n) with (nth (k - n) q 0) by lia.
    rewrite nth_map_add by lia. rewrite (nth_inv_perm m) by auto.
    rewrite index_of_nth; [lia | eapply is_perm_NoDup; eauto | lia].
Qed.

(** ** Sorting *)
Section Sorting.
  Context {A : Type} (leb : A -> A -> bool).
  Lemma insert_by_perm : forall x l, Permutation (insert_by leb x l) (x :: l).
  Proof.
    induction l as [|y l IH]; simpl; auto.
    destruct (leb x y); auto.
    eapply perm_trans; [apply perm_skip, IH | apply perm_swap].
  Qed.
  Lemma sort_by_perm : forall l, Permutation (sort_by leb l) l.
  Proof.
    induction l as [|x l IH]; simpl; auto.
    eapply perm_trans; [apply insert_by_perm | apply perm_skip, IH].
  Qed.
  Hypothesis leb_total : forall a b, leb a b = true \/ leb b a = true.
  Hypothesis leb_trans : forall a b c, leb a b = true -> leb b c = true -> leb a c = true.
  Lemma insert_by_sorted : forall x l,
      StronglySorted (fun a b => leb a b = true) l -> StronglySorted (fun a b => leb a b = true) (insert_by leb x l).
  Proof.
    induction l as [|y l IH]; simpl; intros H.
    - constructor; constructor.
    - inversion H as [|? ? HS HF]; subst. destruct (leb x y) eqn:E.
      + constructor; auto. constructor; auto.
        eapply Forall_impl; [|exact HF]. intros z Hz; eauto.
      + constructor; auto.
        assert (Hyx : leb y x = true) by (destruct (leb_total x y); congruence).
        apply Forall_forall. intros z Hz.
        eapply Permutation_in in Hz; [|apply insert_by_perm].
        destruct Hz as [<-|Hz]; auto. rewrite Forall_forall in HF; auto.
  Qed.
  Lemma sort_by_sorted : forall l, StronglySorted (fun a b => leb a b = true) (sort_by leb l).
  Proof. induction l; simpl; [constructor | apply insert_by_sorted; auto]. Qed.
  Lemma insert_by_id : forall x l, Forall (fun y => leb x y = true) l -> insert_by leb x l = x :: l.
  Proof. destruct l as [|y l]; simpl; auto; intros H; inversion H as [|? ? E]; subst; rewrite E; auto. Qed.
  Lemma sort_by_id : forall l, StronglySorted (fun a b => leb a b = true) l -> sort_by leb l = l.
  Proof.
    induction l as [|x l IH]; simpl; auto; intros H; inversion H; subst.
    rewrite IH; auto. apply insert_by_id; auto.
  Qed.
End Sorting.

Lemma sorted_perm : forall l, Permutation (sorted l) l.
Proof. intro; apply sort_by_perm. Qed.
Lemma sorted_sorted : forall l, StronglySorted le (sorted l).
Proof.
  intro l. assert (H : StronglySorted (fun a b => Nat.leb a b = true) (sorted l)).
  { apply sort_by_sorted.
    - intros a b; destruct (Nat.leb_spec a b); auto. right; apply Nat.leb_le; lia.
    - intros a b c H1 H2; apply Nat.leb_le in H1, H2; apply Nat.leb_le; lia. }
  induction H as [|a l' H IH HF]; constructor; auto.
  eapply Forall_impl; [|exact HF]. intros b Hb; apply Nat.leb_le, Hb.
Qed.
Lemma sorted_In : forall l x, In x (sorted l) <-> In x l.
Proof.
  intros; split; apply Permutation_in; [|apply Permutation_sym]; apply sorted_perm.
Qed.
Lemma sorted_NoDup : forall l, NoDup l -> NoDup (sorted l).
Proof. intros; eapply Permutation_NoDup; [apply Permutation_sym, sorted_perm | auto]. Qed.
Lemma sorted_length : forall l, length (sorted l) = length l.
Proof. intros; apply Permutation_length, sorted_perm. Qed.

Lemma dedup_In : forall l x, In x (dedup l) <-> In x l.
Proof.
  induction l as [|y l IH]; simpl; intros x; [tauto|].
  destruct (mem y l) eqn:E.
  - rewrite IH. apply mem_In in E. split; [tauto | intros [->|H]; auto].
  - simpl; rewrite IH; tauto.
Qed.
Lemma dedup_NoDup : forall l, NoDup (dedup l).
Proof.
  induction l as [|y l IH]; simpl; [constructor|].
  destruct (mem y l) eqn:E; auto. constructor; auto.
  rewrite dedup_In. apply mem_false; auto.
Qed.
Lemma dedup_id : forall l, NoDup l -> dedup l = l.
Proof.
  induction l as [|y l IH]; simpl; intros H; auto. inversion H; subst.
  assert (E : mem y l = false) by (apply mem_false; auto). rewrite E, IH; auto.
Qed.
Lemma set_diff_In : forall a b x, In x (set_diff a b) <-> In x a /\ ~ In x b.
Proof. intros; unfold set_diff; rewrite filter_In, dedup_In, negb_true_iff, mem_false; tauto. Qed.
Lemma set_diff_NoDup : forall a b, NoDup (set_diff a b).
Proof. intros; apply NoDup_filter, dedup_NoDup. Qed.
Lemma subsetb_incl : forall a b, subsetb a b = true <-> incl a b.
Proof.
  intros; unfold subsetb; rewrite forallb_forall; unfold incl; split; intros H x Hx.
  - apply mem_In, H, Hx.
  - apply mem_In, H, Hx.
Qed.

(** strictly sorted lists are determined by their elements *)
Lemma sorted_unique : forall a b, StronglySorted le a -> StronglySorted le b -> Permutation a b -> a = b.
Proof.
  induction a as [|x a IH]; intros b Ha Hb P.
  - apply Permutation_nil in P; auto.
  - destruct b as [|y b]; [apply Permutation_sym, Permutation_nil in P; discriminate|].
    inversion Ha as [|? ? Ha' Fa]; subst. inversion Hb as [|? ? Hb' Fb]; subst.
    assert (x = y).
    { rewrite Forall_forall in Fa, Fb.
      assert (Hx : In x (y :: b)) by (eapply Permutation_in; [exact P | left; auto]).
      assert (Hy : In y (x :: a)) by (eapply Permutation_in; [apply Permutation_sym, P | left; auto]).
      destruct Hx as [<-|Hx]; auto. destruct Hy as [<-|Hy]; auto.
      apply Fa in Hy; apply Fb in Hx; lia. }
    subst y. f_equal. apply IH; auto. eapply Permutation_cons_inv; eauto.
Qed.
Lemma sorted_perm_eq : forall a b, Permutation a b -> sorted a = sorted b.
Proof.
  intros; apply sorted_unique; auto using sorted_sorted.
  eapply perm_trans; [apply sorted_perm|]. eapply perm_trans; [eassumption|]. apply Permutation_sym, sorted_perm.
Qed.
Lemma sorted_id : forall a, StronglySorted le a -> sorted a = a.
Proof. intros; apply sorted_unique; auto using sorted_sorted, sorted_perm. Qed.
Lemma StronglySorted_seq : forall n k, StronglySorted le (seq k n).
Proof.
  induction n; simpl; intros; constructor; auto.
  apply Forall_forall; intros x Hx; apply in_seq in Hx; lia.
Qed.
Lemma sorted_perm_seq : forall n p, is_perm n p -> sorted p = seq 0 n.
Proof. intros n p H; apply sorted_unique; auto using sorted_sorted, StronglySorted_seq. eapply perm_trans; [apply sorted_perm | exact H]. Qed.
