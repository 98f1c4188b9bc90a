(** * Facts about the array layer. *)
From Coq Require Import List Arith Bool Lia Permutation Sorted.
From Verif Require Import Cplx Py PyFacts Ndarray.
Import ListNotations.

(** a multi-index in bounds of a shape *)
Definition inb (s v : list nat) : Prop := Forall2 (fun i d => i < d) v s.

Lemma inb_length : forall s v, inb s v -> length v = length s.
Proof. intros s v H; induction H; simpl; auto. Qed.

Lemma inb_nth : forall s v, inb s v <-> (length v = length s /\ forall k, k < length s -> nth k v 0 < nth k s 0).
Proof.
  induction s as [|d s IH]; intros v; split; intro H.
  - inversion H; subst; split; auto; simpl; intros; lia.
  - destruct H as [L _]; destruct v; [constructor | discriminate].
  - inversion H as [|i ? v' ? Hi Hv]; subst. apply IH in Hv. destruct Hv as [L Hk].
    split; [simpl; lia|]. intros [|k] Hlt; simpl in *; auto. apply Hk; lia.
  - destruct H as [L Hk]. destruct v as [|i v]; [discriminate|].
    constructor.
    + apply (Hk 0); simpl; lia.
    + apply IH; split; [simpl in L; lia|]. intros k Hlt; apply (Hk (S k)); simpl; lia.
Qed.

Lemma inb_app : forall s1 s2 v1 v2, inb s1 v1 -> inb s2 v2 -> inb (s1 ++ s2) (v1 ++ v2).
Proof. intros; apply Forall2_app; auto. Qed.
Lemma inb_app_inv : forall s1 s2 v, inb (s1 ++ s2) v -> exists v1 v2, v = v1 ++ v2 /\ inb s1 v1 /\ inb s2 v2.
Proof.
  intros s1 s2 v H; apply Forall2_app_inv_r in H. destruct H as (v1 & v2 & H1 & H2 & ->). eauto.
Qed.
Lemma inb_split : forall s1 s2 v, inb (s1 ++ s2) v ->
    inb s1 (firstn (length s1) v) /\ inb s2 (skipn (length s1) v).
Proof.
  intros s1 s2 v H; apply inb_app_inv in H; destruct H as (v1 & v2 & -> & H1 & H2).
  rewrite <- (inb_length _ _ H1), firstn_app, skipn_app, Nat.sub_diag, firstn_all, skipn_all; simpl.
  rewrite app_nil_r; auto.
Qed.
Lemma inb_app_len : forall s1 s2 v1 v2, length v1 = length s1 -> inb (s1 ++ s2) (v1 ++ v2) -> inb s1 v1 /\ inb s2 v2.
Proof.
  intros s1 s2 v1 v2 L H. apply inb_split in H.
  rewrite <- L, firstn_app, skipn_app, Nat.sub_diag, firstn_all, skipn_all in H; simpl in H.
  rewrite app_nil_r in H; auto.
Qed.

Lemma prod_app : forall s t, prod (s ++ t) = prod s * prod t.
Proof. induction s; simpl; intros; [lia | rewrite IHs; lia]. Qed.
Lemma prod_repeat : forall d n, prod (repeat d n) = d ^ n.
Proof. induction n; simpl; auto. Qed.

Lemma indices_In : forall s v, In v (indices s) <-> inb s v.
Proof.
  induction s as [|d s IH]; simpl; intros v; split; intro H.
  - destruct H as [<-|[]]; constructor.
  - inversion H; auto.
  - apply in_flat_map in H. destruct H as [i [Hi Hv]]. apply in_seq in Hi.
    apply in_map_iff in Hv. destruct Hv as [v' [<- Hv]]. constructor; [lia | apply IH; auto].
  - inversion H as [|i ? v' ? Hi Hv]; subst. apply in_flat_map. exists i. split; [apply in_seq; lia|].
    apply in_map, IH; auto.
Qed.
Lemma indices_length : forall s, length (indices s) = prod s.
Proof.
  induction s as [|d s IH]; auto. simpl.
  assert (H : forall k l, length (flat_map (fun i => map (cons i) (indices s)) (seq k l)) = l * prod s).
  { intros k l; revert k; induction l; simpl; intros; auto. rewrite app_length, map_length, IH, IHl; auto. }
  apply H.
Qed.
Lemma flat_map_map_seq : forall s d k,
    map (fun v => match v with i :: v' => i * prod s + ravel s v' | [] => 0 end)
        (flat_map (fun i => map (cons i) (indices s)) (seq k d))
    = flat_map (fun i => map (fun x => i * prod s + x) (map (ravel s) (indices s))) (seq k d).
Proof.
  intros s d; induction d; simpl; intros; auto.
  rewrite map_app, IHd, !map_map. reflexivity.
Qed.
Lemma flat_map_blocks : forall m d k, flat_map (fun i => map (fun x => i * m + x) (seq 0 m)) (seq k d) = seq (k * m) (d * m).
Proof.
  intros m d; induction d; simpl; intros; auto.
  rewrite IHd. rewrite seq_app. f_equal.
  - symmetry; apply seq_shift_add.
  - f_equal; lia.
Qed.
(** row-major enumeration *)
Lemma ravel_indices : forall s, map (ravel s) (indices s) = seq 0 (prod s).
Proof.
  induction s as [|d s IH]; auto. simpl.
  transitivity (map (fun v => match v with i :: v' => i * prod s + ravel s v' | [] => 0 end)
        (flat_map (fun i => map (cons i) (indices s)) (seq 0 d))).
  { apply map_ext; intros [|i v]; reflexivity. }
  rewrite flat_map_map_seq, IH. rewrite flat_map_blocks; reflexivity.
Qed.
Lemma indices_NoDup : forall s, NoDup (indices s).
Proof. intro s; apply (NoDup_map_inv (ravel s)); rewrite ravel_indices; apply seq_NoDup. Qed.
Lemma ravel_lt : forall s v, inb s v -> ravel s v < prod s.
Proof.
  intros s v H; apply indices_In in H. apply (in_map (ravel s)) in H. rewrite ravel_indices in H.
  apply in_seq in H; lia.
Qed.
Lemma ravel_app : forall s1 s2 v1 v2, length v1 = length s1 ->
    ravel (s1 ++ s2) (v1 ++ v2) = ravel s1 v1 * prod s2 + ravel s2 v2.
Proof.
  induction s1 as [|d s IH]; destruct v1 as [|i v]; simpl; intros v2 L; try discriminate; auto.
  rewrite IH by lia. rewrite prod_app. nia.
Qed.
Lemma nth_indices_ravel : forall s v, inb s v -> nth (ravel s v) (indices s) [] = v.
Proof.
  intros s v H. apply indices_In in H. destruct (In_nth _ _ [] H) as [k [Hk E]].
  assert (k = ravel s v).
  { rewrite <- E at 1. rewrite <- (map_nth (ravel s)). rewrite ravel_indices.
    rewrite indices_length in Hk. rewrite nth_indep with (d' := 0) by (rewrite seq_length; auto).
    rewrite seq_nth; auto. }
  subst k; exact E.
Qed.
Lemma ravel_inj : forall s v w, inb s v -> inb s w -> ravel s v = ravel s w -> v = w.
Proof.
  intros s v w Hv Hw E. rewrite <- (nth_indices_ravel s v Hv), <- (nth_indices_ravel s w Hw), E. reflexivity.
Qed.
(** multi-index of a position *)
Lemma unravel_inb : forall s k, k < prod s -> inb s (unravel s k).
Proof. intros; apply indices_In; apply nth_In; rewrite indices_length; auto. Qed.
Lemma ravel_unravel : forall s k, k < prod s -> ravel s (unravel s k) = k.
Proof.
  intros s k H. unfold unravel. rewrite <- (map_nth (ravel s)), ravel_indices.
  rewrite nth_indep with (d' := 0) by (rewrite seq_length; auto). apply seq_nth; auto.
Qed.
Lemma unravel_ravel : forall s v, inb s v -> unravel s (ravel s v) = v.
Proof. intros; apply nth_indices_ravel; auto. Qed.
Lemma indices_unravel : forall s, indices s = map (unravel s) (seq 0 (prod s)).
Proof.
  intro s. apply nth_ext with (d := []) (d' := unravel s 0).
  - rewrite map_length, seq_length; apply indices_length.
  - intros k Hk. rewrite map_nth. rewrite indices_length in Hk. rewrite seq_nth; auto.
Qed.

Lemma get_build : forall s f v, inb s v -> get (build s f) v = f v.
Proof.
  intros s f v H; unfold get, build; simpl.
  rewrite nth_indep with (d' := f []) by (rewrite map_length, indices_length; apply ravel_lt; auto).
  rewrite map_nth, nth_indices_ravel; auto.
Qed.
Lemma wf_build : forall s f, wf (build s f).
Proof. intros; unfold wf, build; simpl; rewrite map_length; apply indices_length. Qed.
Lemma shape_build : forall s f, shape (build s f) = s.
Proof. reflexivity. Qed.

Lemma arr_eta : forall a, wf a -> a = build (shape a) (get a).
Proof.
  intros [s d] H; unfold wf in H; simpl in *. unfold build; simpl. f_equal.
  apply nth_ext with (d := C0) (d' := C0).
  - rewrite map_length, indices_length; auto.
  - intros k Hk. rewrite nth_indep with (l := map _ _) (d' := get (mkArr s d) []) by (rewrite map_length, indices_length; lia).
    rewrite map_nth. fold (unravel s k). unfold get; simpl. rewrite ravel_unravel; auto; lia.
Qed.
Lemma arr_ext : forall a b, wf a -> wf b -> shape a = shape b ->
    (forall v, inb (shape a) v -> get a v = get b v) -> a = b.
Proof.
  intros a b Ha Hb E H. rewrite (arr_eta a Ha), (arr_eta b Hb), <- E.
  unfold build; f_equal. apply map_ext_in. intros v Hv; apply H, indices_In, Hv.
Qed.
Lemma build_ext : forall s f g, (forall v, inb s v -> f v = g v) -> build s f = build s g.
Proof. intros; unfold build; f_equal; apply map_ext_in; intros v Hv; apply H, indices_In, Hv. Qed.

Lemma get_map_arr : forall f a v, wf a -> inb (shape a) v -> get (map_arr f a) v = f (get a v).
Proof.
  intros f a v W H; unfold get, map_arr; simpl.
  rewrite nth_indep with (d' := f C0) by (rewrite map_length, W; apply ravel_lt; auto).
  apply map_nth.
Qed.
Lemma wf_map_arr : forall f a, wf a -> wf (map_arr f a).
Proof. intros f a H; unfold wf, map_arr; simpl; rewrite map_length; exact H. Qed.

Lemma zip_arr_ok : forall f a b, shape a = shape b -> exists r, zip_arr f a b = Ok r.
Proof.
  intros f a b E; unfold zip_arr. rewrite E. destruct (list_eqb (shape b) (shape b)) eqn:H; eauto.
  assert (shape b = shape b) by auto. apply list_eqb_eq in H0; congruence.
Qed.
Lemma list_eqb_refl : forall l, list_eqb l l = true.
Proof. intro; apply list_eqb_eq; reflexivity. Qed.
Lemma zip_arr_eq : forall f a b, wf a -> wf b -> shape a = shape b ->
    zip_arr f a b = Ok (build (shape a) (fun v => f (get a v) (get b v))).
Proof.
  intros f a b Wa Wb E; unfold zip_arr. rewrite <- E, list_eqb_refl. do 2 f_equal.
  unfold build; f_equal. apply nth_ext with (d := C0) (d' := C0).
  { rewrite !map_length, combine_length, indices_length, Wa, Wb, E; lia. }
  intros k Hk. rewrite map_length, combine_length, Wa, Wb, <- E in Hk.
  rewrite nth_map_lt with (d' := (C0, C0)) by (rewrite combine_length, Wa, Wb, <- E; lia).
  rewrite combine_nth by (rewrite Wa, Wb, E; auto). simpl.
  rewrite nth_map_lt with (d' := []) by (rewrite indices_length; lia).
  fold (unravel (shape a) k). unfold get. rewrite <- E, ravel_unravel by lia. reflexivity.
Qed.

Lemma reshape_eq : forall a s, prod s = prod (shape a) -> reshape a s = Ok (mkArr s (data a)).
Proof. intros a s H; unfold reshape; rewrite H, Nat.eqb_refl; reflexivity. Qed.
Lemma get_reshape : forall a s v, get (mkArr s (data a)) v = nth (ravel s v) (data a) C0.
Proof. reflexivity. Qed.

(** transposition *)
Lemma inb_place : forall s p v, is_perm (length s) p -> inb (restrict s p) v -> inb s (place p v).
Proof.
  intros s p v H Hv. apply inb_nth in Hv. destruct Hv as [L Hv]. rewrite restrict_length in *.
  pose proof (is_perm_length _ _ H) as Lp.
  apply inb_nth. rewrite place_length. split; auto.
  intros k Hk. rewrite nth_place by lia.
  assert (Hin : In k p) by (apply (is_perm_In (length s) p); auto).
  pose proof (index_of_lt _ _ Hin) as Hlt. specialize (Hv _ Hlt).
  rewrite nth_restrict, nth_index_of in Hv; auto.
Qed.
Lemma inb_restrict : forall s p v, (forall x, In x p -> x < length s) -> inb s v -> inb (restrict s p) (restrict v p).
Proof.
  intros s p v H Hv. apply inb_nth in Hv. destruct Hv as [L Hv].
  apply inb_nth. rewrite !restrict_length. split; auto.
  intros k Hk. rewrite !nth_restrict by auto. apply Hv, H, nth_In; auto.
Qed.
Lemma transpose_eq : forall a p, is_perm (ndim a) p ->
    transpose a p = Ok (build (restrict (shape a) p) (fun v => get a (place p v))).
Proof. intros a p H; unfold transpose. apply permb_is_perm in H. rewrite H; reflexivity. Qed.
Lemma restrict_repeat : forall d n p, (forall x, In x p -> x < n) -> restrict (repeat d n) p = repeat d (length p).
Proof.
  intros d n p H. apply list_ext; rewrite restrict_length, ?repeat_length; auto.
  intros k Hk. rewrite nth_restrict by auto.
  assert (Hn : forall m j, j < m -> nth j (repeat d m) 0 = d).
  { intros m j Hj. rewrite nth_indep with (d' := d) by (rewrite repeat_length; auto). apply nth_repeat. }
  rewrite !Hn; auto. apply H, nth_In; auto.
Qed.
