(** * Facts about [moveaxis], [tensordot] and [argsort]. *)
From Coq Require Import List Arith Bool Lia Permutation Sorted.
From Verif Require Import Cplx Py PyFacts Ndarray NdFacts.
Import ListNotations.

Lemma filter_map : forall {A B} (f : B -> bool) (g : A -> B) l,
    filter f (map g l) = map g (filter (fun x => f (g x)) l).
Proof. induction l as [|x l IH]; simpl; auto. destruct (f (g x)); simpl; rewrite IH; auto. Qed.

Lemma list_insert_perm : forall {A} i (x : A) l, Permutation (list_insert i x l) (x :: l).
Proof.
  intros A i x l; unfold list_insert.
  apply Permutation_sym, Permutation_cons_app. rewrite firstn_skipn; apply Permutation_refl.
Qed.
Lemma list_insert_length : forall {A} i (x : A) l, length (list_insert i x l) = S (length l).
Proof. intros; rewrite (Permutation_length (list_insert_perm i x l)); reflexivity. Qed.
Lemma nth_list_insert_eq : forall i x l, i <= length l -> nth i (list_insert i x l) 0 = x.
Proof.
  intros i x l H; unfold list_insert. rewrite app_nth2; rewrite firstn_length_le; auto.
  rewrite Nat.sub_diag; reflexivity.
Qed.
Lemma nth_list_insert_lt : forall i x l k, i <= length l -> k < i -> nth k (list_insert i x l) 0 = nth k l 0.
Proof.
  intros i x l k H Hk; unfold list_insert. rewrite app_nth1 by (rewrite firstn_length_le; auto).
  rewrite <- (firstn_skipn i l) at 2. rewrite app_nth1; auto. rewrite firstn_length_le; auto.
Qed.
Lemma filter_list_insert : forall (f : nat -> bool) i x l, f x = false -> filter f (list_insert i x l) = filter f l.
Proof.
  intros f i x l H; unfold list_insert. rewrite filter_app; simpl; rewrite H, <- filter_app, firstn_skipn; auto.
Qed.

Definition ins_all (l : list nat) (P : list (nat * nat)) : list nat :=
  fold_left (fun order ds => list_insert (fst ds) (snd ds) order) P l.

Fixpoint ok_dests (L : nat) (P : list (nat * nat)) : Prop :=
  match P with [] => True | (d, _) :: P' => d <= L /\ ok_dests (S L) P' end.

Lemma ins_all_spec : forall P l,
    StronglySorted lt (map fst P) -> ok_dests (length l) P ->
    length (ins_all l P) = length l + length P
    /\ (forall d s, In (d, s) P -> nth d (ins_all l P) 0 = s)
    /\ (forall k, Forall (fun ds => k < fst ds) P -> nth k (ins_all l P) 0 = nth k l 0)
    /\ (forall f, Forall (fun ds => f (snd ds) = false) P -> filter f (ins_all l P) = filter f l)
    /\ Permutation (ins_all l P) (map snd P ++ l).
Proof.
  induction P as [|[d s] P IH]; simpl; intros l HS Hok.
  - repeat split; auto; intros; contradiction.
  - destruct Hok as [Hd Hok]. inversion HS as [|? ? HS' HF]; subst.
    destruct (IH (list_insert d s l) HS') as (I1 & I2 & I3 & I4 & I5).
    { rewrite list_insert_length; exact Hok. }
    rewrite Forall_forall in HF.
    repeat split.
    + rewrite I1, list_insert_length; lia.
    + intros d' s' [E|Hin].
      * injection E as <- <-. rewrite I3; [apply nth_list_insert_eq; auto|].
        apply Forall_forall. intros [d2 s2] H2; simpl. apply HF. apply (in_map fst) in H2; exact H2.
      * apply I2; auto.
    + intros k Hk. inversion Hk; subst; simpl in *. rewrite I3; auto.
      apply nth_list_insert_lt; auto.
    + intros f Hf. inversion Hf; subst; simpl in *. rewrite I4; auto. apply filter_list_insert; auto.
    + eapply perm_trans; [exact I5|]. simpl.
      eapply perm_trans; [apply Permutation_app_head, list_insert_perm|].
      apply Permutation_sym, Permutation_middle.
Qed.

Lemma ok_dests_of_bound : forall n P L, StronglySorted lt (map fst P) ->
    (forall d, In d (map fst P) -> d < n) -> length P + L = n -> ok_dests L P.
Proof.
  intros n; induction P as [|[d s] P IH]; simpl; intros L HS HB HL; auto.
  inversion HS as [|? ? HS' HF]; subst. split; [|apply IH; auto; lia].
  assert (Hlen : length (map fst P) <= length (seq (S d) (S (length P + L) - 1 - d))).
  { apply NoDup_incl_length.
    - clear - HS'. induction HS' as [|a l H IH HF]; constructor; auto.
      intro Hin; rewrite Forall_forall in HF; apply HF in Hin; lia.
    - intros x Hx. rewrite Forall_forall in HF. pose proof (HF x Hx). pose proof (HB x (or_intror Hx)).
      apply in_seq; lia. }
  rewrite map_length, seq_length in Hlen. pose proof (HB d (or_introl eq_refl)). lia.
Qed.

Lemma pair_leb_total : forall a b, pair_leb a b = true \/ pair_leb b a = true.
Proof.
  intros [a1 a2] [b1 b2]; unfold pair_leb; simpl.
  destruct (Nat.ltb_spec a1 b1), (Nat.ltb_spec b1 a1); auto.
  destruct (Nat.leb_spec a2 b2); auto. right; apply Nat.leb_le; lia.
Qed.
Lemma pair_leb_trans : forall a b c, pair_leb a b = true -> pair_leb b c = true -> pair_leb a c = true.
Proof.
  intros [a1 a2] [b1 b2] [c1 c2]; unfold pair_leb; simpl.
  destruct (Nat.ltb_spec a1 b1), (Nat.ltb_spec b1 a1), (Nat.ltb_spec b1 c1), (Nat.ltb_spec c1 b1),
    (Nat.ltb_spec a1 c1), (Nat.ltb_spec c1 a1); auto; try lia; try discriminate.
  intros H5 H6; apply Nat.leb_le in H5, H6; apply Nat.leb_le; lia.
Qed.

Lemma map_fst_combine : forall {A B} (a : list A) (b : list B), length a = length b -> map fst (combine a b) = a.
Proof. induction a; destruct b; simpl; intros; try discriminate; auto. rewrite IHa; auto. Qed.
Lemma map_snd_combine : forall {A B} (a : list A) (b : list B), length a = length b -> map snd (combine a b) = b.
Proof. induction a; destruct b; simpl; intros; try discriminate; auto. rewrite IHa; auto. Qed.

Lemma sorted_pairs_strict : forall dst src, length dst = length src -> NoDup dst ->
    StronglySorted lt (map fst (sort_by pair_leb (combine dst src))).
Proof.
  intros dst src L ND.
  assert (HS : StronglySorted (fun a b => pair_leb a b = true) (sort_by pair_leb (combine dst src))).
  { apply sort_by_sorted; [apply pair_leb_total | apply pair_leb_trans]. }
  assert (HN : NoDup (map fst (sort_by pair_leb (combine dst src)))).
  { eapply Permutation_NoDup; [apply Permutation_map, Permutation_sym, sort_by_perm|].
    rewrite map_fst_combine; auto. }
  induction HS as [|a l HS IH HF]; simpl in *; constructor.
  - inversion HN; auto.
  - inversion HN as [|? ? Hn _]; subst. apply Forall_forall. intros x Hx.
    apply in_map_iff in Hx. destruct Hx as [[x1 x2] [<- Hx]]. simpl.
    rewrite Forall_forall in HF. pose proof (HF _ Hx) as Hle. unfold pair_leb in Hle; simpl in Hle.
    destruct (Nat.ltb_spec (fst a) x1); auto.
    destruct (Nat.ltb_spec x1 (fst a)); [discriminate|].
    exfalso; apply Hn. assert (E : fst a = x1) by lia. rewrite E. apply (in_map fst) in Hx; exact Hx.
Qed.

(** the permutation of [moveaxis]: position [dst[k]] holds [src[k]], the other positions hold the
    other axes in increasing order *)
Lemma moveaxis_order_eq : forall n src dst,
    length src = length dst -> NoDup src -> NoDup dst ->
    (forall x, In x src -> x < n) -> (forall x, In x dst -> x < n) ->
    moveaxis_order n src dst = place (dst ++ free_axes n dst) (src ++ free_axes n src).
Proof.
  intros n src dst L Ns Nd Bs Bd.
  unfold moveaxis_order. fold (ins_all (free_axes n src) (sort_by pair_leb (combine dst src))).
  set (P := sort_by pair_leb (combine dst src)). set (l0 := free_axes n src).
  assert (HPp : Permutation P (combine dst src)) by apply sort_by_perm.
  assert (HPlen : length P = length src).
  { rewrite (Permutation_length HPp), combine_length; lia. }
  assert (Hfree : length src + length l0 = n) by (apply free_axes_length; auto).
  assert (HS : StronglySorted lt (map fst P)) by (apply sorted_pairs_strict; auto).
  assert (Hok : ok_dests (length l0) P).
  { apply ok_dests_of_bound with (n := n); auto; [|lia].
    intros d Hd. apply Bd. rewrite <- (map_fst_combine dst src) by auto.
    eapply Permutation_in; [apply Permutation_map, HPp | exact Hd]. }
  destruct (ins_all_spec P l0 HS Hok) as (I1 & I2 & _ & I4 & I5).
  set (l := ins_all l0 P) in *.
  assert (Llen : length l = n) by lia.
  assert (Hperm : is_perm n (dst ++ free_axes n dst)) by (apply is_perm_free; auto).
  assert (Hlp : Permutation l (src ++ l0)).
  { eapply perm_trans; [exact I5|]. apply Permutation_app_tail.
    eapply perm_trans; [apply Permutation_map, HPp|]. rewrite map_snd_combine; auto. }
  assert (HlN : NoDup l).
  { eapply Permutation_NoDup; [apply Permutation_sym, Hlp|].
    eapply is_perm_NoDup. apply is_perm_free; eauto. }
  assert (Hval : forall k, k < length dst -> nth (nth k dst 0) l 0 = nth k src 0).
  { intros k Hk. apply I2. eapply Permutation_in; [apply Permutation_sym, HPp|].
    rewrite <- combine_nth by auto. apply nth_In. rewrite combine_length; lia. }
  rewrite <- (place_restrict n (dst ++ free_axes n dst) l) by auto. f_equal.
  rewrite restrict_app. f_equal.
  - apply list_ext; rewrite restrict_length; auto. intros k Hk. rewrite nth_restrict by auto. auto.
  - set (f := fun i => negb (mem i src)).
    assert (E1 : filter f l = l0).
    { rewrite I4.
      - apply filter_all. intros x Hx; unfold f. apply free_axes_In in Hx. apply negb_true_iff, mem_false; tauto.
      - apply Forall_forall. intros [d s] Hds; unfold f; simpl. apply negb_false_iff, mem_In.
        rewrite <- (map_snd_combine dst src) by auto. apply (in_map snd) in Hds.
        eapply Permutation_in; [apply Permutation_map, HPp | exact Hds]. }
    transitivity (filter f (restrict l (seq 0 (length l)))); [|rewrite restrict_seq; exact E1].
    unfold free_axes, restrict. rewrite filter_map, Llen. f_equal.
    apply filter_ext_in. intros k Hk. apply in_seq in Hk. unfold f. f_equal.
    apply eq_true_iff_eq. rewrite !mem_In. split; intro H.
    + destruct (In_nth _ _ 0 H) as [j [Hj <-]]. rewrite Hval by auto. apply nth_In; lia.
    + destruct (In_nth _ _ 0 H) as [j [Hj E]]. rewrite <- Hval in E by lia.
      assert (nth j dst 0 = k).
      { eapply (NoDup_nth l 0); eauto; [|lia]. rewrite Llen. apply Bd, nth_In; lia. }
      subst k. apply nth_In; lia.
Qed.

Lemma moveaxis_order_prefix : forall n m dst, length dst = m -> NoDup dst -> (forall x, In x dst -> x < n) ->
    moveaxis_order n (seq 0 m) dst = inv_perm (dst ++ free_axes n dst).
Proof.
  intros n m dst L ND B.
  pose proof (free_axes_length n dst ND B) as F.
  rewrite moveaxis_order_eq; auto using seq_NoDup.
  - unfold inv_perm. f_equal. rewrite app_length, F.
    replace n with (m + (n - m)) at 1 by lia. rewrite free_axes_prefix, <- seq_app. f_equal; lia.
  - rewrite seq_length; auto.
  - intros x Hx; apply in_seq in Hx; lia.
Qed.

(** ** argsort *)
Lemma argsort_spec : forall s, length (argsort s) = length s /\ is_perm (length s) (argsort s)
    /\ restrict s (argsort s) = sorted s.
Proof.
  intro s. unfold argsort. set (P := combine s (seq 0 (length s))).
  set (Q := sort_by _ P).
  assert (HQ : Permutation Q P) by apply sort_by_perm.
  assert (Ls : length s = length (seq 0 (length s))) by (rewrite seq_length; auto).
  assert (HP2 : is_perm (length s) (map snd Q)).
  { unfold is_perm. eapply perm_trans; [apply Permutation_map, HQ|]. unfold P. rewrite map_snd_combine; auto. }
  repeat split; auto.
  - apply is_perm_length; auto.
  - assert (E : restrict s (map snd Q) = map fst Q).
    { unfold restrict. rewrite map_map. apply map_ext_in. intros [a i] Hin; simpl.
      eapply Permutation_in in Hin; [|exact HQ].
      destruct (In_nth _ _ (0,0) Hin) as [k [Hk Ek]].
      unfold P in Ek, Hk. rewrite combine_nth in Ek by auto. injection Ek as E1 E2.
      rewrite combine_length in Hk. rewrite seq_nth in E2 by lia. simpl in E2; subst; auto. }
    rewrite E. apply sorted_unique; auto using sorted_sorted.
    + assert (HS : StronglySorted (fun a b => Nat.leb (fst a) (fst b) = true) Q).
      { apply sort_by_sorted.
        - intros a b; destruct (Nat.leb_spec (fst a) (fst b)); auto. right; apply Nat.leb_le; lia.
        - intros a b c H1 H2; apply Nat.leb_le in H1, H2; apply Nat.leb_le; lia. }
      clear - HS. induction HS as [|a l HS IH HF]; simpl; constructor; auto.
      apply Forall_forall. intros x Hx. apply in_map_iff in Hx. destruct Hx as [y [<- Hy]].
      rewrite Forall_forall in HF. apply Nat.leb_le, HF, Hy.
    + eapply perm_trans; [apply Permutation_map, HQ|]. unfold P. rewrite map_fst_combine by auto.
      apply Permutation_sym, sorted_perm.
Qed.
Lemma argsort_is_perm : forall s, is_perm (length s) (argsort s).
Proof. intro s; apply argsort_spec. Qed.
Lemma argsort_perm : forall n p, is_perm n p -> argsort p = inv_perm p.
Proof.
  intros n p H. destruct (argsort_spec p) as (L & HP & E).
  rewrite (sorted_perm_seq n) in E by auto.
  pose proof (is_perm_length _ _ H) as Lp. rewrite Lp in *.
  assert (Ep : p = inv_perm (argsort p)).
  { apply (inv_perm_unique n); auto. intros k Hk.
    rewrite <- nth_restrict by lia. rewrite E, seq_nth; auto. }
  rewrite Ep at 2. symmetry; apply (inv_perm_invol n); auto.
Qed.
Lemma argsort_argsort : forall n p, is_perm n p -> argsort (argsort p) = p.
Proof.
  intros n p H. rewrite (argsort_perm n p H). rewrite (argsort_perm n) by (apply is_perm_inv; auto).
  apply (inv_perm_invol n); auto.
Qed.
