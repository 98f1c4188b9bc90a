(** * Matrices of gates ([tensor], [controlled], [expand_operator]) *)
From Coq Require Import String List Arith Bool Reals Lia Lra Permutation Sorted.
From Verif Require Import Cplx Py PyFacts Ndarray NdFacts NdPerm OperatorUtils ApplyOperator
  Spec SpecFacts ApplyFacts DmFacts ExpandFacts Sparse Matrices Noise Gates Apply Composite
  GateSpec PropSpec GateFacts CircuitFacts AlgebraFacts.
Import ListNotations.
Local Open Scope nat_scope.

(** ** bitstrings with ones at marked positions *)
Fixpoint ones_at (p : list bool) : list (list nat) :=
  match p with
  | [] => [[]]
  | true :: p' => map (cons 1) (ones_at p')
  | false :: p' => map (cons 0) (ones_at p') ++ map (cons 1) (ones_at p')
  end.
Fixpoint sel (p : list bool) (x : list nat) : list nat :=
  match p, x with
  | true :: p', _ :: x' => sel p' x'
  | false :: p', b :: x' => b :: sel p' x'
  | _, _ => []
  end.
Fixpoint marked (p : list bool) (x : list nat) : bool :=
  match p, x with
  | b :: p', v :: x' => (negb b || Nat.eqb 1 v) && marked p' x'
  | _, _ => true
  end.
Fixpoint unmarked_count (p : list bool) : nat :=
  match p with [] => 0 | true :: p' => unmarked_count p' | false :: p' => S (unmarked_count p') end.

Lemma filter_none : forall {A} (f : A -> bool) l, (forall x, In x l -> f x = false) -> filter f l = [].
Proof.
  induction l as [|x l IH]; intro H; simpl; [reflexivity|].
  rewrite (H x (or_introl eq_refl)); apply IH; intros; apply H; right; assumption.
Qed.
Lemma filter_ext_in' : forall {A} (f g : A -> bool) l, (forall x, In x l -> f x = g x) -> filter f l = filter g l.
Proof.
  induction l as [|x l IH]; intro H; simpl; [reflexivity|].
  rewrite (H x (or_introl eq_refl)), IH; [reflexivity|]; intros; apply H; right; assumption.
Qed.

Lemma filter_marked : forall p, filter (marked p) (bitstrings (length p)) = ones_at p.
Proof.
  induction p as [|b p IH]; [reflexivity|].
  cbn [length bitstrings]; rewrite filter_app, !filter_map.
  destruct b; cbn [marked negb orb Nat.eqb andb ones_at].
  - rewrite filter_none by reflexivity; simpl. f_equal; exact IH.
  - f_equal; f_equal; exact IH.
Qed.
Lemma ones_at_length : forall p, length (ones_at p) = 2 ^ unmarked_count p.
Proof.
  induction p as [|[|] p IH]; simpl; [reflexivity|rewrite map_length; exact IH|].
  rewrite app_length, !map_length, IH; lia.
Qed.
Lemma sel_length : forall p x, length x = length p -> length (sel p x) = unmarked_count p.
Proof.
  induction p as [|[|] p IH]; intros [|b x] H; simpl in *; try lia; rewrite IH by lia; reflexivity.
Qed.
Lemma sel_bits : forall p x, In x (bitstrings (length p)) -> In (sel p x) (bitstrings (unmarked_count p)).
Proof.
  induction p as [|[|] p IH]; intros x H; simpl in *; [left; reflexivity| |];
    apply in_app_or in H; destruct H as [H|H]; apply in_map_iff in H as (x' & <- & H); simpl.
  - apply IH; exact H.
  - apply IH; exact H.
  - apply in_or_app; left; apply in_map, IH; exact H.
  - apply in_or_app; right; apply in_map, IH; exact H.
Qed.
Lemma nth_map_cons : forall b (l : list (list nat)) k, k < length l -> nth k (map (cons b) l) [] = b :: nth k l [].
Proof. intros b l k H; rewrite (nth_indep _ [] (b :: [])) by (rewrite map_length; exact H); apply (map_nth (cons b)). Qed.

Lemma ones_at_rank : forall p x, In x (ones_at p) ->
    binval (sel p x) < length (ones_at p) /\ nth (binval (sel p x)) (ones_at p) [] = x.
Proof.
  induction p as [|[|] p IH]; intros x H; cbn [ones_at] in *.
  - destruct H as [<-|[]]; split; [apply Nat.lt_0_1|reflexivity].
  - apply in_map_iff in H as (x' & <- & H); destruct (IH x' H) as [H1 H2]; cbn [sel].
    rewrite map_length, nth_map_cons by exact H1; split; [exact H1|f_equal; exact H2].
  - assert (L : forall x', In x' (ones_at p) -> length x' = length p).
    { intros x' H'; rewrite <- filter_marked in H'; apply filter_In in H' as [H' _].
      apply (bitstrings_length _ _ H'). }
    rewrite app_length, !map_length.
    apply in_app_or in H; destruct H as [H|H]; apply in_map_iff in H as (x' & <- & H);
      destruct (IH x' H) as [H1 H2]; cbn [sel]; rewrite binval_cons, sel_length, <- ones_at_length by (apply L; exact H).
    + split; [lia|]. rewrite app_nth1 by (rewrite map_length; lia).
      rewrite nth_map_cons by lia. f_equal; exact H2.
    + split; [lia|]. rewrite app_nth2 by (rewrite map_length; lia).
      rewrite map_length. replace (1 * length (ones_at p) + binval (sel p x') - length (ones_at p)) with (binval (sel p x')) by lia.
      rewrite nth_map_cons by lia. f_equal; exact H2.
Qed.

(** ** control masks *)
Lemma testbit_binval : forall x, Forall (fun b => b < 2) x -> forall i,
    Nat.testbit (binval x) i = if i <? length x then Nat.eqb 1 (nth (length x - 1 - i) x 0) else false.
Proof.
  intros x; induction x as [|b x IH] using rev_ind; intros F i.
  - simpl. apply Nat.bits_0.
  - apply Forall_app in F as [F Fb]; inversion Fb as [|? ? Hb _]; subst.
    rewrite binval_app; cbn [length]; rewrite Nat.pow_1_r.
    replace (binval [b]) with b by (unfold binval; simpl; lia).
    rewrite app_length; cbn [length].
    destruct i as [|i].
    + replace (0 <? length x + 1) with true by (symmetry; apply Nat.ltb_lt; lia).
      rewrite app_nth2 by lia. replace (length x + 1 - 1 - 0 - length x) with 0 by lia.
      destruct b as [|[|b]]; [|  |lia]; rewrite Nat.mul_comm.
      * rewrite Nat.add_0_r, Nat.testbit_even_0; reflexivity.
      * rewrite Nat.testbit_odd_0; reflexivity.
    + assert (E : Nat.testbit (binval x * 2 + b) (S i) = Nat.testbit (binval x) i).
      { rewrite Nat.mul_comm. destruct b as [|[|b]]; [| |lia].
        - rewrite Nat.add_0_r; apply Nat.testbit_even_succ; lia.
        - apply Nat.testbit_odd_succ; lia. }
      rewrite E, IH by exact F.
      replace (S i <? length x + 1) with (i <? length x)
        by (destruct (i <? length x) eqn:E'; symmetry; [apply Nat.ltb_lt in E'; apply Nat.ltb_lt; lia
           |apply Nat.ltb_ge in E'; apply Nat.ltb_ge; lia]).
      destruct (i <? length x) eqn:E'; [|reflexivity]. apply Nat.ltb_lt in E'.
      rewrite app_nth1 by lia. do 2 f_equal; lia.
Qed.

Lemma land_mask : forall a b, Nat.land a b = b <-> (forall i, Nat.testbit b i = true -> Nat.testbit a i = true).
Proof.
  intros a b; split.
  - intros E i H; rewrite <- E, Nat.land_spec in H. apply andb_true_iff in H; tauto.
  - intro H; apply Nat.bits_inj; intro i; rewrite Nat.land_spec.
    destruct (Nat.testbit b i) eqn:E; [rewrite (H i E); reflexivity|apply andb_false_r].
Qed.

Definition bits_of (p : list bool) : list nat := map (fun b : bool => if b then 1 else 0) p.
Lemma bits_of_forall : forall p, Forall (fun b => b < 2) (bits_of p).
Proof. induction p as [|[|] p IH]; simpl; constructor; auto. Qed.

Lemma marked_spec : forall p x, length x = length p ->
    (marked p x = true <-> forall j, j < length p -> nth j p false = true -> nth j x 0 = 1).
Proof.
  induction p as [|b p IH]; intros [|v x] L; simpl in L; try discriminate.
  - simpl; split; [intros _ j H; inversion H|reflexivity].
  - cbn [marked length]; rewrite andb_true_iff, IH by lia; split.
    + intros [H1 H2] [|j] Hj E; cbn [nth] in *.
      * subst b; cbn [negb orb] in H1; apply Nat.eqb_eq in H1; congruence.
      * apply H2; [lia|exact E].
    + intro H; split.
      * destruct b; [|reflexivity]. cbn [negb orb]; apply Nat.eqb_eq; symmetry; apply (H 0); [lia|reflexivity].
      * intros j Hj E; apply (H (S j)); [lia|exact E].
Qed.

Lemma mask_marked : forall p x, In x (bitstrings (length p)) ->
    Nat.eqb (Nat.land (binval x) (binval (bits_of p))) (binval (bits_of p)) = marked p x.
Proof.
  intros p x Hx. pose proof (bitstrings_length _ _ Hx) as L.
  assert (F : Forall (fun b => b < 2) x).
  { apply Forall_forall; intros b Hb; apply In_nth with (d := 0) in Hb as (k & _ & <-); eapply bitstrings_nth_lt; exact Hx. }
  apply eq_true_iff_eq; rewrite Nat.eqb_eq, land_mask, (marked_spec p x L).
  assert (LB : length (bits_of p) = length p) by apply map_length.
  assert (NB : forall j, nth j (bits_of p) 0 = if nth j p false then 1 else 0).
  { intro j; unfold bits_of; apply (map_nth (fun b : bool => if b then 1 else 0) p false). }
  split; intro H.
  - intros j Hj E. specialize (H (length p - 1 - j)).
    rewrite !testbit_binval, LB, L in H by (apply bits_of_forall || exact F).
    replace (length p - 1 - j <? length p) with true in H by (symmetry; apply Nat.ltb_lt; lia).
    replace (length p - 1 - (length p - 1 - j)) with j in H by lia.
    rewrite NB, E in H. specialize (H eq_refl). apply Nat.eqb_eq in H; congruence.
  - intros i. rewrite !testbit_binval, LB, L by (apply bits_of_forall || exact F).
    destruct (i <? length p) eqn:E; [|discriminate]. apply Nat.ltb_lt in E.
    rewrite NB. destruct (nth (length p - 1 - i) p false) eqn:E'; [|discriminate].
    intros _. apply Nat.eqb_eq; symmetry; apply H; [lia|exact E'].
Qed.

Lemma mask_sum : forall (f : nat -> bool) m k,
    fold_right Nat.add 0 (map (fun c => Nat.shiftl 1 (k + m - c - 1)) (filter f (seq k m))) =
    binval (bits_of (map f (seq k m))).
Proof.
  induction m as [|m IH]; intros k; [reflexivity|].
  cbn [seq filter map bits_of]. rewrite binval_cons. fold (bits_of (map f (seq (S k) m))).
  unfold bits_of at 1; rewrite !map_length, seq_length.
  assert (E : fold_right Nat.add 0 (map (fun c => Nat.shiftl 1 (k + S m - c - 1)) (filter f (seq (S k) m))) =
              binval (bits_of (map f (seq (S k) m)))).
  { rewrite <- IH. replace (k + S m) with (S k + m) by lia. reflexivity. }
  destruct (f k).
  - cbn [map fold_right]. rewrite E, Nat.shiftl_1_l. replace (k + S m - k - 1) with m by lia. lia.
  - rewrite E; lia.
Qed.

(** ** positions selected by a test *)
Lemma sel_positions : forall (f : nat -> bool) x pre,
    map (fun i => nth i (pre ++ x) 0) (filter (fun i => negb (f i)) (seq (length pre) (length x))) =
    sel (map f (seq (length pre) (length x))) x.
Proof.
  induction x as [|v x IH]; intros pre; [reflexivity|].
  cbn [length seq filter map].
  assert (E : map (fun i => nth i (pre ++ v :: x) 0) (filter (fun i => negb (f i)) (seq (S (length pre)) (length x))) =
              sel (map f (seq (S (length pre)) (length x))) x).
  { specialize (IH (pre ++ [v])); rewrite app_length, <- app_assoc in IH; cbn [length] in IH.
    rewrite Nat.add_1_r in IH; exact IH. }
  destruct (f (length pre)); cbn [negb sel map]; [exact E|].
  rewrite E, app_nth2, Nat.sub_diag by lia; reflexivity.
Qed.
Lemma marked_positions : forall (f : nat -> bool) x pre,
    all_ones (map (fun i => nth i (pre ++ x) 0) (filter f (seq (length pre) (length x)))) =
    marked (map f (seq (length pre) (length x))) x.
Proof.
  induction x as [|v x IH]; intros pre; [reflexivity|].
  cbn [length seq filter map marked].
  assert (E : all_ones (map (fun i => nth i (pre ++ v :: x) 0) (filter f (seq (S (length pre)) (length x)))) =
              marked (map f (seq (S (length pre)) (length x))) x).
  { specialize (IH (pre ++ [v])); rewrite app_length, <- app_assoc in IH; cbn [length] in IH.
    rewrite Nat.add_1_r in IH; exact IH. }
  destruct (f (length pre)); cbn [negb orb]; [|exact E].
  cbn [map all_ones forallb]; unfold all_ones in E; rewrite E, app_nth2, Nat.sub_diag by lia; reflexivity.
Qed.

(** the positions (in increasing order) of the controls, and of the other qubits, in a sorted support *)
Definition ctl_pos (s cs : list nat) : list nat := filter (fun i => mem (nth i s 0) cs) (seq 0 (length s)).
Definition tgt_pos (s cs : list nat) : list nat := filter (fun i => negb (mem (nth i s 0) cs)) (seq 0 (length s)).
Definition marks (s cs : list nat) : list bool := map (fun i => mem (nth i s 0) cs) (seq 0 (length s)).

Lemma marks_length : forall s cs, length (marks s cs) = length s.
Proof. intros; unfold marks; rewrite map_length, seq_length; reflexivity. Qed.
Lemma bits_tgt : forall s cs x, length x = length s -> bits_at x (tgt_pos s cs) = sel (marks s cs) x.
Proof. intros s cs x L; unfold bits_at, tgt_pos, marks; rewrite <- L; apply (sel_positions _ x []). Qed.
Lemma bits_ctl : forall s cs x, length x = length s -> all_ones (bits_at x (ctl_pos s cs)) = marked (marks s cs) x.
Proof. intros s cs x L; unfold bits_at, ctl_pos, marks; rewrite <- L; apply (marked_positions _ x []). Qed.

Lemma unmarked_tgt : forall s cs, unmarked_count (marks s cs) = length (tgt_pos s cs).
Proof.
  intros s cs. set (x := repeat 0 (length s)).
  assert (L : length x = length s) by apply repeat_length.
  rewrite <- (bits_at_length x (tgt_pos s cs)), (bits_tgt s cs x L).
  symmetry; apply sel_length; rewrite marks_length; exact L.
Qed.
Lemma map_nth_filter : forall (f : nat -> bool) s pre,
    map (fun i => nth i (pre ++ s) 0) (filter (fun i => f (nth i (pre ++ s) 0)) (seq (length pre) (length s))) = filter f s.
Proof.
  induction s as [|q s IH]; intros pre; [reflexivity|].
  cbn [length seq filter map]. rewrite app_nth2, Nat.sub_diag by lia; cbn [nth].
  assert (E : map (fun i => nth i (pre ++ q :: s) 0)
                (filter (fun i => f (nth i (pre ++ q :: s) 0)) (seq (S (length pre)) (length s))) = filter f s).
  { specialize (IH (pre ++ [q])); rewrite app_length, <- app_assoc in IH; cbn [length] in IH.
    rewrite Nat.add_1_r in IH; exact IH. }
  destruct (f q); cbn [map]; rewrite ?E; [|reflexivity].
  rewrite app_nth2, Nat.sub_diag by lia; reflexivity.
Qed.
Lemma StronglySorted_filter : forall (f : nat -> bool) l, StronglySorted le l -> StronglySorted le (filter f l).
Proof.
  induction l as [|x l IH]; intro S; [constructor|].
  inversion S as [|? ? S' F]; subst; simpl; destruct (f x); [|apply IH; exact S'].
  constructor; [apply IH; exact S'|].
  apply Forall_forall; intros y Hy; apply filter_In in Hy as [Hy _]; rewrite Forall_forall in F; apply F; exact Hy.
Qed.
Lemma Permutation_filter : forall {A} (f : A -> bool) l l', Permutation l l' -> Permutation (filter f l) (filter f l').
Proof.
  induction 1 as [|x l l' P IH|x y l|l1 l2 l3 P1 IH1 P2 IH2]; simpl; auto.
  - destruct (f x); auto.
  - destruct (f x), (f y); auto; constructor.
  - eapply perm_trans; eassumption.
Qed.
Lemma filter_all : forall {A} (f : A -> bool) l, (forall x, In x l -> f x = true) -> filter f l = l.
Proof.
  induction l as [|x l IH]; intro H; simpl; [reflexivity|].
  rewrite (H x (or_introl eq_refl)), IH; [reflexivity|]; intros; apply H; right; assumption.
Qed.
Lemma tgt_pos_qubits : forall cs ts, NoDup (cs ++ ts) ->
    map (fun i => nth i (sorted (cs ++ ts)) 0) (tgt_pos (sorted (cs ++ ts)) cs) = sorted ts.
Proof.
  intros cs ts ND. unfold tgt_pos.
  assert (E := map_nth_filter (fun q => negb (mem q cs)) (sorted (cs ++ ts)) []); cbn [app length] in E; rewrite E; clear E.
  apply sorted_unique; [apply StronglySorted_filter, sorted_sorted|apply sorted_sorted|].
  eapply perm_trans; [apply Permutation_filter, sorted_perm|].
  rewrite filter_app, (filter_none _ cs), (filter_all _ ts).
  - simpl; apply Permutation_sym, sorted_perm.
  - intros x Hx; apply negb_true_iff, mem_false; intro Hc.
    apply in_split in Hc as (a & b & ->). rewrite <- app_assoc in ND; simpl in ND.
    apply NoDup_remove_2 in ND; apply ND; rewrite !in_app_iff; auto.
  - intros x Hx; apply negb_false_iff, mem_In; exact Hx.
Qed.
Lemma ctl_pos_qubits : forall cs ts, NoDup (cs ++ ts) ->
    Permutation (map (fun i => nth i (sorted (cs ++ ts)) 0) (ctl_pos (sorted (cs ++ ts)) cs)) cs.
Proof.
  intros cs ts ND. unfold ctl_pos.
  assert (E := map_nth_filter (fun q => mem q cs) (sorted (cs ++ ts)) []); cbn [app length] in E; rewrite E; clear E.
  eapply perm_trans; [apply Permutation_filter, sorted_perm|].
  rewrite filter_app, (filter_all _ cs), (filter_none _ ts).
  - rewrite app_nil_r; auto.
  - intros x Hx; apply mem_false; intro Hc.
    apply in_split in Hc as (a & b & ->). rewrite <- app_assoc in ND; simpl in ND.
    apply NoDup_remove_2 in ND; apply ND; rewrite !in_app_iff; auto.
  - intros x Hx; apply mem_In; exact Hx.
Qed.

Lemma NoDup_filter_seq : forall (f : nat -> bool) n, NoDup (filter f (seq 0 n)).
Proof. intros; apply NoDup_filter, seq_NoDup. Qed.
Lemma pos_lt : forall (f : nat -> bool) n i, In i (filter f (seq 0 n)) -> i < n.
Proof. intros f n i H; apply filter_In in H as [H _]; apply in_seq in H; lia. Qed.
Lemma tgt_pos_valid : forall s cs, valid_qubits (length s) (tgt_pos s cs).
Proof. intros; split; [apply NoDup_filter_seq|apply Forall_forall; intros i H; eapply pos_lt; exact H]. Qed.

Lemma NoDup_map_in : forall {A B} (f : A -> B) l, (forall a b, In a l -> In b l -> f a = f b -> a = b) ->
    NoDup l -> NoDup (map f l).
Proof.
  induction l as [|x l IH]; intros I ND; simpl; [constructor|].
  inversion ND as [|? ? N ND']; subst. constructor.
  - intro H; apply in_map_iff in H as (y & E & H); apply N.
    rewrite (I x y); [exact H|left; reflexivity|right; exact H|symmetry; exact E].
  - apply IH; [intros a b Ha Hb; apply I; right; assumption|exact ND'].
Qed.
Lemma index_rank : forall p x, In x (ones_at p) ->
    index_of (binval x) (map binval (ones_at p)) = binval (sel p x).
Proof.
  intros p x H. destruct (ones_at_rank p x H) as [H1 H2].
  assert (ND : NoDup (map binval (ones_at p))).
  { rewrite <- filter_marked. apply NoDup_map_in.
    - intros a b Ha Hb E; apply filter_In in Ha as [Ha _]; apply filter_In in Hb as [Hb _].
      apply (binval_inj (length p)); assumption.
    - apply NoDup_filter, bitstrings_NoDup. }
  rewrite <- H2 at 1.
  rewrite <- (map_nth binval). rewrite (nth_indep _ (binval []) 0) by (rewrite map_length; exact H1).
  apply index_of_nth; [exact ND|rewrite map_length; exact H1].
Qed.

Lemma controlled_indices_ones : forall s cs,
    filter (fun i => Nat.eqb (Nat.land i (fold_right Nat.add 0
       (map (fun c => Nat.shiftl 1 (length s - c - 1)) (ctl_pos s cs))))
       (fold_right Nat.add 0 (map (fun c => Nat.shiftl 1 (length s - c - 1)) (ctl_pos s cs)))) (seq 0 (2 ^ length s))
    = map binval (ones_at (marks s cs)).
Proof.
  intros s cs. unfold ctl_pos.
  assert (E := mask_sum (fun i => mem (nth i s 0) cs) (length s) 0); cbn [Nat.add] in E.
  change (fun c => Nat.shiftl 1 (0 + length s - c - 1)) with (fun c => Nat.shiftl 1 (length s - c - 1)) in E.
  rewrite E; clear E. fold (marks s cs).
  rewrite <- binval_bitstrings, filter_map, <- filter_marked, marks_length; f_equal.
  apply filter_ext_in'; intros x Hx; apply mask_marked; rewrite marks_length; exact Hx.
Qed.

Lemma ones_at_In : forall p x, In x (ones_at p) <-> In x (bitstrings (length p)) /\ marked p x = true.
Proof. intros; rewrite <- filter_marked, filter_In; reflexivity. Qed.
Lemma mem_ones : forall p x, In x (bitstrings (length p)) -> mem (binval x) (map binval (ones_at p)) = marked p x.
Proof.
  intros p x Hx; apply eq_true_iff_eq; rewrite mem_In, in_map_iff; split.
  - intros (y & E & Hy); apply ones_at_In in Hy as [Hy Hm].
    rewrite <- (binval_inj _ y x Hy Hx E); exact Hm.
  - intro Hm; exists x; split; [reflexivity|apply ones_at_In; auto].
Qed.

Lemma pos_cases : forall s cs k, k < length s -> In k (ctl_pos s cs) \/ In k (tgt_pos s cs).
Proof.
  intros s cs k Hk; unfold ctl_pos, tgt_pos; rewrite !filter_In, in_seq.
  destruct (mem (nth k s 0) cs); [left|right]; split; try reflexivity; lia.
Qed.
Lemma pos_disj : forall s cs k, In k (ctl_pos s cs) -> In k (tgt_pos s cs) -> False.
Proof.
  intros s cs k; unfold ctl_pos, tgt_pos; rewrite !filter_In; intros [_ H] [_ H'].
  rewrite H in H'; discriminate.
Qed.

Lemma controlled_spec : forall u ts l cs, is_matrix (length ts) u -> mapM qidx_nat l = Ok cs -> NoDup (cs ++ ts) ->
    let s := sorted (cs ++ ts) in
    exists r, controlled u ts (CTup l) = Ok r /\ is_matrix (length (cs ++ ts)) r /\
      keq (length (cs ++ ts)) (entry r) (ctrl_kernel (entry u) (ctl_pos s cs) (tgt_pos s cs)).
Proof.
  intros u ts l cs [Su Wu] El ND s.
  assert (Ls : length s = length cs + length ts) by (unfold s; rewrite sorted_length, app_length; reflexivity).
  assert (Lt : length (tgt_pos s cs) = length ts).
  { rewrite <- (map_length (fun i => nth i s 0)); unfold s; rewrite tgt_pos_qubits, sorted_length by exact ND; reflexivity. }
  assert (LI : length (map binval (ones_at (marks s cs))) = 2 ^ length ts).
  { rewrite map_length, ones_at_length, unmarked_tgt, Lt; reflexivity. }
  unfold controlled, prepare_controlled. rewrite El; cbn [bind]; rewrite Su; cbn [bind].
  rewrite log2_pow, Nat.eqb_refl; cbn [negb bind fst snd].
  fold s. fold (ctl_pos s cs). rewrite <- Ls, controlled_indices_ones.
  unfold set_ix; cbn [shape eye build]. rewrite LI, Su.
  assert (EQ : list_eqb [2 ^ length ts; 2 ^ length ts] [2 ^ length ts; 2 ^ length ts] = true).
  { apply list_eqb_eq; reflexivity. }
  rewrite EQ. rewrite app_length, <- Ls. eexists; split; [reflexivity|]. split.
  - split; [reflexivity|apply wf_build].
  - intros x y Hx Hy. pose proof (bitstrings_length _ _ Hx) as Lx; pose proof (bitstrings_length _ _ Hy) as Ly.
    unfold entry at 1. rewrite get_build by (apply inb_2; apply binval_lt; assumption).
    cbn [nth]. rewrite !mem_ones by (rewrite marks_length; assumption).
    rewrite (ctrl_kernel_closed (length s)) by (assumption || apply tgt_pos_valid).
    rewrite bits_ctl by exact Lx.
    change (get (eye (2 ^ length s)) [binval x; binval y]) with (entry (eye (2 ^ length s)) x y).
    rewrite eye_kid by assumption.
    destruct (marked (marks s cs) x) eqn:Mx; cbn [andb]; [|reflexivity].
    assert (AO : agree_off (tgt_pos s cs) x y <-> marked (marks s cs) y = true).
    { rewrite <- bits_ctl in Mx by exact Lx. rewrite <- (bits_ctl s cs y) by exact Ly. split; intro H.
      - rewrite <- (agree_off_bits_at _ (ctl_pos s cs) _ _ H); [exact Mx|].
        intros c Hc Ht; eapply pos_disj; eassumption.
      - intros k Hk. destruct (Nat.lt_ge_cases k (length s)) as [Hl|Hl];
          [|rewrite !nth_overflow by lia; reflexivity].
        destruct (pos_cases s cs k Hl) as [Hc|Ht]; [|contradiction].
        unfold all_ones, bits_at in Mx, H; rewrite forallb_forall in Mx, H.
        assert (Ex := Mx _ (in_map (fun i => nth i x 0) _ _ Hc)); assert (Ey := H _ (in_map (fun i => nth i y 0) _ _ Hc)).
        apply Nat.eqb_eq in Ex, Ey; congruence. }
    destruct (list_eq_dec Nat.eq_dec (overwrite x (tgt_pos s cs) (bits_at y (tgt_pos s cs))) y) as [E|E];
      rewrite (agree_off_overwrite (length s)), AO in E by (assumption || apply tgt_pos_valid).
    + rewrite E. unfold entry; rewrite !bits_tgt by assumption.
      rewrite !index_rank; [reflexivity| |]; apply ones_at_In; rewrite marks_length; auto.
    + destruct (marked (marks s cs) y) eqn:My; [contradiction E; reflexivity|].
      apply kid_ne; intros ->; congruence.
Qed.

(** ** operators on part of a register *)
Lemma bits_at_nth : forall x qs ps, (forall p, In p ps -> p < length qs) ->
    bits_at (bits_at x qs) ps = bits_at x (map (fun i => nth i qs 0) ps).
Proof.
  intros x qs ps H; unfold bits_at at 1 3; rewrite map_map; apply map_ext_in; intros p Hp.
  apply nth_bits_at, H, Hp.
Qed.
Lemma overwrite_nested : forall n x qs pt y, In x (bitstrings n) -> valid_qubits n qs -> valid_qubits (length qs) pt ->
    In y (bitstrings (length pt)) ->
    overwrite x qs (overwrite (bits_at x qs) pt y) = overwrite x (map (fun i => nth i qs 0) pt) y.
Proof.
  intros n x qs pt y Hx [NQ FQ] [NP FP] Hy. rewrite Forall_forall in FQ, FP.
  pose proof (bitstrings_length _ _ Hx) as Lx; pose proof (bitstrings_length _ _ Hy) as Ly.
  assert (LB : length (bits_at x qs) = length qs) by apply bits_at_length.
  apply nth_ext with (d := 0) (d' := 0); [rewrite !overwrite_length; reflexivity|].
  intros k Hk; rewrite overwrite_length in Hk.
  destruct (in_dec Nat.eq_dec k qs) as [Hq|Hq].
  - rewrite nth_overwrite_in by (try assumption; rewrite overwrite_length; exact LB).
    assert (Hi : index_of k qs < length qs) by (apply index_of_lt; exact Hq).
    destruct (in_dec Nat.eq_dec (index_of k qs) pt) as [Hp|Hp].
    + rewrite nth_overwrite_in by (try assumption; rewrite LB; exact Hi).
      assert (Hk' : In k (map (fun i => nth i qs 0) pt)).
      { apply in_map_iff; exists (index_of k qs); split; [apply nth_index_of; exact Hq|exact Hp]. }
      rewrite nth_overwrite_in by (try assumption; rewrite map_length; exact Ly).
      f_equal. clear - Hp Hq NQ FP.
      induction pt as [|p pt IH]; [reflexivity|]. cbn [map index_of].
      destruct (Nat.eqb_spec (index_of k qs) p) as [E|E].
      * subst p. rewrite nth_index_of by exact Hq. rewrite Nat.eqb_refl; reflexivity.
      * destruct (Nat.eqb_spec k (nth p qs 0)) as [E'|E'].
        -- exfalso; apply E. rewrite E'. apply index_of_nth; [exact NQ|apply FP; left; reflexivity].
        -- f_equal; apply IH; [intros; apply FP; right; assumption|destruct Hp; [congruence|assumption]].
    + rewrite nth_overwrite_notin by exact Hp. rewrite nth_bits_at by exact Hi. rewrite nth_index_of by exact Hq.
      rewrite nth_overwrite_notin; [reflexivity|].
      intro H; apply in_map_iff in H as (p & E & H); apply Hp; rewrite <- E.
      rewrite index_of_nth; [exact H|exact NQ|apply FP; exact H].
  - rewrite nth_overwrite_notin by exact Hq. rewrite nth_overwrite_notin; [reflexivity|].
    intro H; apply in_map_iff in H as (p & <- & H); apply Hq, nth_In, FP, H.
Qed.

Lemma ctrl_kernel_nested : forall n M pc pt qs, valid_qubits n qs -> valid_qubits (length qs) pt ->
    (forall p, In p pc -> p < length qs) ->
    keq n (ctrl_kernel (ctrl_kernel M pc pt) [] qs)
          (ctrl_kernel M (map (fun i => nth i qs 0) pc) (map (fun i => nth i qs 0) pt)).
Proof.
  intros n M pc pt qs VQ VP HC; apply keq_of_action; intros psi x Hx.
  rewrite !(ctrl_kernel_action n) by assumption. unfold ctrl_action at 1; cbn [all_ones bits_at map forallb].
  unfold gate_action.
  pose proof (bits_at_bits n x qs Hx) as HB.
  change (csum (bitstrings (length qs)) (fun y => Cmul (ctrl_kernel M pc pt (bits_at x qs) y) (psi (overwrite x qs y))))
    with (apply_kernel (length qs) (ctrl_kernel M pc pt) (fun y => psi (overwrite x qs y)) (bits_at x qs)).
  rewrite (ctrl_kernel_action (length qs)) by exact HB.
  unfold ctrl_action. rewrite bits_at_nth by exact HC.
  destruct (all_ones (bits_at x (map (fun i => nth i qs 0) pc))).
  - unfold gate_action. rewrite map_length. apply csum_ext; intros y Hy.
    rewrite (overwrite_nested n) by assumption. f_equal.
    rewrite bits_at_nth; [reflexivity|]. intros p Hp; eapply valid_lt; eassumption.
  - f_equal; apply overwrite_self; intros q Hq; rewrite (bitstrings_length _ _ Hx); eapply valid_lt; eassumption.
Qed.

(** ** the matrix of a gate *)
Lemma all_ones_perm : forall a b, Permutation a b -> all_ones a = all_ones b.
Proof.
  induction 1 as [|x l l' P IH|x y l|l1 l2 l3 P1 IH1 P2 IH2]; unfold all_ones in *; cbn [forallb]; congruence || auto.
  - rewrite !andb_assoc; f_equal; apply andb_comm.
Qed.
Lemma ctrl_kernel_controls_perm : forall M cs cs' ts x y, Permutation cs cs' ->
    ctrl_kernel M cs ts x y = ctrl_kernel M cs' ts x y.
Proof.
  intros M cs cs' ts x y P; unfold ctrl_kernel.
  rewrite (all_ones_perm (bits_at x cs) (bits_at x cs')) by (apply Permutation_map; exact P); reflexivity.
Qed.


Lemma controlled_cases : forall c cs, control_qubits c cs ->
    (is_controlled c = false /\ cs = []) \/ (is_controlled c = true /\ c = CTup (map QInt cs)).
Proof.
  intros c cs H; destruct H as [| |[|q cs]]; [left; auto|left; auto|left; auto|right; auto].
Qed.
Lemma mapM_QInt : forall cs, mapM qidx_nat (map QInt cs) = Ok cs.
Proof. induction cs as [|q cs IH]; [reflexivity|]. cbn [map mapM qidx_nat bind]; rewrite IH; reflexivity. Qed.

Lemma gate_support_spec : forall g cs, control_qubits (control g) cs -> NoDup (cs ++ target g) ->
    gate_support g = Ok (sorted (cs ++ target g)).
Proof.
  intros g cs H ND; unfold gate_support.
  destruct (controlled_cases _ _ H) as [[-> ->]|[E EC]].
  - cbn [app] in *; rewrite dedup_id by exact ND; reflexivity.
  - rewrite E, EC; unfold axes_of; rewrite mapM_QInt; cbn [bind].
    assert (P : Permutation (target g ++ cs) (cs ++ target g)) by apply Permutation_app_comm.
    rewrite dedup_id by (eapply Permutation_NoDup; [apply Permutation_sym; exact P|exact ND]).
    rewrite (sorted_perm_eq _ _ P); reflexivity.
Qed.

Lemma ctl_pos_lt : forall s cs i, In i (ctl_pos s cs) -> i < length s.
Proof. intros s cs i; apply pos_lt. Qed.

Lemma pos_valid : forall n fs qs, NoDup fs -> incl qs fs -> NoDup qs -> n = length fs ->
    valid_qubits n (map (fun q => index_of q (sorted fs)) qs).
Proof.
  intros n fs qs NF HI NQ ->; split.
  - apply NoDup_map_in; [|exact NQ]. intros a b Ha Hb E.
    rewrite <- (nth_index_of a (sorted fs)), <- (nth_index_of b (sorted fs)), E by (apply sorted_In, HI; assumption); reflexivity.
  - apply Forall_forall; intros k Hk; apply in_map_iff in Hk as (q & <- & Hq).
    rewrite <- (sorted_length fs); apply index_of_lt, sorted_In, HI, Hq.
Qed.

Lemma gate_tensor_spec : forall w g vals u cs fs,
    unitary_of w g vals = Ok (MD u) -> is_matrix (length (target g)) u -> control_qubits (control g) cs ->
    NoDup (cs ++ target g) -> NoDup fs -> incl (cs ++ target g) fs ->
    let pos := map (fun q => index_of q (sorted fs)) in
    exists r, gate_tensor w g vals (Some fs) = Ok r /\ is_matrix (length fs) r /\
      keq (length fs) (entry r) (ctrl_kernel (entry u) (pos cs) (pos (sorted (target g)))).
Proof.
  intros w g vals u cs fs EU MU HC ND NF HI pos.
  assert (NDs : NoDup (sorted (cs ++ target g))) by (apply sorted_NoDup; exact ND).
  assert (HIs : incl (sorted (cs ++ target g)) fs) by (intros q Hq; apply HI, sorted_In, Hq).
  assert (SS : sorted (sorted (cs ++ target g)) = sorted (cs ++ target g)) by (apply sorted_id, sorted_sorted).
  unfold gate_tensor; rewrite EU; cbn [bind]. rewrite (gate_support_spec g cs HC ND); cbn [bind].
  destruct (controlled_cases _ _ HC) as [[E ->]|[E EC]]; rewrite E; cbn [bind].
  - cbn [app] in *. destruct (expand_operator_spec (length (target g)) u (sorted (target g)) fs) as (r & Er & Mr & Kr);
      try assumption; [apply sorted_length|].
    exists r; repeat split; try assumption; try apply Mr. rewrite SS in Kr; exact Kr.
  - rewrite EC. destruct (controlled_spec u (target g) (map QInt cs) cs MU (mapM_QInt cs) ND) as (uc & -> & Mc & Kc).
    cbn [bind].
    destruct (expand_operator_spec (length (cs ++ target g)) uc (sorted (cs ++ target g)) fs) as (r & Er & Mr & Kr);
      try assumption; [apply sorted_length|].
    exists r; repeat split; try assumption; try apply Mr. rewrite SS in Kr.
    set (s := sorted (cs ++ target g)) in *.
    assert (Ls : length s = length (cs ++ target g)) by apply sorted_length.
    assert (VQ : valid_qubits (length fs) (pos s)) by (apply pos_valid; auto).
    assert (NP : forall i, i < length s -> nth i (pos s) 0 = index_of (nth i s 0) (sorted fs)).
    { intros i Hi; unfold pos. rewrite (nth_indep _ 0 (index_of 0 (sorted fs))) by (rewrite map_length; exact Hi).
      apply (map_nth (fun q => index_of q (sorted fs))). }
    assert (MP : forall ps, (forall i, In i ps -> i < length s) ->
               map (fun i => nth i (pos s) 0) ps = pos (map (fun i => nth i s 0) ps)).
    { intros ps H; unfold pos at 2; rewrite map_map; apply map_ext_in; intros i Hi; apply NP, H, Hi. }
    eapply keq_trans; [exact Kr|]. fold pos.
    eapply keq_trans; [apply ctrl_kernel_ext; unfold pos; rewrite map_length, Ls; exact Kc|].
    eapply keq_trans; [apply ctrl_kernel_nested|].
    + exact VQ.
    + unfold pos; rewrite map_length; apply tgt_pos_valid.
    + intros p Hp; unfold pos; rewrite map_length; eapply ctl_pos_lt; exact Hp.
    + rewrite !MP by (intros i Hi; eapply pos_lt; exact Hi).
      unfold s; rewrite tgt_pos_qubits by exact ND.
      intros x y Hx Hy; apply ctrl_kernel_controls_perm. unfold pos; apply Permutation_map, ctl_pos_qubits; exact ND.
Qed.
