(** * Probabilities and sampling (C35-C39) *)
From Coq Require Import String List Arith Bool Reals ZArith Lia Lra Permutation.
From Verif Require Import Cplx Py PyFacts Ndarray NdFacts NdPerm OperatorUtils ApplyOperator Sparse Matrices Noise Gates Apply
  Composite Conversion Shots Gpsr Api Spec SpecFacts ApplyFacts DmFacts GateSpec PropSpec SampleSpec.
Import ListNotations.
Local Open Scope nat_scope.

Lemma data_state : forall n a, is_state n a -> data a = map (amp a) (bitstrings n).
Proof.
  intros n a [S W]. pose proof (arr_eta a W) as E. rewrite E at 1. rewrite bitstrings_indices, <- S. reflexivity.
Qed.
Lemma Cabs_sq : forall z, Cabs (Cmul z z) = Cnorm2 z.
Proof.
  intros [x y]; unfold Cabs, Cnorm2, Cmul; cbn [re im].
  replace ((x * x - y * y) * (x * x - y * y) + (x * y + y * x) * (x * y + y * x))%R with ((x * x + y * y) * (x * x + y * y))%R by ring.
  apply sqrt_square. nra.
Qed.
Lemma rsum_map' : forall {A B} (f : A -> B) l g, rsum (map f l) g = rsum l (fun x => g (f x)).
Proof. intros A B f l g; induction l as [|x l IH]; simpl; [reflexivity|rewrite IH; reflexivity]. Qed.

Lemma c35_born : forall n a, is_state n a ->
    probabilities_array a = born_probabilities n a /\ length (probabilities_array a) = 2 ^ n /\
    Forall (fun p => 0 <= p)%R (probabilities_array a) /\
    rsum (probabilities_array a) (fun p => p) = norm2 n (amp a) /\
    forall k, k < 2 ^ n -> binval (nth k (bitstrings n) []) = k.
Proof.
  intros n a H.
  assert (E : probabilities_array a = born_probabilities n a).
  { unfold probabilities_array, born_probabilities. rewrite (data_state n a H), map_map. apply map_ext; intro x; apply Cabs_sq. }
  rewrite E; clear E. split; [reflexivity|]. unfold born_probabilities. split; [rewrite map_length; apply bitstrings_count|]. split; [|split].
  - apply Forall_map, Forall_forall; intros x _. destruct (amp a x); unfold Cnorm2; simpl; nra.
  - rewrite rsum_map'. reflexivity.
  - intros k Hk. pose proof (binval_bitstrings n) as B.
    assert (X : nth k (map binval (bitstrings n)) 0 = k) by (rewrite B, seq_nth; lia).
    rewrite <- X at 2. symmetry. rewrite (nth_indep _ 0 (binval [])); [apply map_nth|]. rewrite map_length, bitstrings_count; exact Hk.
Qed.

(** the diagonal of a square matrix in the library's layout after reshaping *)
Lemma square_entry : forall n a x y, is_density n a -> In x (bitstrings n) -> In y (bitstrings n) ->
    get (mkArr [2 ^ n; 2 ^ n] (data a)) [binval x; binval y] = rho_entry a x y.
Proof.
  intros n a x y [S W] Hx Hy. unfold get at 1, rho_entry, get; cbn [shape data]. f_equal. rewrite S.
  rewrite <- binval_ravel by (rewrite app_length, (bitstrings_length _ _ Hx), (bitstrings_length _ _ Hy); lia).
  rewrite binval_app, (bitstrings_length _ _ Hy). unfold ravel; simpl. lia.
Qed.
Lemma c36_square : forall n rho m, is_density n rho -> reshape rho [2 ^ n; 2 ^ n] = Ok m ->
    probabilities_dm m = Ok ([2 ^ n], diagonal n rho).
Proof.
  intros n rho m D E. assert (R : reshape rho [2 ^ n; 2 ^ n] = Ok (mkArr [2 ^ n; 2 ^ n] (data rho))).
  { apply reshape_eq. destruct D as [S W]. rewrite S, prod_repeat. simpl. rewrite Nat.mul_1_r, <- Nat.pow_add_r. f_equal; lia. }
  rewrite E in R. injection R as ->. unfold probabilities_dm; cbn [shape length app]. rewrite Nat.min_id.
  do 2 f_equal. unfold diagonal.
  replace (indices [2 ^ n]) with (map (fun x => [binval x]) (bitstrings n)).
  - rewrite map_map. apply map_ext_in; intros x Hx. cbn [nth firstn]. rewrite (square_entry n) by assumption. reflexivity.
  - rewrite <- (map_map binval (fun k => [k])), binval_bitstrings. cbn [indices].
    generalize (seq 0 (2 ^ n)) as l. induction l as [|k l IH]; simpl; [reflexivity|]. rewrite IH; reflexivity.
Qed.
Lemma c36_one_qubit : forall rho, is_density 1 rho -> probabilities_dm rho = Ok ([2], diagonal 1 rho).
Proof.
  intros rho D. apply (c36_square 1 rho rho D). destruct D as [S W]. rewrite reshape_eq by (rewrite S; reflexivity).
  destruct rho as [s d]; simpl in *; subst s; reflexivity.
Qed.
(** for two or more qubits the result is not a vector of [2^n] numbers *)
Lemma c36_refuted : forall n rho, 2 <= n -> is_density n rho ->
    exists s l, probabilities_dm rho = Ok (s, l) /\ length s = 2 * n - 1 /\ s <> [2 ^ n] /\ length l = 2 ^ (2 * n - 1) /\ length l <> 2 ^ n.
Proof.
  intros n rho Hn [S W]. destruct n as [|[|n]]; [lia|lia|]. unfold probabilities_dm.
  assert (Q : shape rho = 2 :: 2 :: repeat 2 (2 * n + 2)).
  { rewrite S. replace (2 * Datatypes.S (Datatypes.S n)) with (Datatypes.S (Datatypes.S (2 * n + 2))) by lia. reflexivity. }
  rewrite Q. cbn [Nat.min]. do 2 eexists; split; [reflexivity|]. rewrite map_length, indices_length, app_length, repeat_length, prod_app, prod_repeat; simpl length; simpl prod.
  split; [lia|]. split.
  - intro E. apply (f_equal (@length nat)) in E. rewrite app_length, repeat_length in E; simpl in E; lia.
  - assert (E1 : 2 ^ (2 * n + 2) * (2 * 1) = 2 ^ (2 * Datatypes.S (Datatypes.S n) - 1)).
    { replace (2 * Datatypes.S (Datatypes.S n) - 1) with (Datatypes.S (2 * n + 2)) by lia. rewrite (Nat.pow_succ_r' 2 (2 * n + 2)). lia. }
    change (2 * 1) with 2 in E1 |- *. rewrite E1. split; [reflexivity|]. intro E. apply Nat.pow_inj_r in E; lia.
Qed.

(** ** binary formatting *)
Lemma bin_digits_spec : forall f k, k <= f -> Forall (fun d => d < 2) (bin_digits f k) /\ binval (bin_digits f k) = k /\
    (forall n, k < 2 ^ n -> length (bin_digits f k) <= n).
Proof.
  induction f as [|f IH]; intros k Hk; cbn [bin_digits].
  - split; [constructor|split; [unfold binval; simpl; lia|simpl; intros; lia]].
  - destruct (Nat.eqb k 0) eqn:E.
    + apply Nat.eqb_eq in E; subst k. split; [constructor|split; [reflexivity|simpl; intros; lia]].
    + apply Nat.eqb_neq in E. assert (Q : k / 2 <= f) by (assert (k / 2 < k) by (apply Nat.div_lt; lia); lia).
      destruct (IH _ Q) as (A & B & D). split; [|split].
      * apply Forall_app; split; [exact A|]. constructor; [apply Nat.mod_upper_bound; lia|constructor].
      * rewrite binval_app, B. unfold binval; cbn [length fold_left Nat.pow]. rewrite (Nat.div_mod_eq k 2) at 3. lia.
      * intros n Hn. rewrite app_length; cbn [length]. destruct n as [|n]; [simpl in Hn; lia|].
        assert (k / 2 < 2 ^ n) by (apply Nat.div_lt_upper_bound; [lia|]; rewrite Nat.pow_succ_r' in Hn; exact Hn). specialize (D n H). lia.
Qed.
Lemma binval_zeros : forall m x, binval (repeat 0 m ++ x) = binval x.
Proof. intros m x. rewrite binval_app. replace (binval (repeat 0 m)) with 0; [lia|]. induction m; simpl; [reflexivity|]. rewrite binval_cons, <- IHm; lia. Qed.
Lemma format_bin_spec : forall n k, 1 <= n -> k < 2 ^ n -> In (format_bin n k) (bitstrings n) /\ binval (format_bin n k) = k.
Proof.
  intros n k Hn Hk. unfold format_bin. cbv zeta. set (d := if Nat.eqb k 0 then [0] else bin_digits k k).
  assert (P : Forall (fun b => b < 2) d /\ binval d = k /\ length d <= n).
  { unfold d; destruct (Nat.eqb k 0) eqn:E.
    - apply Nat.eqb_eq in E; subst k. split; [constructor; [lia|constructor]|split; [reflexivity|exact Hn]].
    - destruct (bin_digits_spec k k (le_n _)) as (A & B & D). split; [exact A|split; [exact B|apply D; exact Hk]]. }
  destruct P as (A & B & D). split; [|rewrite binval_zeros; exact B].
  apply bitstrings_In. rewrite app_length, repeat_length. split; [lia|]. intros j Hj.
  assert (F : Forall (fun b => b < 2) (repeat 0 (n - length d) ++ d)).
  { apply Forall_app; split; [|exact A]. apply Forall_forall; intros x Hx. apply repeat_spec in Hx. lia. }
  rewrite Forall_forall in F. apply F. apply nth_In. rewrite app_length, repeat_length; lia.
Qed.

Lemma combine_seq_map : forall {A} (f : nat -> A) l, combine l (map f l) = map (fun k => (k, f k)) l.
Proof. intros A f l; induction l; simpl; [reflexivity|]. rewrite IHl; reflexivity. Qed.
Lemma filter_map_comm : forall {A B} (f : A -> B) p l, filter p (map f l) = map f (filter (fun x => p (f x)) l).
Proof. intros A B f p l; induction l as [|x l IH]; simpl; [reflexivity|]. destruct (p (f x)); simpl; rewrite IH; reflexivity. Qed.
Lemma filter_seq_extend : forall p a b, a <= b -> (forall k, a <= k < b -> p k = false) -> filter p (seq 0 a) = filter p (seq 0 b).
Proof.
  intros p a b L H. replace b with (a + (b - a)) by lia. rewrite seq_app, filter_app. cbn [Nat.add].
  assert (Z : filter p (seq a (b - a)) = []).
  { assert (Q : forall l, (forall k, In k l -> p k = false) -> filter p l = []).
    { induction l as [|x l IH]; intro K; simpl; [reflexivity|]. rewrite K by (left; reflexivity). apply IH; intros; apply K; right; assumption. }
    apply Q; intros k Hk. apply in_seq in Hk. apply H; lia. }
  rewrite Z, app_nil_r; reflexivity.
Qed.
Lemma filter_seq_any : forall p a b, (forall k, a <= k -> p k = false) -> (forall k, b <= k -> p k = false) -> filter p (seq 0 a) = filter p (seq 0 b).
Proof.
  intros p a b Ha Hb. destruct (le_lt_dec a b).
  - apply filter_seq_extend; [lia|]. intros; apply Ha; lia.
  - symmetry; apply filter_seq_extend; [lia|]. intros; apply Hb; lia.
Qed.
Lemma count_big : forall l k, S (list_max l) <= k -> count_occ Nat.eq_dec l k = 0.
Proof.
  intros l k H. apply count_occ_not_In. intro I. assert (list_max l <= list_max l) as Q by lia. apply list_max_le in Q. rewrite Forall_forall in Q. specialize (Q k I). lia.
Qed.
Lemma histogram_at : forall w probs n k, 1 <= n -> length probs = 2 ^ n -> Forall (fun i => i < length probs) (choice w 0 probs k) ->
    sample_from_probs w [length probs] probs n k = Ok (histogram n (choice w 0 probs k)).
Proof.
  intros w probs n k Hn L FC. unfold sample_from_probs. rewrite L, list_eqb_refl. f_equal.
  set (draws := choice w 0 probs k) in *. rewrite L in FC.
  unfold bincount. rewrite map_length, seq_length, combine_seq_map, filter_map_comm, map_map. cbn [fst snd].
  rewrite (filter_seq_any _ (S (list_max draws)) (2 ^ n)).
  - unfold histogram. rewrite <- binval_bitstrings, filter_map_comm, map_map. apply map_ext_in. intros x Hx. apply filter_In in Hx. destruct Hx as [Hx _].
    f_equal. destruct (format_bin_spec n (binval x) Hn (binval_lt _ _ Hx)) as [A B]. apply (binval_inj n); auto.
  - intros j Hj. rewrite count_big by exact Hj. reflexivity.
  - intros j Hj. rewrite (proj1 (count_occ_not_In Nat.eq_dec draws j)); [reflexivity|]. intro I. rewrite Forall_forall in FC. specialize (FC j I). lia.
Qed.
Lemma histogram_ok : forall w probs n k, 1 <= n -> length probs = 2 ^ n -> choice_contract w ->
    sample_from_probs w [length probs] probs n k = Ok (histogram n (choice w 0 probs k)).
Proof.
  intros w probs n k Hn L CC. apply histogram_at; [exact Hn|exact L|]. apply CC.
  intro Z; rewrite Z in L; simpl in L; pose proof (Nat.pow_nonzero 2 n); lia.
Qed.

Lemma sum_counts : forall l m, Forall (fun i => i < m) l -> fold_right Nat.add 0 (map (count_occ Nat.eq_dec l) (seq 0 m)) = length l.
Proof.
  induction l as [|x l IH]; intros m F.
  - simpl. induction (seq 0 m); simpl; auto.
  - inversion F as [|? ? Hx F']; subst. cbn [length]. rewrite <- (IH m F'). clear IH F F'.
    assert (Q : forall s k, (x < s -> fold_right Nat.add 0 (map (count_occ Nat.eq_dec (x :: l)) (seq s k)) = fold_right Nat.add 0 (map (count_occ Nat.eq_dec l) (seq s k)))
              /\ (s <= x < s + k -> fold_right Nat.add 0 (map (count_occ Nat.eq_dec (x :: l)) (seq s k)) = S (fold_right Nat.add 0 (map (count_occ Nat.eq_dec l) (seq s k))))).
    { intros s k; revert s; induction k as [|k IHk]; intro s; [split; simpl; intros; [reflexivity|lia]|]. cbn [seq map fold_right]. destruct (IHk (S s)) as [I1 I2]. split; intro H.
      - rewrite I1 by lia. rewrite count_occ_cons_neq by lia. reflexivity.
      - destruct (Nat.eq_dec x s) as [->|N].
        + rewrite count_occ_cons_eq by reflexivity. rewrite I1 by lia. reflexivity.
        + rewrite count_occ_cons_neq by lia. rewrite I2 by lia. lia. }
    apply Q. lia.
Qed.
Lemma sum_filter_pos : forall {A} (f : A -> nat) l, fold_right Nat.add 0 (map f (filter (fun x => Nat.ltb 0 (f x)) l)) = fold_right Nat.add 0 (map f l).
Proof. intros A f l; induction l as [|x l IH]; simpl; [reflexivity|]. destruct (Nat.ltb 0 (f x)) eqn:E; simpl; rewrite IH; [reflexivity|]. apply Nat.ltb_ge in E. lia. Qed.
Lemma histogram_spec : forall n draws, Forall (fun i => i < 2 ^ n) draws ->
    NoDup (map fst (histogram n draws)) /\
    (forall x c, In (x, c) (histogram n draws) -> In x (bitstrings n) /\ 0 < c /\ c = occurrences draws x) /\
    (forall x, In x (bitstrings n) -> 0 < occurrences draws x -> In (x, occurrences draws x) (histogram n draws)) /\
    fold_right Nat.add 0 (map snd (histogram n draws)) = length draws.
Proof.
  intros n draws F. unfold histogram. split; [|split; [|split]].
  - rewrite map_map; cbn [fst]. rewrite map_id. apply NoDup_filter, bitstrings_NoDup.
  - intros x c H. apply in_map_iff in H. destruct H as (y & E & H). injection E as -> <-. apply filter_In in H. destruct H as [H1 H2]. apply Nat.ltb_lt in H2. auto.
  - intros x Hx Ho. apply in_map_iff. exists x; split; [reflexivity|]. apply filter_In; split; [exact Hx|apply Nat.ltb_lt; exact Ho].
  - rewrite map_map; cbn [snd]. rewrite sum_filter_pos. unfold occurrences.
    rewrite <- (map_map binval (count_occ Nat.eq_dec draws)), binval_bitstrings. apply sum_counts; exact F.
Qed.

Lemma c37_rejects : forall w st circuit vals k, (k < 1)%Z -> sample w st circuit vals k = (Err ValueError, st).
Proof. intros w st circuit vals k H. unfold sample. apply Z.ltb_lt in H. rewrite H. reflexivity. Qed.

Lemma c38_dense_at : forall w n st circuit vals k a,
    Forall (fun i => i < 2 ^ n) (choice w 0 (born_probabilities n a) (Z.to_nat k)) -> 1 <= n -> (1 <= k)%Z -> run w circuit st vals = Ok (Some (SDense a)) -> is_state n a ->
    fst (sample w st circuit vals k) = Ok (histogram n (choice w 0 (born_probabilities n a) (Z.to_nat k))).
Proof.
  intros w n st circuit vals k a CC Hn Hk HR HS. unfold sample. replace (Z.ltb k 1) with false by (symmetry; apply Z.ltb_ge; lia).
  unfold run in HR; rewrite HR. cbn [num_qubits square_dm bind fst].
  assert (NQ : num_qubits_array a = n) by (unfold num_qubits_array, ndim; destruct HS as [S _]; rewrite S; apply repeat_length).
  rewrite NQ. destruct (c35_born n a HS) as (E & L & _). rewrite <- E in *.
  replace (List.length (data a)) with (length (probabilities_array a)) by (unfold probabilities_array; apply map_length).
  apply histogram_at; [exact Hn|exact L|rewrite L; exact CC].
Qed.
Lemma c38_density_at : forall w n st circuit vals k a,
    Forall (fun i => i < 2 ^ n) (choice w 0 (diagonal n a) (Z.to_nat k)) -> 1 <= n -> (1 <= k)%Z -> run w circuit st vals = Ok (Some (SDM a)) -> is_density n a ->
    fst (sample w st circuit vals k) = Ok (histogram n (choice w 0 (diagonal n a) (Z.to_nat k))).
Proof.
  intros w n st circuit vals k a CC Hn Hk HR HS. unfold sample. replace (Z.ltb k 1) with false by (symmetry; apply Z.ltb_ge; lia).
  unfold run in HR; rewrite HR. cbn [num_qubits].
  assert (NQ : num_qubits_dm a = n).
  { unfold num_qubits_dm, ndim; destruct HS as [S _]; rewrite S, repeat_length, Nat.mul_comm; apply Nat.div_mul; lia. }
  rewrite NQ. cbn [square_dm].
  assert (R : reshape a [2 ^ n; 2 ^ n] = Ok (mkArr [2 ^ n; 2 ^ n] (data a))).
  { apply reshape_eq. destruct HS as [S W]. rewrite S, prod_repeat. simpl. rewrite Nat.mul_1_r, <- Nat.pow_add_r. f_equal; lia. }
  rewrite R. cbn [bind]. cbn [fst]. rewrite (c36_square n a _ HS R). cbn [bind fst snd].
  assert (L : length (diagonal n a) = 2 ^ n) by (unfold diagonal; rewrite map_length; apply bitstrings_count).
  rewrite <- L at 1. apply histogram_at; [exact Hn|exact L|rewrite L; exact CC].
Qed.
Lemma c38_dense : forall w n st circuit vals k a,
    choice_contract w -> 1 <= n -> (1 <= k)%Z -> run w circuit st vals = Ok (Some (SDense a)) -> is_state n a ->
    fst (sample w st circuit vals k) = Ok (histogram n (choice w 0 (born_probabilities n a) (Z.to_nat k))).
Proof.
  intros w n st circuit vals k a CC Hn Hk HR HS. apply c38_dense_at; try assumption.
  assert (L : length (born_probabilities n a) = 2 ^ n) by (unfold born_probabilities; rewrite map_length; apply bitstrings_count).
  rewrite <- L. apply CC. intro Z; rewrite Z in L; simpl in L; pose proof (Nat.pow_nonzero 2 n); lia.
Qed.
Lemma c38_density : forall w n st circuit vals k a,
    choice_contract w -> 1 <= n -> (1 <= k)%Z -> run w circuit st vals = Ok (Some (SDM a)) -> is_density n a ->
    fst (sample w st circuit vals k) = Ok (histogram n (choice w 0 (diagonal n a) (Z.to_nat k))).
Proof.
  intros w n st circuit vals k a CC Hn Hk HR HS. apply c38_density_at; try assumption.
  assert (L : length (diagonal n a) = 2 ^ n) by (unfold diagonal; rewrite map_length; apply bitstrings_count).
  rewrite <- L. apply CC. intro Z; rewrite Z in L; simpl in L; pose proof (Nat.pow_nonzero 2 n); lia.
Qed.
Lemma c37_histogram : forall w n st circuit vals k out,
    choice_contract w -> 1 <= n -> (1 <= k)%Z -> run w circuit st vals = Ok (Some out) -> state_of n out ->
    exists counts draws, fst (sample w st circuit vals k) = Ok counts /\
      Z.of_nat (length draws) = k /\ Forall (fun i => i < 2 ^ n) draws /\
      NoDup (map fst counts) /\
      (forall x c, In (x, c) counts -> In x (bitstrings n) /\ 0 < c /\ c = occurrences draws x) /\
      (forall x, In x (bitstrings n) -> 0 < occurrences draws x -> In (x, occurrences draws x) counts) /\
      Z.of_nat (fold_right Nat.add 0 (map snd counts)) = k.
Proof.
  intros w n st circuit vals k out CC Hn Hk HR HS.
  assert (Q : exists p, length p = 2 ^ n /\ fst (sample w st circuit vals k) = Ok (histogram n (choice w 0 p (Z.to_nat k)))).
  { destruct out as [a|b|a]; [| contradiction |].
    - exists (born_probabilities n a); split; [unfold born_probabilities; rewrite map_length; apply bitstrings_count|apply c38_dense; assumption].
    - exists (diagonal n a); split; [unfold diagonal; rewrite map_length; apply bitstrings_count|apply c38_density; assumption]. }
  destruct Q as (p & L & E).
  destruct (CC 0 p (Z.to_nat k)) as [LC FC]; [intro Z0; rewrite Z0 in L; simpl in L; pose proof (Nat.pow_nonzero 2 n); lia|].
  rewrite L in FC. destruct (histogram_spec n _ FC) as (H1 & H2 & H3 & H4).
  exists (histogram n (choice w 0 p (Z.to_nat k))), (choice w 0 p (Z.to_nat k)). rewrite H4, LC.
  split; [exact E|split; [lia|split; [exact FC|split; [exact H1|split; [exact H2|split; [exact H3|lia]]]]]].
Qed.

(** ** the caller's state *)
Fixpoint oper_ind' (P : oper -> Prop) (Hg : forall g, P (OGate g)) (Hs : forall l, Forall P l -> P (OSeq l))
  (Hc : forall l p, Forall P l -> P (OScale l p)) (Ha : forall l, Forall P l -> P (OAdd l)) (Ho : forall l, Forall P l -> P (OObs l))
  (Hq : forall n l fp, Forall P l -> P (OQC n l fp)) (o : oper) : P o :=
  let go := (fix go (l : list oper) : Forall P l :=
    match l with [] => Forall_nil P | x :: l' => Forall_cons x (oper_ind' P Hg Hs Hc Ha Ho Hq x) (go l') end) in
  match o with
  | OGate g => Hg g
  | OSeq l => Hs l (go l)
  | OScale l p => Hc l p (go l)
  | OAdd l => Ha l (go l)
  | OObs l => Ho l (go l)
  | OQC n l fp => Hq n l fp (go l)
  end.
Lemma has_gate_fresh : forall o, has_gate o -> returns_input o = false.
Proof.
  induction o as [g|l IH|l p IH|l IH|l IH|n l fp IH] using oper_ind'; intro H; try reflexivity.
  - cbn [returns_input]. inversion H as [|? E| | | |]; subst. clear H. induction E as [x l Hx|x l E IHE]; inversion IH; subst; simpl.
    + rewrite H1 by exact Hx; reflexivity.
    + rewrite IHE by assumption. apply andb_false_r.
  - cbn [returns_input]. inversion H as [| | |? E| |]; subst. destruct l as [|x [|y l]]; try reflexivity. inversion IH; subst. inversion E as [? ? Hx|? ? Hx]; subst; [auto|inversion Hx].
  - cbn [returns_input]. inversion H as [| | | | |? ? ? E]; subst. clear H. induction E as [x l Hx|x l E IHE]; inversion IH; subst; simpl.
    + rewrite H1 by exact Hx; reflexivity.
    + rewrite IHE by assumption. apply andb_false_r.
Qed.
Lemma returns_input_same : forall w vals o s r, returns_input o = true -> call w vals o s = Ok r -> r = s.
Proof.
  intros w vals; induction o as [g|l IH|l p IH|l IH|l IH|n l fp IH] using oper_ind'; intros s r H E; try discriminate.
  - cbn [returns_input call] in *. revert s E; induction IH as [|x l Hx F IHl]; intros s E; cbn [foldM] in E; [congruence|].
    cbn [forallb] in H. apply andb_true_iff in H. destruct H as [H1 H2]. destruct (call w vals x s) as [s'|] eqn:Q; [|discriminate]. cbn [bind] in E.
    apply Hx in Q; [|exact H1]. subst s'. apply IHl; assumption.
  - cbn [returns_input call] in *. destruct l as [|x [|y l]]; try discriminate. inversion IH; subst. cbn in E. apply (H2 s r); [exact H|].
    destruct (call w vals x s); cbn in E; congruence.
  - cbn [returns_input call] in *. revert s E; induction IH as [|x l Hx F IHl]; intros s E; cbn [foldM] in E; [congruence|].
    cbn [forallb] in H. apply andb_true_iff in H. destruct H as [H1 H2]. destruct (call w vals x s) as [s'|] eqn:Q; [|discriminate]. cbn [bind] in E.
    apply Hx in Q; [|exact H1]. subst s'. apply IHl; assumption.
Qed.
Lemma c39_unchanged : forall w st circuit vals k,
    (forall a, st <> SDM a) \/ has_gate circuit -> snd (sample w st circuit vals k) = st.
Proof.
  intros w st circuit vals k H. unfold sample. destruct (Z.ltb k 1); [reflexivity|]. destruct (call w vals circuit (Some st)) as [[out|]|e] eqn:E; try reflexivity.
  destruct (num_qubits out) as [n|]; [|reflexivity]. destruct (square_dm out n) as [out'|] eqn:Q; [|reflexivity].
  cbn [snd]. destruct (returns_input circuit) eqn:RI; [|reflexivity].
  destruct H as [H|H]; [|apply has_gate_fresh in H; congruence].
  apply returns_input_same in E; [|exact RI]. injection E as ->. destruct st as [a|b|a]; cbn in Q; congruence.
Qed.
Lemma c39_refuted : forall w n rho vals k, 2 <= n -> is_density n rho -> (1 <= k)%Z ->
    exists rho', snd (sample w (SDM rho) (OSeq []) vals k) = SDM rho' /\ shape rho' = [2 ^ n; 2 ^ n] /\ shape rho' <> shape rho.
Proof.
  intros w n rho vals k Hn HS Hk. unfold sample. replace (Z.ltb k 1) with false by (symmetry; apply Z.ltb_ge; lia). cbn [call foldM num_qubits].
  assert (NQ : num_qubits_dm rho = n).
  { unfold num_qubits_dm, ndim; destruct HS as [S _]; rewrite S, repeat_length, Nat.mul_comm; apply Nat.div_mul; lia. }
  rewrite NQ. cbn [square_dm].
  assert (R : reshape rho [2 ^ n; 2 ^ n] = Ok (mkArr [2 ^ n; 2 ^ n] (data rho))).
  { apply reshape_eq. destruct HS as [S W]. rewrite S, prod_repeat. simpl. rewrite Nat.mul_1_r, <- Nat.pow_add_r. f_equal; lia. }
  rewrite R. cbn [bind snd returns_input forallb]. eexists; split; [reflexivity|]. split; [reflexivity|].
  destruct HS as [S _]. rewrite S. cbn [shape]. intro E. apply (f_equal (@length nat)) in E. rewrite repeat_length in E. simpl in E. lia.
Qed.
