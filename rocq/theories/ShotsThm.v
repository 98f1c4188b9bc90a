(** * Proofs about finite-shot estimates (C50, C51) *)
From Coq Require Import String List Arith Bool Reals Lia Lra ZArith Permutation.
From Verif Require Import Cplx Py PyFacts Ndarray NdFacts NdPerm OperatorUtils ApplyOperator Sparse Matrices Noise Gates Apply Composite
  Conversion Shots Gpsr Api Spec SpecFacts ApplyFacts DmFacts ExpandFacts GateSpec PropSpec NoiseSpec GateFacts CircuitFacts AlgebraFacts GroupFacts ApplyThm
  TensorFacts TensorThm NoiseThm NoiseThm2 SampleSpec SampleThm SeqThm SubThm ExpectSpec ExpectThm ExpectThm2 ShotsSpec.
Import ListNotations.
Local Open Scope nat_scope.

(** ** indexing by bitstrings *)
Lemma seq_bits : forall {A} n (f : nat -> A), map f (seq 0 (2 ^ n)) = map (fun x => f (binval x)) (bitstrings n).
Proof. intros A n f. rewrite <- binval_bitstrings, map_map. reflexivity. Qed.
Lemma csum_bits : forall n f, csum (seq 0 (2 ^ n)) f = csum (bitstrings n) (fun x => f (binval x)).
Proof. intros n f. rewrite <- binval_bitstrings, csum_map. reflexivity. Qed.
Lemma nth_bits : forall {A} n (f : list nat -> A) d x, In x (bitstrings n) -> nth (binval x) (map f (bitstrings n)) d = f x.
Proof.
  intros A n f d x Hx. apply (In_nth _ _ []) in Hx as (k & Hk & E).
  assert (B : binval x = k).
  { assert (Q : nth k (map binval (bitstrings n)) 0 = k).
    { rewrite binval_bitstrings. rewrite seq_nth; [reflexivity|]. rewrite bitstrings_count in Hk; exact Hk. }
    rewrite (nth_indep _ 0 (binval []))  in Q by (rewrite map_length; exact Hk). rewrite map_nth, E in Q. exact Q. }
  rewrite B, (nth_indep _ d (f [])) by (rewrite map_length; exact Hk). rewrite map_nth, E. reflexivity.
Qed.
Lemma list_bits : forall n (l : list R), length l = 2 ^ n -> l = map (fun x => nth (binval x) l 0%R) (bitstrings n).
Proof.
  intros n l L. rewrite <- (seq_bits n (fun k => nth k l 0%R)), <- L. clear. induction l as [|a l IH]; [reflexivity|].
  cbn [length seq map nth]. f_equal. rewrite <- seq_shift, map_map. exact IH.
Qed.

(** ** the eigenbasis *)
Lemma conj_transpose : forall k u, is_matrix k u -> exists d, transpose u [1; 0] = Ok d /\ is_matrix k (conj d) /\ keq k (entry (conj d)) (kadj (entry u)).
Proof.
  intros k u Mu. destruct (dagger_matrix k u Mu) as (d & E & Md & Kd). unfold dagger, ndim in E. destruct Mu as [S W]. rewrite S in E. cbn in E.
  destruct (transpose u [1; 0]) as [t|]; [|discriminate]. cbn in E. injection E as <-. exists t; auto.
Qed.
Lemma eigen_conj : forall n K ev V, eigenbasis n K ev V -> keq n (kmul n (kadj V) (kmul n K V)) (diag_op ev).
Proof.
  intros n K ev V (_ & [U _] & E). rewrite E, <- kmul_assoc, U. apply kmul_id_l.
Qed.
Lemma eigen_form : forall n K ev V, eigenbasis n K ev V -> keq n K (kmul n V (kmul n (diag_op ev) (kadj V))).
Proof.
  intros n K ev V (_ & [_ U] & E). rewrite <- kmul_assoc, <- E, kmul_assoc, U. apply keq_sym, kmul_id_r.
Qed.
Lemma diag_apply : forall n ev A x y, In x (bitstrings n) -> kmul n (diag_op ev) A x y = Cmul (RtoC (nth (binval x) ev 0%R)) (A x y).
Proof.
  intros n ev A x y Hx. unfold kmul. rewrite (csum_single _ x).
  - unfold diag_op. destruct (list_eq_dec Nat.eq_dec x x); [reflexivity|congruence].
  - apply bitstrings_NoDup.
  - exact Hx.
  - intros z _ N. unfold diag_op. destruct (list_eq_dec Nat.eq_dec x z); [congruence|ring].
Qed.
(** probability of the eigenvector [y] in the state with density matrix [r] *)
Definition weight (n : nat) (V r : op) (y : list nat) : R := re (kmul n (kadj V) (kmul n r V) y y).
Lemma weight_mean : forall n K ev V r, eigenbasis n K ev V ->
    rsum (bitstrings n) (fun y => (weight n V r y * nth (binval y) ev 0)%R) = mean_density n K r.
Proof.
  intros n K ev V r E. unfold mean_density.
  assert (T : ktrace n (kmul n K r) = ktrace n (kmul n (diag_op ev) (kmul n (kadj V) (kmul n r V)))).
  { rewrite (ktrace_ext n _ _ (kmul_ext n _ _ _ _ (eigen_form n K ev V E) (keq_refl n r))).
    rewrite (ktrace_ext n _ _ (kmul_assoc n V (kmul n (diag_op ev) (kadj V)) r)), ktrace_cyclic.
    apply ktrace_ext. rewrite !kmul_assoc. reflexivity. }
  rewrite T. unfold ktrace. rewrite re_csum_rsum. apply rsum_ext; intros y Hy. rewrite (diag_apply n ev _ y y Hy). unfold weight. simpl. ring.
Qed.
Lemma weight_sum : forall n V r, unitary n V -> rsum (bitstrings n) (weight n V r) = re (ktrace n r).
Proof.
  intros n V r [_ U]. unfold weight. rewrite <- (re_csum_rsum _ (fun y => kmul n (kadj V) (kmul n r V) y y)).
  change (csum (bitstrings n) (fun y => kmul n (kadj V) (kmul n r V) y y)) with (ktrace n (kmul n (kadj V) (kmul n r V))).
  f_equal. rewrite ktrace_cyclic. apply ktrace_ext. rewrite kmul_assoc, U. apply kmul_id_r.
Qed.
Lemma weight_form : forall n V r y, weight n V r y = re (qform n r (fun x => V x y)).
Proof.
  intros n V r y. unfold weight, qform, inner_product, kmul, kadj, apply_kernel. reflexivity.
Qed.
Lemma weight_nonneg : forall n V r y, positive n r -> (0 <= weight n V r y)%R.
Proof. intros n V r y P. rewrite weight_form. apply P. Qed.
Lemma weight_ext : forall n V r r' y, keq n r r' -> In y (bitstrings n) -> weight n V r y = weight n V r' y.
Proof. intros n V r r' y E Hy. unfold weight. f_equal. apply kmul_ext; [apply keq_refl| |exact Hy|exact Hy]. apply kmul_ext; [exact E|apply keq_refl]. Qed.
Lemma weight_pure : forall n V f y, weight n V (fun x z => Cmul (f x) (Cconj (f z))) y = Cnorm2 (csum (bitstrings n) (fun x => Cmul (Cconj (V x y)) (f x))).
Proof.
  intros n V f y. rewrite weight_form. unfold qform, inner_product, apply_kernel. set (c := csum (bitstrings n) (fun x => Cmul (Cconj (V x y)) (f x))).
  assert (D : csum (bitstrings n) (fun z => Cmul (Cconj (f z)) (V z y)) = Cconj c).
  { unfold c. rewrite csum_conj. apply csum_ext; intros z _. apply C_ext; simpl; ring. }
  rewrite (csum_ext _ _ (fun x => Cmul (Cmul (Cconj (V x y)) (f x)) (Cconj c))).
  - rewrite csum_scale_r. fold c. unfold Cnorm2. simpl. ring.
  - intros x _. rewrite (csum_ext _ _ (fun z => Cmul (f x) (Cmul (Cconj (f z)) (V z y)))) by (intros; ring). rewrite csum_scale_l, D. ring.
Qed.

(** ** the probabilities of the code *)
Lemma Cabs_square : forall z, (Cabs z * Cabs z)%R = Cnorm2 z.
Proof. intro z. unfold Cabs. rewrite sqrt_sqrt; [reflexivity|]. unfold Cnorm2. nra. Qed.
Lemma probs_array : forall n st V, is_state n st -> is_matrix n V ->
    eigen_probabilities_array st V = Ok (map (weight n (entry V) (pure_density st)) (bitstrings n)).
Proof.
  intros n st V HS MV. unfold eigen_probabilities_array. destruct (conj_transpose n V MV) as (d & Ed & Md & Kd). rewrite Ed; cbn [bind].
  unfold matvec. destruct Md as [Sd Wd]. rewrite Sd. rewrite (data_state n st HS), map_length, bitstrings_count, Nat.eqb_refl. cbn [bind].
  f_equal. rewrite map_map, seq_bits. apply map_ext_in. intros y Hy. rewrite Cabs_square. unfold pure_density. rewrite weight_pure. f_equal.
  rewrite csum_bits. apply csum_ext; intros x Hx. rewrite nth_bits by exact Hx.
  change (get (conj d) [binval y; binval x]) with (entry (conj d) y x). rewrite (Kd y x Hy Hx). reflexivity.
Qed.
Lemma probs_dm : forall n m V, is_matrix n m -> is_matrix n V ->
    eigen_probabilities_dm m V = Ok (map (weight n (entry V) (entry m)) (bitstrings n)).
Proof.
  intros n m V Mm MV. unfold eigen_probabilities_dm. destruct (conj_transpose n V MV) as (d & Ed & Md & Kd). rewrite Ed; cbn [bind].
  destruct (matmul_matrix n _ _ Md Mm) as (p & Ep & Mp & Kp). rewrite Ep; cbn [bind].
  destruct (matmul_matrix n _ _ Mp MV) as (q & Eq & Mq & Kq). rewrite Eq; cbn [bind]. destruct Mq as [Sq Wq]. rewrite Sq, Nat.min_id, seq_bits.
  f_equal. apply map_ext_in. intros y Hy. change (get q [binval y; binval y]) with (entry q y y). rewrite (Kq y y Hy Hy).
  unfold weight. f_equal. rewrite (kmul_ext n _ _ _ _ (keq_trans _ _ _ _ Kp (kmul_ext n _ _ _ _ Kd (keq_refl _ _))) (keq_refl n (entry V)) y y Hy Hy).
  apply kmul_assoc; assumption.
Qed.

(** ** alignment *)
Lemma left_inverse : forall n A V, unitary n V -> keq n (kmul n A V) kid -> keq n A (kadj V).
Proof.
  intros n A V [_ U] E. rewrite <- (kmul_id_r n A), <- U, <- kmul_assoc, E. apply kmul_id_l.
Qed.
Lemma perm_columns : forall n V V' p, unitary n V -> Permutation (map p (bitstrings n)) (bitstrings n) ->
    (forall x y, In x (bitstrings n) -> In y (bitstrings n) -> V' x y = V x (p y)) ->
    forall y z, In y (bitstrings n) -> In z (bitstrings n) -> kmul n (kadj V') V y z = kid (p y) z.
Proof.
  intros n V V' p [U _] P E y z Hy Hz. assert (Hp : In (p y) (bitstrings n)) by (eapply Permutation_in; [exact P|apply in_map; exact Hy]).
  rewrite <- (U (p y) z Hp Hz). unfold kmul. apply csum_ext; intros x Hx. unfold kadj. rewrite (E x y Hx Hy). reflexivity.
Qed.
Lemma re_kid : forall x y, (if Rgt_dec (re (kid x y)) (1 / 2) then 1%R else 0%R) = if list_eq_dec Nat.eq_dec x y then 1%R else 0%R.
Proof. intros x y. unfold kid. destruct (list_eq_dec Nat.eq_dec x y); cbn; destruct (Rgt_dec _ _); lra. Qed.
(** the rearranged eigenvalues *)
Definition aligned (n : nat) (p : list nat -> list nat) (ev : list R) (z : list nat) : R :=
  rsum (bitstrings n) (fun y => (nth (binval y) ev 0 * if list_eq_dec Nat.eq_dec (p y) z then 1 else 0)%R).
Lemma align_one : forall w n V V' p ev, is_matrix n V -> is_matrix n V' -> unitary n (entry V) -> unitary n (entry V') ->
    Permutation (map p (bitstrings n)) (bitstrings n) ->
    (forall x y, In x (bitstrings n) -> In y (bitstrings n) -> entry V' x y = entry V x (p y)) ->
    is_matrix n (inv_mat w V') -> keq n (kmul n (entry (inv_mat w V')) (entry V')) kid -> length ev = 2 ^ n ->
    (let! P := permutation_matrix w V' V in Ok (rdot ev P (length ev))) = Ok (map (aligned n p ev) (bitstrings n)).
Proof.
  intros w n V V' p ev MV MV' UV UV' HP HC MI KI L. unfold permutation_matrix.
  destruct (matmul_matrix n _ _ MI MV) as (m & Em & Mm & Km). rewrite Em; cbn [bind]. destruct Mm as [Sm Wm]. rewrite Sm; cbn [bind].
  f_equal. unfold rdot. rewrite L, seq_bits. apply map_ext_in. intros z Hz. unfold aligned.
  rewrite (list_bits n ev L) at 1. rewrite seq_bits, combine_map2, rsum_map'. apply rsum_ext; intros y Hy. cbn [fst snd]. f_equal.
  rewrite seq_bits, nth_bits by exact Hz. change (get m [binval y; binval z]) with (entry m y z). rewrite (Km y z Hy Hz).
  rewrite (kmul_ext n _ _ _ _ (left_inverse n _ _ UV' KI) (keq_refl n (entry V)) y z Hy Hz), (perm_columns n (entry V) (entry V') p UV HP HC y z Hy Hz).
  apply re_kid.
Qed.
Lemma rsum_perm : forall {A} (l l' : list A) f, Permutation l l' -> rsum l f = rsum l' f.
Proof. intros A l l' f P. assert (H := csum_perm l l' (fun x => RtoC (f x)) P). rewrite <- !rsum_csum in H. injection H; auto. Qed.
Lemma rsum_single : forall {A} (l : list A) x f, NoDup l -> In x l -> (forall y, In y l -> y <> x -> f y = 0%R) -> rsum l f = f x.
Proof.
  intros A l x f ND I Z. assert (H := csum_single l x (fun y => RtoC (f y)) ND I). rewrite <- rsum_csum in H.
  assert (Q : RtoC (rsum l f) = RtoC (f x)) by (apply H; intros y Hy N; rewrite (Z y Hy N); reflexivity). injection Q; auto.
Qed.
Lemma perm_inj : forall n p y y', Permutation (map p (bitstrings n)) (bitstrings n) -> In y (bitstrings n) -> In y' (bitstrings n) -> p y = p y' -> y = y'.
Proof.
  intros n p y y' P Hy Hy' E. destruct (list_eq_dec Nat.eq_dec y y') as [|N]; [assumption|exfalso].
  assert (ND : NoDup (map p (bitstrings n))) by (eapply Permutation_NoDup; [apply Permutation_sym; exact P|apply bitstrings_NoDup]).
  apply in_split in Hy as (l1 & l2 & Q). rewrite Q in *. rewrite map_app in ND; cbn [map] in ND. apply NoDup_remove_2 in ND. apply ND.
  rewrite <- map_app, E. apply in_map. apply in_app_iff. apply in_app_iff in Hy'. destruct Hy' as [H|[H|H]]; [auto|congruence|auto].
Qed.
Lemma aligned_at : forall n p ev y, Permutation (map p (bitstrings n)) (bitstrings n) -> In y (bitstrings n) -> aligned n p ev (p y) = nth (binval y) ev 0%R.
Proof.
  intros n p ev y P Hy. unfold aligned. rewrite (rsum_single _ y).
  - destruct (list_eq_dec Nat.eq_dec (p y) (p y)); [ring|congruence].
  - apply bitstrings_NoDup.
  - exact Hy.
  - intros y' Hy' N. destruct (list_eq_dec Nat.eq_dec (p y') (p y)) as [E|]; [|ring]. exfalso; apply N; eapply perm_inj; eassumption.
Qed.
Lemma aligned_perm : forall n p ev, Permutation (map p (bitstrings n)) (bitstrings n) -> length ev = 2 ^ n ->
    Permutation (map (aligned n p ev) (bitstrings n)) ev.
Proof.
  intros n p ev P L. eapply Permutation_trans; [apply Permutation_map, Permutation_sym, P|]. rewrite map_map.
  rewrite (map_ext_in _ (fun y => nth (binval y) ev 0%R)) by (intros y Hy; apply aligned_at; assumption).
  rewrite <- (list_bits n ev L). apply Permutation_refl.
Qed.
Lemma aligned_mean : forall n K ev V V' p r, eigenbasis n K ev V' -> Permutation (map p (bitstrings n)) (bitstrings n) ->
    (forall x y, In x (bitstrings n) -> In y (bitstrings n) -> V' x y = V x (p y)) ->
    rsum (bitstrings n) (fun z => (weight n V r z * aligned n p ev z)%R) = mean_density n K r.
Proof.
  intros n K ev V V' p r E P HC. rewrite <- (weight_mean n K ev V' r E).
  rewrite <- (rsum_perm _ _ _ P), rsum_map'. apply rsum_ext; intros y Hy. rewrite aligned_at by assumption. f_equal.
  rewrite !weight_form. unfold qform, inner_product, apply_kernel. f_equal. apply csum_ext; intros x Hx. rewrite (HC x y Hx Hy). f_equal.
  apply csum_ext; intros z Hz. rewrite (HC z y Hz Hy). reflexivity.
Qed.

Lemma eigen_weight : forall n K ev V y, eigenbasis n K ev V -> In y (bitstrings n) -> weight n V K y = nth (binval y) ev 0%R.
Proof.
  intros n K ev V y E Hy. unfold weight. rewrite (eigen_conj n K ev V E y y Hy Hy). unfold diag_op.
  destruct (list_eq_dec Nat.eq_dec y y); [reflexivity|congruence].
Qed.
Lemma aligned_weight : forall n K ev V V' p z, eigenbasis n K ev V' -> Permutation (map p (bitstrings n)) (bitstrings n) ->
    (forall x y, In x (bitstrings n) -> In y (bitstrings n) -> V' x y = V x (p y)) -> In z (bitstrings n) ->
    aligned n p ev z = weight n V K z.
Proof.
  intros n K ev V V' p z E P HC Hz. assert (I := Permutation_in z (Permutation_sym P) Hz). apply in_map_iff in I as (y & <- & Hy).
  rewrite aligned_at by assumption. rewrite <- (eigen_weight n K ev V' y E Hy), !weight_form. f_equal. unfold qform, inner_product, apply_kernel.
  apply csum_ext; intros x Hx. rewrite (HC x y Hx Hy). f_equal. apply csum_ext; intros x' Hx'. rewrite (HC x' y Hx' Hy). reflexivity.
Qed.

(** ** the matrix of an observable *)
Lemma reshape_same : forall n a, is_matrix n a -> reshape a [2 ^ n; 2 ^ n] = Ok a.
Proof.
  intros n [s d] [S W]. cbn [shape] in S; subst s. unfold reshape, wf in *. cbn [shape data] in *.
  destruct (Nat.eqb _ _) eqn:E; [reflexivity|]. apply Nat.eqb_neq in E. exfalso; apply E. unfold size; cbn [shape]. reflexivity.
Qed.
Lemma obs_matrix : forall w n vals l K, set_order (set_iter w) -> observable_on w n vals false l K ->
    exists m, (let! t := tensor w vals (OObs l) None in let! sup := support w (OObs l) in let! e := expand_operator t sup (seq 0 n) in reshape e [2 ^ n; 2 ^ n]) = Ok m /\
      is_matrix n m /\ keq n (entry m) K.
Proof.
  intros w n vals l K SO HO. destruct (obs_tensor w n vals l K SO HO) as (s & t & Es & SS & Et & Mt & Kt).
  rewrite Et, Es; cbn [bind]. pose proof (sub_valid _ _ SS) as [ND FV].
  destruct (expand_operator_spec (length s) t s (seq 0 n) Mt eq_refl ND (seq_NoDup n 0)) as (e & Ee & Me & Ke).
  { intros q Hq. apply in_seq. rewrite Forall_forall in FV. specialize (FV q Hq). lia. }
  rewrite seq_length in *. rewrite Ee; cbn [bind]. rewrite (reshape_same n e Me). exists e; split; [reflexivity|split; [exact Me|]].
  eapply keq_trans; [exact Ke|]. 
  assert (Q : map (fun q => index_of q (sorted (seq 0 n))) (sorted s) = sorted s).
  { rewrite (sorted_id (seq 0 n)) by (clear; generalize 0; induction n as [|n IH]; intro k; cbn [seq]; constructor; [apply IH|]; apply Forall_forall; intros x Hx; apply in_seq in Hx; lia).
    rewrite <- (map_id (sorted s)) at 2. apply map_ext_in. intros q Hq. rewrite sorted_In in Hq. rewrite Forall_forall in FV. specialize (FV q Hq).
    replace q with (nth q (seq 0 n) 0) at 1 by (rewrite seq_nth; lia). apply index_of_nth; [apply seq_NoDup|rewrite seq_length; exact FV]. }
  rewrite Q. exact Kt.
Qed.

Lemma list_bits_ev : forall n K ev V, eigenbasis n K ev V -> length ev = 2 ^ n.
Proof. intros n K ev V (L & _); exact L. Qed.
(** all the rearranged eigenvalue lists *)
Lemma joint_prepare : forall w n vals V ls Ks evs, set_order (set_iter w) -> is_matrix n V -> unitary n (entry V) -> jointly_measured w n vals V ls Ks evs ->
    exists ms as_, mapM (fun l => let! t := tensor w vals (OObs l) None in let! sup := support w (OObs l) in let! e := expand_operator t sup (seq 0 n) in reshape e [2 ^ n; 2 ^ n]) ls = Ok ms /\
      mapM (fun e => let! P := permutation_matrix w (snd e) V in Ok (rdot (fst e) P (length (fst e)))) (map (eigh w) ms) = Ok as_ /\
      Forall2 (@Permutation R) as_ evs /\ Forall (fun a => length a = 2 ^ n) as_ /\
      (forall r, map (fun a => rsum (bitstrings n) (fun z => (weight n (entry V) r z * nth (binval z) a 0)%R)) as_ = map (fun K => mean_density n K r) Ks) /\
      as_ = map (eigenvalues_in n (entry V)) Ks /\
      (forall l ls', ls = l :: ls' -> exists m ms' K, ms = m :: ms' /\ is_matrix n m /\ keq n (entry m) K /\ hd_error Ks = Some K).
Proof.
  intros w n vals V ls Ks evs SO MV UV H. induction H as [|l K ev V' ls Ks evs HO HD (p & PP & PC) HJ (ms & as_ & E1 & E2 & F & L & M & EA & _)].
  - exists [], []. repeat (split; [first [reflexivity|constructor|intro; reflexivity]|]). intros l ls' Q; discriminate.
  - destruct (obs_matrix w n vals l K SO HO) as (m & Em & Mm & Km). destruct HD as (HE & MV' & HB & MI & KI).
    exists (m :: ms), (map (aligned n p ev) (bitstrings n) :: as_). split; [cbn [mapM]; rewrite Em; cbn [bind]; rewrite E1; reflexivity|].
    split; [|split; [|split; [|split; [|split]]]].
    + cbn [map mapM]. rewrite (HE m Mm Km). cbn [fst snd]. rewrite (align_one w n V V' p ev MV MV' UV (proj1 (proj2 HB)) PP PC MI KI (proj1 HB)). cbn [bind]. rewrite E2; reflexivity.
    + constructor; [|exact F]. apply aligned_perm; [exact PP|exact (proj1 HB)].
    + constructor; [rewrite map_length; apply bitstrings_count|exact L].
    + intro r. cbn [map]. f_equal; [|apply M]. rewrite <- (aligned_mean n K ev (entry V) (entry V') p r HB PP PC). apply rsum_ext; intros z Hz.
      rewrite nth_bits by exact Hz. reflexivity.
    + cbn [map]. rewrite EA. f_equal. unfold eigenvalues_in. apply map_ext_in. intros z Hz. rewrite <- weight_form. apply (aligned_weight n K ev (entry V) (entry V') p z HB PP PC Hz).
    + intros l0 ls' Q. injection Q as <- <-. exists m, ms, K; auto.
Qed.
Lemma weighted_bits : forall n f a, length a = 2 ^ n -> weighted (map f (bitstrings n)) a = rsum (bitstrings n) (fun z => (f z * nth (binval z) a 0)%R).
Proof.
  intros n f a L. unfold weighted. rewrite (list_bits n a L) at 1. rewrite combine_map2, rsum_map'. reflexivity.
Qed.
Lemma outcome_weights : forall n V out, outcome_distribution n V out = map (weight n V (density_of out)) (bitstrings n).
Proof. intros n V out. unfold outcome_distribution. apply map_ext; intro y. symmetry; apply weight_form. Qed.
Lemma prepare_spec : forall w n vals l K ev V ls Ks evs out sq, set_order (set_iter w) -> state_of n out -> square_dm out n = Ok sq ->
    observable_on w n vals false l K -> diagonalised w n K ev V -> jointly_measured w n vals V (l :: ls) (K :: Ks) (ev :: evs) ->
    eigen_prepare w sq (l :: ls) vals n = Ok (outcome_distribution n (entry V) out, map (eigenvalues_in n (entry V)) (K :: Ks)) /\
      Forall2 (@Permutation R) (map (eigenvalues_in n (entry V)) (K :: Ks)) (ev :: evs) /\
      map (weighted (outcome_distribution n (entry V) out)) (map (eigenvalues_in n (entry V)) (K :: Ks)) = map (fun K => mean n K out) (K :: Ks).
Proof.
  intros w n vals l K ev V ls Ks evs out sq SO HS ESQ HO HD HJ. assert (HD' := HD). destruct HD' as (HE & MV & HB & MI & KI).
  destruct (joint_prepare w n vals V _ _ _ SO MV (proj1 (proj2 HB)) HJ) as (ms & as_ & E1 & E2 & F & L & M & EA & FI).
  destruct (FI l ls eq_refl) as (m & ms' & K0 & -> & Mm & Km & Q). injection Q as <-. rewrite outcome_weights.
  assert (PB : match sq with SDense a => eigen_probabilities_array a V | SDM a => eigen_probabilities_dm a V | SSparse _ => Err NotImplementedError end
               = Ok (map (weight n (entry V) (density_of out)) (bitstrings n))).
  { destruct out as [a|b|a]; cbn [square_dm] in ESQ.
    - injection ESQ as <-. apply probs_array; [exact HS|exact MV].
    - destruct HS.
    - destruct (reshape_density n a HS) as (r & Er & Mr & Kr). rewrite Er in ESQ; cbn [bind] in ESQ. injection ESQ as <-.
      rewrite (probs_dm n r V Mr MV). f_equal. apply map_ext_in. intros y Hy. apply weight_ext; [exact Kr|exact Hy]. }
  rewrite <- EA. split; [|split; [exact F|]].
  - unfold eigen_prepare. rewrite E1; cbn [bind]. unfold align_eigenvectors. cbn [map]. rewrite (HE m Mm Km). cbn [map] in E2. rewrite (HE m Mm Km) in E2.
    rewrite E2; cbn [bind fst snd]. rewrite PB; reflexivity.
  - rewrite (map_ext_in _ (fun a => rsum (bitstrings n) (fun z => (weight n (entry V) (density_of out) z * nth (binval z) a 0)%R))).
    + rewrite M. apply map_ext; intro K1. destruct out as [a|b|a]; [|destruct HS|reflexivity]. cbn [mean density_of]. unfold pure_density. apply mean_pure_density.
    + intros a Ha. apply weighted_bits. rewrite Forall_forall in L. apply L; exact Ha.
Qed.

(** a physical state stays physical *)
Lemma pure_trace : forall n a, ktrace n (pure_density a) = RtoC (norm2 n (amp a)).
Proof. intros n a. apply ktrace_pure. Qed.
Lemma physical_density : forall n s, state_of n s -> (physical n s <-> positive n (density_of s) /\ ktrace n (density_of s) = C1).
Proof.
  intros n [a|b|a] HS; cbn [physical density_of]; [|destruct HS|tauto]. rewrite pure_trace. split.
  - intro E. rewrite E. split; [apply pure_positive|reflexivity].
  - intros [_ E]. injection E; auto.
Qed.
Lemma physical_run : forall w n vals gs st out, set_order (set_iter w) -> gs <> [] -> Forall (usable n vals) gs -> Forall dense_gate gs -> Forall noise_ok gs ->
    state_of n st -> physical n st -> apply_gates w st (GMany gs) vals UNITARY false true = Ok out -> physical n out.
Proof.
  intros w n vals gs st out SO NG FU FD FN HS PH E. destruct st as [psi|b|rho]; [|destruct HS|].
  - destruct (noisy_or_not gs) as [NN|EX].
    + destruct (c04_circuits w n vals gs false true psi psi NG FU FD NN) as (p1 & p2 & E1 & _ & S1 & _ & _ & N1); [discriminate|exact HS|exact HS|].
      rewrite E in E1; injection E1 as ->. cbn [physical] in *. rewrite N1; exact PH.
    + destruct (c29_pure w n vals gs false true psi SO NG FU FD FN EX HS) as (r & E1 & _ & T & _ & P). rewrite E in E1; injection E1 as ->.
      split; [exact P|]. rewrite T. cbn [physical] in PH. rewrite PH; reflexivity.
  - destruct (c29_density w n vals gs false true rho SO NG FU FD FN HS) as (r & E1 & _ & T & _ & P). rewrite E in E1; injection E1 as ->.
    destruct PH as [P0 T0]. split; [apply P; exact P0|]. rewrite T; exact T0.
Qed.
(** the average of drawn values lies between two of them *)
Lemma average_between : forall l, l <> [] -> exists lo hi, In lo l /\ In hi l /\ (lo <= average l <= hi)%R.
Proof.
  intros l NE.
  assert (H : exists lo hi, In lo l /\ In hi l /\ (INR (length l) * lo <= rsum l (fun x => x) <= INR (length l) * hi)%R).
  { induction l as [|a l IH]; [contradiction|]. destruct l as [|b l]; [exists a, a; simpl; repeat split; auto; lra|].
    destruct IH as (lo & hi & I1 & I2 & B1 & B2); [discriminate|]. set (m := b :: l) in *.
    assert (P : (0 <= INR (length m))%R) by apply pos_INR. cbn [rsum]. change (length (a :: m)) with (S (length m)). rewrite S_INR.
    destruct (Rle_dec a lo) as [L|L]; destruct (Rle_dec hi a) as [G|G].
    - exists a, a. split; [left; reflexivity|split; [left; reflexivity|]]. nra.
    - exists a, hi. split; [left; reflexivity|split; [right; exact I2|]]. nra.
    - exists lo, a. split; [right; exact I1|split; [left; reflexivity|]]. nra.
    - exists lo, hi. split; [right; exact I1|split; [right; exact I2|]]. nra. }
  destruct H as (lo & hi & I1 & I2 & B1 & B2). exists lo, hi; split; [exact I1|split; [exact I2|]].
  assert (P : (0 < INR (length l))%R) by (apply lt_0_INR; destruct l; [contradiction|simpl; lia]).
  unfold average. split; [apply Rmult_le_reg_l with (INR (length l)); [exact P|]|apply Rmult_le_reg_l with (INR (length l)); [exact P|]]; unfold Rdiv;
    replace (INR (length l) * (rsum l (fun x => x) * / INR (length l)))%R with (rsum l (fun x => x)) by (field; lra); assumption.
Qed.
Lemma sample_mean_average : forall a draws, sample_mean a draws = average (values_at a draws).
Proof. intros a draws. unfold sample_mean, average, values_at. rewrite rsum_map', map_length. reflexivity. Qed.
Lemma estimate_between : forall a (ev : list R) draws, draws <> [] -> Forall (fun i => i < length a) draws -> Permutation a ev ->
    exists lo hi, In lo ev /\ In hi ev /\ (lo <= average (values_at a draws) <= hi)%R.
Proof.
  intros a ev draws NE F P. destruct (average_between (values_at a draws)) as (lo & hi & I1 & I2 & B); [destruct draws; [contradiction|discriminate]|].
  assert (IN : forall v, In v (values_at a draws) -> In v ev).
  { intros v Hv. unfold values_at in Hv. rewrite in_map_iff in Hv. destruct Hv as (i & <- & Hi). rewrite Forall_forall in F. eapply Permutation_in; [exact P|]. apply nth_In, F, Hi. }
  exists lo, hi; auto.
Qed.
(** C50 and C51 *)
Lemma c51_value : forall w n vals circuit gs st l K ev V ls Ks evs mode k key,
    set_order (set_iter w) -> sequence_of circuit gs -> gs <> [] ->
    Forall (usable n vals) gs -> Forall dense_gate gs -> Forall noise_ok gs -> state_of n st ->
    diagonalised w n K ev V -> jointly_measured w n vals V (l :: ls) (K :: Ks) (ev :: evs) ->
    mode = AD \/ mode = GPSR -> (0 < k)%Z ->
    exists out, run w circuit st vals = Ok (Some out) /\ apply_gates w st (GMany gs) vals UNITARY false true = Ok out /\ state_of n out /\
      finite_shots w st (GMany gs) (l :: ls) vals (Z.to_nat k) key
        = Ok (map (fun K => average (values_at (eigenvalues_in n (entry V) K) (choice w key (outcome_distribution n (entry V) out) (Z.to_nat k)))) (K :: Ks)) /\
      expectation w st circuit (l :: ls) vals mode k key
        = Ok (map (fun K => average (values_at (eigenvalues_in n (entry V) K) (choice w key (outcome_distribution n (entry V) out) (Z.to_nat k)))) (K :: Ks)) /\
      (physical n st -> is_distribution (outcome_distribution n (entry V) out)) /\
      Forall2 (fun K ev => Permutation (eigenvalues_in n (entry V) K) ev) (K :: Ks) (ev :: evs) /\
      Forall (fun K => weighted (outcome_distribution n (entry V) out) (eigenvalues_in n (entry V) K) = mean n K out) (K :: Ks).
Proof.
  intros w n vals circuit gs st l K ev V ls Ks evs mode k key SO HQ NG FU FD FN HS HD HJ HM Hk.
  destruct (c44_flatten w n vals circuit gs st SO HQ NG FU FD FN HS) as (out & Er & _ & Ef & So).
  assert (NQ : num_qubits out = Ok n).
  { destruct out as [a|b|a]; [|destruct So|]; cbn [num_qubits]; f_equal; destruct So as [S _]; unfold num_qubits_array, num_qubits_dm, ndim; rewrite S, repeat_length; [reflexivity|].
    rewrite Nat.mul_comm; apply Nat.div_mul; lia. }
  assert (HSQ : exists sq, square_dm out n = Ok sq).
  { destruct out as [a|b|a]; [eexists; reflexivity|destruct So|]. destruct (reshape_density n a So) as (r & E & _). exists (SDM r). cbn [square_dm]. rewrite E; reflexivity. }
  destruct HSQ as (sq & ESQ).
  assert (HO : observable_on w n vals false l K) by (inversion HJ; assumption).
  destruct (prepare_spec w n vals l K ev V ls Ks evs out sq SO So ESQ HO HD HJ) as (Ep & F & M).
  unfold run_flat in Ef. rewrite (sequence_iter _ _ HQ) in Ef; cbn [bind] in Ef.
  assert (FS : finite_shots w st (GMany gs) (l :: ls) vals (Z.to_nat k) key
        = Ok (map (fun K => average (values_at (eigenvalues_in n (entry V) K) (choice w key (outcome_distribution n (entry V) out) (Z.to_nat k)))) (K :: Ks))).
  { unfold finite_shots. rewrite Ef; cbn [bind]. rewrite NQ; cbn [bind]. rewrite ESQ; cbn [bind].
    unfold eigen_sample. rewrite Ep; cbn [bind fst snd]. f_equal. rewrite map_map. apply map_ext; intro a. apply sample_mean_average. }
  exists out. split; [exact Er|split; [exact Ef|split; [exact So|split; [exact FS|split; [|split; [|split]]]]]].
  - unfold expectation. rewrite (sequence_iter _ _ HQ); cbn [bind]. destruct (Z.ltb_spec k 0); [lia|]. destruct (Z.eqb_spec k 0); [lia|]. destruct HM as [-> | ->]; exact FS.
  - intro PH. assert (PO : physical n out) by (apply (physical_run w n vals gs st out); assumption).
    apply (physical_density n out So) in PO as [PO TO]. rewrite outcome_weights. split.
    + apply Forall_forall. intros x Hx. apply in_map_iff in Hx as (y & <- & _). apply weight_nonneg; exact PO.
    + rewrite rsum_map'. destruct HD as (_ & _ & (_ & U & _) & _). rewrite (weight_sum n (entry V) _ U), TO. reflexivity.
  - clear -F. revert F. generalize (K :: Ks) (ev :: evs). intros a b. revert b. induction a as [|x a IH]; intros b F; inversion F; subst; constructor; auto.
  - clear -M. rewrite map_map in M. apply Forall_forall. intros x Hx. exact (ext_in_map M x Hx).
Qed.
Lemma estimates_between : forall w n V key k (out : state) Ks evs, choice_contract w -> 0 < k ->
    Forall2 (fun K ev => Permutation (eigenvalues_in n V K) ev) Ks evs ->
    Forall2 (fun K ev => exists lo hi, In lo ev /\ In hi ev /\ (lo <= average (values_at (eigenvalues_in n V K) (choice w key (outcome_distribution n V out) k)) <= hi)%R) Ks evs.
Proof.
  intros w n V key k out Ks evs CC Hk F.
  assert (LP : length (outcome_distribution n V out) = 2 ^ n) by (unfold outcome_distribution; rewrite map_length; apply bitstrings_count).
  assert (NP : outcome_distribution n V out <> []) by (intros Q; rewrite Q in LP; cbn in LP; pose proof (Nat.pow_nonzero 2 n); lia).
  destruct (CC key _ k NP) as [LC FC]. induction F as [|K ev Ks evs P F IH]; constructor; [|exact IH].
  apply estimate_between; [intro Q; rewrite Q in LC; cbn in LC; lia| |exact P]. eapply Forall_impl; [|exact FC].
  intros i Hi; cbv beta in *. unfold eigenvalues_in. rewrite map_length, bitstrings_count. lia.
Qed.
Lemma c51_joint : forall w n vals circuit gs st l K ev V ls Ks evs mode k key,
    set_order (set_iter w) -> choice_contract w -> sequence_of circuit gs -> gs <> [] ->
    Forall (usable n vals) gs -> Forall dense_gate gs -> Forall noise_ok gs -> state_of n st ->
    diagonalised w n K ev V -> jointly_measured w n vals V (l :: ls) (K :: Ks) (ev :: evs) ->
    mode = AD \/ mode = GPSR -> (0 < k)%Z ->
    exists out, run w circuit st vals = Ok (Some out) /\ state_of n out /\
      let p := outcome_distribution n (entry V) out in
      let estimate K := average (values_at (eigenvalues_in n (entry V) K) (choice w key p (Z.to_nat k))) in
      expectation w st circuit (l :: ls) vals mode k key = Ok (map estimate (K :: Ks)) /\
      (physical n st -> is_distribution p) /\
      Forall2 (fun K ev => Permutation (eigenvalues_in n (entry V) K) ev) (K :: Ks) (ev :: evs) /\
      Forall (fun K => weighted p (eigenvalues_in n (entry V) K) = mean n K out) (K :: Ks) /\
      Forall2 (fun K ev => exists lo hi, In lo ev /\ In hi ev /\ (lo <= estimate K <= hi)%R) (K :: Ks) (ev :: evs).
Proof.
  intros w n vals circuit gs st l K ev V ls Ks evs mode k key SO CC HQ NG FU FD FN HS HD HJ HM Hk.
  destruct (c51_value w n vals circuit gs st l K ev V ls Ks evs mode k key SO HQ NG FU FD FN HS HD HJ HM Hk) as (out & E1 & _ & So & _ & E2 & PD & F & M).
  exists out. split; [exact E1|split; [exact So|]]. cbv zeta. split; [exact E2|split; [exact PD|split; [exact F|split; [exact M|]]]].
  apply estimates_between; [exact CC|lia|exact F].
Qed.
Lemma same_columns_refl : forall n V, same_columns n V V.
Proof. intros n V. exists (fun y => y). split; [rewrite map_id; apply Permutation_refl|reflexivity]. Qed.
Lemma own_eigenvalues : forall n K ev V, eigenbasis n K ev V -> eigenvalues_in n V K = ev.
Proof.
  intros n K ev V E. etransitivity; [|symmetry; apply (list_bits n ev (proj1 E))]. unfold eigenvalues_in. apply map_ext_in. intros y Hy.
  rewrite <- weight_form. apply (eigen_weight n K ev V y E Hy).
Qed.
Lemma c50_single : forall w n vals circuit gs st l K ev V mode k key,
    set_order (set_iter w) -> choice_contract w -> sequence_of circuit gs -> gs <> [] ->
    Forall (usable n vals) gs -> Forall dense_gate gs -> Forall noise_ok gs -> state_of n st ->
    observable_on w n vals false l K -> diagonalised w n K ev V ->
    mode = AD \/ mode = GPSR -> (0 < k)%Z ->
    exists out, run w circuit st vals = Ok (Some out) /\ state_of n out /\
      let p := outcome_distribution n (entry V) out in
      let estimate := average (values_at ev (choice w key p (Z.to_nat k))) in
      expectation w st circuit [l] vals mode k key = Ok [estimate] /\
      (physical n st -> is_distribution p) /\ weighted p ev = mean n K out /\
      exists lo hi, In lo ev /\ In hi ev /\ (lo <= estimate <= hi)%R.
Proof.
  intros w n vals circuit gs st l K ev V mode k key SO CC HQ NG FU FD FN HS HO HD HM Hk.
  destruct (c51_joint w n vals circuit gs st l K ev V [] [] [] mode k key SO CC HQ NG FU FD FN HS HD) as (out & E1 & E2 & H); [|assumption|assumption|].
  { econstructor; [exact HO|exact HD|apply same_columns_refl|constructor]. }
  cbv zeta in H. destruct H as (E3 & E4 & E5 & E6 & E7). cbn [map] in E3.
  rewrite (own_eigenvalues n K ev (entry V) (proj1 (proj2 (proj2 HD)))) in *.
  exists out. cbv zeta. split; [exact E1|split; [exact E2|split; [exact E3|split; [exact E4|split]]]].
  - apply Forall_inv in E6. rewrite (own_eigenvalues n K ev (entry V) (proj1 (proj2 (proj2 HD)))) in E6. exact E6.
  - inversion E7 as [|? ? ? ? Q ?]; subst. rewrite (own_eigenvalues n K ev (entry V) (proj1 (proj2 (proj2 HD)))) in Q. exact Q.
Qed.

(** ** C51: observables without common eigenvectors *)
Lemma bits1 : forall x, In x (bitstrings 1) -> x = [0] \/ x = [1].
Proof. intros x Hx. simpl in Hx. destruct Hx as [<-|[<-|[]]]; auto. Qed.
Lemma hr_half : (hr * hr = 1 / 2)%R.
Proof. exact sqrt2_sq. Qed.
Lemma hr_pos : (1 / 2 < hr)%R.
Proof.
  pose proof hr_half. assert (0 < hr)%R. { unfold hr. apply Rdiv_lt_0_compat; [lra|apply sqrt_lt_R0; lra]. } nra.
Qed.
Ltac two Hx := apply bits1 in Hx; destruct Hx as [-> | ->].
Ltac ent := lazy -[Rplus Rmult Ropp Rminus IZR hr].
Lemma VZ_matrix : is_matrix 1 VZ. Proof. split; reflexivity. Qed.
Lemma VX_matrix : is_matrix 1 VX. Proof. split; reflexivity. Qed.
Lemma VZ_basis : eigenbasis 1 oZ pm1 (entry VZ).
Proof.
  split; [reflexivity|]. split; [split|]; intros x y Hx Hy; two Hx; two Hy; ent; f_equal; ring.
Qed.
Lemma VX_basis : eigenbasis 1 oX pm1 (entry VX).
Proof.
  pose proof hr_half as H. split; [reflexivity|]. split; [split|]; intros x y Hx Hy; two Hx; two Hy; ent; f_equal; nra.
Qed.
Lemma VZ_inv : keq 1 (kmul 1 (entry VZ) (entry VZ)) kid.
Proof. intros x y Hx Hy; two Hx; two Hy; ent; f_equal; ring. Qed.
Lemma VX_inv : keq 1 (kmul 1 (entry VX) (entry VX)) kid.
Proof. pose proof hr_half as H. intros x y Hx Hy; two Hx; two Hy; ent; f_equal; nra. Qed.
Lemma z0_on : forall w, observable_on w 1 [] false [z0_gate] oZ.
Proof.
  intro w. exists [gate_op Z_matrix [] [0]]. split; [discriminate|split; [|reflexivity]].
  constructor; [|constructor]. apply den_gate; [|reflexivity|reflexivity].
  split; [eapply gm_fixed; simpl; eauto 10|apply cq_default|reflexivity|apply valid_one; lia].
Qed.
Lemma x0_on : forall w, observable_on w 1 [] false [x0_gate] oX.
Proof.
  intro w. exists [gate_op X_matrix [] [0]]. split; [discriminate|split; [|reflexivity]].
  constructor; [|constructor]. apply den_gate; [|reflexivity|reflexivity].
  split; [eapply gm_fixed; simpl; eauto 10|apply cq_default|reflexivity|apply valid_one; lia].
Qed.
(** the 0/1 matrix aligning [V'] with [V] *)
Lemma perm_entries : forall w V V', is_matrix 1 V -> is_matrix 1 V' -> unitary 1 (entry V') ->
    is_matrix 1 (inv_mat w V') -> keq 1 (kmul 1 (entry (inv_mat w V')) (entry V')) kid ->
    permutation_matrix w V' V = Ok (map (fun x => map (fun y => if Rgt_dec (re (kmul 1 (kadj (entry V')) (entry V) x y)) (1 / 2) then 1%R else 0%R) (bitstrings 1)) (bitstrings 1)).
Proof.
  intros w V V' MV MV' UV' MI KI. unfold permutation_matrix. destruct (matmul_matrix 1 _ _ MI MV) as (m & Em & [Sm Wm] & Km). rewrite Em; cbn [bind]. rewrite Sm.
  f_equal. pose proof (left_inverse 1 _ _ UV' KI) as LI.
  assert (Q : forall x y, In x (bitstrings 1) -> In y (bitstrings 1) -> get m [binval x; binval y] = kmul 1 (kadj (entry V')) (entry V) x y).
  { intros x y Hx Hy. change (get m [binval x; binval y]) with (entry m x y). rewrite (Km x y Hx Hy). unfold kmul. apply csum_ext; intros z Hz. rewrite (LI x z Hx Hz); reflexivity. }
  rewrite (seq_bits 1). apply map_ext_in; intros x Hx. rewrite (seq_bits 1). apply map_ext_in; intros y Hy.
  rewrite (Q x y Hx Hy); reflexivity.
Qed.
Lemma c51_refuted : forall w key k, set_order (set_iter w) -> diagonalised w 1 oZ pm1 VZ -> diagonalised w 1 oX pm1 VX -> (0 < k)%Z ->
    exists out, run w (OpSequence [z0_gate]) (SDense (zero_state 1)) [] = Ok (Some out) /\
      let draws := choice w key [0; 1]%R (Z.to_nat k) in
      expectation w (SDense (zero_state 1)) (OpSequence [z0_gate]) [[z0_gate]; [x0_gate]] [] AD k key
        = Ok [average (values_at [-1; 1]%R draws); average (values_at [0; 1]%R draws)] /\
      weighted [0; 1]%R [0; 1]%R = 1%R /\ mean 1 oX out = 0%R /\
      expectation w (SDense (zero_state 1)) (OpSequence [z0_gate]) [[z0_gate]; [x0_gate]] [] AD 0 key = Ok [1%R; 0%R].
Proof.
  intros w key k SO DZ DX Hk. destruct (obs_matrix w 1 [] [z0_gate] oZ SO (z0_on w)) as (mz & Ez & Mz & Kz).
  destruct (obs_matrix w 1 [] [x0_gate] oX SO (x0_on w)) as (mx & Ex & Mx & Kx).
  destruct DZ as (HZ & _ & _ & MIZ & KIZ). destruct DX as (HX & _ & _ & MIX & KIX).
  pose proof (perm_entries w VZ VZ VZ_matrix VZ_matrix (proj1 (proj2 VZ_basis)) MIZ KIZ) as PZ.
  pose proof (perm_entries w VZ VX VZ_matrix VX_matrix (proj1 (proj2 VX_basis)) MIX KIX) as PX.
  pose proof hr_pos as HP. pose proof hr_half as HH.
  assert (PZ' : permutation_matrix w VZ VZ = Ok [[1; 0]; [0; 1]]%R).
  { rewrite PZ. f_equal. ent. repeat f_equal; match goal with |- context [Rgt_dec ?a ?b] => destruct (Rgt_dec a b) end; first [reflexivity|exfalso; lra]. }
  assert (PX' : permutation_matrix w VX VZ = Ok [[1; 0]; [1; 1]]%R).
  { rewrite PX. f_equal. ent. repeat f_equal; match goal with |- context [Rgt_dec ?a ?b] => destruct (Rgt_dec a b) end; first [reflexivity|exfalso; lra]. }
  assert (EO : exists o, apply_gates w (SDense (zero_state 1)) (GMany [gZ q0 no_control None false]) [] UNITARY false true = Ok (SDense o) /\ shape o = [2] /\ data o = [C1; C0]).
  { eexists. split; [lazy -[Rplus Rmult Ropp Rminus IZR]; reflexivity|]. split; [reflexivity|]. lazy -[Rplus Rmult Ropp Rminus IZR]. repeat f_equal; ring. }
  destruct EO as (o & Eo & So & Do).
  assert (RU : run w (OpSequence [z0_gate]) (SDense (zero_state 1)) [] = Ok (Some (SDense o))).
  { destruct o as [sh dt]. cbn [shape data] in So, Do; subst sh dt. lazy -[Rplus Rmult Ropp Rminus IZR]. unfold C1, C0. repeat f_equal; ring. }
  set (aZ := rdot pm1 [[1; 0]; [0; 1]]%R 2). set (aX := rdot pm1 [[1; 0]; [1; 1]]%R 2).
  assert (EP : exists probs, eigen_prepare w (SDense o) [[z0_gate]; [x0_gate]] [] 1 = Ok (probs, [aZ; aX]) /\ probs = [0; 1]%R).
  { unfold eigen_prepare. cbn [mapM]. change (2 ^ 1) with 2 in *. rewrite Ez, Ex; cbn [bind]. unfold align_eigenvectors. cbn [map].
    rewrite (HZ mz Mz Kz), (HX mx Mx Kx). cbn [mapM fst snd]. rewrite PZ', PX'; cbn [bind].
    destruct o as [sh dt]. cbn [shape data] in So, Do; subst sh dt. rewrite (probs_array 1) by (split; reflexivity). cbn [bind fst snd].
    eexists. split; [reflexivity|]. ent. repeat f_equal; ring. }
  destruct EP as (probs & EP & QP).
  assert (QZ : aZ = [-1; 1]%R) by (unfold aZ; ent; repeat f_equal; ring).
  assert (QX : aX = [0; 1]%R) by (unfold aX; ent; repeat f_equal; ring).
  exists (SDense o). split; [exact RU|]. cbv zeta. split; [|split; [|split]].
  - unfold expectation. change (iter (OpSequence [z0_gate])) with [z0_gate]. change (gates_of [z0_gate]) with (Ok [gZ q0 no_control None false]). cbn [bind].
    destruct (Z.ltb_spec k 0); [lia|]. destruct (Z.eqb_spec k 0); [lia|].
    unfold finite_shots. rewrite Eo; cbn [bind]. change (num_qubits (SDense o)) with (Ok (length (shape o))). rewrite So. cbn [bind length square_dm].
    unfold eigen_sample. rewrite EP. cbn [bind fst snd map]. rewrite !sample_mean_average, QP, QZ, QX. reflexivity.
  - ent. ring.
  - destruct o as [sh dt]. cbn [shape data] in So, Do; subst sh dt. ent. ring.
  - ent. repeat f_equal; ring.
Qed.
