(** * [apply_kraus_operator] with arbitrary targets (C32) *)
From Coq Require Import String List Arith Bool Reals Lia Lra Permutation.
From Verif Require Import Cplx Py PyFacts Ndarray NdFacts NdPerm OperatorUtils ApplyOperator Sparse Matrices Noise Gates Apply Composite
  Spec SpecFacts ApplyFacts DmFacts ExpandFacts GateSpec PropSpec NoiseSpec GateFacts CircuitFacts AlgebraFacts GroupFacts ApplyThm
  KrausThm NoiseThm NoiseThm2 PhysSpec PhysThm6.
Import ListNotations.
Local Open Scope nat_scope.

Lemma free_double : forall n d, (forall q, In q d -> q < n) -> free_axes (2 * n) d = free_axes n d ++ seq n n.
Proof.
  intros n d H. unfold free_axes. replace (2 * n) with (n + n) by lia. rewrite seq_app, filter_app. f_equal. simpl.
  apply filter_all. intros x Hx. apply in_seq in Hx. apply negb_true_iff, mem_false. intro I. apply H in I. lia.
Qed.
(** moving axes of the rows *)
Lemma move_rows : forall n m a d, is_density n a -> valid_qubits n d -> length d = m ->
    exists r, moveaxis a (seq 0 m) d = Ok r /\ is_density n r /\
      forall x y, In x (bitstrings n) -> In y (bitstrings n) -> rho_entry r x y = rho_entry a (restrict x (d ++ free_axes n d)) y.
Proof.
  intros n m a d [Sa Wa] V Ld. pose proof V as [ND FB]. rewrite Forall_forall in FB.
  assert (V2 : valid_qubits (2 * n) d) by (split; [exact ND|apply Forall_forall; intros q I; apply FB in I; lia]).
  destruct (moveaxis_prefix_gen m (2 * n) a d Sa V2 Ld) as (r & Er & Sr & Wr & Gr). exists r. split; [exact Er|]. split; [split; assumption|].
  intros x y Hx Hy. unfold rho_entry. rewrite Gr by (replace (2 * n) with (n + n) by lia; apply bitstrings_app; assumption). f_equal.
  pose proof (bitstrings_length _ _ Hx) as Lx. pose proof (bitstrings_length _ _ Hy) as Ly.
  rewrite free_double by exact FB. rewrite !restrict_app.
  assert (RL : forall p, (forall q, In q p -> q < n) -> restrict (x ++ y) p = restrict x p).
  { intros p Hp. unfold restrict. apply map_ext_in. intros q I. apply app_nth1. rewrite Lx. apply Hp. exact I. }
  rewrite (RL d FB), (RL (free_axes n d)) by (intros q I; apply free_axes_In in I; lia). rewrite <- app_assoc. f_equal. f_equal.
  unfold restrict. apply list_ext; [rewrite map_length, seq_length; lia|]. rewrite map_length, seq_length. intros k Hk.
  rewrite nth_map_lt with (d' := 0) by (rewrite seq_length; exact Hk). rewrite seq_nth by exact Hk. rewrite app_nth2 by lia. f_equal. lia.
Qed.
(** moving them back *)
Lemma move_back : forall n m a d, is_density n a -> valid_qubits n d -> length d = m ->
    exists r, moveaxis a d (seq 0 m) = Ok r /\ is_density n r /\
      forall x y, In x (bitstrings n) -> In y (bitstrings n) -> rho_entry r (restrict x (d ++ free_axes n d)) y = rho_entry a x y.
Proof.
  intros n m a d [Sa Wa] V Ld. pose proof V as [ND FB]. rewrite Forall_forall in FB.
  assert (FB2 : forall q, In q d -> q < 2 * n) by (intros q I; apply FB in I; lia).
  pose proof (free_axes_length n d ND FB) as Lf.
  assert (HP : is_perm (2 * n) (d ++ free_axes (2 * n) d)) by (apply is_perm_free; assumption).
  unfold moveaxis, ndim. rewrite Sa, repeat_length.
  rewrite (forallb_lt (2 * n) (seq 0 m)) by (intros x Hx; apply in_seq in Hx; lia). rewrite (forallb_lt (2 * n) d) by exact FB2. cbn [andb negb].
  rewrite seq_length, Ld, Nat.eqb_refl. cbn [negb].
  rewrite moveaxis_order_eq; [|rewrite seq_length; exact Ld|exact ND|apply seq_NoDup|exact FB2|intros x Hx; apply in_seq in Hx; lia].
  assert (EO : place (seq 0 m ++ free_axes (2 * n) (seq 0 m)) (d ++ free_axes (2 * n) d) = d ++ free_axes (2 * n) d).
  { replace (2 * n) with (m + (2 * n - m)) at 1 by lia. rewrite free_axes_prefix, <- seq_app. replace (m + (2 * n - m)) with (2 * n) by lia.
    rewrite <- (restrict_seq (d ++ free_axes (2 * n) d)) at 1. rewrite (is_perm_length _ _ HP).
    apply place_restrict with (n := 2 * n); [apply Permutation_refl|apply is_perm_length; exact HP]. }
  rewrite EO. rewrite transpose_eq by (unfold ndim; rewrite Sa, repeat_length; exact HP).
  rewrite Sa, restrict_repeat by (intros x Hx; apply (is_perm_In (2 * n) _ x HP) in Hx; exact Hx). rewrite (is_perm_length _ _ HP).
  eexists. split; [reflexivity|]. split; [split; [reflexivity|apply wf_build]|]. intros x y Hx Hy.
  pose proof (bitstrings_length _ _ Hx) as Lx. pose proof (bitstrings_length _ _ Hy) as Ly.
  assert (HPn : is_perm n (d ++ free_axes n d)) by (apply is_perm_free; assumption).
  assert (E : restrict x (d ++ free_axes n d) ++ y = restrict (x ++ y) (d ++ free_axes (2 * n) d)).
  { rewrite free_double by exact FB. rewrite !restrict_app.
    assert (RL : forall p, (forall q, In q p -> q < n) -> restrict (x ++ y) p = restrict x p).
    { intros p Hp. unfold restrict. apply map_ext_in. intros q I. apply app_nth1. rewrite Lx. apply Hp. exact I. }
    rewrite (RL d FB), (RL (free_axes n d)) by (intros q I; apply free_axes_In in I; lia). rewrite <- app_assoc. f_equal. f_equal.
    unfold restrict. symmetry. apply list_ext; [rewrite map_length, seq_length; lia|]. rewrite map_length, seq_length. intros k Hk.
    rewrite nth_map_lt with (d' := 0) by (rewrite seq_length; exact Hk). rewrite seq_nth by exact Hk. rewrite app_nth2 by lia. f_equal. lia. }
  assert (IB : In (restrict x (d ++ free_axes n d)) (bitstrings n)).
  { pose proof (bits_at_bits n x (d ++ free_axes n d) Hx) as H. rewrite (is_perm_length _ _ HPn) in H. exact H. }
  unfold rho_entry at 1. rewrite get_build by (apply bitstrings_inb; replace (2 * n) with (n + n) by lia; apply bitstrings_app; assumption).
  rewrite E, (place_restrict (2 * n)); [reflexivity|exact HP|rewrite app_length; lia].
Qed.
(** between the two moves the code acts on the first qubits *)
Lemma kraus_core : forall n m K rho, is_matrix m K -> is_density n rho -> m <= n ->
    exists r, (let! a := tensordot (mkArr (repeat 2 (2 * m)) (data K)) rho (seq m m) (seq 0 m) in
               let! a := dagger a in
               let! a := tensordot (mkArr (repeat 2 (2 * m)) (data K)) a (seq m m) (seq 0 m) in dagger a) = Ok r /\ is_density n r /\
      keq n (rho_entry r) (sandwiched n (ctrl_kernel (entry K) [] (seq 0 m)) (rho_entry rho)).
Proof.
  intros n m K rho Mk Hr Hmn. destruct (c32_prefix n m K rho Mk Hr Hmn) as (r & E & D & Kr).
  destruct (sandwich_spec m n (mkArr (repeat 2 (2 * m)) (data K)) rho eq_refl Hr Hmn) as (b & Eb & Db & _). unfold sandwich in Eb.
  exists b. split; [exact Eb|]. assert (Q : r = b); [|subst b; split; assumption].
  pose proof Mk as [Sk Wk]. pose proof Hr as [Sr Wr]. pose proof Db as [Sb Wb]. revert E.
  unfold apply_kraus_operator, size. rewrite Sk. cbn [prod]. rewrite Nat.mul_1_r, <- Nat.pow_add_r, log2_pow.
  rewrite reshape_eq by (rewrite Sk, prod_repeat; cbn [prod]; rewrite Nat.mul_1_r, Nat.pow_add_r; reflexivity).
  cbn [bind]. unfold ndim. cbn [shape]. rewrite repeat_length, seq_length.
  replace (m + m) with (2 * m) by lia. rewrite half_2m. replace (2 * m - m) with m by lia.
  rewrite (moveaxis_id m (2 * n)) by (auto; lia). cbn [bind].
  destruct (tensordot (mkArr (repeat 2 (2 * m)) (data K)) rho (seq m m) (seq 0 m)) as [r1|]; [cbn [bind] in *|discriminate Eb].
  destruct (dagger r1) as [r2|]; [cbn [bind] in *|discriminate Eb].
  destruct (tensordot (mkArr (repeat 2 (2 * m)) (data K)) r2 (seq m m) (seq 0 m)) as [r3|]; [cbn [bind] in *|discriminate Eb].
  rewrite Eb. cbn [bind]. rewrite (moveaxis_id m (2 * n)) by (auto; lia). intro Q. injection Q as Q. congruence.
Qed.
Lemma index_of_filter : forall (P : nat -> bool) l p q, In p (filter P l) -> In q (filter P l) -> index_of p l < index_of q l -> index_of p (filter P l) < index_of q (filter P l).
Proof.
  intros P l p q. induction l as [|a l IH]; intros Ip Iq H; [destruct Ip|]. simpl in H. simpl in Ip, Iq. simpl.
  destruct (P a) eqn:Pa.
  - simpl. destruct (Nat.eqb p a) eqn:E1; destruct (Nat.eqb q a) eqn:E2; try lia.
    apply -> Nat.succ_lt_mono. apply IH; try lia; [destruct Ip as [Q|Q]|destruct Iq as [Q|Q]]; try assumption; subst; rewrite Nat.eqb_refl in *; discriminate.
  - assert (Na : forall z, In z (filter P l) -> Nat.eqb z a = false).
    { intros z Iz. apply Nat.eqb_neq. intros ->. apply filter_In in Iz as [_ Q]. congruence. }
    rewrite (Na p Ip), (Na q Iq) in H. apply IH; try assumption. lia.
Qed.
Lemma c32_exact : forall n m K rho t, is_matrix m K -> is_density n rho -> valid_qubits n t -> List.length t = m ->
    exists f r, permutes n f /\ map f t = seq 0 m /\ (forall p q, p < q -> q < n -> ~ In p t -> ~ In q t -> f p < f q) /\
      apply_kraus_operator K rho t = Ok r /\ is_density n r /\
      keq n (rho_entry r) (kmul n (kmul n (ctrl_kernel (entry K) [] (map f (seq 0 m))) (rho_entry rho)) (kadj (ctrl_kernel (entry K) [] (seq 0 m)))).
Proof.
  intros n m K rho t Mk Hr V Lt. pose proof V as [ND FB]. rewrite Forall_forall in FB.
  pose proof (free_axes_length n t ND FB) as Lf. assert (Hmn : m <= n) by lia.
  assert (HP : is_perm n (t ++ free_axes n t)) by (apply is_perm_free; assumption).
  set (h := t ++ free_axes n t) in *. pose proof (is_perm_length _ _ HP) as Lh. pose proof (is_perm_NoDup _ _ HP) as NDh.
  set (f := fun q => index_of q h). set (g := fun i => nth i h 0).
  assert (Ih : forall q, q < n -> In q h) by (intros q Hq; apply (Permutation_in q (Permutation_sym HP)); apply in_seq; lia).
  assert (FG : forall q, q < n -> g (f q) = q) by (intros q Hq; apply nth_index_of, Ih, Hq).
  assert (GF : forall i, i < n -> f (g i) = i) by (intros i Hi; apply index_of_nth; [exact NDh|lia]).
  assert (Fl : forall q, q < n -> f q < n) by (intros q Hq; rewrite <- Lh; apply index_of_lt, Ih, Hq).
  assert (Eh : map g (seq 0 n) = h) by (unfold g; rewrite <- Lh; apply (restrict_seq h)).
  assert (Pg : permutes n g).
  { unfold permutes. rewrite Eh. split; [exact NDh|]. apply Forall_forall. intros q I. apply (is_perm_In n _ q HP). exact I. }
  assert (Pf : permutes n f).
  { split.
    - apply NoDup_map_inj; [|apply seq_NoDup]. intros x y Ix Iy E. apply in_seq in Ix, Iy. rewrite <- (FG x), <- (FG y) by lia. rewrite E. reflexivity.
    - apply Forall_forall. intros x I. apply in_map_iff in I as (q & <- & Iq). apply in_seq in Iq. apply Fl. lia. }
  destruct (move_rows n m rho t Hr V Lt) as (a & Ea & Da & Ga).
  destruct (kraus_core n m K a Mk Da Hmn) as (b & Eb & Db & Kb).
  destruct (move_back n m b t Db V Lt) as (r & Er & Dr & Gr).
  exists f, r. split; [exact Pf|]. split; [|split; [|split; [|split; [exact Dr|]]]].
  - apply list_ext; [rewrite map_length, seq_length; exact Lt|]. rewrite map_length. intros k Hk. rewrite nth_map_lt with (d' := 0) by exact Hk. rewrite seq_nth by lia.
    unfold f, h. rewrite index_of_app_l by (apply nth_In; exact Hk). apply index_of_nth; assumption.
  - intros p q Hpq Hq Np Nq. unfold f, h. rewrite !index_of_app_r by assumption. apply Nat.add_lt_mono_l. unfold free_axes.
    apply index_of_filter; [apply (proj2 (free_axes_In n t p)); split; [lia|assumption]|apply (proj2 (free_axes_In n t q)); split; [lia|assumption]|]. rewrite !index_of_seq by lia. exact Hpq.
  - pose proof Mk as [Sk Wk]. unfold apply_kraus_operator, size. rewrite Sk. cbn [prod]. rewrite Nat.mul_1_r, <- Nat.pow_add_r, log2_pow.
    rewrite reshape_eq by (rewrite Sk, prod_repeat; cbn [prod]; rewrite Nat.mul_1_r, Nat.pow_add_r; reflexivity).
    cbn [bind]. unfold ndim. cbn [shape]. rewrite repeat_length.
    replace (m + m) with (2 * m) by lia. rewrite half_2m, Lt. replace (2 * m - m) with m by lia. rewrite Ea. cbn [bind]. revert Eb.
    destruct (tensordot (mkArr (repeat 2 (2 * m)) (data K)) a (seq m m) (seq 0 m)) as [r1|]; [|discriminate]. cbn [bind].
    destruct (dagger r1) as [r2|]; [|discriminate]. cbn [bind].
    destruct (tensordot (mkArr (repeat 2 (2 * m)) (data K)) r2 (seq m m) (seq 0 m)) as [r3|]; [|discriminate]. cbn [bind]. intros ->. cbn [bind]. exact Er.
  - intros x y Hx Hy. set (pull := read_through n g).
    assert (EP : forall z, pull z = restrict z h) by (intro z; unfold pull, read_through; rewrite Eh; reflexivity).
    assert (SX : exists z, In z (bitstrings n) /\ pull z = x).
    { exists (read_through n f x). split; [apply pull_bits; assumption|]. pose proof (bitstrings_length _ _ Hx) as Lx.
      apply list_ext; [unfold pull; rewrite pull_length; lia|]. unfold pull. rewrite pull_length. intros k Hk.
      rewrite nth_pull by exact Hk. rewrite nth_pull; [rewrite GF by exact Hk; reflexivity|]. apply (f_lt n g Pg). exact Hk. }
    destruct SX as (z & Hz & <-). rewrite EP at 1. rewrite Gr by assumption. rewrite (Kb z y Hz Hy). unfold sandwiched.
    assert (RO : forall u v, In u (bitstrings n) -> In v (bitstrings n) -> ctrl_kernel (entry K) [] (seq 0 m) u v = ctrl_kernel (entry K) [] (map f (seq 0 m)) (pull u) (pull v)).
    { intros u v Hu Hv. pose proof (pulled_kernel n g Pg (entry K) [] (map f (seq 0 m))) as PK. cbn [map app] in PK.
      rewrite <- PK; [|split; [|]|exact Hu|exact Hv].
      - f_equal. rewrite map_map. rewrite <- (map_id (seq 0 m)) at 1. apply map_ext_in. intros q I. apply in_seq in I. symmetry. apply FG. lia.
      - apply NoDup_map_inj; [|apply seq_NoDup]. intros u' v' Iu Iv E. apply in_seq in Iu, Iv. rewrite <- (FG u'), <- (FG v') by lia. rewrite E. reflexivity.
      - apply Forall_forall. intros q I. apply in_map_iff in I as (p & <- & Ip). apply in_seq in Ip. apply Fl. lia. }
    unfold kmul at 1 3. apply csum_ext. intros v Hv. f_equal. unfold kmul.
    rewrite <- (pull_sum n g Pg (fun u => Cmul (ctrl_kernel (entry K) [] (map f (seq 0 m)) (pull z) u) (rho_entry rho u v))).
    apply csum_ext. intros u Hu. cbv beta. rewrite (RO z u Hz Hu), (Ga u v Hu Hv). fold h. fold pull. rewrite !EP. reflexivity.
Qed.
