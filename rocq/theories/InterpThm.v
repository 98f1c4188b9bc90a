(** * Trigonometric polynomials are determined by finitely many values; so are expectations *)
From Coq Require Import String List Arith Bool Reals Lia Lra ZArith Permutation Sorted.
From Verif Require Import Cplx Py PyFacts Ndarray OperatorUtils Sparse Matrices Noise Gates Apply Composite Conversion Shots Gpsr Api
  Spec SpecFacts Deriv GateSpec PropSpec NoiseSpec SampleSpec ExpectSpec GpsrSpec GateFacts CircuitFacts AlgebraFacts ApplyThm GateThm TensorFacts TensorThm
  KrausThm NoiseThm NoiseThm2 SeqThm SampleThm ShotsSpec ShotsThm ExpectThm ExpectThm2 GpsrFacts GpsrThm GpsrThm2 GpsrThm3 StructSpec PhysSpec PhysThm TrigSpec TrigThm InterpSpec.
Import ListNotations.
Local Open Scope nat_scope.

(** ** Polynomials with complex coefficients *)
Fixpoint peval (p : list C) (x : C) : C := match p with [] => C0 | a :: p' => Cadd a (Cmul x (peval p' x)) end.
Lemma C_integral : forall a b, Cmul a b = C0 -> a = C0 \/ b = C0.
Proof.
  intros a b E. assert (H : Cnorm2 (Cmul a b) = 0%R) by (rewrite E; unfold Cnorm2, C0; simpl; ring).
  rewrite Cnorm2_mul in H. apply Rmult_integral in H as [H|H]; [left|right]; apply Cnorm2_eq0; exact H.
Qed.
Lemma pdiv : forall p r, exists q, length q = pred (length p) /\ forall x, peval p x = Cadd (peval p r) (Cmul (Csub x r) (peval q x)).
Proof.
  induction p as [|a p IH]; intro r; [exists []; split; [reflexivity|intro; simpl; ring]|].
  destruct p as [|b p]; [exists []; split; [reflexivity|intro; simpl; ring]|].
  destruct (IH r) as (q & L & E). exists (peval (b :: p) r :: q). split; [simpl in *; lia|].
  intro x. change (peval (a :: b :: p) x) with (Cadd a (Cmul x (peval (b :: p) x))). change (peval (a :: b :: p) r) with (Cadd a (Cmul r (peval (b :: p) r))).
  rewrite (E x). remember (peval (b :: p) r) as u. cbn [peval]. ring.
Qed.
Lemma proots : forall m p rs, length p <= m -> m <= length rs -> NoDup rs -> (forall r, In r rs -> peval p r = C0) -> forall x, peval p x = C0.
Proof.
  induction m as [|m IH]; intros p rs Lp Lr ND Z x; [destruct p; [reflexivity|simpl in Lp; lia]|].
  destruct rs as [|r rs]; [simpl in Lr; lia|]. destruct (pdiv p r) as (q & L & E). inversion ND as [|? ? NI ND']; subst.
  assert (Q : forall x, peval q x = C0).
  { apply (IH q rs); [simpl in *; lia|simpl in Lr; lia|exact ND'|]. intros s Is. pose proof (E s) as Es. rewrite (Z s (or_intror Is)), (Z r (or_introl eq_refl)) in Es.
    assert (H : Cmul (Csub s r) (peval q s) = C0) by (rewrite Es; ring). apply C_integral in H as [H|H]; [|exact H].
    exfalso. apply NI. replace r with s; [exact Is|]. transitivity (Cadd (Csub s r) r); [ring|rewrite H; ring]. }
  rewrite E, Q, (Z r (or_introl eq_refl)). ring.
Qed.
Fixpoint padd (p q : list C) : list C := match p, q with a :: p', b :: q' => Cadd a b :: padd p' q' | _, _ => [] end.
Lemma padd_len : forall p q, length p = length q -> length (padd p q) = length p.
Proof. induction p as [|a p IH]; intros [|b q] E; simpl in *; try discriminate; [reflexivity|]. f_equal. apply IH. lia. Qed.
Lemma padd_eval : forall p q x, length p = length q -> peval (padd p q) x = Cadd (peval p x) (peval q x).
Proof. induction p as [|a p IH]; intros [|b q] x E; simpl in *; try discriminate; [ring|]. rewrite IH by lia. ring. Qed.
Lemma peval_zeros : forall k x, peval (repeat C0 k) x = C0.
Proof. induction k as [|k IH]; intro x; [reflexivity|]. simpl. rewrite IH. ring. Qed.
Lemma Cexpi_S : forall k t, Cexpi (INR (S k) * t) = Cmul (Cexpi t) (Cexpi (INR k * t)).
Proof. intros. rewrite <- Cexpi_add. f_equal. rewrite S_INR. ring. Qed.
Lemma pmono : forall N k c, k < N -> exists p, length p = N /\ forall t, peval p (Cexpi t) = Cmul c (Cexpi (INR k * t)).
Proof.
  intros N k c H. exists (repeat C0 k ++ c :: repeat C0 (N - S k)). split; [rewrite app_length; cbn [length]; rewrite !repeat_length; lia|].
  intro t. clear H. induction k as [|k IH].
  - cbn [repeat app peval]. rewrite peval_zeros. replace (INR 0 * t)%R with 0%R by (simpl; ring). rewrite Cexpi_0. ring.
  - cbn [repeat app peval]. rewrite Cexpi_S.
    assert (G : forall l, peval (repeat C0 k ++ c :: repeat C0 l) (Cexpi t) = Cmul c (Cexpi (INR k * t))).
    { clear IH. induction k as [|k IHk]; intro l.
      - cbn [repeat app peval]. rewrite peval_zeros. replace (INR 0 * t)%R with 0%R by (simpl; ring). rewrite Cexpi_0. ring.
      - cbn [repeat app peval]. rewrite IHk, Cexpi_S. ring. }
    rewrite G. ring.
Qed.

(** ** Trigonometric polynomials *)
Definition poly_like (m : nat) (f : R -> R) : Prop :=
  exists p, length p = 2 * m + 1 /\ forall t, Cmul (Cexpi (INR m * t)) (RtoC (f t)) = peval p (Cexpi t).
Lemma pl_add : forall m f g, poly_like m f -> poly_like m g -> poly_like m (fun t => f t + g t)%R.
Proof.
  intros m f g (p & Lp & Ep) (q & Lq & Eq). exists (padd p q). split; [rewrite padd_len; congruence|]. intro t.
  rewrite padd_eval by congruence. rewrite <- Ep, <- Eq.
  replace (RtoC (f t + g t)) with (Cadd (RtoC (f t)) (RtoC (g t))) by (apply C_ext; simpl; ring). ring.
Qed.
Lemma pl_zero : forall m, poly_like m (fun _ => 0%R).
Proof. intro m. exists (repeat C0 (2 * m + 1)). split; [apply repeat_length|]. intro t. rewrite peval_zeros. change (RtoC 0) with C0. ring. Qed.
Lemma pl_term : forall m j u v, j <= m -> poly_like m (fun t => u * cos (INR j * t) + v * sin (INR j * t))%R.
Proof.
  intros m j u v H.
  destruct (pmono (2 * m + 1) (m + j) (mkC (u / 2) (- v / 2))) as (p & Lp & Ep); [lia|].
  destruct (pmono (2 * m + 1) (m - j) (mkC (u / 2) (v / 2))) as (q & Lq & Eq); [lia|].
  exists (padd p q). split; [rewrite padd_len; congruence|]. intro t. rewrite padd_eval by congruence. rewrite Ep, Eq.
  rewrite plus_INR, minus_INR by exact H. rewrite Rmult_plus_distr_r, Cexpi_add.
  replace ((INR m - INR j) * t)%R with (INR m * t + - (INR j * t))%R by ring. rewrite Cexpi_add, <- Cexpi_conj.
  remember (Cexpi (INR m * t)) as z. unfold Cexpi. apply C_ext; unfold Cmul, Cadd, RtoC, Cconj; cbn [re im]; field.
Qed.
Lemma pl_rsum : forall m (f : nat -> R -> R) l, (forall j, In j l -> poly_like m (f j)) -> poly_like m (fun t => rsum l (fun j => f j t)).
Proof.
  intros m f l. induction l as [|a l IH]; intro H; [apply pl_zero|].
  destruct (pl_add m (f a) (fun t => rsum l (fun j => f j t)) (H a (or_introl eq_refl))) as (p & L & E); [apply IH; intros j I; apply H; right; exact I|].
  exists p. split; [exact L|]. intro t. rewrite <- E. reflexivity.
Qed.
Lemma trig_pl : forall m f, trig_poly m f -> poly_like m f.
Proof.
  intros m f (a & b & E).
  destruct (pl_rsum m (fun j t => a j * cos (INR j * t) + b j * sin (INR j * t))%R (seq 0 (S m))) as (p & L & Ep); [intros j I; apply in_seq in I; apply pl_term; lia|].
  exists p. split; [exact L|]. intro t. rewrite E. apply Ep.
Qed.
Lemma cos_one : forall x, (- (2 * PI) < x < 2 * PI)%R -> cos x = 1%R -> x = 0%R.
Proof.
  intros x H E. replace x with (2 * (x / 2))%R in E by field. rewrite cos_2a_sin in E.
  assert (S0 : sin (x / 2) = 0%R) by nra.
  destruct (Rtotal_order (x / 2) 0) as [L|[Z|G]]; [|lra|].
  - assert (P : (0 < sin (- (x / 2)))%R) by (apply sin_gt_0; lra). rewrite sin_neg in P. lra.
  - assert (P : (0 < sin (x / 2))%R) by (apply sin_gt_0; lra). lra.
Qed.
Lemma Cexpi_inj : forall s t, (0 <= s < 2 * PI)%R -> (0 <= t < 2 * PI)%R -> Cexpi s = Cexpi t -> s = t.
Proof.
  intros s t Hs Ht E. assert (Z : (s - t)%R = 0%R); [|lra].
  apply cos_one; [lra|]. unfold Cexpi in E. injection E as Ec Es. rewrite cos_minus, Ec, Es. pose proof (sin2_cos2 t) as P. unfold Rsqr in P. lra.
Qed.
Lemma NoDup_expi : forall l, NoDup l -> Forall (fun t => 0 <= t < 2 * PI)%R l -> NoDup (map Cexpi l).
Proof.
  induction l as [|a l IH]; intros ND F; [constructor|]. inversion ND as [|? ? NI ND']; subst. inversion F as [|? ? Ha F']; subst.
  simpl. constructor; [|apply IH; assumption]. intro I. apply in_map_iff in I as (b & Eb & Ib). apply NI.
  rewrite (Cexpi_inj a b); [exact Ib|exact Ha|apply (proj1 (Forall_forall _ _) F' b Ib)|congruence].
Qed.
Lemma trig_zero : forall m f l, trig_poly m f -> NoDup l -> Forall (fun t => 0 <= t < 2 * PI)%R l -> 2 * m < length l -> (forall t, In t l -> f t = 0%R) ->
    forall t, f t = 0%R.
Proof.
  intros m f l T ND F L Z t. destruct (trig_pl m f T) as (p & Lp & E).
  assert (H : peval p (Cexpi t) = C0).
  { apply (proots (2 * m + 1) p (map Cexpi l)); [lia|rewrite map_length; lia|apply NoDup_expi; assumption|].
    intros r I. apply in_map_iff in I as (s & <- & Is). rewrite <- E, (Z s Is). change (RtoC 0) with C0. ring. }
  rewrite <- E in H. apply C_integral in H as [H|H].
  - exfalso. pose proof (Cexpi_norm2 (INR m * t)) as N. rewrite H in N. unfold Cnorm2, C0 in N. simpl in N. lra.
  - unfold RtoC, C0 in H. injection H as H. exact H.
Qed.
Lemma trig_le : forall m m' f, m <= m' -> trig_poly m f -> trig_poly m' f.
Proof.
  intros m m' f H (a & b & E). apply (trig_ext _ (fun t => rsum (seq 0 (S m)) (fun j => a j * cos (INR j * t) + b j * sin (INR j * t))%R)); [exact E|].
  apply (trig_rsum m' (fun j t => a j * cos (INR j * t) + b j * sin (INR j * t))%R). intros j I. apply in_seq in I. apply trig_term. lia.
Qed.
Lemma trig_opp : forall m f, trig_poly m f -> trig_poly m (fun t => - f t)%R.
Proof.
  intros m f (a & b & E). exists (fun j => - a j)%R, (fun j => - b j)%R. intro t. rewrite E. generalize (seq 0 (S m)). intro l.
  induction l as [|x l IH]; [simpl; ring|]. change (rsum (x :: l) ?h) with (h x + rsum l h)%R in *. cbv beta. rewrite <- IH. unfold rsum at 1. simpl. fold (rsum l (fun j : nat => (a j * cos (INR j * t) + b j * sin (INR j * t))%R)). ring.
Qed.
Lemma trig_agree : forall m f g l, trig_poly m f -> trig_poly m g -> NoDup l -> Forall (fun t => 0 <= t < 2 * PI)%R l -> 2 * m < length l ->
    (forall t, In t l -> f t = g t) -> forall t, f t = g t.
Proof.
  intros m f g l Tf Tg ND F L E t. apply Rminus_diag_uniq. apply (trig_zero m (fun s => f s - g s)%R l); auto.
  - apply (trig_ext m (fun s => f s + - g s)%R); [intro; ring|]. apply trig_add; [exact Tf|apply trig_opp; exact Tg].
  - intros s Is. rewrite (E s Is). ring.
Qed.

(** ** Lists of functions *)
Lemma trig_lists : forall m fs gs l, Forall (trig_poly m) fs -> Forall (trig_poly m) gs -> NoDup l -> Forall (fun t => 0 <= t < 2 * PI)%R l -> 2 * m < length l ->
    (forall t, In t l -> map (fun f => f t) fs = map (fun f => f t) gs) -> forall t, map (fun f : R -> R => f t) fs = map (fun f => f t) gs.
Proof.
  induction fs as [|f fs IH]; intros [|g gs] l Ff Fg ND F L E t; try reflexivity;
    try (exfalso; destruct l as [|a l]; [simpl in L; lia|specialize (E a (or_introl eq_refl)); discriminate]).
  inversion Ff; inversion Fg; subst. simpl. f_equal.
  - apply (trig_agree m f g l); auto. intros s Is. specialize (E s Is). simpl in E. congruence.
  - apply (IH gs l); auto. intros s Is. specialize (E s Is). simpl in E. congruence.
Qed.

(** ** Dictionaries *)
Lemma at_comm : forall vals a b s t, a <> b -> In a (map fst vals) -> In b (map fst vals) -> at_value (at_value vals a s) b t = at_value (at_value vals b t) a s.
Proof.
  intros vals a b s t N. unfold at_value. induction vals as [|[k v] vals IH]; intros Ia Ib; [destruct Ia|].
  simpl. destruct (String.eqb_spec a k) as [Ea|Na]; destruct (String.eqb_spec b k) as [Eb|Nb]; simpl; try congruence.
  - destruct (String.eqb_spec b k); [congruence|]. destruct (String.eqb_spec a k); [reflexivity|congruence].
  - destruct (String.eqb_spec b k); [|congruence]. destruct (String.eqb_spec a k); [congruence|reflexivity].
  - destruct (String.eqb_spec b k); [congruence|]. destruct (String.eqb_spec a k); [congruence|]. f_equal. apply IH; [destruct Ia as [Q|Q]|destruct Ib as [Q|Q]]; simpl in *; congruence || assumption.
Qed.
Lemma at_keys : forall vals a s, In a (map fst vals) -> map fst (at_value vals a s) = map fst vals.
Proof.
  intros vals a s. unfold at_value. induction vals as [|[k v] vals IH]; intro I; [destruct I|]. simpl. destruct (String.eqb_spec a k); [reflexivity|].
  simpl. f_equal. apply IH. destruct I as [Q|Q]; [simpl in Q; congruence|exact Q].
Qed.
Lemma ats_keys : forall a vals, (forall x, In x (map fst a) -> In x (map fst vals)) -> map fst (at_values vals a) = map fst vals.
Proof.
  induction a as [|[k t] a IH]; intros vals H; [reflexivity|]. change (at_values vals ((k, t) :: a)) with (at_values (at_value vals k t) a).
  rewrite IH; [apply at_keys; apply H; left; reflexivity|]. intros x I. rewrite at_keys by (apply H; left; reflexivity). apply H. right. exact I.
Qed.
Lemma ats_comm : forall a vals k t, ~ In k (map fst a) -> In k (map fst vals) -> (forall x, In x (map fst a) -> In x (map fst vals)) ->
    at_values (at_value vals k t) a = at_value (at_values vals a) k t.
Proof.
  induction a as [|[b s] a IH]; intros vals k t NI Ik H; [reflexivity|].
  change (at_values (at_value vals k t) ((b, s) :: a)) with (at_values (at_value (at_value vals k t) b s) a). change (at_values vals ((b, s) :: a)) with (at_values (at_value vals b s) a).
  assert (Ib : In b (map fst vals)) by (apply H; left; reflexivity).
  rewrite at_comm; [|intro Q; apply NI; left; symmetry; exact Q|exact Ik|exact Ib].
  apply IH; [intro Q; apply NI; right; exact Q|rewrite at_keys by exact Ib; exact Ik|]. intros x I. rewrite at_keys by exact Ib. apply H. right. exact I.
Qed.
Lemma flat_ats : forall a vals, (forall x, In x (map fst a) -> In x (map fst vals)) -> flat_values vals -> flat_values (at_values vals a).
Proof.
  induction a as [|[k t] a IH]; intros vals H F; [exact F|]. change (at_values vals ((k, t) :: a)) with (at_values (at_value vals k t) a).
  assert (Ik : In k (map fst vals)) by (apply H; left; reflexivity).
  apply IH; [|apply flat_at; assumption]. intros x I. rewrite at_keys by exact Ik. apply H. right. exact I.
Qed.
Lemma runnable_ats : forall a n vals c gs, runnable n vals c gs -> runnable n (at_values vals a) c gs.
Proof. induction a as [|[k t] a IH]; intros n vals c gs H; [exact H|]. apply (IH n (at_value vals k t)). apply runnable_at. exact H. Qed.

(** ** One parameter *)
Lemma interp_one : forall w n vals c gs st obs Ks n' c' gs' st' obs' Ks' mode mode' key key' name l, set_order (set_iter w) -> flat_values vals -> In name (map fst vals) ->
    runnable n vals c gs -> state_of n st -> obs <> [] -> (forall t, Forall2 (readable w n (at_value vals name t) st gs) obs Ks) -> exact_mode mode ->
    runnable n' vals c' gs' -> state_of n' st' -> obs' <> [] -> (forall t, Forall2 (readable w n' (at_value vals name t) st' gs') obs' Ks') -> exact_mode mode' ->
    enough_values gs gs' (name, l) ->
    (forall t, In t l -> expectation w st c obs (at_value vals name t) mode 0 key = expectation w st' c' obs' (at_value vals name t) mode' 0 key') ->
    forall t, expectation w st c obs (at_value vals name t) mode 0 key = expectation w st' c' obs' (at_value vals name t) mode' 0 key'.
Proof.
  intros w n vals c gs st obs Ks n' c' gs' st' obs' Ks' mode mode' key key' name l SO FV IN RN HT NO FK EM RN' HT' NO' FK' EM' [ND EV] AG t.
  destruct (c104_trig w n vals c gs st obs Ks name mode key SO FV RN HT NO IN FK EM) as (fs & _ & E & T2 & T1).
  destruct (c104_trig w n' vals c' gs' st' obs' Ks' name mode' key' SO FV RN' HT' NO' IN FK' EM') as (fs' & _ & E' & T2' & T1').
  assert (AG' : forall s, In s l -> map (fun f => f s) fs = map (fun f => f s) fs') by (intros s Is; specialize (AG s Is); rewrite E, E' in AG; congruence).
  rewrite E, E'. f_equal. cbn [fst snd] in *. destruct EV as [(NC & NC' & F & L)|(F & L)].
  - apply (trig_lists (Nat.max (uses gs name) (uses gs' name)) fs fs' l); auto; (eapply Forall_impl; [|first [exact (T1 NC)|exact (T1' NC')]]); intros f; apply trig_le; lia.
  - pose proof (trig_lists (2 * Nat.max (uses gs name) (uses gs' name)) (map (fun f s => f (2 * s)%R) fs) (map (fun f s => f (2 * s)%R) fs') (map (fun s => s / 2)%R l)) as H.
    rewrite map_length in H. specialize (H) as H0. clear H.
    assert (H : forall s, map (fun f : R -> R => f s) (map (fun f s0 => f (2 * s0)%R) fs) = map (fun f : R -> R => f s) (map (fun f s0 => f (2 * s0)%R) fs')).
    { apply H0.
      - rewrite Forall_map. eapply Forall_impl; [|exact T2]. intros f. apply trig_le. lia.
      - rewrite Forall_map. eapply Forall_impl; [|exact T2']. intros f. apply trig_le. lia.
      - apply NoDup_map_in; [|exact ND]. intros x y _ _ Q. lra.
      - rewrite Forall_map. eapply Forall_impl; [|exact F]. cbv beta. intros x Hx. lra.
      - lia.
      - intros s Is. apply in_map_iff in Is as (u & <- & Iu). rewrite !map_map. replace (2 * (u / 2))%R with u by field. apply AG'. exact Iu. }
    specialize (H (t / 2)%R). rewrite !map_map in H. replace (2 * (t / 2))%R with t in H by field. exact H.
Qed.

(** ** Several parameters *)
Lemma c124_grid : forall w n vals c gs st obs Ks n' c' gs' st' obs' Ks' mode mode' key key' grid, set_order (set_iter w) -> flat_values vals ->
    NoDup (map fst grid) -> incl (map fst grid) (map fst vals) -> Forall (enough_values gs gs') grid ->
    runnable n vals c gs -> state_of n st -> obs <> [] -> exact_mode mode ->
    (forall a, map fst a = map fst grid -> Forall2 (readable w n (at_values vals a) st gs) obs Ks) ->
    runnable n' vals c' gs' -> state_of n' st' -> obs' <> [] -> exact_mode mode' ->
    (forall a, map fst a = map fst grid -> Forall2 (readable w n' (at_values vals a) st' gs') obs' Ks') ->
    (forall a, on_grid a grid -> expectation w st c obs (at_values vals a) mode 0 key = expectation w st' c' obs' (at_values vals a) mode' 0 key') ->
    forall a, map fst a = map fst grid -> expectation w st c obs (at_values vals a) mode 0 key = expectation w st' c' obs' (at_values vals a) mode' 0 key'.
Proof.
  intros w n vals c gs st obs Ks n' c' gs' st' obs' Ks' mode mode' key key' grid SO. revert vals.
  induction grid as [|[k l] grid IH]; intros vals FV ND IC EV RN HT NO EM FK RN' HT' NO' EM' FK' AG a Ea.
  - apply AG. destruct a; [constructor|discriminate].
  - destruct a as [|[k' t] a]; [discriminate|]. simpl in Ea. injection Ea as -> Ea. inversion ND as [|? ? NI ND']; subst. inversion EV as [|? ? E1 EV']; subst.
    assert (Ik : In k (map fst vals)) by (apply IC; left; reflexivity).
    assert (Ir : forall x, In x (map fst a) -> In x (map fst vals)) by (intros x I; apply IC; right; rewrite <- Ea; exact I).
    assert (NIa : ~ In k (map fst a)) by (rewrite Ea; exact NI).
    change (at_values vals ((k, t) :: a)) with (at_values (at_value vals k t) a). rewrite ats_comm by assumption.
    apply (interp_one w n (at_values vals a) c gs st obs Ks n' c' gs' st' obs' Ks' mode mode' key key' k l); auto.
    + apply flat_ats; assumption.
    + rewrite ats_keys by assumption. exact Ik.
    + apply runnable_ats. exact RN.
    + intro s. rewrite <- ats_comm by assumption. apply (FK ((k, s) :: a)). simpl. congruence.
    + apply runnable_ats. exact RN'.
    + intro s. rewrite <- ats_comm by assumption. apply (FK' ((k, s) :: a)). simpl. congruence.
    + intros s Is. rewrite <- ats_comm by assumption. apply (IH (at_value vals k s)); auto.
      * apply flat_at; assumption.
      * intros x I. rewrite at_keys by exact Ik. apply IC. right. exact I.
      * apply runnable_at. exact RN.
      * intros b Eb. apply (FK ((k, s) :: b)). simpl. congruence.
      * apply runnable_at. exact RN'.
      * intros b Eb. apply (FK' ((k, s) :: b)). simpl. congruence.
      * intros b Gb. apply (AG ((k, s) :: b)). constructor; [split; [reflexivity|exact Is]|exact Gb].
Qed.

(** ** The number of values is sharp *)
Lemma c124_sharp : forall w, exists c c' gs gs' (obs : list (list oper)) (l : list R),
    sequence_of c gs /\ sequence_of c' gs' /\ no_controlled_rotation gs "a" /\ no_controlled_rotation gs' "a" /\
    NoDup l /\ Forall (fun t => 0 <= t < 2 * PI)%R l /\ length l = 2 * Nat.max (uses gs "a") (uses gs' "a") /\ length l = 2 /\
    (forall t, In t l -> expectation w (SDense (zero_state 1)) c obs [("a"%string, VNum t)] GPSR 0 0 = expectation w (SDense (zero_state 1)) c' obs [("a"%string, VNum t)] GPSR 0 0) /\
    expectation w (SDense (zero_state 1)) c obs [("a"%string, VNum 0)] GPSR 0 0 = Ok [1%R] /\
    expectation w (SDense (zero_state 1)) c' obs [("a"%string, VNum 0)] GPSR 0 0 = Ok [0%R].
Proof.
  intro w. set (gs := [RX (PName "a") (TInt 0) INone None false]). set (gs' := [gH (TInt 0) no_control None false]).
  assert (E : forall t, expectation w (SDense (zero_state 1)) (seq_oper gs) [z0_obs] [("a"%string, VNum t)] GPSR 0 0 = Ok [cos t]).
  { intro t. rewrite expect_eval. transitivity (Ok [(cos (t / 2) * cos (t / 2) - sin (t / 2) * sin (t / 2))%R]).
    - replace (t / 2)%R with ((t + 0) / 2)%R by field. ev. f_equal. f_equal. ring.
    - f_equal. f_equal. replace t with (2 * (t / 2))%R at 5 by field. rewrite cos_2a. reflexivity. }
  assert (E' : forall t, expectation w (SDense (zero_state 1)) (seq_oper gs') [z0_obs] [("a"%string, VNum t)] GPSR 0 0 = Ok [0%R]).
  { intro t. rewrite expect_eval. ev. f_equal. f_equal. ring. }
  pose proof PI_RGT_0 as P.
  exists (seq_oper gs), (seq_oper gs'), gs, gs', [z0_obs], [PI / 2; 3 * (PI / 2)]%R.
  split; [apply seq_sequence|]. split; [apply seq_sequence|].
  split; [intros g [<-|[]] _; right; constructor|]. split; [intros g [<-|[]] []|].
  split; [apply NoDup_cons; [simpl; intuition lra|apply NoDup_cons; [intros []|apply NoDup_nil]]|].
  split; [apply Forall_cons; [lra|apply Forall_cons; [lra|apply Forall_nil]]|].
  split; [reflexivity|]. split; [reflexivity|]. split; [|split; [rewrite E, cos_0; reflexivity|apply E']].
  intros t [<-|[<-|[]]]; rewrite E, E'; f_equal; f_equal; [apply cos_PI2|]. replace (3 * (PI / 2))%R with (PI / 2 + PI)%R by field. rewrite neg_cos, cos_PI2. ring.
Qed.
