(** * State helpers and composites (C72-C74, C77, C78) *)
From Coq Require Import String List Arith Bool Reals Lia Lra.
From Verif Require Import Cplx Py PyFacts Ndarray NdFacts OperatorUtils ApplyOperator Sparse Matrices Noise Gates Apply Composite Api Spec SpecFacts GateSpec PropSpec SampleSpec SparseSpec NoiseSpec ExpectSpec StructSpec
  ApplyFacts GateFacts CircuitFacts ApplyThm TensorFacts TensorThm GateThm SparseFacts SampleThm ExpectThm ExpectThm2 GpsrThm3 StructThm StructThm2.
Import ListNotations.
Local Open Scope nat_scope.

(** ** C72 *)
Lemma norm2_data : forall n a, is_state n a -> norm2 n (amp a) = rsum (data a) Cnorm2.
Proof. intros n a H. rewrite (data_state n a H), rsum_map'. reflexivity. Qed.
Lemma product_amp : forall n b, In b (bitstrings n) -> is_state n (product_state b) /\ veq n (amp (product_state b)) (ket b).
Proof.
  intros n b Hb. pose proof (bitstrings_length _ _ Hb) as L. unfold product_state, set_at. rewrite L. split; [split; [reflexivity|apply wf_build]|].
  intros x Hx. assert (I : inb (repeat 2 n) x) by (apply bitstrings_inb; exact Hx). unfold amp, ket. cbn [shape zeros build].
  rewrite (get_build (repeat 2 n)) by exact I. unfold zeros. rewrite get_build by exact I. destruct (list_eq_dec Nat.eq_dec x b) as [E|E].
  - subst. rewrite list_eqb_refl. reflexivity.
  - destruct (list_eqb x b) eqn:Q; [|reflexivity]. apply list_eqb_eq in Q. contradiction.
Qed.
Lemma basis_norm : forall n b, In b (bitstrings n) -> norm2 n (ket b) = 1%R.
Proof.
  intros n b Hb. assert (E : RtoC (norm2 n (ket b)) = RtoC 1).
  { unfold norm2. rewrite rsum_csum. rewrite (csum_single _ b).
    - unfold ket. destruct (list_eq_dec Nat.eq_dec b b); [|contradiction]. unfold Cnorm2, C1; cbn. f_equal; ring.
    - apply bitstrings_NoDup.
    - exact Hb.
    - intros x _ D. unfold ket. destruct (list_eq_dec Nat.eq_dec x b); [contradiction|]. unfold Cnorm2, C0, RtoC; cbn. f_equal; ring. }
  apply (f_equal re) in E. exact E.
Qed.
Lemma c72_product_thm : forall n b, In b (bitstrings n) ->
    is_state n (product_state b) /\ veq n (amp (product_state b)) (ket b) /\ norm2 n (amp (product_state b)) = 1%R /\
    todense (b_product_state b) = product_state b.
Proof.
  intros n b Hb. destruct (product_amp n b Hb) as [S V]. split; [exact S|]. split; [exact V|]. split.
  - rewrite <- (basis_norm n b Hb). unfold norm2. apply rsum_ext. intros x Hx. rewrite (V x Hx). reflexivity.
  - unfold todense, b_product_state, product_state, set_at. cbn [bshp bent shape zeros build]. apply build_ext. intros v Hv. cbn [csum fst snd].
    fold (zeros (repeat 2 (length b))). unfold zeros. rewrite get_build by exact Hv.
    rewrite (list_eqb_sym_iff b v v b) by (split; congruence). destruct (list_eqb v b); ring.
Qed.
Lemma zeros_bits : forall n, In (repeat 0 n) (bitstrings n).
Proof. induction n as [|n IH]; [left; reflexivity|]. cbn [repeat bitstrings]. apply in_or_app. left. apply in_map. exact IH. Qed.
Lemma c72_zero_thm : forall n, In (repeat 0 n) (bitstrings n) /\ zero_state n = product_state (repeat 0 n) /\ is_state n (zero_state n) /\
    veq n (amp (zero_state n)) (ket (repeat 0 n)) /\ norm2 n (amp (zero_state n)) = 1%R /\ todense (b_zero_state n) = zero_state n.
Proof. intro n. split; [apply zeros_bits|]. split; [reflexivity|]. destruct (c72_product_thm n (repeat 0 n) (zeros_bits n)) as (A & B & D & E). repeat (split; [assumption|]). exact E. Qed.

Lemma nth_repeat_C : forall (c : C) m k, k < m -> nth k (repeat c m) C0 = c.
Proof. intros c m; induction m as [|m IH]; intros [|k] H; simpl; try lia; [reflexivity|]. apply IH; lia. Qed.
Lemma INR_pow2_pos : forall n, (0 < INR (2 ^ n))%R.
Proof. intro n. apply lt_0_INR. apply Nat.neq_0_lt_0, Nat.pow_nonzero; lia. Qed.
Lemma rsum_repeat : forall (f : C -> R) c m, rsum (repeat c m) f = (INR m * f c)%R.
Proof. intros f c m; induction m as [|m IH]; [simpl; ring|]. cbn [repeat rsum]. rewrite IH, S_INR. ring. Qed.
Lemma c72_uniform_thm : forall n, exists a b, uniform_state n = Ok a /\ is_state n a /\
    (forall x, In x (bitstrings n) -> amp a x = RtoC (1 / sqrt (2 ^ n))) /\ norm2 n (amp a) = 1%R /\ b_uniform_state n = Ok b /\ todense b = a.
Proof.
  intro n. set (d := repeat (RtoC (1 / sqrt (INR (2 ^ n)))) (2 ^ n)). set (a := mkArr (repeat 2 n) d).
  assert (P : prod (repeat 2 n) = prod [2 ^ n]) by (rewrite prod_repeat; simpl; lia).
  assert (E : uniform_state n = Ok a) by (unfold uniform_state; rewrite reshape_eq by exact P; reflexivity).
  assert (S : is_state n a) by (split; [reflexivity|unfold wf, a; cbn [data shape]; unfold d; rewrite repeat_length, prod_repeat; reflexivity]).
  assert (W : wf (mkArr [2 ^ n] d)) by (unfold wf; cbn [data shape]; unfold d; rewrite repeat_length; simpl; lia).
  pose proof (reshape_commutes (fromdense (mkArr [2 ^ n] d)) (repeat 2 n)) as RC. rewrite todense_fromdense in RC by exact W.
  rewrite reshape_eq in RC by exact P. destruct (dlift_inv _ _ RC) as (b & Eb & Tb).
  exists a, b. split; [exact E|]. split; [exact S|]. split; [|split; [|split; [exact Eb|symmetry; exact Tb]]].
  - intros x Hx. unfold amp, get, a. cbn [shape data]. unfold d. rewrite nth_repeat_C.
    + rewrite pow_INR. reflexivity.
    + rewrite <- (prod_repeat 2 n). apply ravel_lt. apply bitstrings_inb. exact Hx.
  - rewrite (norm2_data n a S). unfold a; cbn [data]. unfold d. rewrite rsum_repeat. pose proof (INR_pow2_pos n) as H. unfold Cnorm2, RtoC; cbn [re im].
    assert (Q : (sqrt (INR (2 ^ n)) * sqrt (INR (2 ^ n)) = INR (2 ^ n))%R) by (apply sqrt_sqrt; lra).
    assert (Q0 : (sqrt (INR (2 ^ n)) <> 0)%R) by (intro Z; rewrite Z in Q; lra).
    rewrite <- Q at 1. field. exact Q0.
Qed.

(** the draws of [jax.random.uniform], assumed to be in the open interval *)
Lemma Cnorm2_mul : forall a b, Cnorm2 (Cmul a b) = (Cnorm2 a * Cnorm2 b)%R.
Proof. intros [x y] [z t]; unfold Cnorm2, Cmul; cbn [re im]; ring. Qed.
Lemma Cnorm2_nonneg : forall a, (0 <= Cnorm2 a)%R.
Proof. intros [x y]; unfold Cnorm2; cbn [re im]; nra. Qed.
Lemma fold_rsum : forall {A} (f : A -> R) l, fold_right Rplus 0%R (map f l) = rsum l f.
Proof. intros A f l; induction l as [|x l IH]; [reflexivity|]. cbn [map fold_right rsum]. rewrite IH. reflexivity. Qed.
Lemma Cabs_sqr : forall z, (Cabs z * Cabs z = Cnorm2 z)%R.
Proof. intro z. unfold Cabs. apply sqrt_sqrt, Cnorm2_nonneg. Qed.
Lemma rsum_pos : forall {A} (f : A -> R) l, l <> [] -> (forall x, In x l -> 0 < f x)%R -> (0 < rsum l f)%R.
Proof.
  intros A f l; induction l as [|x l IH]; intros N H; [congruence|]. cbn [rsum]. destruct l as [|y l].
  - cbn [rsum]. specialize (H x (or_introl eq_refl)). lra.
  - assert (0 < rsum (y :: l) f)%R by (apply IH; [discriminate|intros z Hz; apply H; right; exact Hz]). specialize (H x (or_introl eq_refl)). lra.
Qed.
Lemma c72_random_thm : forall n u, length u = 2 ^ n -> Forall (fun t => 0 < t < 1)%R u ->
    exists a b, random_state n u = Ok a /\ is_state n a /\ norm2 n (amp a) = 1%R /\ b_random_state n u = Ok b /\ todense b = a.
Proof.
  intros n u L F. unfold b_random_state, random_state.
  set (x := map (fun t => (- ln t)%R) u). set (sx := fold_right Rplus 0%R x).
  set (z := map (fun xp => Cmul (RtoC (sqrt (fst xp / sx))) (Cexpi (snd xp))) (combine x (map (fun t => (t * 2 * PI)%R) u))).
  assert (Lz : length z = 2 ^ n) by (unfold z, x; rewrite map_length, combine_length, !map_length, L; lia).
  rewrite reshape_eq by (rewrite prod_repeat; simpl; lia). cbn [bind data].
  set (N := rsum z Cnorm2).
  assert (EN : fold_right Rplus 0%R (map (fun z0 => (Cabs z0 * Cabs z0)%R) z) = N).
  { rewrite fold_rsum. apply rsum_ext. intros; apply Cabs_sqr. }
  rewrite EN.
  assert (Hx : forall t, In t x -> (0 < t)%R).
  { intros t It. unfold x in It. apply in_map_iff in It. destruct It as (s & <- & Is). rewrite Forall_forall in F. specialize (F s Is). assert (ln s < ln 1)%R by (apply ln_increasing; lra). rewrite ln_1 in H. lra. }
  assert (NE : x <> []) by (intro Q; apply (f_equal (@length R)) in Q; unfold x in Q; rewrite map_length, L in Q; simpl in Q; pose proof (Nat.pow_nonzero 2 n); lia).
  assert (Psx : (0 < sx)%R).
  { unfold sx. replace (fold_right Rplus 0%R x) with (rsum x (fun t => t)) by (rewrite <- fold_rsum, map_id; reflexivity). apply rsum_pos; assumption. }
  assert (PN : (0 < N)%R).
  { apply rsum_pos.
    - intro Q. apply (f_equal (@length C)) in Q. rewrite Lz in Q. simpl in Q. pose proof (Nat.pow_nonzero 2 n); lia.
    - intros c Ic. unfold z in Ic. apply in_map_iff in Ic. destruct Ic as ([t p] & <- & It). apply in_combine_l in It. specialize (Hx t It). cbn [fst snd].
      rewrite Cnorm2_mul. unfold Cnorm2, RtoC, Cexpi; cbn [re im]. assert (Q : (0 < t / sx)%R) by (apply Rdiv_lt_0_compat; assumption).
      assert (Q2 : (sqrt (t / sx) * sqrt (t / sx) = t / sx)%R) by (apply sqrt_sqrt; lra). pose proof (sin2_cos2 p) as Q3. unfold Rsqr in Q3.
      replace (cos p * cos p + sin p * sin p)%R with 1%R by lra. nra. }
  set (a := map_arr (fun c => Cmul c (RtoC (/ sqrt N))) (mkArr (repeat 2 n) z)).
  assert (S : is_state n a) by (split; [reflexivity|unfold wf, a, map_arr; cbn [data shape]; rewrite map_length, Lz, prod_repeat; reflexivity]).
  exists a, (fromdense a). split; [reflexivity|]. split; [exact S|]. split; [|split; [reflexivity|apply todense_fromdense; exact (proj2 S)]].
  rewrite (norm2_data n a S). unfold a, map_arr; cbn [data]. rewrite rsum_map'.
  assert (Q : (sqrt N * sqrt N = N)%R) by (apply sqrt_sqrt; lra). assert (Q0 : (sqrt N <> 0)%R) by (intro Z; rewrite Z in Q; lra).
  rewrite (rsum_ext z _ (fun c => / N * Cnorm2 c)%R).
  - rewrite rsum_scale. fold N. field. lra.
  - intros c _. rewrite Cnorm2_mul. unfold Cnorm2 at 2, RtoC; cbn [re im].
    replace (/ sqrt N * / sqrt N + 0 * 0)%R with (/ N)%R; [ring|]. rewrite <- Q at 1. field. exact Q0.
Qed.

(** ** C73 *)
Lemma overlap_spec : forall n a b, is_state n a -> is_state n b ->
    overlap a b = Ok (re (inner_product n (amp a) (amp b)) * re (inner_product n (amp a) (amp b)) - im (inner_product n (amp a) (amp b)) * im (inner_product n (amp a) (amp b)))%R.
Proof. intros n a b A B. unfold overlap. rewrite (inner_spec n) by assumption. reflexivity. Qed.
Lemma c73_partial_thm : forall n a b, is_state n a -> is_state n b -> im (inner_product n (amp a) (amp b)) = 0%R ->
    overlap a b = Ok (Cnorm2 (inner_product n (amp a) (amp b))).
Proof. intros n a b A B E. rewrite (overlap_spec n) by assumption. unfold Cnorm2. rewrite E. f_equal. ring. Qed.
Lemma c73_refuted_thm : forall n a, is_state n a -> norm2 n (amp a) = 1%R ->
    exists b, is_state n b /\ veq n (amp b) (fun x => Cmul Ci (amp a x)) /\ norm2 n (amp b) = 1%R /\
      Cnorm2 (inner_product n (amp a) (amp b)) = 1%R /\ overlap a b = Ok (-1)%R /\ equivalent_state a b = Ok false.
Proof.
  intros n a S N. set (b := scale Ci a).
  assert (V : veq n (amp b) (fun x => Cmul Ci (amp a x))).
  { intros x Hx. unfold amp, b, scale. rewrite get_map_arr; [reflexivity|exact (proj2 S)|]. rewrite (proj1 S). apply bitstrings_inb. exact Hx. }
  assert (SB : is_state n b).
  { destruct S as [S W]. split; [exact S|]. unfold wf, b, scale, map_arr in *; cbn [data shape]. rewrite map_length. exact W. }
  assert (IP : inner_product n (amp a) (amp b) = Ci).
  { rewrite (inner_ext n _ (amp a) _ (fun x => Cmul Ci (amp a x))) by (assumption || (intros ? ?; reflexivity)). unfold inner_product.
    rewrite (csum_ext _ _ (fun x => Cmul Ci (Cmul (Cconj (amp a x)) (amp a x)))) by (intros; ring). rewrite csum_scale_l.
    change (csum (bitstrings n) (fun x => Cmul (Cconj (amp a x)) (amp a x))) with (inner_product n (amp a) (amp a)). rewrite inner_norm2, N. unfold Ci, RtoC, Cmul; cbn [re im]; f_equal; ring. }
  assert (O : overlap a b = Ok (-1)%R).
  { rewrite (overlap_spec n) by assumption. rewrite IP. unfold Ci; cbn [re im]. f_equal. ring. }
  exists b. split; [exact SB|]. split; [exact V|]. split.
  - rewrite <- N. unfold norm2. apply rsum_ext. intros x Hx. rewrite (V x Hx), Cnorm2_mul. unfold Cnorm2 at 1, Ci; cbn [re im]. ring.
  - split; [rewrite IP; unfold Cnorm2, Ci; cbn [re im]; ring|]. split; [exact O|]. unfold equivalent_state. rewrite O. cbn [bind].
    destruct (Rle_dec _ _) as [H|H]; [|reflexivity]. exfalso. rewrite Rabs_R1 in H. replace (Rabs (-1 - 1)) with 2%R in H by (rewrite Rabs_left; lra).
    assert (T1 : (/ 10 ^ 14 <= 1)%R) by (rewrite <- Rinv_1; apply Rinv_le_contravar; [lra|apply pow_R1_Rle; lra]).
    assert (T2 : (/ 10 ^ 5 < 1)%R) by (rewrite <- Rinv_1; apply Rinv_lt_contravar; [|simpl; lra]; simpl; lra). nra.
Qed.
(** ** C74 *)
Lemma c74_thm : forall n a, is_state n a -> exists b, is_normalized a = Ok b /\
    (b = true <-> (Rabs (norm2 n (amp a) * norm2 n (amp a) - 1) <= / 10 ^ 14 + / 10 ^ 5)%R) /\ (norm2 n (amp a) = 1%R -> b = true).
Proof.
  intros n a S. unfold is_normalized, equivalent_state. rewrite (overlap_spec n) by assumption. cbn [bind]. rewrite inner_norm2. unfold RtoC; cbn [re im].
  replace (norm2 n (amp a) * norm2 n (amp a) - 0 * 0)%R with (norm2 n (amp a) * norm2 n (amp a))%R by ring.
  rewrite Rabs_R1, Rmult_1_r. eexists. split; [reflexivity|].
  assert (E : (if Rle_dec (Rabs (norm2 n (amp a) * norm2 n (amp a) - 1)) (/ 10 ^ 14 + / 10 ^ 5) then true else false) = true <-> (Rabs (norm2 n (amp a) * norm2 n (amp a) - 1) <= / 10 ^ 14 + / 10 ^ 5)%R)
    by (destruct (Rle_dec _ _); split; intro H; (reflexivity || assumption || discriminate || contradiction)).
  split; [exact E|]. intro N. apply E. rewrite N. replace (1 * 1 - 1)%R with 0%R by ring. rewrite Rabs_R0.
  assert (0 < / 10 ^ 14)%R by (apply Rinv_0_lt_compat, pow_lt; lra). assert (0 < / 10 ^ 5)%R by (apply Rinv_0_lt_compat, pow_lt; lra). lra.
Qed.

(** ** C77 *)
Lemma ksum_concat : forall n Kss, keq n (ksum (List.concat Kss)) (ksum (map ksum Kss)).
Proof.
  intros n Kss; induction Kss as [|Ks Kss IH]; intros x y Hx Hy; [reflexivity|]. cbn [List.concat map ksum]. rewrite (ksum_app n Ks (List.concat Kss) x y Hx Hy). unfold kadd. rewrite (IH x y Hx Hy). reflexivity.
Qed.
Lemma ksum_ext : forall n l l', Forall2 (keq n) l l' -> keq n (ksum l) (ksum l').
Proof. intros n l l' F; induction F as [|K K' l l' E F IH]; intros x y Hx Hy; [reflexivity|]. cbn [ksum]. rewrite (E x y Hx Hy), (IH x y Hx Hy). reflexivity. Qed.
Lemma sum_flatten : forall w n vals sq o K, sum_of_gates o -> denotes w n vals sq o K ->
    exists Ks, flatten o <> [] /\ Forall2 (denotes w n vals sq) (flatten o) Ks /\ keq n (ksum Ks) K.
Proof.
  intros w n vals sq. induction o as [g|l IH|l p IH|l IH|l IH|m l fp IH] using oper_ind'; intros K S D; inversion S as [|? SL]; subst.
  - exists [K]. split; [discriminate|]. split; [constructor; [exact D|constructor]|]. intros x y _ _. cbn [ksum]. ring.
  - inversion D as [| |? Ks NE F| | | |]; subst. cbn [flatten].
    assert (X : exists Kss, (l <> [] -> flat_map flatten l <> []) /\ Forall2 (denotes w n vals sq) (flat_map flatten l) (List.concat Kss) /\ Forall2 (keq n) (map ksum Kss) Ks).
    { clear S D NE. induction F as [|o K l Ks D F IHF]; [exists []; split; [congruence|]; split; constructor|].
      inversion IH as [|? ? Ho IHl]; subst. inversion SL as [|? ? So SL']; subst. destruct (Ho K So D) as (Ko & No & Fo & Eo). destruct (IHF IHl SL') as (Kss & Nl & Fl & El).
      exists (Ko :: Kss). cbn [flat_map List.concat map]. split; [|split; [apply Forall2_app; assumption|constructor; assumption]]. intros _ Q. apply app_eq_nil in Q. tauto. }
    destruct X as (Kss & N & F2 & E2). exists (List.concat Kss). split; [apply N; exact NE|]. split; [exact F2|]. eapply keq_trans; [apply ksum_concat|apply ksum_ext; exact E2].
Qed.
Lemma sum_iter : forall o, sum_of_gates o -> iter o = flatten o.
Proof. intros o S; destruct S; reflexivity. Qed.
Lemma c77_partial_thm : forall w n vals sq o K, sum_of_gates o -> denotes w n vals sq o K ->
    exists K', denotes w n vals sq (Add (AOp o)) K' /\ keq n K' K /\
      exists l, Observable (AOp o) = OObs l /\ observable_on w n vals sq l K'.
Proof.
  intros w n vals sq o K S D. destruct (sum_flatten w n vals sq o K S D) as (Ks & N & F & E). exists (ksum Ks).
  unfold Add, Observable, list_of. rewrite (sum_iter o S). split; [apply den_add; assumption|]. split; [exact E|].
  exists (flatten o). split; [reflexivity|]. exists Ks. split; [exact N|]. split; [exact F|reflexivity].
Qed.
Lemma c77_refuted_thm : forall w, let o := OAdd [OSeq [x0_gate; z0_gate]; x0_gate] in exists out out',
    run w o (SDense (zero_state 1)) [] = Ok (Some (SDense out)) /\ run w (Add (AOp o)) (SDense (zero_state 1)) [] = Ok (Some (SDense out')) /\
    amp out [0] = C0 /\ amp out [1] = C0 /\ amp out' [0] = C1 /\ amp out' [1] = RtoC 2.
Proof.
  intros w o. do 2 eexists. split; [ev; reflexivity|]. split; [ev; reflexivity|].
  unfold amp, get; lazy -[Rplus Rmult Ropp Rminus IZR]. repeat apply Logic.conj; f_equal; ring.
Qed.

(** ** C78 *)
Lemma gate_call_dm : forall w vals g a r, call w vals (OGate g) (Some (SDM a)) = Ok r -> exists b, r = Some (SDM b).
Proof.
  intros w vals g a r H. cbn [call bind] in H. destruct (apply_gates w (SDM a) (GOne g) vals UNITARY false true) as [s|] eqn:E; [|discriminate]. cbn [bind] in H. injection H as <-.
  unfold apply_gates, prepare_sequence_reduce in E. destruct (operator_of w UNITARY g vals) as [m|]; [|discriminate]. cbn [bind fst snd combine foldM] in E.
  destruct (apply_operator_with_noise w (SDM a) m (target g) (control g) (noise g)) as [s'|] eqn:E'; [|discriminate]. cbn [bind] in E. injection E as <-.
  destruct (noisy_stays_dm _ _ _ _ _ _ _ E') as (b & ->). exists b. reflexivity.
Qed.
Lemma c78_refuted_thm : forall w vals a g h gs p r,
    call w vals (OAdd (OGate g :: OGate h :: gs)) (Some (SDM a)) <> Ok r /\
    forward w vals (OGate g :: OGate h :: gs) (Some (SDM a)) <> Ok r /\
    call w vals (OScale [OGate g] p) (Some (SDM a)) <> Ok r.
Proof.
  intros w vals a g h gs p r.
  assert (X : forward w vals (OGate g :: OGate h :: gs) (Some (SDM a)) <> Ok r).
  { unfold forward, reduce_map. intro H. destruct (call w vals (OGate g) (Some (SDM a))) as [s|] eqn:E; [|discriminate]. destruct (gate_call_dm _ _ _ _ _ E) as (b & ->). cbn [bind foldM] in H.
    destruct (call w vals (OGate h) (Some (SDM a))) as [s|] eqn:E'; [|discriminate]. cbn [bind add_state] in H. discriminate. }
  split; [exact X|]. split; [exact X|]. cbn [call foldM]. intro H. destruct (param_value p vals) as [c|]; [|discriminate]. cbn [bind] in H.
  destruct (apply_gates w (SDM a) (GOne g) vals UNITARY false true) as [s|] eqn:E; [|discriminate]. cbn [bind] in H.
  destruct (gate_call_dm w vals g a (Some s)) as (b & Q); [cbn [call bind]; rewrite E; reflexivity|]. injection Q as ->. discriminate.
Qed.
Lemma c78_partial_thm : forall w n vals g M cs ts rho, set_order (set_iter w) -> gate_on n vals g M cs ts -> dense_gate g -> noiseless g -> is_density n rho ->
    exists out, is_density n out /\ keq n (rho_entry out) (sandwiched n (gate_op M cs ts) (rho_entry rho)) /\
      call w vals (OAdd [OGate g]) (Some (SDM rho)) = Ok (Some (SDM out)) /\ forward w vals [OGate g] (Some (SDM rho)) = Ok (Some (SDM out)).
Proof.
  intros w n vals g M cs ts rho SO G D N R.
  destruct (apply_gate_dm w n vals UNITARY false true g _ rho SO N (gate_on_opk w _ _ _ _ _ _ G D) R) as (out & E & S & K).
  exists out. split; [exact S|]. split; [exact K|]. unfold forward. cbn [call reduce_map foldM bind]. rewrite E. split; reflexivity.
Qed.
