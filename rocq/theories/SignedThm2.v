(** * Proofs about negative qubit indices on density matrices *)
From Coq Require Import List Arith ZArith Bool Reals Lia Permutation Sorting.Sorted.
From Verif Require Import Cplx Py PyFacts Ndarray NdFacts NdPerm OperatorUtils ApplyOperator Sparse Matrices Noise Gates Apply Signed
  Spec SpecFacts ApplyFacts DmFacts GateSpec PropSpec GateFacts AlgebraFacts ExpandFacts CircuitFacts TensorFacts SignedSpec ApplyThm SignedThm.
Import ListNotations.
Local Open Scope nat_scope.

Lemma sorted_lt : forall s, StronglySorted lt s -> sorted s = s.
Proof. intros s H. apply sorted_id. induction H as [|q l HS IH F]; constructor; [exact IH|]. eapply Forall_impl; [|exact F]. intros; lia. Qed.
Lemma strict_le : forall s, StronglySorted le s -> NoDup s -> StronglySorted lt s.
Proof.
  intros s H. induction H as [|q l HS IH F]; intro ND; constructor; inversion ND; subst; [apply IH; assumption|].
  rewrite Forall_forall in *. intros x Hx. specialize (F x Hx). assert (x <> q) by (intros ->; contradiction). lia.
Qed.
Lemma rank_id : forall s, StronglySorted lt s -> argsort (argsort s) = seq 0 (length s).
Proof.
  intros s H. assert (ND : NoDup s) by (clear - H; induction H as [|q l HS IH F]; constructor; [|exact IH]; intro Q; rewrite Forall_forall in F; specialize (F q Q); lia).
  rewrite argsort_rank by exact ND. rewrite sorted_lt by exact H. apply list_ext; [rewrite map_length, seq_length; reflexivity|].
  intros j Hj. rewrite map_length in Hj. rewrite nth_map_lt with (d' := 0) by exact Hj. rewrite seq_nth by exact Hj. cbn [Nat.add]. apply index_of_nth; assumption.
Qed.
Lemma rank_sorted : forall s, NoDup s -> argsort (argsort s) = seq 0 (length s) -> StronglySorted lt s.
Proof.
  intros s ND H. rewrite argsort_rank in H by exact ND.
  assert (E : s = sorted s).
  { apply list_ext; [symmetry; apply sorted_length|]. intros j Hj. apply (f_equal (fun l => nth j l 0)) in H. rewrite nth_map_lt with (d' := 0) in H by exact Hj. rewrite seq_nth in H by exact Hj. cbn [Nat.add] in H.
    rewrite <- H at 2. symmetry. apply nth_index_of. apply sorted_In. apply nth_In; exact Hj. }
  apply strict_le; [|exact ND]. rewrite E. apply sorted_sorted.
Qed.
(** an increasing map from the integers that occur to the natural numbers *)
Definition up (n : nat) (z : Z) : nat := Z.to_nat (z + Z.of_nat n).
Lemma increasing_up : forall n l, Forall (fun i => (- Z.of_nat n <= i)%Z) l -> (increasing l <-> StronglySorted lt (map (up n) l)).
Proof.
  intros n l H. unfold increasing. induction H as [|i l Hi Hl IH]; cbn [map]; [split; constructor|]. split; intro Q; inversion Q as [|? ? Q1 Q2]; subst; constructor; try (apply IH; exact Q1); rewrite Forall_forall in *.
  - intros x Hx. apply in_map_iff in Hx as (j & <- & Hj). specialize (Q2 j Hj). specialize (Hl j Hj). unfold up. lia.
  - intros j Hj. specialize (Q2 (up n j) (in_map _ _ _ Hj)). specialize (Hl j Hj). unfold up in Q2. lia.
Qed.
Lemma up_leb : forall n l, Forall (fun i => (- Z.of_nat n <= i)%Z) l -> forall x y, In x l -> In y l -> Nat.leb (up n x) (up n y) = Z.leb x y.
Proof.
  intros n l H x y Hx Hy. rewrite Forall_forall in H. apply H in Hx, Hy. unfold up. destruct (Z.leb_spec x y), (Nat.leb_spec (Z.to_nat (x + Z.of_nat n)) (Z.to_nat (y + Z.of_nat n))); try reflexivity; lia.
Qed.
Lemma permute_increasing : forall n a l inv, Forall (fun i => (- Z.of_nat n <= i)%Z) l -> increasing l -> permute_basis_z a l inv = Ok a.
Proof.
  intros n a l inv H Q. rewrite (permute_embed (up n) a l inv (up_leb n l H)). unfold permute_basis. rewrite rank_id by (apply increasing_up; assumption). rewrite list_eqb_refl. reflexivity.
Qed.
Lemma permute_other : forall n a l, Forall (fun i => (- Z.of_nat n <= i)%Z) l -> NoDup l -> ~ increasing l -> 2 * length l <> ndim a -> permute_basis_z a l false = Err TypeError.
Proof.
  intros n a l H ND Q L. rewrite (permute_embed (up n) a l false (up_leb n l H)). unfold permute_basis. set (s := map (up n) l).
  assert (LS : length (argsort (argsort s)) = length l) by (rewrite (is_perm_length _ _ (rank_is_perm s)); apply map_length).
  destruct (list_eqb _ _) eqn:E.
  - exfalso. apply Q. apply list_eqb_eq in E. apply (increasing_up n l H), rank_sorted; [|exact E]. apply NoDup_map_in; [|exact ND].
    intros x y Hx Hy Exy. rewrite Forall_forall in H. apply H in Hx, Hy. unfold up in Exy. lia.
  - unfold transpose, permb. replace (Nat.eqb _ (ndim a)) with false; [reflexivity|]. symmetry. apply Nat.eqb_neq. rewrite app_length, map_length, LS. lia.
Qed.
(** the support of the permutation has too many entries as soon as one index is negative *)
Lemma outside_In : forall n l q, In q (outside n l) <-> q < n /\ ~ In (Z.of_nat q) l.
Proof.
  intros n l q. unfold outside. rewrite filter_In, in_seq. split.
  - intros [H1 H2]. split; [lia|]. intro Q. apply Bool.negb_true_iff in H2. rewrite (proj2 (existsb_exists _ _)) in H2; [discriminate|]. exists (Z.of_nat q). split; [exact Q|apply Z.eqb_refl].
  - intros [H1 H2]. split; [lia|]. apply Bool.negb_true_iff, Bool.not_true_is_false. intro Q. apply existsb_exists in Q as (z & Hz & E). apply Z.eqb_eq in E. subst z. contradiction.
Qed.
Lemma support_long : forall so n l, set_order so -> Exists (fun i => (i < 0)%Z) l -> n < length (l ++ map Z.of_nat (so (outside n l))).
Proof.
  intros so n l SO HE. rewrite app_length, map_length. set (pos := filter (fun i => (0 <=? i)%Z) l).
  assert (LP : length pos < length l).
  { unfold pos. clear - HE. assert (LE : forall l', length (filter (fun i => (0 <=? i)%Z) l') <= length l') by (intro l'; induction l' as [|j l' IH]; cbn [filter]; [lia|destruct (0 <=? j)%Z; cbn [length]; lia]).
    induction HE as [i l Hi|i l _ IH]; cbn [filter length].
    - destruct (Z.leb_spec 0 i); [lia|]. specialize (LE l). lia.
    - destruct (0 <=? i)%Z; cbn [length]; lia. }
  assert (LN : n <= length (map Z.to_nat pos ++ so (outside n l))).
  { rewrite <- (seq_length n 0) at 1. apply NoDup_incl_length; [apply seq_NoDup|]. intros q Hq. apply in_seq in Hq. apply in_or_app. destruct (in_dec Z.eq_dec (Z.of_nat q) l) as [D|D].
    - left. apply in_map_iff. exists (Z.of_nat q). split; [apply Nat2Z.id|]. apply filter_In. split; [exact D|apply Z.leb_le; lia].
    - right. apply SO. apply outside_In. split; [lia|exact D]. }
  rewrite app_length, map_length in LN. lia.
Qed.
Lemma support_nodup : forall so n l, set_order so -> NoDup l -> NoDup (l ++ map Z.of_nat (so (outside n l))).
Proof.
  intros so n l SO ND. apply NoDup_app_intro; [exact ND| |].
  - apply NoDup_map_in; [intros x y _ _ E; lia|apply SO].
  - intros x Hx Q. apply in_map_iff in Q as (q & <- & Hq). apply SO, outside_In in Hq. tauto.
Qed.
Lemma support_bound : forall so n l, Forall (is_index n) l -> Forall (fun i => (- Z.of_nat n <= i)%Z) (l ++ map Z.of_nat (so (outside n l))).
Proof.
  intros so n l F. apply Forall_app. split; [eapply Forall_impl; [|exact F]; intros i [H _]; exact H|]. apply Forall_forall. intros z Hz. apply in_map_iff in Hz as (q & <- & _). lia.
Qed.

(** ** one operator *)
Lemma dm_error : forall so n rho u t c, set_order so -> is_density n rho -> is_matrix (length t) u -> Forall (is_index n) (places c t) -> NoDup (places c t) -> Exists (fun i => (i < 0)%Z) (places c t) ->
    ~ increasing (places c t ++ map Z.of_nat (so (outside n (places c t)))) -> apply_operator_dm_z so rho u t c = Err TypeError.
Proof.
  intros so n rho u t c SO HR M FI ND HE NI. destruct (prepare_z_ok u t c M) as (o & E & _). unfold apply_operator_dm_z. rewrite E. cbn [bind fst snd].
  assert (NR : ndim rho = 2 * n) by (destruct HR as [SR _]; unfold ndim; rewrite SR; apply repeat_length). rewrite NR, half_2m.
  rewrite (permute_other n); [reflexivity|apply support_bound; exact FI|apply support_nodup; assumption|exact NI|]. pose proof (support_long so n (places c t) SO HE). lia.
Qed.
Definition c_first (c : option (list Z)) : option (list Z) := match c with Some l => Some (map Z.of_nat (seq 0 (length l))) | None => None end.
Definition t_first (c : option (list Z)) (t : list Z) : list Z := map Z.of_nat (first_targets c t).
Lemma prepare_length : forall u t c t' c', length t = length t' -> match c, c' with Some l, Some l' => length l = length l' | None, None => True | _, _ => False end ->
    forall o, prepare_operator_z u t c = Ok (o, places c t) -> prepare_operator_z u t' c' = Ok (o, places c' t').
Proof.
  intros u t c t' c' LT LC o H. unfold prepare_operator_z in *. destruct c as [[|i l]|], c' as [[|i' l']|]; try contradiction; try discriminate.
  - cbn [bind fst snd places app] in *. destruct (shape u) as [|? [|d1 ?]]; try discriminate. destruct (reshape u _); cbn [bind] in *; [|discriminate]. injection H as <-. reflexivity.
  - rewrite <- LC. destruct (controlled_block u _) as [o'|]; cbn [bind fst snd] in *; [|discriminate]. destruct (shape o') as [|? [|d1 ?]]; try discriminate. destruct (reshape o' _); cbn [bind] in *; [|discriminate]. injection H as <-. reflexivity.
  - cbn [bind fst snd places app] in *. destruct (shape u) as [|? [|d1 ?]]; try discriminate. destruct (reshape u _); cbn [bind] in *; [|discriminate]. injection H as <-. reflexivity.
Qed.
Lemma places_first : forall c t, places (c_first c) (t_first c t) = map Z.of_nat (seq 0 (length (places c t))).
Proof.
  intros [l|] t; unfold t_first; cbn [c_first places first_targets]; [|reflexivity]. unfold first_targets. rewrite <- map_app, <- seq_app, app_length. reflexivity.
Qed.
Lemma qubits_first : forall n l, map (qubit_of n) (map Z.of_nat l) = l.
Proof. intros n l. rewrite map_map. rewrite <- (map_id l) at 2. apply map_ext. intro q. rewrite qubit_natural by (unfold natural; lia). apply Nat2Z.id. Qed.
Lemma control_first : forall n c, control_of n (c_first c) = first_controls c.
Proof. intros n [l|]; cbn [c_first control_of first_controls]; [|reflexivity]. rewrite <- (map_map (qubit_of n) QInt), qubits_first. reflexivity. Qed.
Definition in_order (l : list nat) : list nat := sorted (dedup l).
Lemma in_order_ok : set_order in_order.
Proof. intro l. split; [apply sorted_NoDup, dedup_NoDup|]. intro x. unfold in_order. rewrite sorted_In, dedup_In. tauto. Qed.
Lemma seq_sorted : forall k a, StronglySorted lt (seq a k).
Proof. intro k. induction k as [|k IH]; intro a; cbn [seq]; constructor; [apply IH|]. apply Forall_forall. intros x Hx. apply in_seq in Hx. lia. Qed.
Lemma outside_first : forall n k, k <= n -> in_order (outside n (map Z.of_nat (seq 0 k))) = seq k (n - k).
Proof.
  intros n k LE. unfold in_order. rewrite <- (sorted_lt (seq k (n - k))) by apply seq_sorted. apply sorted_perm_eq. apply NoDup_Permutation; [apply dedup_NoDup|apply seq_NoDup|].
  intro q. rewrite dedup_In, outside_In, in_seq. split.
  - intros [H1 H2]. destruct (Nat.lt_ge_cases q k) as [D|D]; [|lia]. exfalso. apply H2, in_map, in_seq. lia.
  - intros H. split; [lia|]. intro Q. apply in_map_iff in Q as (p & E & Hp). apply in_seq in Hp. lia.
Qed.
Lemma dm_first : forall so n rho u t c, set_order so -> is_density n rho -> is_matrix (length t) u -> Forall (is_index n) (places c t) -> length (places c t) <= n ->
    increasing (places c t ++ map Z.of_nat (so (outside n (places c t)))) -> apply_operator_dm_z so rho u t c = apply_operator_dm so rho u (first_targets c t) (first_controls c).
Proof.
  intros so n rho u t c SO HR M FI LE IN.
  assert (LT : length (first_targets c t) = length t) by (unfold first_targets; apply seq_length).
  assert (V : valid_qubits n (match c with Some l => seq 0 (length l) | None => [] end ++ first_targets c t)).
  { replace (match c with Some l => seq 0 (length l) | None => [] end ++ first_targets c t) with (seq 0 (length (places c t))).
    - split; [apply seq_NoDup|]. apply Forall_forall. intros x Hx. apply in_seq in Hx. lia.
    - destruct c as [l|]; cbn [places first_targets]; [rewrite app_length, seq_app|]; reflexivity. }
  assert (EC : ctl (first_controls c) = Ok (match c with Some l => seq 0 (length l) | None => [] end)) by (apply control_qubits_ctl; destruct c as [l|]; constructor).
  assert (M' : is_matrix (length (first_targets c t)) u) by (rewrite LT; exact M).
  assert (SAME : apply_operator_dm so rho u (first_targets c t) (first_controls c) = apply_operator_dm in_order rho u (first_targets c t) (first_controls c)).
  { destruct (apply_operator_dm_spec so n rho u _ _ _ SO HR M' EC V) as (r & E & D & K). destruct (apply_operator_dm_spec in_order n rho u _ _ _ in_order_ok HR M' EC V) as (r' & E' & D' & K').
    rewrite E, E'. f_equal. apply (density_ext n); [exact D|exact D'|]. cbv zeta in K, K'. eapply keq_trans; [exact K|apply keq_sym; exact K']. }
  rewrite SAME. rewrite <- (control_first n c), <- (qubits_first n (first_targets c t)). fold (t_first c t).
  assert (NAT : Forall natural (places (c_first c) (t_first c t))) by (rewrite places_first; apply Forall_forall; intros z Hz; apply in_map_iff in Hz as (q & <- & _); unfold natural; lia).
  rewrite <- apply_dm_natural by exact NAT.
  destruct (prepare_z_ok u t c M) as (o & E & _). unfold apply_operator_dm_z. rewrite E.
  rewrite (prepare_length u t c (t_first c t) (c_first c)) with (o := o); [|unfold t_first; rewrite map_length; symmetry; exact LT|destruct c as [l|]; cbn [c_first]; [rewrite map_length, seq_length; reflexivity|exact Logic.I]|exact E].
  cbn [bind fst snd].
  assert (NR : ndim rho = 2 * n) by (destruct HR as [SR _]; unfold ndim; rewrite SR; apply repeat_length). rewrite NR, half_2m. rewrite places_first, outside_first by exact LE. rewrite map_length, seq_length.
  rewrite <- map_app. rewrite <- seq_app. replace (length (places c t) + (n - length (places c t))) with n by lia.
  assert (IN0 : increasing (map Z.of_nat (seq 0 n))).
  { unfold increasing. generalize (seq_sorted n 0). generalize (seq 0 n). clear. intros l H. induction H as [|q l HS IH F]; cbn [map]; constructor; [exact IH|]. rewrite Forall_forall in *. intros z Hz. apply in_map_iff in Hz as (p & <- & Hp). specialize (F p Hp). lia. }
  assert (B0 : Forall (fun i => (- Z.of_nat 0 <= i)%Z) (map Z.of_nat (seq 0 n))) by (apply Forall_forall; intros z Hz; apply in_map_iff in Hz as (q & <- & _); lia).
  rewrite (permute_increasing n) by (first [apply support_bound; exact FI|exact IN]). rewrite (permute_increasing 0) by (first [exact B0|exact IN0]). cbn [bind].
  destruct (tensordot o rho _ _) as [r1|]; cbn [bind]; [|reflexivity]. destruct (dagger r1) as [r2|]; cbn [bind]; [|reflexivity]. destruct (tensordot o r2 _ _) as [r3|]; cbn [bind]; [|reflexivity]. destruct (dagger r3) as [r4|]; cbn [bind]; [|reflexivity].
  rewrite (permute_increasing n) by (first [apply support_bound; exact FI|exact IN]). rewrite (permute_increasing 0) by (first [exact B0|exact IN0]). reflexivity.
Qed.

(** ** one gate *)
Lemma usable_moved : forall w ot n vals g, usable n vals (resolved n g) -> dense_gate (resolved n g) -> has_operation ot (resolved n g) ->
    exists u, operator_of w ot (zfields g) vals = Ok (MD u) /\ is_matrix (length (ztarget g)) u /\ NoDup (map (qubit_of n) (indices_of g)) /\ length (indices_of g) <= n.
Proof.
  intros w ot n vals g U D O. destruct (usable_gseq w ot n vals [resolved n g] (Forall_cons _ U (Forall_nil _)) (Forall_cons _ D (Forall_nil _)) (Forall_cons _ O (Forall_nil _))) as (K & HG).
  destruct (gseq_placed _ _ _ _ _ _ HG) as (ops & EO & _ & HP). cbn [mapM] in EO. rewrite operator_of_resolved in EO. destruct (operator_of w ot (zfields g) vals) as [m|]; cbn [bind] in EO; [|discriminate]. injection EO as <-.
  cbn [combine map fst snd] in HP. inversion HP as [|? ? P L ? (u & cs & E1 & E2 & E3 & E4 & _) _]; subst. cbn [fst snd target control resolved] in *. subst m. exists u. split; [reflexivity|]. rewrite map_length in E2. split; [exact E2|].
  assert (EQ : cs = match zcontrol g with Some l => map (qubit_of n) l | None => [] end).
  { apply control_qubits_ctl in E3. rewrite (control_qubits_ctl _ _ (control_of_qubits n (zcontrol g))) in E3. injection E3 as <-. reflexivity. }
  rewrite EQ, <- places_map in E4. destruct E4 as [ND FB]. split; [exact ND|]. rewrite <- (map_length (qubit_of n)). rewrite Forall_forall in FB. pose proof (free_axes_length n _ ND FB). unfold indices_of. lia.
Qed.
Lemma NoDup_of_map : forall {A B} (f : A -> B) l, NoDup (map f l) -> NoDup l.
Proof. intros A B f l. induction l as [|x l IH]; intro H; [constructor|]. cbn [map] in H. inversion H as [|? ? H1 H2]; subst. constructor; [|apply IH; exact H2]. intro Q. apply H1, in_map; exact Q. Qed.
Lemma one_gate_z : forall w s g vals ot gr mg, noise (zfields g) = None -> (match s with SDM _ => True | _ => False end) ->
    apply_gates_z w s [g] vals ot gr mg = (let! m := operator_of w ot (zfields g) vals in apply_operator_state_z w s m (ztarget g) (zcontrol g)).
Proof.
  intros w s g vals ot gr mg HN HS. unfold apply_gates_z, prepare_sequence_reduce_z. cbv zeta.
  assert (EG : (if gr then group_by_index_z [g] else [g]) = [g]) by (destruct gr; [|reflexivity]; unfold group_by_index_z; cbn [group_loop_z]; destruct (negb _); reflexivity).
  rewrite EG. cbn [mapM map]. destruct (operator_of w ot (zfields g) vals) as [m|]; cbn [bind]; [|reflexivity]. cbn [combine map fst snd]. rewrite HN. cbn [no_noise forallb andb].
  assert (EM : (if mg then let! pl := merge_operators_z [(m, ztarget g, zcontrol g)] in Ok (pl, [@None (list noise_inst)]) else Ok ([(m, ztarget g, zcontrol g)], [None])) = Ok ([(m, ztarget g, zcontrol g)], [None])) by (destruct mg; reflexivity).
  rewrite EM. cbn [bind fst snd combine foldM]. destruct s; try contradiction. unfold apply_operator_with_noise_z. destruct (apply_operator_state_z _ _ _ _ _); reflexivity.
Qed.
Lemma one_gate : forall w s g vals ot gr mg, noise g = None -> (match s with SDM _ => True | _ => False end) ->
    apply_gates w s (GMany [g]) vals ot gr mg = (let! m := operator_of w ot g vals in apply_operator_state w s m (target g) (control g)).
Proof.
  intros w s g vals ot gr mg HN HS. unfold apply_gates, prepare_sequence_reduce. cbv zeta.
  assert (EG : (if gr then group_by_index [g] else [g]) = [g]) by (destruct gr; [|reflexivity]; unfold group_by_index; cbn [group_loop]; destruct (negb _); reflexivity).
  rewrite EG. cbn [mapM map]. destruct (operator_of w ot g vals) as [m|]; cbn [bind]; [|reflexivity]. cbn [combine map fst snd]. rewrite HN. cbn [no_noise forallb andb].
  assert (EM : (if mg then let! pl := merge_operators [(m, target g, control g)] in Ok (pl, [@None (list noise_inst)]) else Ok ([(m, target g, control g)], [None])) = Ok ([(m, target g, control g)], [None])) by (destruct mg; reflexivity).
  rewrite EM. cbn [bind fst snd combine foldM]. destruct s; try contradiction. unfold apply_operator_with_noise. destruct (apply_operator_state _ _ _ _ _); reflexivity.
Qed.
Lemma c123_density : forall w n vals ot gr mg g rho, set_order (set_iter w) -> is_density n rho ->
    Forall (is_index n) (indices_of g) -> Exists (fun i => (i < 0)%Z) (indices_of g) -> usable n vals (resolved n g) -> dense_gate (resolved n g) -> noiseless (resolved n g) -> has_operation ot (resolved n g) ->
    (increasing (indices_of g ++ map Z.of_nat (set_iter w (outside n (indices_of g)))) ->
       apply_gates_z w (SDM rho) [g] vals ot gr mg = apply_gates w (SDM rho) (GMany [moved g]) vals ot gr mg) /\
    (~ increasing (indices_of g ++ map Z.of_nat (set_iter w (outside n (indices_of g)))) ->
       apply_gates_z w (SDM rho) [g] vals ot gr mg = Err TypeError).
Proof.
  intros w n vals ot gr mg g rho SO HR FI HE U D N O. destruct (usable_moved w ot n vals g U D O) as (u & EU & MU & ND & LE). apply NoDup_of_map in ND. unfold noiseless in N. cbn [noise resolved] in N. unfold indices_of in *.
  rewrite one_gate_z by (first [exact N|exact Logic.I]). rewrite EU. cbn [bind apply_operator_state_z]. split; intro Q.
  - rewrite one_gate by (first [exact N|exact Logic.I]).
    replace (operator_of w ot (moved g) vals) with (operator_of w ot (zfields g) vals) by (destruct g as [[cl nm tg ct ns sp pr sh] t c]; destruct ot; reflexivity).
    rewrite EU. cbn [bind apply_operator_state target control moved]. rewrite (dm_first (set_iter w) n) by assumption. reflexivity.
  - rewrite (dm_error (set_iter w) n) by assumption. reflexivity.
Qed.

(** ** noise *)
Lemma kraus_nonempty : forall x ks, kraus x = Ok ks -> ks <> [].
Proof.
  intros [ty p] ks H. unfold kraus in H. cbn [ntype error_probability] in H. destruct ty, p as [p|l]; try discriminate H; intros ->.
  all: unfold BitFlip, PhaseFlip, Depolarizing, PauliChannel, AmplitudeDamping, PhaseDamping, GeneralizedAmplitudeDamping in H.
  all: repeat match type of H with (if ?b then _ else _) = _ => destruct b | match ?l with [] => _ | _ => _ end = _ => destruct l end; discriminate.
Qed.
Lemma noise_negative : forall s t full x, Exists (fun i => (i < 0)%Z) t -> exists e, apply_noise_z s t full x = Err e.
Proof.
  intros s t full x H. unfold apply_noise_z. destruct (kraus x) as [ks|] eqn:K; cbn [bind]; [|eexists; reflexivity]. apply kraus_nonempty in K. destruct ks as [|k ks]; [contradiction|]. cbn [mapM]. unfold expand_operator_z at 1.
  replace (existsb (fun i => (i <? 0)%Z) t) with true; [eexists; reflexivity|]. symmetry. apply existsb_exists. apply Exists_exists in H as (i & Hi & Li). exists i. split; [exact Hi|apply Z.ltb_lt; exact Li].
Qed.
Lemma noisy_negative : forall w s m t c x l, Exists (fun i => (i < 0)%Z) t -> exists e, apply_operator_with_noise_z w s m t c (Some (x :: l)) = Err e.
Proof.
  intros w s m t c x l H. unfold apply_operator_with_noise_z. destruct (apply_operator_state_z w s m t c) as [r|e]; cbn [bind]; [|exists e; reflexivity]. destruct (num_qubits r) as [k|e]; cbn [bind]; [|exists e; reflexivity].
  cbn [foldM]. destruct (noise_negative r t (seq 0 k) x H) as (e & E). rewrite E. cbn [bind]. exists e. reflexivity.
Qed.
Lemma group_In : forall gates srt batch g, In g gates \/ In g batch \/ In g srt -> In g (group_loop_z srt batch gates).
Proof.
  assert (SB : forall l (g : zgate), In g l -> In g (sort_batch_z l)) by (intros l g H; unfold sort_batch_z; eapply Permutation_in; [apply Permutation_sym, GroupFacts.sort_by_perm|exact H]).
  induction gates as [|h gates IH]; intros srt batch g H; cbn [group_loop_z].
  - destruct H as [[]|[H|H]]; destruct batch as [|b batch]; try destruct H; try (apply in_or_app; right; apply SB; assumption); try (apply in_or_app; left; assumption); try assumption.
    + apply in_or_app; right. apply SB. left; assumption.
    + apply in_or_app; right. apply SB. right; assumption.
  - destruct (negb _).
    + apply IH. rewrite in_app_iff. cbn [In] in *. tauto.
    + destruct batch as [|b batch]; apply IH; rewrite !in_app_iff.
      * cbn [In] in *. tauto.
      * destruct H as [[H|H]|[H|H]]; [right; right; right; left; exact H|left; exact H|right; right; left; right; apply SB; exact H|right; right; left; left; exact H].
Qed.
Lemma run_error : forall w (p : zplaced) x xs l s, In (p, Some (x :: xs)) l -> (let '(_, t, _) := p in Exists (fun i => (i < 0)%Z) t) ->
    exists e, foldM (fun s (pn : zplaced * option (list noise_inst)) => let '(o, t, c, y) := pn in apply_operator_with_noise_z w s o t c y) l s = Err e.
Proof.
  intros w [[o t] c] x xs l. induction l as [|[[[o' t'] c'] y] l IH]; intros s H HE; [destruct H|]. cbn [foldM]. destruct H as [H|H].
  - injection H as -> -> -> ->. destruct (noisy_negative w s o t c x xs HE) as (e & E). rewrite E. cbn [bind]. exists e; reflexivity.
  - destruct (apply_operator_with_noise_z w s o' t' c' y) as [r|e]; cbn [bind]; [apply IH; assumption|exists e; reflexivity].
Qed.
Lemma c123_noise : forall w s gs g x xs vals ot gr mg, In g gs -> noise (zfields g) = Some (x :: xs) -> Exists (fun i => (i < 0)%Z) (ztarget g) -> exists e, apply_gates_z w s gs vals ot gr mg = Err e.
Proof.
  intros w s gs g x xs vals ot gr mg HI HN HE. unfold apply_gates_z, prepare_sequence_reduce_z. cbv zeta.
  assert (HH : In g (if gr then group_by_index_z gs else gs)) by (destruct gr; [apply group_In; left; exact HI|exact HI]).
  set (hs := if gr then group_by_index_z gs else gs) in *. clearbody hs. destruct (mapM _ hs) as [ops|e] eqn:EO; cbn [bind]; [|exists e; reflexivity].
  assert (NN : no_noise (map (fun g => noise (zfields g)) hs) = false).
  { apply Bool.not_true_is_false. intro Q. unfold no_noise in Q. rewrite forallb_forall in Q. specialize (Q _ (in_map (fun g => noise (zfields g)) _ _ HH)). cbv beta in Q. rewrite HN in Q. discriminate. }
  rewrite NN. cbn [andb]. destruct hs as [|h hs']; [destruct HH|]. set (hs := h :: hs') in *. cbn [bind fst snd]. rewrite NN. cbn [negb].
  assert (HP : exists p, In (p, Some (x :: xs)) (combine (map (fun og => (fst og, ztarget (snd og), zcontrol (snd og))) (combine ops hs)) (map (fun g => noise (zfields g)) hs)) /\ (let '(_, t, _) := p in Exists (fun i => (i < 0)%Z) t)).
  { apply mapM_length in EO. clearbody hs. clear - HH HN HE EO. revert ops EO. induction hs as [|k ks IH]; intros [|o ops] EO; try discriminate; [destruct HH|]. cbn [combine map fst snd]. destruct HH as [->|HH].
    - exists (o, ztarget g, zcontrol g). rewrite HN. split; [left; reflexivity|exact HE].
    - destruct (IH HH ops) as (p & Hp & Ep); [cbn [length] in EO; lia|]. exists p. split; [right; exact Hp|exact Ep]. }
  destruct HP as (p & Hp & Ep). destruct s as [a|b|a].
  - destruct (density_mat a) as [rho|e]; cbn [bind]; [|exists e; reflexivity]. eapply run_error; eassumption.
  - eexists; reflexivity.
  - eapply run_error; eassumption.
Qed.

(** ** errors on state vectors *)
Lemma usable_first : forall w ot m vals g, usable m vals (moved g) -> dense_gate (moved g) -> has_operation ot (moved g) -> exists u, operator_of w ot (zfields g) vals = Ok (MD u) /\ is_matrix (length (ztarget g)) u.
Proof.
  intros w ot m vals g U D O. destruct (usable_gseq w ot m vals [moved g] (Forall_cons _ U (Forall_nil _)) (Forall_cons _ D (Forall_nil _)) (Forall_cons _ O (Forall_nil _))) as (K & HG).
  destruct (gseq_placed _ _ _ _ _ _ HG) as (ops & EO & _ & HP). cbn [mapM] in EO.
  replace (operator_of w ot (moved g) vals) with (operator_of w ot (zfields g) vals) in EO by (destruct g as [[cl nm tg ct ns sp pr sh] t c]; destruct ot; reflexivity).
  destruct (operator_of w ot (zfields g) vals) as [o|]; cbn [bind] in EO; [|discriminate]. injection EO as <-.
  cbn [combine map fst snd] in HP. inversion HP as [|? ? P L ? (u & cs & E1 & E2 & _) _]; subst. cbn [fst snd target control moved] in *. subst o. exists u. split; [reflexivity|].
  unfold first_targets in E2. rewrite seq_length in E2. exact E2.
Qed.
Lemma one_gate_dense : forall w a g vals ot gr mg, noise (zfields g) = None ->
    apply_gates_z w (SDense a) [g] vals ot gr mg = (let! m := operator_of w ot (zfields g) vals in apply_operator_state_z w (SDense a) m (ztarget g) (zcontrol g)).
Proof.
  intros w a g vals ot gr mg HN. unfold apply_gates_z, prepare_sequence_reduce_z. cbv zeta.
  assert (EG : (if gr then group_by_index_z [g] else [g]) = [g]) by (destruct gr; [|reflexivity]; unfold group_by_index_z; cbn [group_loop_z]; destruct (negb _); reflexivity).
  rewrite EG. cbn [mapM map]. destruct (operator_of w ot (zfields g) vals) as [m|]; cbn [bind]; [|reflexivity]. cbn [combine map fst snd]. rewrite HN. cbn [no_noise forallb andb].
  assert (EM : (if mg then let! pl := merge_operators_z [(m, ztarget g, zcontrol g)] in Ok (pl, [@None (list noise_inst)]) else Ok ([(m, ztarget g, zcontrol g)], [None])) = Ok ([(m, ztarget g, zcontrol g)], [None])) by (destruct mg; reflexivity).
  rewrite EM. cbn [bind fst snd foldM no_noise forallb negb andb]. destruct (apply_operator_state_z _ _ _ _ _); reflexivity.
Qed.
Lemma c123_errors : forall w n m vals ot gr mg g a, is_state n a -> usable m vals (moved g) -> dense_gate (moved g) -> noiseless (moved g) -> has_operation ot (moved g) ->
    (~ Forall (is_index n) (indices_of g) -> apply_gates_z w (SDense a) [g] vals ot gr mg = Err ValueError) /\
    (Forall (is_index n) (indices_of g) -> ~ NoDup (map (qubit_of n) (indices_of g)) -> apply_gates_z w (SDense a) [g] vals ot gr mg = Err TypeError).
Proof.
  intros w n m vals ot gr mg g a HA U D N O. destruct (usable_first w ot m vals g U D O) as (u & EU & MU). unfold noiseless in N. cbn [noise moved] in N.
  rewrite one_gate_dense by exact N. rewrite EU. cbn [bind apply_operator_state_z]. unfold indices_of. split.
  - intro Q. rewrite (apply_z_range n) by assumption. reflexivity.
  - intros Q1 Q2. rewrite (apply_z_twice n) by assumption. reflexivity.
Qed.
