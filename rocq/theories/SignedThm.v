(** * Proofs about negative qubit indices *)
From Coq Require Import List Arith ZArith Bool Reals Lia Permutation Sorting.Sorted.
From Verif Require Import Cplx Py PyFacts Ndarray NdFacts NdPerm OperatorUtils ApplyOperator Sparse Matrices Noise Gates Apply Signed
  Spec SpecFacts ApplyFacts DmFacts GateSpec PropSpec GateFacts AlgebraFacts ExpandFacts CircuitFacts TensorFacts SignedSpec ApplyThm.
Import ListNotations.
Local Open Scope nat_scope.

Lemma canonical_ok : forall n i, is_index n i -> canonicalize_axis n i = Ok (qubit_of n i).
Proof.
  intros n i [H1 H2]. unfold canonicalize_axis, qubit_of. rewrite (proj2 (Z.leb_le _ _) H1), (proj2 (Z.ltb_lt _ _) H2). reflexivity.
Qed.
Lemma canonical_err : forall n i, ~ is_index n i -> canonicalize_axis n i = Err ValueError.
Proof.
  intros n i H. unfold canonicalize_axis, is_index in *. destruct (Z.leb_spec (- Z.of_nat n) i); [|reflexivity]. destruct (Z.ltb_spec i (Z.of_nat n)); [exfalso; lia|reflexivity].
Qed.
Lemma is_index_dec : forall n i, {is_index n i} + {~ is_index n i}.
Proof. intros n i. unfold is_index. destruct (Z_le_dec (- Z.of_nat n) i); destruct (Z_lt_dec i (Z.of_nat n)); [left; lia|right; lia..]. Qed.
Lemma canonical_all : forall n l, Forall (is_index n) l -> mapM (canonicalize_axis n) l = Ok (map (qubit_of n) l).
Proof. intros n l H. induction H as [|i l Hi Hl IH]; cbn [mapM map]; [reflexivity|]. rewrite canonical_ok by exact Hi. cbn [bind]. rewrite IH. reflexivity. Qed.
Lemma canonical_some : forall n l, ~ Forall (is_index n) l -> mapM (canonicalize_axis n) l = Err ValueError.
Proof.
  intros n l H. induction l as [|i l IH]; [exfalso; apply H; constructor|]. cbn [mapM]. destruct (is_index_dec n i) as [D|D].
  - rewrite canonical_ok by exact D. cbn [bind]. rewrite IH; [reflexivity|]. intro Q. apply H; constructor; assumption.
  - rewrite canonical_err by exact D. reflexivity.
Qed.
Lemma tensordot_ok : forall a b axa axb, Forall (is_index (ndim b)) axb -> tensordot_z a b axa axb = tensordot a b axa (map (qubit_of (ndim b)) axb).
Proof.
  intros a b axa axb H. unfold tensordot_z. rewrite canonical_all by exact H. cbn [bind]. unfold tensordot at 2. rewrite map_length. destruct (Nat.eqb (length axa) (length axb)) eqn:E; cbn [negb]; [|reflexivity].
  unfold tensordot. rewrite map_length, E. reflexivity.
Qed.
Lemma moveaxis_ok : forall a s d, Forall (is_index (ndim a)) d -> moveaxis_z a s d = moveaxis a s (map (qubit_of (ndim a)) d).
Proof. intros a s d H. unfold moveaxis_z. rewrite canonical_all by exact H. reflexivity. Qed.
Lemma control_of_qubits : forall n c, control_qubits (control_of n c) (match c with Some l => map (qubit_of n) l | None => [] end).
Proof. intros n [l|]; cbn [control_of]; [rewrite <- (map_map (qubit_of n) QInt)|]; constructor. Qed.
Lemma places_map : forall n c t, map (qubit_of n) (places c t) = match c with Some l => map (qubit_of n) l | None => [] end ++ map (qubit_of n) t.
Proof. intros n [l|] t; cbn [places]; [apply map_app|reflexivity]. Qed.

(** the operator that is contracted does not depend on the indices *)
Lemma prepare_same : forall n u t c, prepare_operator u (map (qubit_of n) t) (control_of n c) = (let! od := prepare_operator_z u t c in Ok (fst od, map (qubit_of n) (snd od))) /\
    (forall od, prepare_operator_z u t c = Ok od -> snd od = places c t).
Proof.
  intros n u t c. unfold prepare_operator, prepare_operator_z. destruct c as [[|c0 cs]|]; cbn [control_of is_controlled existsb is_controlled_idx map orb].
  - cbn [bind fst snd]. destruct (shape u) as [|d0 [|d1 s]]; cbn [bind]; (split; [try reflexivity|try discriminate]).
    + destruct (reshape u (repeat 2 (2 * Nat.log2 d1))); reflexivity.
    + destruct (reshape u (repeat 2 (2 * Nat.log2 d1))); cbn [bind]; [|discriminate]. intros od H; injection H as <-. reflexivity.
  - cbn [orb clen axes_of length mapM qidx_nat bind]. rewrite !map_length. rewrite <- (map_map (qubit_of n) QInt), mapM_QInt. cbn [bind].
    destruct (controlled_block u _) as [o|]; cbn [bind fst snd]; [|split; [reflexivity|discriminate]].
    destruct (shape o) as [|d0 [|d1 s]]; cbn [bind]; (split; [try reflexivity|try discriminate]).
    + destruct (reshape o (repeat 2 (2 * Nat.log2 d1))); cbn [bind fst snd]; [|reflexivity]. rewrite (map_app (qubit_of n) (c0 :: cs) t). reflexivity.
    + destruct (reshape o (repeat 2 (2 * Nat.log2 d1))); cbn [bind]; [|discriminate]. intros od H; injection H as <-. reflexivity.
  - cbn [bind fst snd]. destruct (shape u) as [|d0 [|d1 s]]; cbn [bind]; (split; [try reflexivity|try discriminate]).
    + destruct (reshape u (repeat 2 (2 * Nat.log2 d1))); reflexivity.
    + destruct (reshape u (repeat 2 (2 * Nat.log2 d1))); cbn [bind]; [|discriminate]. intros od H; injection H as <-. reflexivity.
Qed.
Lemma prepare_z_ok : forall u t c, is_matrix (length t) u -> exists o, prepare_operator_z u t c = Ok (o, places c t) /\ shape o = repeat 2 (2 * length (places c t)) /\
    forall n, prepare_operator u (map (qubit_of n) t) (control_of n c) = Ok (o, map (qubit_of n) (places c t)).
Proof.
  intros u t c M. assert (P : forall n, prepare_operator u (map (qubit_of n) t) (control_of n c) = (let! od := prepare_operator_z u t c in Ok (fst od, map (qubit_of n) (snd od)))) by (intro n; apply prepare_same).
  destruct (prepare_operator_ok (length t) u (map (qubit_of 0) t) (control_of 0 c) _ M (control_qubits_ctl _ _ (control_of_qubits 0 c))) as (o & E & S & _).
  rewrite P in E. destruct (prepare_operator_z u t c) as [od|] eqn:Z; [|discriminate]. cbn [bind] in E. injection E as E1 E2.
  pose proof (proj2 (prepare_same 0 u t c) od Z) as D. exists o. split; [|split].
  - f_equal. rewrite <- E1, <- D. destruct od; reflexivity.
  - rewrite S. f_equal. f_equal. destruct c as [l|]; cbn [places]; rewrite ?app_length, ?map_length; reflexivity.
  - intro n. rewrite P. cbn [bind]. rewrite D, E1. reflexivity.
Qed.

(** ** state vectors *)
Lemma apply_z_ok : forall n a u t c, is_state n a -> is_matrix (length t) u -> Forall (is_index n) (places c t) ->
    apply_operator_z a u t c = apply_operator a u (map (qubit_of n) t) (control_of n c).
Proof.
  intros n a u t c HA M HI. destruct (prepare_z_ok u t c M) as (o & E1 & S & E2). specialize (E2 n).
  unfold apply_operator_z, apply_operator. rewrite E1, E2. cbn [bind fst snd].
  assert (NA : ndim a = n) by (destruct HA as [SA _]; unfold ndim; rewrite SA; apply repeat_length).
  rewrite tensordot_ok by (rewrite NA; exact HI). rewrite NA, map_length.
  set (m := length (places c t)) in *. assert (NO : ndim o = 2 * m) by (unfold ndim; rewrite S; apply repeat_length). rewrite NO, half_2m. replace (2 * m - m) with m by lia.
  destruct (tensordot o a (seq m m) (map (qubit_of n) (places c t))) as [r|] eqn:T; cbn [bind]; [|reflexivity].
  assert (V : valid_qubits n (map (qubit_of n) (places c t))).
  { unfold tensordot in T. destruct (negb _) eqn:B1 in T; [discriminate|]. destruct (negb _) eqn:B2 in T; [discriminate|]. destruct (negb _) eqn:B3 in T; [discriminate|].
    apply Bool.negb_false_iff, Bool.andb_true_iff in B2 as [_ B2]. apply Bool.negb_false_iff, Bool.andb_true_iff in B3 as [_ B3]. split; [apply nodupb_NoDup; exact B3|].
    apply Forall_forall. intros x Hx. rewrite forallb_forall in B2. rewrite <- NA. apply Nat.ltb_lt, B2; exact Hx. }
  assert (NR : ndim r = n).
  { destruct (contract_action m n o a (map (qubit_of n) (places c t)) S HA V (map_length _ _)) as (r' & Er & Sr & _). rewrite T in Er. cbn [bind] in Er.
    unfold moveaxis in Er. destruct (negb _) in Er; [discriminate|]. destruct (negb _) in Er; [discriminate|]. unfold transpose in Er. destruct (permb (ndim r) _) eqn:PB in Er; [|discriminate].
    injection Er as <-. destruct Sr as [Sr _]. apply permb_is_perm in PB. apply is_perm_length in PB. unfold ndim in *.
    apply (f_equal (@length nat)) in Sr. cbn [shape build] in Sr. rewrite restrict_length, repeat_length in Sr. congruence. }
  rewrite moveaxis_ok by (rewrite NR; exact HI). rewrite NR. reflexivity.
Qed.
Lemma apply_z_range : forall n a u t c, is_state n a -> is_matrix (length t) u -> ~ Forall (is_index n) (places c t) -> apply_operator_z a u t c = Err ValueError.
Proof.
  intros n a u t c HA M HI. destruct (prepare_z_ok u t c M) as (o & E1 & S & _). unfold apply_operator_z. rewrite E1. cbn [bind fst snd].
  assert (NA : ndim a = n) by (destruct HA as [SA _]; unfold ndim; rewrite SA; apply repeat_length).
  unfold tensordot_z. rewrite NA, canonical_some by exact HI. set (m := length (places c t)) in *.
  assert (NO : ndim o = 2 * m) by (unfold ndim; rewrite S; apply repeat_length). rewrite NO, half_2m. replace (2 * m - m) with m by lia. rewrite seq_length. unfold m. rewrite Nat.eqb_refl. reflexivity.
Qed.
Lemma qubit_of_lt : forall n i, is_index n i -> qubit_of n i < n.
Proof. intros n i [H1 H2]. unfold qubit_of. destruct (Z.ltb_spec i 0); lia. Qed.
Lemma apply_z_twice : forall n a u t c, is_state n a -> is_matrix (length t) u -> Forall (is_index n) (places c t) -> ~ NoDup (map (qubit_of n) (places c t)) -> apply_operator_z a u t c = Err TypeError.
Proof.
  intros n a u t c HA M HI ND. rewrite (apply_z_ok n) by assumption. destruct (prepare_z_ok u t c M) as (o & _ & S & E2). unfold apply_operator. rewrite (E2 n). cbn [bind fst snd].
  set (m := length (places c t)) in *. assert (NO : ndim o = 2 * m) by (unfold ndim; rewrite S; apply repeat_length). rewrite NO, half_2m. replace (2 * m - m) with m by lia.
  assert (NA : ndim a = n) by (destruct HA as [SA _]; unfold ndim; rewrite SA; apply repeat_length).
  unfold tensordot. rewrite seq_length, map_length. fold m. rewrite Nat.eqb_refl. cbn [negb]. rewrite NO, NA.
  rewrite (forallb_lt (2 * m) (seq m m)) by (intros x Hx; apply in_seq in Hx; lia). cbn [andb].
  rewrite (forallb_lt n (map (qubit_of n) (places c t))) by (intros x Hx; apply in_map_iff in Hx as (i & <- & Hi); apply qubit_of_lt; rewrite Forall_forall in HI; apply HI; exact Hi). cbn [negb].
  replace (nodupb (map (qubit_of n) (places c t))) with false; [rewrite Bool.andb_false_r; reflexivity|]. symmetry. apply Bool.not_true_is_false. intro Q. apply ND, nodupb_NoDup; exact Q.
Qed.

(** ** circuits on state vectors *)
Definition resolve_placed (n : nat) (p : zplaced) : placed := let '(o, t, c) := p in (o, map (qubit_of n) t, control_of n c).
Definition in_range (n : nat) (p : zplaced) : Prop := let '(_, t, c) := p in Forall (is_index n) (places c t).
Lemma same_place_eq : forall t t' c c', same_place t t' c c' = true -> t = t' /\ c = c'.
Proof.
  intros t t' c c' H. unfold same_place in H. apply Bool.andb_true_iff in H as [H1 H2]. destruct (list_eq_dec Z.eq_dec t t'); [|discriminate]. split; [assumption|].
  destruct c as [l|], c' as [l'|]; try discriminate; [|reflexivity]. destruct (list_eq_dec Z.eq_dec l l'); [congruence|discriminate].
Qed.
Lemma cspec_refl : forall n c, cspec_eqb (control_of n c) (control_of n c) = true.
Proof.
  intros n [l|]; cbn [control_of cspec_eqb]; [|reflexivity]. induction l as [|i l IH]; cbn [map qidx_list_eqb qidx_eqb]; [reflexivity|]. rewrite Nat.eqb_refl. exact IH.
Qed.
Lemma zmerge_loop : forall n rest merged cur A B D,
    pls n (map (resolve_placed n) (rev rest)) A -> pl_ok n (resolve_placed n cur) B -> pls n (map (resolve_placed n) (rev merged)) D ->
    Forall (in_range n) rest -> in_range n cur -> Forall (in_range n) merged ->
    exists m, merge_loop_z merged cur rest = Ok m /\ pls n (map (resolve_placed n) (rev m)) (kmul n D (kmul n B A)) /\ Forall (in_range n) m.
Proof.
  intros n rest. induction rest as [|[[o t] c] rest IH]; intros merged cur A B D HA HB HD FR FC FM; cbn [merge_loop_z].
  - eexists; split; [reflexivity|]. split; [|apply Forall_app; split; [exact FM|constructor; [exact FC|constructor]]].
    rewrite rev_app_distr. cbn [rev app map]. econstructor; [exact HB|exact HD|]. apply kmul_ext; [apply keq_refl|].
    cbn [rev map] in HA. inversion HA; subst. eapply keq_trans; [apply kmul_ext; [apply keq_refl|eassumption]|apply kmul_id_r].
  - cbn [rev] in HA. rewrite map_app in HA. cbn [map] in HA. destruct (pls_snoc_inv n _ _ _ HA) as (A' & P & HA' & HP & EA). inversion FR as [|? ? F1 F2]; subst.
    destruct cur as [[mo mt] mc]. destruct (same_place t mt c mc) eqn:Q.
    + apply same_place_eq in Q as [-> ->]. destruct (pl_merge n mo (map (qubit_of n) mt) (control_of n mc) o (control_of n mc) B P HB HP (cspec_refl n mc)) as (r & E & HR).
      rewrite E; cbn [bind]. destruct (IH merged (r, mt, mc) A' (kmul n B P) D HA' HR HD F2 FC FM) as (m & EM & HM & HF). exists m. split; [exact EM|]. split; [|exact HF].
      eapply pls_ext; [exact HM|]. apply kmul_ext; [apply keq_refl|]. eapply keq_trans; [apply kmul_ext; [apply keq_refl|exact EA]|apply keq_sym, kmul_assoc].
    + destruct (IH (merged ++ [(mo, mt, mc)]) (o, t, c) A' P (kmul n D B) HA' HP) as (m & EM & HM & HF).
      { rewrite rev_app_distr. cbn [rev app map]. econstructor; [exact HB|exact HD|apply keq_refl]. }
      { exact F2. } { exact F1. } { apply Forall_app; split; [exact FM|constructor; [exact FC|constructor]]. }
      exists m. split; [exact EM|]. split; [|exact HF]. eapply pls_ext; [exact HM|]. eapply keq_trans; [|apply keq_sym, kmul_assoc].
      apply kmul_ext; [apply keq_refl|]. apply kmul_ext; [apply keq_refl|]. exact EA.
Qed.
Lemma zmerge : forall n l K, pls n (map (resolve_placed n) l) K -> Forall (in_range n) l ->
    exists m, merge_operators_z l = Ok m /\ pls n (map (resolve_placed n) m) K /\ Forall (in_range n) m.
Proof.
  intros n l K H F. unfold merge_operators_z. destruct (Nat.ltb (length l) 2); [exists l; auto|]. destruct (rev l) as [|p rest] eqn:ER; [exists l; auto|].
  assert (EL : l = rev rest ++ [p]) by (rewrite <- (rev_involutive l), ER; reflexivity).
  rewrite EL in H, F. rewrite map_app in H. cbn [map] in H. apply Forall_app in F as [F1 F2]. inversion F2 as [|? ? F3 _]; subst. destruct (pls_snoc_inv n _ _ _ H) as (A & P & HA & HP & EK).
  destruct (zmerge_loop n rest [] p A P kid HA HP (pls_nil n kid (keq_refl n kid))) as (m & EM & HM & HF).
  { rewrite <- (rev_involutive rest). apply Forall_rev. exact F1. } { exact F3. } { constructor. }
  rewrite EM; cbn [bind]. eexists; split; [reflexivity|]. split; [|apply Forall_rev; exact HF]. eapply pls_ext; [exact HM|]. eapply keq_trans; [exact EK|apply keq_sym, kmul_id_l].
Qed.
Lemma zstep_dense : forall w n p K a, pl_ok n (resolve_placed n p) K -> in_range n p -> is_state n a ->
    (let '(o, t, c) := p in apply_operator_state_z w (SDense a) o t c) = (let '(o, t, c) := resolve_placed n p in apply_operator_state w (SDense a) o t c).
Proof.
  intros w n [[o t] c] K a (u & cs & E & M & _) HR HA. cbn [resolve_placed fst snd] in *. subst o. cbn [apply_operator_state_z apply_operator_state].
  rewrite (apply_z_ok n a u t c HA) by (first [rewrite map_length in M; exact M|exact HR]). reflexivity.
Qed.
Lemma zrun_dense : forall w n l K a, pls n (map (resolve_placed n) l) K -> Forall (in_range n) l -> is_state n a ->
    foldM (fun s (p : zplaced) => let '(o, t, c) := p in apply_operator_state_z w s o t c) l (SDense a) =
    foldM (fun s (p : placed) => let '(o, t, c) := p in apply_operator_state w s o t c) (map (resolve_placed n) l) (SDense a).
Proof.
  intros w n l. induction l as [|p l IH]; intros K a H F HA; [reflexivity|]. cbn [map foldM] in *. inversion H as [|? ? P L ? HP HL]; subst. inversion F as [|? ? F1 F2]; subst.
  rewrite (zstep_dense w n p P a HP F1 HA). destruct (resolve_placed n p) as [[o t] c]. destruct (step_dense w n o t c P a HP HA) as (r & E & HR & _). rewrite E. cbn [bind]. apply (IH L); assumption.
Qed.
Lemma operator_of_resolved : forall w ot n g vals, operator_of w ot (resolved n g) vals = operator_of w ot (zfields g) vals.
Proof. intros w ot n g vals. destruct g as [[cl nm tg ct ns sp pr sh] t c]. destruct ot; reflexivity. Qed.
Lemma c123_vectors : forall w n vals ot mg gs a,
    gs <> [] -> Forall (fun g => Forall (is_index n) (indices_of g)) gs -> Forall (usable n vals) (map (resolved n) gs) -> Forall dense_gate (map (resolved n) gs) ->
    Forall noiseless (map (resolved n) gs) -> Forall (has_operation ot) (map (resolved n) gs) -> is_state n a ->
    apply_gates_z w (SDense a) gs vals ot false mg = apply_gates w (SDense a) (GMany (map (resolved n) gs)) vals ot false mg.
Proof.
  intros w n vals ot mg gs a NE FI FU FD FN FO HA.
  destruct (usable_gseq w ot n vals (map (resolved n) gs) FU FD FO) as (K & HG).
  assert (NE' : map (resolved n) gs <> []) by (intro Q; apply map_eq_nil in Q; contradiction).
  destruct (apply_gates_dense w n vals ot mg (map (resolved n) gs) K a NE' FN HG HA) as (r & Er & Sr & Ar). rewrite Er.
  destruct (gseq_placed _ _ _ _ _ _ HG) as (ops & EO & LO & HP).
  assert (EO' : mapM (fun g => operator_of w ot (zfields g) vals) gs = Ok ops).
  { rewrite <- EO. clear. induction gs as [|g gs IH]; [reflexivity|]. cbn [map mapM]. rewrite operator_of_resolved, IH. reflexivity. }
  assert (NO : no_noise (map (fun g => noise (zfields g)) gs) = true).
  { rewrite <- (proj2 (no_noise_spec (map (resolved n) gs)) FN). rewrite map_map. reflexivity. }
  set (pl := map (fun og => (fst og, ztarget (snd og), zcontrol (snd og))) (combine ops gs)).
  assert (HP' : pls n (map (resolve_placed n) pl) K).
  { replace (map (resolve_placed n) pl) with (map (fun og => (fst og, target (snd og), control (snd og))) (combine ops (map (resolved n) gs))); [exact HP|].
    unfold pl. clear. revert gs. induction ops as [|o ops IH]; intros [|g gs]; cbn [map combine]; try reflexivity. rewrite IH. reflexivity. }
  assert (FR : Forall (in_range n) pl).
  { unfold pl. clear - FI. revert ops. induction FI as [|g gs Hg Hgs IH]; intros [|o ops]; cbn [map combine]; constructor; [exact Hg|apply IH]. }
  unfold apply_gates_z, prepare_sequence_reduce_z. cbv zeta. rewrite EO'. cbn [bind]. fold pl. destruct gs as [|g gs]; [congruence|]. rewrite NO. cbn [andb].
  assert (RUN : forall l, pls n (map (resolve_placed n) l) K -> Forall (in_range n) l ->
      foldM (fun s (p : zplaced) => let '(o, t, c) := p in apply_operator_state_z w s o t c) l (SDense a) = Ok (SDense r)).
  { intros l Hl Fl. rewrite (zrun_dense w n l K a Hl Fl HA). destruct (run_dense w n _ K a Hl HA) as (r' & E' & S' & A'). rewrite E'. f_equal. f_equal.
    apply (state_ext n); [exact S'|exact Sr|]. intros x Hx. rewrite A', Ar by exact Hx. reflexivity. }
  destruct mg; cbn [andb bind fst snd].
  - destruct (zmerge n pl K HP' FR) as (m & EM & HM & FM). rewrite EM. cbn [bind fst snd]. rewrite NO. cbn [negb]. apply RUN; assumption.
  - rewrite NO. cbn [negb]. apply RUN; assumption.
Qed.

(** ** without negative indices, this model is the one of Apply.v *)
Definition natural (i : Z) : Prop := (0 <= i)%Z.
Lemma qubit_natural : forall n i, natural i -> qubit_of n i = Z.to_nat i.
Proof. intros n i H. unfold qubit_of. destruct (Z.ltb_spec i 0); [unfold natural in H; lia|reflexivity]. Qed.
Lemma natural_range : forall n k l, Forall natural l -> Forall (is_index n) l <-> forallb (fun i => Nat.ltb i n) (map (qubit_of k) l) = true.
Proof.
  intros n k l H. induction H as [|i l Hi Hl IH]; cbn [map forallb]; [split; constructor|]. rewrite Bool.andb_true_iff, <- IH, qubit_natural by exact Hi. unfold natural in Hi. split.
  - intro Q. inversion Q as [|? ? [Q1 Q2] Q3]; subst. split; [apply Nat.ltb_lt; lia|exact Q3].
  - intros [Q1 Q2]. apply Nat.ltb_lt in Q1. constructor; [split; lia|exact Q2].
Qed.
Lemma natural_same : forall n k l, Forall natural l -> map (qubit_of n) l = map (qubit_of k) l.
Proof. intros n k l H. apply map_ext_in. intros i Hi. rewrite Forall_forall in H. rewrite !qubit_natural by (apply H; exact Hi). reflexivity. Qed.
Lemma tensordot_natural : forall n a b axa axb, Forall natural axb -> tensordot_z a b axa axb = tensordot a b axa (map (qubit_of n) axb).
Proof.
  intros n a b axa axb H. destruct (Forall_dec (is_index (ndim b)) (is_index_dec (ndim b)) axb) as [D|D].
  - rewrite tensordot_ok by exact D. rewrite (natural_same (ndim b) n) by exact H. reflexivity.
  - unfold tensordot_z. rewrite canonical_some by exact D. unfold tensordot. rewrite map_length. destruct (Nat.eqb (length axa) (length axb)); cbn [negb bind]; [|reflexivity].
    rewrite (natural_range (ndim b) n axb H) in D. apply Bool.not_true_is_false in D. rewrite D, Bool.andb_false_r. reflexivity.
Qed.
Lemma moveaxis_natural : forall n a s d, Forall natural d -> moveaxis_z a s d = moveaxis a s (map (qubit_of n) d).
Proof.
  intros n a s d H. destruct (Forall_dec (is_index (ndim a)) (is_index_dec (ndim a)) d) as [D|D].
  - rewrite moveaxis_ok by exact D. rewrite (natural_same (ndim a) n) by exact H. reflexivity.
  - unfold moveaxis_z. rewrite canonical_some by exact D. unfold moveaxis. cbn [bind].
    rewrite (natural_range (ndim a) n d H) in D. apply Bool.not_true_is_false in D. rewrite D, Bool.andb_false_r. reflexivity.
Qed.
Lemma apply_natural : forall n a u t c, Forall natural (places c t) -> apply_operator_z a u t c = apply_operator a u (map (qubit_of n) t) (control_of n c).
Proof.
  intros n a u t c H. unfold apply_operator_z, apply_operator. destruct (prepare_same n u t c) as [P1 P2]. rewrite P1. destruct (prepare_operator_z u t c) as [od|] eqn:E; cbn [bind]; [|reflexivity].
  rewrite (P2 od eq_refl). cbn [fst snd]. rewrite (tensordot_natural n) by exact H. rewrite map_length. destruct (tensordot _ _ _ _) as [r|]; cbn [bind]; [|reflexivity]. apply moveaxis_natural; exact H.
Qed.
Lemma insert_by_map : forall {A B} (h : A -> B) la lb x l, (forall y, In y l -> lb (h x) (h y) = la x y) -> insert_by lb (h x) (map h l) = map h (insert_by la x l).
Proof.
  intros A B h la lb x l. induction l as [|y l IH]; intro H; cbn [map insert_by]; [reflexivity|]. rewrite (H y) by (left; reflexivity). destruct (la x y); [reflexivity|]. cbn [map]. rewrite IH; [reflexivity|]. intros z Hz. apply H; right; exact Hz.
Qed.
Lemma sort_by_map : forall {A B} (h : A -> B) la lb l, (forall x y, In x l -> In y l -> lb (h x) (h y) = la x y) -> sort_by lb (map h l) = map h (sort_by la l).
Proof.
  intros A B h la lb l. induction l as [|x l IH]; intro H; cbn [map sort_by]; [reflexivity|]. rewrite IH by (intros y z Hy Hz; apply H; right; assumption).
  apply insert_by_map. intros y Hy. apply H; [left; reflexivity|right]. eapply Permutation_in; [apply GroupFacts.sort_by_perm|exact Hy].
Qed.
(** sorting integers is sorting their images under an increasing map to the naturals *)
Lemma argsort_embed : forall f l, (forall x y, In x l -> In y l -> Nat.leb (f x) (f y) = Z.leb x y) -> argsort_z l = argsort (map f l).
Proof.
  intros f l H. unfold argsort_z, argsort. rewrite map_length.
  assert (E : combine (map f l) (seq 0 (length l)) = map (fun p => (f (fst p), snd p)) (combine l (seq 0 (length l)))).
  { generalize (seq 0 (length l)). clear. induction l as [|x l IH]; intros [|s ss]; cbn [map combine fst snd]; try reflexivity. rewrite IH; reflexivity. }
  rewrite E, (sort_by_map (fun p => (f (fst p), snd p)) (fun a b => Z.leb (fst a) (fst b))).
  - rewrite map_map. apply map_ext. reflexivity.
  - intros [x i] [y j] Hx Hy. cbn [fst]. apply H; eapply in_combine_l; eassumption.
Qed.
Lemma permute_embed : forall f a l inv, (forall x y, In x l -> In y l -> Nat.leb (f x) (f y) = Z.leb x y) -> permute_basis_z a l inv = permute_basis a (map f l) inv.
Proof. intros f a l inv H. unfold permute_basis_z, permute_basis. rewrite (argsort_embed f l H), map_length. reflexivity. Qed.
Lemma dedup_nodup : forall l, NoDup l -> dedup l = l.
Proof. intros l H. induction H as [|x l Hx Hl IH]; cbn [dedup]; [reflexivity|]. destruct (mem x l) eqn:E; [exfalso; apply Hx; apply mem_In; exact E|]. rewrite IH; reflexivity. Qed.
Lemma outside_natural : forall n k dims, Forall natural dims -> outside n dims = set_diff (seq 0 n) (map (qubit_of k) dims).
Proof.
  intros n k dims H. unfold outside, set_diff. rewrite dedup_nodup by apply seq_NoDup. apply filter_ext. intro q. f_equal.
  induction H as [|i l Hi Hl IH]; cbn [existsb map]; [reflexivity|]. rewrite IH, qubit_natural by exact Hi. unfold mem. cbn [existsb]. f_equal.
  unfold natural in Hi. destruct (Z.eqb_spec (Z.of_nat q) i), (Nat.eqb_spec q (Z.to_nat i)); try reflexivity; lia.
Qed.
Lemma apply_dm_natural : forall so n a u t c, Forall natural (places c t) -> apply_operator_dm_z so a u t c = apply_operator_dm so a u (map (qubit_of n) t) (control_of n c).
Proof.
  intros so n a u t c H. unfold apply_operator_dm_z, apply_operator_dm. destruct (prepare_same n u t c) as [P1 P2]. rewrite P1. destruct (prepare_operator_z u t c) as [od|] eqn:E; cbn [bind]; [|reflexivity].
  rewrite (P2 od eq_refl). cbn [fst snd]. rewrite map_length, (outside_natural (ndim a / 2) n) by exact H. set (rest := so _).
  assert (ES : forall b inv, permute_basis_z b (places c t ++ map Z.of_nat rest) inv = permute_basis b (map (qubit_of n) (places c t) ++ rest) inv).
  { intros b inv. rewrite (permute_embed Z.to_nat).
    - rewrite map_app, map_map. f_equal. f_equal; [|rewrite <- (map_id rest) at 2; apply map_ext; intro; apply Nat2Z.id].
      apply map_ext_in. intros i Hi. symmetry. apply qubit_natural. rewrite Forall_forall in H. apply H; exact Hi.
    - intros x y Hx Hy. assert (Q : forall z, In z (places c t ++ map Z.of_nat rest) -> (0 <= z)%Z).
      { intros z Hz. apply in_app_or in Hz as [Hz|Hz]; [rewrite Forall_forall in H; apply H; exact Hz|]. apply in_map_iff in Hz as (q & <- & _). lia. }
      apply Q in Hx, Hy. destruct (Z.leb_spec x y), (Nat.leb_spec (Z.to_nat x) (Z.to_nat y)); try reflexivity; lia. }
  rewrite ES. destruct (permute_basis a _ false) as [b|]; cbn [bind]; [|reflexivity]. destruct (tensordot _ b _ _) as [b1|]; cbn [bind]; [|reflexivity]. destruct (dagger b1) as [b2|]; cbn [bind]; [|reflexivity].
  destruct (tensordot _ b2 _ _) as [b3|]; cbn [bind]; [|reflexivity]. destruct (dagger b3) as [b4|]; cbn [bind]; [|reflexivity]. apply ES.
Qed.
Lemma expand_natural : forall n k t full, Forall natural t -> expand_operator_z k t full = expand_operator k (map (qubit_of n) t) full.
Proof.
  intros n k t full H. unfold expand_operator_z. replace (existsb (fun i => (i <? 0)%Z) t) with false.
  - f_equal. apply map_ext_in. intros i Hi. symmetry. apply qubit_natural. rewrite Forall_forall in H. apply H; exact Hi.
  - symmetry. apply Bool.not_true_is_false. intro Q. apply existsb_exists in Q as (i & Hi & Q). rewrite Forall_forall in H. apply H in Hi. unfold natural in Hi. apply Z.ltb_lt in Q. lia.
Qed.
Definition not_sparse (s : state) : Prop := match s with SSparse _ => False | _ => True end.
Lemma state_natural : forall w n s m t c, not_sparse s -> Forall natural (places c t) -> apply_operator_state_z w s m t c = apply_operator_state w s m (map (qubit_of n) t) (control_of n c).
Proof.
  intros w n s m t c NS H. destruct s as [a|b|a], m as [o|o]; try contradiction; try reflexivity; cbn [apply_operator_state_z apply_operator_state].
  - rewrite (apply_natural n) by exact H. reflexivity.
  - rewrite (apply_dm_natural (set_iter w) n) by exact H. reflexivity.
Qed.
Lemma state_not_sparse : forall w s m t c r, not_sparse s -> apply_operator_state w s m t c = Ok r -> not_sparse r.
Proof.
  intros w s m t c r NS H. destruct s as [a|b|a], m as [o|o]; try contradiction; try discriminate; cbn [apply_operator_state] in H; match type of H with (let! _ := ?e in _) = _ => destruct e; cbn [bind] in H; [|discriminate] end; injection H as <-; exact Logic.I.
Qed.
Lemma noise_natural : forall n s t full x, Forall natural t -> apply_noise_z s t full x = apply_noise s (map (qubit_of n) t) full x.
Proof.
  intros n s t full x H. unfold apply_noise_z, apply_noise. destruct (kraus x) as [ks|]; cbn [bind]; [|reflexivity].
  replace (mapM (fun k => expand_operator_z k t full) ks) with (mapM (fun k => expand_operator k (map (qubit_of n) t) full) ks); [reflexivity|].
  induction ks as [|k ks IH]; cbn [mapM]; [reflexivity|]. rewrite (expand_natural n) by exact H. rewrite IH. reflexivity.
Qed.
Lemma noisy_natural : forall w n s m t c ns, not_sparse s -> Forall natural (places c t) ->
    apply_operator_with_noise_z w s m t c ns = apply_operator_with_noise w s m (map (qubit_of n) t) (control_of n c) ns.
Proof.
  intros w n s m t c ns NS H. unfold apply_operator_with_noise_z, apply_operator_with_noise. rewrite (state_natural w n) by assumption.
  destruct (apply_operator_state w s m _ _) as [r|]; cbn [bind]; [|reflexivity]. destruct ns as [l|]; [|reflexivity]. destruct (num_qubits r) as [k|]; cbn [bind]; [|reflexivity].
  assert (HT : Forall natural t) by (destruct c as [cs|]; cbn [places] in H; [apply Forall_app in H; apply H|exact H]).
  revert r. induction l as [|x l IH]; intro r; cbn [foldM]; [reflexivity|]. rewrite (noise_natural n) by exact HT. destruct (apply_noise r _ _ x) as [r'|]; cbn [bind]; [apply IH|reflexivity].
Qed.

Lemma noisy_not_sparse : forall w s m t c ns r, not_sparse s -> apply_operator_with_noise w s m t c ns = Ok r -> not_sparse r.
Proof.
  intros w s m t c ns r NS H. unfold apply_operator_with_noise in H. destruct (apply_operator_state w s m t c) as [r0|] eqn:E; cbn [bind] in H; [|discriminate].
  pose proof (state_not_sparse _ _ _ _ _ _ NS E) as N0. destruct ns as [l|]; [|injection H as <-; exact N0]. destruct (num_qubits r0) as [k|]; cbn [bind] in H; [|discriminate].
  clear E. revert r0 N0 H. induction l as [|x l IH]; intros r0 N0 H; cbn [foldM] in H; [injection H as <-; exact N0|].
  destruct (apply_noise r0 t (seq 0 k) x) as [r1|] eqn:E; cbn [bind] in H; [|discriminate]. apply (IH r1); [|exact H].
  unfold apply_noise in E. destruct (kraus x); cbn [bind] in E; [|discriminate]. destruct (mapM _ _) in E; cbn [bind] in E; [|discriminate]. destruct r0; try discriminate.
  destruct (apply_kraus_sum _ _ _) in E; cbn [bind] in E; [|discriminate]. injection E as <-. exact Logic.I.
Qed.
Definition natural_gate (g : zgate) : Prop := Forall natural (indices_of g).
Definition natural_placed (p : zplaced) : Prop := let '(_, t, c) := p in Forall natural (places c t).
Lemma target_natural : forall c t, Forall natural (places c t) -> Forall natural t.
Proof. intros [cs|] t H; cbn [places] in H; [apply Forall_app in H; apply H|exact H]. Qed.
Lemma list_eqb_natural : forall n t t', Forall natural t -> Forall natural t' -> list_eqb (map (qubit_of n) t) (map (qubit_of n) t') = if list_eq_dec Z.eq_dec t t' then true else false.
Proof.
  intros n t t' H H'. destruct (list_eq_dec Z.eq_dec t t') as [->|D]; [apply list_eqb_refl|]. apply Bool.not_true_is_false. intro Q. apply list_eqb_eq in Q. apply D. clear D. revert t' H' Q.
  induction H as [|i t Hi Ht IH]; intros [|i' t'] H' Q; try discriminate; [reflexivity|]. inversion H' as [|? ? Hi' Ht']; subst. cbn [map] in Q. injection Q as Q1 Q2.
  rewrite !qubit_natural in Q1 by assumption. unfold natural in *. f_equal; [lia|apply IH; assumption].
Qed.
Lemma qidx_list_natural : forall n l l', Forall natural l -> Forall natural l' -> qidx_list_eqb (map (fun i => QInt (qubit_of n i)) l) (map (fun i => QInt (qubit_of n i)) l') = list_eqb (map (qubit_of n) l) (map (qubit_of n) l').
Proof. intros n l l' _ _. revert l'. induction l as [|x l IH]; intros [|y l']; cbn [map qidx_list_eqb qidx_eqb list_eqb]; try reflexivity. rewrite IH. reflexivity. Qed.
Lemma same_place_natural : forall n t t' c c', Forall natural (places c t) -> Forall natural (places c' t') ->
    list_eqb (map (qubit_of n) t) (map (qubit_of n) t') && cspec_eqb (control_of n c) (control_of n c') = same_place t t' c c'.
Proof.
  intros n t t' c c' H H'. unfold same_place. rewrite list_eqb_natural by (eapply target_natural; eassumption). f_equal. destruct c as [l|], c' as [l'|]; cbn [control_of cspec_eqb].
  - cbn [places] in *. apply Forall_app in H as [H _]. apply Forall_app in H' as [H' _]. rewrite qidx_list_natural, list_eqb_natural by assumption. reflexivity.
  - destruct l as [|i [|? ?]]; reflexivity.
  - destruct l' as [|i [|? ?]]; reflexivity.
  - reflexivity.
Qed.
Lemma merge_loop_natural : forall n rest merged cur, Forall natural_placed rest -> natural_placed cur -> Forall natural_placed merged ->
    merge_loop (map (resolve_placed n) merged) (resolve_placed n cur) (map (resolve_placed n) rest) = (let! m := merge_loop_z merged cur rest in Ok (map (resolve_placed n) m)) /\
    (forall m, merge_loop_z merged cur rest = Ok m -> Forall natural_placed m).
Proof.
  intros n rest. induction rest as [|[[o t] c] rest IH]; intros merged [[mo mt] mc] FR FC FM; cbn [map merge_loop merge_loop_z resolve_placed].
  - cbn [bind]. rewrite map_app. split; [reflexivity|]. intros m H; injection H as <-. apply Forall_app; split; [exact FM|constructor; [exact FC|constructor]].
  - inversion FR as [|? ? F1 F2]; subst. rewrite same_place_natural by assumption. destruct (same_place t mt c mc) eqn:Q.
    + destruct (mat_matmul mo o) as [o'|]; cbn [bind]; [|split; [reflexivity|discriminate]]. apply (IH merged (o', mt, mc) F2 FC FM).
    + assert (FM' : Forall natural_placed (merged ++ [(mo, mt, mc)])) by (apply Forall_app; split; [exact FM|constructor; [exact FC|constructor]]).
      destruct (IH (merged ++ [(mo, mt, mc)]) (o, t, c) F2 F1 FM') as [E1 E2]. split; [|exact E2]. rewrite map_app in E1. exact E1.
Qed.
Lemma merge_natural : forall n l, Forall natural_placed l ->
    merge_operators (map (resolve_placed n) l) = (let! m := merge_operators_z l in Ok (map (resolve_placed n) m)) /\ (forall m, merge_operators_z l = Ok m -> Forall natural_placed m).
Proof.
  intros n l F. unfold merge_operators, merge_operators_z. rewrite map_length, <- map_rev. destruct (Nat.ltb (length l) 2); [split; [reflexivity|intros m H; injection H as <-; exact F]|].
  apply Forall_rev in F. destruct (rev l) as [|p rest] eqn:E; cbn [map]; [split; [reflexivity|intros m H; injection H as <-; rewrite <- (rev_involutive l), E; constructor]|].
  inversion F as [|? ? F1 F2]; subst. destruct (merge_loop_natural n rest [] p F2 F1 (Forall_nil _)) as [E1 E2]. cbn [map] in E1. rewrite E1.
  destruct (merge_loop_z [] p rest) as [m|]; cbn [bind]; [|split; [reflexivity|discriminate]]. rewrite map_rev. split; [reflexivity|]. intros m' H; injection H as <-. apply Forall_rev, E2; reflexivity.
Qed.
Lemma lex_natural : forall n a b, Forall natural a -> Forall natural b -> lex_leb (map (qubit_of n) a) (map (qubit_of n) b) = lex_leb_z a b.
Proof.
  intros n a b H. revert b. induction H as [|x a Hx Ha IH]; intros [|y b] Hb; cbn [map lex_leb lex_leb_z]; try reflexivity. inversion Hb as [|? ? Hy Hb']; subst.
  rewrite !qubit_natural, IH by assumption. unfold natural in *.
  destruct (Z.ltb_spec x y), (Nat.ltb_spec (Z.to_nat x) (Z.to_nat y)); try lia; try reflexivity. destruct (Z.ltb_spec y x), (Nat.ltb_spec (Z.to_nat y) (Z.to_nat x)); try lia; reflexivity.
Qed.
Lemma controlled_natural : forall n c, is_controlled (control_of n c) = controlled_z c.
Proof. intros n [[|i l]|]; reflexivity. Qed.
Lemma group_natural : forall n gates srt batch, Forall natural_gate gates -> Forall natural_gate batch ->
    group_loop (map (resolved n) srt) (map (resolved n) batch) (map (resolved n) gates) = map (resolved n) (group_loop_z srt batch gates).
Proof.
  intros n gates.
  assert (SB : forall l, Forall natural_gate l -> sort_batch (map (resolved n) l) = map (resolved n) (sort_batch_z l)).
  { intros l F. unfold sort_batch, sort_batch_z. apply sort_by_map. intros x y Hx Hy. cbn [target resolved]. rewrite Forall_forall in F. apply lex_natural; eapply target_natural; apply F; assumption. }
  induction gates as [|g gates IH]; intros srt batch FG FB; cbn [map group_loop group_loop_z].
  - destruct batch as [|b batch]; [reflexivity|]. rewrite map_app, <- SB by exact FB. reflexivity.
  - inversion FG as [|? ? F1 F2]; subst. cbn [control resolved]. rewrite controlled_natural. destruct (controlled_z (zcontrol g)) eqn:C; cbn [negb].
    + destruct batch as [|b batch]; cbn [map].
      * specialize (IH (srt ++ [g]) [] F2 (Forall_nil _)). rewrite map_app in IH. exact IH.
      * specialize (IH ((srt ++ sort_batch_z (b :: batch)) ++ [g]) [] F2 (Forall_nil _)). rewrite !map_app, <- SB in IH by exact FB. exact IH.
    + specialize (IH srt (batch ++ [g]) F2). rewrite map_app in IH. apply IH. apply Forall_app; split; [exact FB|constructor; [exact F1|constructor]].
Qed.
Lemma group_natural_gates : forall gates srt batch, Forall natural_gate gates -> Forall natural_gate batch -> Forall natural_gate srt -> Forall natural_gate (group_loop_z srt batch gates).
Proof.
  assert (SB : forall l, Forall natural_gate l -> Forall natural_gate (sort_batch_z l)).
  { intros l F. unfold sort_batch_z. eapply Permutation_Forall; [apply Permutation_sym, GroupFacts.sort_by_perm|exact F]. }
  induction gates as [|g gates IH]; intros srt batch FG FB FS; cbn [group_loop_z].
  - destruct batch as [|b batch]; [exact FS|]. apply Forall_app; split; [exact FS|apply SB; exact FB].
  - inversion FG as [|? ? F1 F2]; subst. destruct (negb _).
    + apply IH; [exact F2| |exact FS]. apply Forall_app; split; [exact FB|constructor; [exact F1|constructor]].
    + destruct batch as [|b batch]; (apply IH; [exact F2|constructor|]).
      * apply Forall_app; split; [exact FS|constructor; [exact F1|constructor]].
      * apply Forall_app; split; [apply Forall_app; split; [exact FS|apply SB; exact FB]|constructor; [exact F1|constructor]].
Qed.
Lemma steps_natural : forall w n l s, Forall natural_placed l -> not_sparse s ->
    foldM (fun s (p : zplaced) => let '(o, t, c) := p in apply_operator_state_z w s o t c) l s =
    foldM (fun s (p : placed) => let '(o, t, c) := p in apply_operator_state w s o t c) (map (resolve_placed n) l) s.
Proof.
  intros w n l. induction l as [|[[o t] c] l IH]; intros s F NS; cbn [map foldM resolve_placed]; [reflexivity|]. inversion F as [|? ? F1 F2]; subst. rewrite (state_natural w n) by assumption.
  destruct (apply_operator_state w s o _ _) as [r|] eqn:E; cbn [bind]; [|reflexivity]. apply IH; [exact F2|]. eapply state_not_sparse; eassumption.
Qed.
Lemma noisy_steps_natural : forall w n l ns s, Forall natural_placed l -> not_sparse s ->
    foldM (fun s (pn : zplaced * option (list noise_inst)) => let '(o, t, c, x) := pn in apply_operator_with_noise_z w s o t c x) (combine l ns) s =
    foldM (fun s (pn : placed * option (list noise_inst)) => let '(o, t, c, x) := pn in apply_operator_with_noise w s o t c x) (combine (map (resolve_placed n) l) ns) s.
Proof.
  intros w n l. induction l as [|[[o t] c] l IH]; intros [|x ns] s F NS; cbn [map combine foldM resolve_placed]; try reflexivity. inversion F as [|? ? F1 F2]; subst. rewrite (noisy_natural w n) by assumption.
  destruct (apply_operator_with_noise w s o _ _ x) as [r|] eqn:E; cbn [bind]; [|reflexivity]. apply IH; [exact F2|]. eapply noisy_not_sparse; eassumption.
Qed.
Lemma c123_natural : forall w n s gs vals ot gr mg, (match s with SSparse _ => False | _ => True end) -> Forall (fun g => Forall (fun i => (0 <= i)%Z) (indices_of g)) gs ->
    apply_gates_z w s gs vals ot gr mg = apply_gates w s (GMany (map (resolved n) gs)) vals ot gr mg.
Proof.
  intros w n s gs vals ot gr mg NS F. unfold apply_gates_z, apply_gates, prepare_sequence_reduce_z, prepare_sequence_reduce. cbv zeta.
  assert (EG : (if gr then group_by_index (map (resolved n) gs) else map (resolved n) gs) = map (resolved n) (if gr then group_by_index_z gs else gs)).
  { destruct gr; [|reflexivity]. apply (group_natural n gs [] [] F (Forall_nil _)). }
  rewrite EG. clear EG. set (hs := if gr then group_by_index_z gs else gs).
  assert (FH : Forall natural_gate hs) by (unfold hs; destruct gr; [apply group_natural_gates; [exact F|constructor|constructor]|exact F]).
  clearbody hs. clear gs F.
  assert (EO : mapM (fun g => operator_of w ot g vals) (map (resolved n) hs) = mapM (fun g => operator_of w ot (zfields g) vals) hs).
  { clear. induction hs as [|g gs IH]; [reflexivity|]. cbn [map mapM]. rewrite operator_of_resolved, IH. reflexivity. }
  rewrite EO. destruct (mapM _ hs) as [ops|]; cbn [bind]; [|reflexivity].
  assert (EN : map noise (map (resolved n) hs) = map (fun g => noise (zfields g)) hs) by (rewrite map_map; reflexivity).
  set (pl := map (fun og => (fst og, ztarget (snd og), zcontrol (snd og))) (combine ops hs)).
  assert (EP : map (fun og => (fst og, target (snd og), control (snd og))) (combine ops (map (resolved n) hs)) = map (resolve_placed n) pl).
  { unfold pl. clear. revert hs. induction ops as [|o ops IH]; intros [|g gs]; cbn [map combine]; try reflexivity. rewrite IH. reflexivity. }
  assert (FP : Forall natural_placed pl).
  { unfold pl. clear - FH. revert ops. induction FH as [|g gs Hg Hgs IH]; intros [|o ops]; cbn [map combine]; constructor; [exact Hg|apply IH]. }
  rewrite EP, EN. destruct hs as [|h hs]; [reflexivity|]. cbn [map] in *.
  set (nn := noise (zfields h) :: map (fun g => noise (zfields g)) hs) in *. change (noise (resolved n h) :: map noise (map (resolved n) hs)) with (noise (zfields h) :: map noise (map (resolved n) hs)) in *.
  assert (FIN : forall l, Forall natural_placed l ->
      match s with
      | SDense a => if negb (no_noise nn) then let! rho := density_mat a in foldM (fun s (pn : zplaced * option (list noise_inst)) => let '(o, t, c, x) := pn in apply_operator_with_noise_z w s o t c x) (combine l nn) (SDM rho)
                    else foldM (fun s (p : zplaced) => let '(o, t, c) := p in apply_operator_state_z w s o t c) l s
      | SDM _ => foldM (fun s (pn : zplaced * option (list noise_inst)) => let '(o, t, c, x) := pn in apply_operator_with_noise_z w s o t c x) (combine l nn) s
      | SSparse _ => Err NotImplementedError
      end =
      match s with
      | SDense a => if negb (no_noise nn) then let! rho := density_mat a in foldM (fun s (pn : placed * option (list noise_inst)) => let '(o, t, c, x) := pn in apply_operator_with_noise w s o t c x) (combine (map (resolve_placed n) l) nn) (SDM rho)
                    else foldM (fun s (p : placed) => let '(o, t, c) := p in apply_operator_state w s o t c) (map (resolve_placed n) l) s
      | SSparse _ => if negb (no_noise nn) then Err NotImplementedError else foldM (fun s (p : placed) => let '(o, t, c) := p in apply_operator_state w s o t c) (map (resolve_placed n) l) s
      | SDM _ => foldM (fun s (pn : placed * option (list noise_inst)) => let '(o, t, c, x) := pn in apply_operator_with_noise w s o t c x) (combine (map (resolve_placed n) l) nn) s
      end).
  { intros l Fl. destruct s as [a|b|a]; [|contradiction|apply noisy_steps_natural; assumption]. destruct (negb (no_noise nn)); [|apply steps_natural; assumption].
    destruct (density_mat a) as [rho|]; cbn [bind]; [|reflexivity]. apply noisy_steps_natural; [exact Fl|exact Logic.I]. }
  destruct (no_noise nn && mg) eqn:C.
  - destruct (merge_natural n pl FP) as [E1 E2]. rewrite E1. destruct (merge_operators_z pl) as [m|]; cbn [bind fst snd]; [|reflexivity]. apply FIN, E2; reflexivity.
  - cbn [bind fst snd]. apply FIN; exact FP.
Qed.
