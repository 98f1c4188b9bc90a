(** * Tensors of sparse operations *)
From Coq Require Import String List Arith Bool Reals Lia Lra Permutation.
From Verif Require Import Cplx Py PyFacts Ndarray NdFacts NdPerm OperatorUtils ApplyOperator Sparse Matrices Noise Gates Apply Composite SparseTensor
  Spec SpecFacts ApplyFacts GateSpec GateFacts CircuitFacts ExpandFacts ExpectSpec StructSpec SampleThm SparseSpec SparseSpec2 SparseFacts SparseThm Examples.
Import ListNotations.
Local Open Scope nat_scope.

Lemma inb2 : forall n m v, inb [n; m] v -> exists i j, v = [i; j] /\ i < n /\ j < m.
Proof. intros n m v H. inversion H as [|i ? v' ? Hi H1]; subst. inversion H1 as [|j ? v'' ? Hj H2]; subst. inversion H2; subst. eauto. Qed.
Lemma div_mod_split : forall a b i p, b < p -> (a * p + b = i <-> a = i / p /\ b = i mod p).
Proof.
  intros a b i p Hb. split.
  - intros <-. split.
    + rewrite Nat.div_add_l by lia. rewrite Nat.div_small by exact Hb. lia.
    + rewrite Nat.add_comm, Nat.mod_add by lia. rewrite Nat.mod_small by exact Hb. reflexivity.
  - intros [-> ->]. rewrite (Nat.div_mod i p) at 3 by lia. lia.
Qed.
Lemma kron_commutes : forall a b n m p q, bwf a -> bwf b -> bshp a = [n; m] -> bshp b = [p; q] -> dlift (b_kron a b) = kron (todense a) (todense b).
Proof.
  intros a b n m p q Wa Wb Sa Sb. unfold b_kron, kron. rewrite !todense_shape, Sa, Sb. unfold dlift; cbn [bind]. f_equal.
  rewrite todense_coef; cbn [bshp]. apply build_ext; intros v Hv. destruct (inb2 _ _ _ Hv) as (i & j & -> & Hi & Hj). cbn [nth].
  assert (P : p <> 0) by nia. assert (Q : q <> 0) by nia.
  assert (B1 : i / p < n) by (apply Nat.div_lt_upper_bound; nia). assert (B2 : j / q < m) by (apply Nat.div_lt_upper_bound; nia).
  pose proof (Nat.mod_upper_bound i p P) as B3. pose proof (Nat.mod_upper_bound j q Q) as B4.
  rewrite !get_todense by (rewrite ?Sa, ?Sb; repeat constructor; assumption).
  unfold coef; cbn [bent]. rewrite csum_flat_map. rewrite <- csum_scale_r. apply csum_ext; intros ea Ha. rewrite csum_map, csum_filter, <- csum_scale_l.
  apply csum_ext; intros eb Hb. cbn [fst snd]. unfold bwf in Wa, Wb; rewrite Forall_forall in Wa, Wb. specialize (Wa ea Ha); specialize (Wb eb Hb).
  unfold bndim in Wa, Wb; rewrite Sa in Wa; rewrite Sb in Wb. destruct (fst ea) as [|a0 [|a1 [|? ?]]]; try discriminate. destruct (fst eb) as [|b0 [|b1 [|? ?]]]; try discriminate.
  cbn [nth in_shape list_eqb]. rewrite !andb_true_r.
  destruct (Nat.ltb_spec b0 p) as [L0|L0]; destruct (Nat.ltb_spec b1 q) as [L1|L1]; cbn [andb]; rewrite ?andb_true_r, ?andb_false_r.
  2,3,4: destruct (Nat.eqb_spec b0 (i mod p)), (Nat.eqb_spec b1 (j mod q)); cbn [andb]; try ring; exfalso; lia.
  pose proof (div_mod_split a0 b0 i p L0) as D0. pose proof (div_mod_split a1 b1 j q L1) as D1.
  destruct (Nat.eqb_spec (a0 * p + b0) i) as [E0|E0].
  - apply D0 in E0 as [-> ->]. rewrite !Nat.eqb_refl. cbn [andb].
    destruct (Nat.eqb_spec (a1 * q + b1) j) as [E1|E1].
    + apply D1 in E1 as [-> ->]. rewrite !Nat.eqb_refl. cbn [andb].
      rewrite (proj2 (Nat.ltb_lt _ _) B1), (proj2 (Nat.ltb_lt _ _) B2). reflexivity.
    + cbn [andb]. destruct (Nat.eqb_spec a1 (j / q)), (Nat.eqb_spec b1 (j mod q)); cbn [andb]; try (destruct (_ && _); ring). exfalso; apply E1, D1; auto.
  - cbn [andb]. destruct (Nat.eqb_spec a0 (i / p)), (Nat.eqb_spec b0 (i mod p)); cbn [andb]; try (destruct (_ && _); ring); try (destruct (Nat.eqb a1 (j / q)); destruct (_ && _); ring). exfalso; apply E0, D0; auto.
Qed.
Lemma kron_sq : forall k j a b r, sq k a -> sq j b -> b_kron a b = Ok r -> sq (k + j) r.
Proof.
  intros k j a b r [Wa Sa] [Wb Sb]. unfold b_kron. rewrite Sa, Sb. intro E; injection E as <-. split.
  - apply Forall_flat_map, Forall_forall. intros ea _. apply Forall_map, Forall_forall. intros eb _. reflexivity.
  - cbn [bshp]. rewrite Nat.pow_add_r. reflexivity.
Qed.
Definition brel (k : nat) (b : bcoo) (a : arr) : Prop := sq k b /\ a = todense b.
Lemma kron_ids_rel : forall j k b, sq k b ->
    rres (brel (k + j)) (foldM (fun acc i => b_kron acc i) (repeat (b_eye 2) j) b) (foldM (fun acc i => kron acc i) (repeat (matrix [[C1; C0]; [C0; C1]]) j) (todense b)).
Proof.
  induction j as [|j IH]; intros k b H; cbn [repeat foldM].
  - simpl. split; [rewrite Nat.add_0_r; exact H|reflexivity].
  - apply (rres_bind (brel (k + 1))).
    + apply rres_lift.
      * rewrite (kron_commutes b (b_eye 2) (2 ^ k) (2 ^ k) 2 2); [|apply H|apply eye_bwf|apply H|reflexivity]. rewrite eye_commutes. rewrite <- id2_eye. reflexivity.
      * intros r E. split; [|reflexivity]. eapply kron_sq; [exact H| |exact E]. split; [apply eye_bwf|reflexivity].
    + intros r d _ _ [Hr ->]. replace (k + S j) with (k + 1 + j) by lia. apply IH; exact Hr.
Qed.
Lemma permute_commutes : forall b s inv, bwf b -> dlift (b_permute_basis b s inv) = permute_basis (todense b) s inv.
Proof.
  intros b s inv W. unfold b_permute_basis, permute_basis. destruct (list_eqb _ _); [reflexivity|]. apply transpose_commutes; exact W.
Qed.
Lemma permute_bwf : forall b s inv r, bwf b -> b_permute_basis b s inv = Ok r -> bwf r.
Proof.
  intros b s inv r W. unfold b_permute_basis. destruct (list_eqb _ _); [intro E; injection E as <-; exact W|]. apply transpose_bwf.
Qed.
Lemma hilbert_commutes : forall b, dlift (b_hilbert_reshape b) = hilbert_reshape (todense b).
Proof.
  intro b. unfold b_hilbert_reshape, hilbert_reshape, size. rewrite reshape_commutes, todense_shape. do 3 f_equal.
Qed.
Lemma expand_rel : forall b k sup fs, sq k b -> rres (brel (List.length fs)) (b_expand_operator b sup fs) (expand_operator (todense b) sup fs).
Proof.
  intros b k sup fs H. unfold b_expand_operator, expand_operator. cbv zeta. destruct (negb _); [reflexivity|].
  eapply rres_bind; [apply kron_ids_rel; exact H|]. intros r1 d1 _ _ [H1 ->].
  apply (rres_bind (fun b a => bwf b /\ a = todense b)).
  - apply rres_lift; [apply hilbert_commutes|]. intros r E; split; [|reflexivity]. eapply reshape_bwf; exact E.
  - intros r2 d2 _ _ [H2 ->]. apply (rres_bind (fun b a => bwf b /\ a = todense b)).
    + apply rres_lift; [apply permute_commutes; exact H2|]. intros r E; split; [|reflexivity]. eapply permute_bwf; [exact H2|exact E].
    + intros r3 d3 _ _ [H3 ->]. apply rres_lift; [apply reshape_commutes|]. intros r E; split; [|reflexivity]. split; [eapply reshape_bwf; exact E|].
      unfold b_reshape in E. destruct (Nat.eqb _ _); [|discriminate]. injection E as <-. cbn [bshp]. rewrite !sorted_length. reflexivity.
Qed.

(** gates *)
Lemma set_ix_shape : forall n ix b r, set_ix (eye n) ix b = Ok r -> shape r = [n; n] /\ wf r.
Proof.
  intros n ix b r. unfold set_ix. change (shape (eye n)) with [n; n]. cbv iota. destruct (list_eqb _ _); [|discriminate]. intro E; injection E as <-.
  split; [reflexivity|apply wf_build].
Qed.
Lemma controlled_square : forall u ts c r, controlled u ts c = Ok r -> exists k, is_matrix k r.
Proof.
  intros u ts c r. unfold controlled, prepare_controlled. destruct (match c with CNone => _ | CTup l => _ end) as [cs|e]; cbn [bind]; [|discriminate].
  destruct (shape u) as [|d s]; cbn [bind]; [discriminate|]. cbv zeta. intro E.
  match type of E with context [if ?b then _ else _] => destruct b; [discriminate|] end.
  cbn [bind fst snd] in E. apply set_ix_shape in E as [S W]. eexists; split; [exact S|exact W].
Qed.
Lemma gate_rel : forall w vals g fs, sparse_gate g -> rres mrel (mat_gate_tensor w g vals fs) (mat_gate_tensor w (SparseSpec.with_sparse false g) vals fs).
Proof.
  intros w vals g fs SG. unfold mat_gate_tensor. eapply rres_bind; [apply unitary_rel; exact SG|].
  intros m d _ _ (k & u & -> & Hu & ->). change (control (SparseSpec.with_sparse false g)) with (control g). change (target (SparseSpec.with_sparse false g)) with (target g).
  apply (rres_bind mrel).
  - destruct (is_controlled (control g)); [|exists k, u; auto]. unfold b_controlled_on. destruct (controlled (todense u) (target g) (control g)) as [c|e] eqn:E; cbn [bind]; [|reflexivity].
    destruct (controlled_square _ _ _ _ E) as [j Hj]. simpl. apply (fromdense_mrel j); exact Hj.
  - intros m d _ _ (j & v & -> & Hv & ->). destruct fs as [fs|]; [|exists j, v; auto]. change (gate_support (SparseSpec.with_sparse false g)) with (gate_support g).
    destruct (gate_support g) as [sup|e]; cbn [bind]; [|reflexivity]. eapply rres_bind; [eapply expand_rel; exact Hv|].
    intros a b _ _ [Ha ->]. exists (List.length fs), a; auto.
Qed.
(** composites *)
Lemma support_sparse : forall w b o, support w (with_sparse_oper b o) = support w o.
Proof.
  intros w b. assert (L : forall l, Forall (fun o => support w (with_sparse_oper b o) = support w o) l -> mapM (support w) (map (with_sparse_oper b) l) = mapM (support w) l).
  { induction 1 as [|o l H _ IH]; [reflexivity|]. cbn [map mapM]. rewrite H, IH. reflexivity. }
  induction o as [g|l IH|l p IH|l IH|l IH|n l fp IH] using oper_ind'; cbn [with_sparse_oper support]; try (rewrite (L l IH)); reflexivity.
Qed.
Lemma resolve_sparse : forall w b l fs, resolve_support w (map (with_sparse_oper b) l) fs = resolve_support w l fs.
Proof.
  intros w b l fs. unfold resolve_support. replace (mapM (support w) (map (with_sparse_oper b) l)) with (mapM (support w) l); [reflexivity|].
  induction l as [|o l IH]; [reflexivity|]. cbn [map mapM]. rewrite support_sparse, IH. reflexivity.
Qed.
Lemma add_rel : forall m m' d d', mrel m d -> mrel m' d' -> rres mrel (mat_add m m') (mat_add d d').
Proof.
  intros m m' d d' (k & u & -> & Hu & ->) (k' & u' & -> & Hu' & ->). cbn [mat_add].
  apply (rres_bind (fun b a => a = todense b /\ sq k b)).
  - apply rres_lift; [apply add_commutes|]. intros r E; split; [reflexivity|]. split; [eapply add_bwf; [apply Hu|apply Hu'|exact E]|].
    unfold b_add in E. destruct (list_eqb _ _); [|discriminate]. injection E as <-. apply Hu.
  - intros r d _ _ [-> Hr]. exists k, r; auto.
Qed.
Lemma reduce_rel : forall w vals fs l op op', (forall m m' d d', mrel m d -> mrel m' d' -> rres mrel (op m m') (op' d d')) ->
    Forall (fun o => rres mrel (mat_tensor w vals o (Some fs)) (mat_tensor w vals (with_sparse_oper false o) (Some fs))) l ->
    rres mrel (reduce_map (fun o => mat_tensor w vals o (Some fs)) op l) (reduce_map (fun o => mat_tensor w vals o (Some fs)) op' (map (with_sparse_oper false) l)).
Proof.
  intros w vals fs l op op' HO F. destruct F as [|o l H F]; [reflexivity|]. cbn [map reduce_map]. eapply rres_bind; [exact H|]. intros m d _ _ R.
  eapply (rres_foldM mrel (fun o o' => rres mrel (mat_tensor w vals o (Some fs)) (mat_tensor w vals o' (Some fs)))); [|exact R|].
  - clear -F. induction F; cbn [map]; constructor; auto.
  - intros s t a b Rs Ra. eapply rres_bind; [exact Ra|]. intros m' d' _ _ R'. apply HO; assumption.
Qed.
Lemma single_rel : forall w vals fs l op op', List.length l <= 1 ->
    Forall (fun o => rres mrel (mat_tensor w vals o (Some fs)) (mat_tensor w vals (with_sparse_oper false o) (Some fs))) l ->
    rres mrel (reduce_map (fun o => mat_tensor w vals o (Some fs)) op l) (reduce_map (fun o => mat_tensor w vals o (Some fs)) op' (map (with_sparse_oper false) l)).
Proof.
  intros w vals fs l op op' L F. destruct l as [|o [|o' l]]; [reflexivity| |simpl in L; lia]. inversion F; subst. cbn [map reduce_map].
  eapply rres_bind; [eassumption|]. intros m d _ _ R. exact R.
Qed.
Lemma scale_rel : forall c m d, mrel m d -> mrel (mat_scale c m) (mat_scale c d).
Proof.
  intros c m d (k & u & -> & Hu & ->). exists k, (b_scale (RtoC c) u). split; [reflexivity|]. split; [split; [|apply Hu]|]; [unfold bwf, b_scale; cbn [bent bndim bshp]; apply Forall_map; eapply Forall_impl; [|exact (proj1 Hu)]; intros e H; exact H|].
  cbn [mat_scale]. rewrite scale_commutes. reflexivity.
Qed.
Lemma tensor_rel : forall w vals o fs, Forall sparse_gate (StructSpec.all_gates o) -> no_products o ->
    rres mrel (mat_tensor w vals o fs) (mat_tensor w vals (with_sparse_oper false o) fs).
Proof.
  intros w vals o. assert (L : forall l, Forall (fun o => forall fs, Forall sparse_gate (StructSpec.all_gates o) -> no_products o ->
      rres mrel (mat_tensor w vals o fs) (mat_tensor w vals (with_sparse_oper false o) fs)) l -> Forall sparse_gate (flat_map StructSpec.all_gates l) -> Forall no_products l ->
      forall fs, Forall (fun o => rres mrel (mat_tensor w vals o (Some fs)) (mat_tensor w vals (with_sparse_oper false o) (Some fs))) l).
  { intros l H G P fs. rewrite Forall_flat_map in G. rewrite Forall_forall in *. intros x Ix. apply H; auto. }
  induction o as [g|l IH|l p IH|l IH|l IH|n l fp IH] using oper_ind'; intros fs G P; inversion P; subst; cbn [mat_tensor with_sparse_oper StructSpec.all_gates] in *.
  - inversion G; subst. apply gate_rel; assumption.
  - rewrite resolve_sparse. apply (rres_bind eq); [destruct (resolve_support w l fs); reflexivity|]. intros s s' _ _ <-. apply single_rel; auto.
  - apply (rres_bind eq); [destruct (param_value p vals); reflexivity|]. intros c c' _ _ <-.
    rewrite resolve_sparse. apply (rres_bind eq); [destruct (resolve_support w l fs); reflexivity|]. intros s s' _ _ <-.
    eapply rres_bind; [apply single_rel; auto|]. intros m d _ _ R. simpl. apply scale_rel; exact R.
  - rewrite resolve_sparse. apply (rres_bind eq); [destruct (resolve_support w l fs); reflexivity|]. intros s s' _ _ <-. apply reduce_rel; auto. apply add_rel.
  - rewrite resolve_sparse. apply (rres_bind eq); [destruct (resolve_support w l fs); reflexivity|]. intros s s' _ _ <-. apply reduce_rel; auto. apply add_rel.
  - rewrite resolve_sparse. apply (rres_bind eq); [destruct (resolve_support w l fs); reflexivity|]. intros s s' _ _ <-. apply single_rel; auto.
Qed.
Lemma c95_sparse_tensor : forall w vals o fs, Forall sparse_gate (StructSpec.all_gates o) -> no_products o ->
    same_tensor (mat_tensor w vals o fs) (mat_tensor w vals (with_sparse_oper false o) fs).
Proof.
  intros w vals o fs G P. pose proof (tensor_rel w vals o fs G P) as R. unfold same_tensor.
  destruct (mat_tensor w vals o fs) as [m|e], (mat_tensor w vals (with_sparse_oper false o) fs) as [d|e']; simpl in R; try contradiction; [|exact R].
  destruct R as (k & u & -> & Hu & ->). split; [apply Hu|reflexivity].
Qed.

(** products *)
Lemma reduce_map_all : forall {A B} (P : B -> Prop) (f : A -> res B) op l r, (forall x, In x l -> forall b, f x = Ok b -> P b) -> (forall a b r, P a -> P b -> op a b = Ok r -> P r) ->
    reduce_map f op l = Ok r -> P r.
Proof.
  intros A B P f op [|x l] r H HO; cbn [reduce_map]; [discriminate|]. destruct (f x) as [b|e] eqn:E; cbn [bind]; [|discriminate].
  assert (Pb : P b) by (apply (H x); [left; reflexivity|exact E]). assert (H' : forall y, In y l -> forall b, f y = Ok b -> P b) by (intros; eapply H; [right; eassumption|eassumption]).
  clear H E x. revert b Pb. induction l as [|y l IH]; intros b Pb; cbn [foldM]; [intro E; injection E as <-; exact Pb|].
  destruct (f y) as [c|e] eqn:E; cbn [bind]; [|discriminate]. destruct (op b c) as [t|e] eqn:E2; cbn [bind]; [|discriminate].
  apply IH; [intros; eapply H'; [right; eassumption|eassumption]|]. eapply HO; [exact Pb|eapply H'; [left; reflexivity|exact E]|exact E2].
Qed.
Definition is_MS (m : mat) : Prop := exists b, m = MS b.
Lemma gate_sparse : forall w vals g fs m, sparse_gate g -> mat_gate_tensor w g vals fs = Ok m -> is_MS m.
Proof.
  intros w vals g fs m SG E. pose proof (gate_rel w vals g fs SG) as R. rewrite E in R. destruct (mat_gate_tensor w (SparseSpec.with_sparse false g) vals fs); [|contradiction].
  destruct R as (k & u & -> & _). exists u; reflexivity.
Qed.
Lemma two_products : forall (f : oper -> res mat) l r, (forall o, In o l -> forall m, f o = Ok m -> is_MS m) -> reduce_map f jnp_matmul l = Ok r -> List.length l <= 1.
Proof.
  intros f [|o [|o' l]] r H; cbn [reduce_map List.length]; [lia|lia|]. intro E. exfalso. revert E.
  destruct (f o) as [m|e] eqn:E1; cbn [bind foldM]; [|discriminate]. destruct (f o') as [m'|e] eqn:E2; cbn [bind]; [|discriminate].
  destruct (H o (or_introl eq_refl) m E1) as [b ->]. discriminate.
Qed.
Lemma tensor_sparse : forall w vals o fs m, Forall sparse_gate (StructSpec.all_gates o) -> mat_tensor w vals o fs = Ok m -> no_products o /\ is_MS m.
Proof.
  intros w vals o. assert (L : forall l, Forall (fun o => forall fs m, Forall sparse_gate (StructSpec.all_gates o) -> mat_tensor w vals o fs = Ok m -> no_products o /\ is_MS m) l ->
      Forall sparse_gate (flat_map StructSpec.all_gates l) -> forall o, In o l -> forall fs m, mat_tensor w vals o fs = Ok m -> no_products o /\ is_MS m).
  { intros l H G x Ix fs m E. rewrite Forall_flat_map in G. rewrite Forall_forall in *. eapply H; eauto. }
  assert (M : forall l op fs r, (forall o, In o l -> forall fs m, mat_tensor w vals o fs = Ok m -> no_products o /\ is_MS m) ->
      reduce_map (fun o => mat_tensor w vals o (Some fs)) op l = Ok r -> Forall no_products l).
  { intros l op fs r H E. apply Forall_forall. destruct l as [|x l]; [intros y []|]. cbn [reduce_map] in E.
    destruct (mat_tensor w vals x (Some fs)) as [b|e] eqn:E1; cbn [bind] in E; [|discriminate]. intros y [<-|Iy]; [eapply H; [left; reflexivity|exact E1]|].
    clear E1. revert b E. induction l as [|z l IHl]; intros b E; [contradiction|]. cbn [foldM] in E. destruct (mat_tensor w vals z (Some fs)) as [c|e] eqn:E2; cbn [bind] in E; [|discriminate].
    destruct (op b c) as [t|e]; cbn [bind] in E; [|discriminate]. destruct Iy as [<-|Iy]; [eapply H; [right; left; reflexivity|exact E2]|].
    eapply (IHl (fun o I => H o (match I with or_introl A => or_introl A | or_intror B => or_intror (or_intror B) end)) Iy t E). }
  induction o as [g|l IH|l p IH|l IH|l IH|n l fp IH] using oper_ind'; intros fs m G E; cbn [mat_tensor StructSpec.all_gates] in *.
  - inversion G; subst. split; [constructor|]. eapply gate_sparse; eassumption.
  - destruct (resolve_support w l fs) as [s|e]; cbn [bind] in E; [|discriminate]. pose proof (L l IH G) as H. pose proof (fun o I m E => proj2 (H o I (Some s) m E)) as H2. split.
    + apply np_seq; [eapply two_products; [|exact E]; exact H2|eapply M; eassumption].
    + apply (reduce_map_all is_MS _ jnp_matmul _ _ H2); [intros a b r [a' ->] _ X; discriminate X|exact E].
  - destruct (param_value p vals) as [c|e]; cbn [bind] in E; [|discriminate]. destruct (resolve_support w l fs) as [s|e]; cbn [bind] in E; [|discriminate].
    pose proof (L l IH G) as H. pose proof (fun o I m E => proj2 (H o I (Some s) m E)) as H2. destruct (reduce_map _ jnp_matmul l) as [t|e] eqn:E2; cbn [bind] in E; [|discriminate]. injection E as <-. split.
    + apply np_scale; [eapply two_products; [|exact E2]; exact H2|eapply M; eassumption].
    + assert (X : is_MS t) by (apply (reduce_map_all is_MS _ jnp_matmul _ _ H2); [intros a b r [a' ->] _ X; discriminate X|exact E2]).
      destruct X as [b ->]. eexists; reflexivity.
  - destruct (resolve_support w l fs) as [s|e]; cbn [bind] in E; [|discriminate]. pose proof (L l IH G) as H. pose proof (fun o I m E => proj2 (H o I (Some s) m E)) as H2. split; [constructor; eapply M; eassumption|].
    eapply (reduce_map_all is_MS); [| |exact E]; [exact H2|]. intros a b r [a' ->] [b' ->] X. cbn [mat_add] in X. destruct (b_add a' b'); cbn [bind] in X; [|discriminate].
    injection X as <-. eexists; reflexivity.
  - destruct (resolve_support w l fs) as [s|e]; cbn [bind] in E; [|discriminate]. pose proof (L l IH G) as H. pose proof (fun o I m E => proj2 (H o I (Some s) m E)) as H2. split; [constructor; eapply M; eassumption|].
    eapply (reduce_map_all is_MS); [| |exact E]; [exact H2|]. intros a b r [a' ->] [b' ->] X. cbn [mat_add] in X. destruct (b_add a' b'); cbn [bind] in X; [|discriminate].
    injection X as <-. eexists; reflexivity.
  - destruct (resolve_support w l fs) as [s|e]; cbn [bind] in E; [|discriminate]. pose proof (L l IH G) as H. pose proof (fun o I m E => proj2 (H o I (Some s) m E)) as H2. split.
    + apply np_circuit; [eapply two_products; [|exact E]; exact H2|eapply M; eassumption].
    + apply (reduce_map_all is_MS _ jnp_matmul _ _ H2); [intros a b r [a' ->] _ X; discriminate X|exact E].
Qed.
Lemma c95_products : forall w vals o fs m, Forall sparse_gate (StructSpec.all_gates o) -> ~ no_products o -> mat_tensor w vals o fs <> Ok m.
Proof. intros w vals o fs m G P E. apply P. eapply tensor_sparse; eassumption. Qed.

(** the dense view *)
Definition lift (r : res arr) : res mat := let! a := r in Ok (MD a).
Lemma reduce_dense : forall (f : oper -> res mat) (g : oper -> res arr) op op' l,
    (forall o, In o l -> forall a, f o = Ok (MD a) <-> g o = Ok a) ->
    (forall m m' a, op m m' = Ok (MD a) <-> exists x y, m = MD x /\ m' = MD y /\ op' x y = Ok a) ->
    forall a, reduce_map f op l = Ok (MD a) <-> reduce_map g op' l = Ok a.
Proof.
  intros f g op op' [|o l] H HO a; cbn [reduce_map]; [split; discriminate|].
  assert (K : forall l, (forall o, In o l -> forall a, f o = Ok (MD a) <-> g o = Ok a) -> forall m,
    (forall x, m = MD x -> (foldM (fun acc y => let! c := f y in op acc c) l m = Ok (MD a) <-> foldM (fun acc y => let! c := g y in op' acc c) l x = Ok a)) /\
    (foldM (fun acc y => let! c := f y in op acc c) l m = Ok (MD a) -> exists x, m = MD x)).
  { clear H l o. induction l as [|o l IH]; intros H m; cbn [foldM].
    - split; [|intro E; injection E as ->; eauto]. intros x ->. split; intro E; injection E as ->; reflexivity.
    - assert (H' : forall o, In o l -> forall a, f o = Ok (MD a) <-> g o = Ok a) by (intros; apply H; right; assumption).
      specialize (H o (or_introl eq_refl)). split.
      + intros x ->. split; intro E.
        * destruct (f o) as [c|e] eqn:E1; cbn [bind] in E; [|discriminate]. destruct (op (MD x) c) as [t|e] eqn:E2; cbn [bind] in E; [|discriminate].
          destruct (proj2 (IH H' t) E) as [y ->]. apply HO in E2 as (x' & z & X & -> & E2). injection X as <-. rewrite (proj1 (H z) eq_refl); cbn [bind]. rewrite E2; cbn [bind].
          apply (proj1 (IH H' (MD y)) y eq_refl); exact E.
        * destruct (g o) as [c|e] eqn:E1; cbn [bind] in E; [|discriminate]. destruct (op' x c) as [t|e] eqn:E2; cbn [bind] in E; [|discriminate].
          rewrite (proj2 (H c) eq_refl); cbn [bind]. rewrite (proj2 (HO (MD x) (MD c) t)) by eauto. cbn [bind]. apply (proj1 (IH H' (MD t)) t eq_refl); exact E.
      + intro E. destruct (f o) as [c|e] eqn:E1; cbn [bind] in E; [|discriminate]. destruct (op m c) as [t|e] eqn:E2; cbn [bind] in E; [|discriminate].
        destruct (proj2 (IH H' t) E) as [y ->]. apply HO in E2 as (x' & z & -> & _). eauto. }
  assert (H' : forall o, In o l -> forall a, f o = Ok (MD a) <-> g o = Ok a) by (intros; apply H; right; assumption).
  specialize (H o (or_introl eq_refl)). split; intro E.
  - destruct (f o) as [m|e]; cbn [bind] in E; [|discriminate]. destruct (proj2 (K l H' m) E) as [x ->]. rewrite (proj1 (H x) eq_refl); cbn [bind]. apply (proj1 (K l H' (MD x)) x eq_refl); exact E.
  - destruct (g o) as [x|e]; cbn [bind] in E; [|discriminate]. rewrite (proj2 (H x) eq_refl); cbn [bind]. apply (proj1 (K l H' (MD x)) x eq_refl); exact E.
Qed.
Lemma matmul_dense : forall m m' a, jnp_matmul m m' = Ok (MD a) <-> exists x y, m = MD x /\ m' = MD y /\ matmul x y = Ok a.
Proof.
  intros [x|x] [y|y] a; cbn [jnp_matmul]; split; try discriminate; try (intros (p & q & X & Y & _); discriminate).
  - intro E. destruct (matmul x y) as [r|e] eqn:M; cbn [bind] in E; [|discriminate]. injection E as <-. eauto.
  - intros (p & q & X & Y & E). injection X as <-. injection Y as <-. rewrite E. reflexivity.
Qed.
Lemma add_dense : forall m m' a, mat_add m m' = Ok (MD a) <-> exists x y, m = MD x /\ m' = MD y /\ add x y = Ok a.
Proof.
  intros [x|x] [y|y] a; cbn [mat_add]; split; try discriminate; try (intros (p & q & X & Y & _); discriminate).
  - intro E. destruct (add x y) as [r|e] eqn:M; cbn [bind] in E; [|discriminate]. injection E as <-. eauto.
  - intros (p & q & X & Y & E). injection X as <-. injection Y as <-. rewrite E. reflexivity.
  - intro E. destruct (b_add x y); discriminate E.
Qed.
Lemma gate_dense : forall w vals g fs a, mat_gate_tensor w g vals fs = Ok (MD a) <-> gate_tensor w g vals fs = Ok a.
Proof.
  intros w vals g fs a. unfold mat_gate_tensor, gate_tensor. destruct (unitary_of w g vals) as [[u|u]|e]; cbn [bind]; [| |split; discriminate].
  - assert (K : forall u, match fs with None => Ok (MD u) | Some fs => let! sup := gate_support g in let! e := expand_operator u sup fs in Ok (MD e) end = Ok (MD a) <->
        match fs with None => Ok u | Some fs => let! sup := gate_support g in expand_operator u sup fs end = Ok a).
    { intro v. destruct fs as [fs|]; [|split; intro E; injection E as <-; reflexivity]. destruct (gate_support g) as [sup|e]; cbn [bind]; [|split; discriminate].
      destruct (expand_operator v sup fs) as [r|e]; cbn [bind]; split; intro E; try discriminate; injection E as <-; reflexivity. }
    destruct (is_controlled (control g)); cbn [bind]; [|apply K]. destruct (controlled u (target g) (control g)) as [c|e]; cbn [bind]; [apply K|split; discriminate].
  - split; [|discriminate]. intro E. exfalso. revert E. destruct (is_controlled (control g)).
    + destruct (b_controlled_on u (target g) (control g)) as [c|e]; cbn [bind]; [|discriminate]. destruct fs as [fs|]; [|discriminate]. destruct (gate_support g); cbn [bind]; [|discriminate].
      destruct (b_expand_operator _ _ _); discriminate.
    + cbn [bind]. destruct fs as [fs|]; [|discriminate]. destruct (gate_support g); cbn [bind]; [|discriminate]. destruct (b_expand_operator _ _ _); discriminate.
Qed.
Lemma tensor_dense : forall w vals o fs a, mat_tensor w vals o fs = Ok (MD a) <-> tensor w vals o fs = Ok a.
Proof.
  intros w vals o. induction o as [g|l IH|l p IH|l IH|l IH|n l fp IH] using oper_ind'; intros fs a; cbn [mat_tensor tensor]; try (rewrite Forall_forall in IH).
  - apply gate_dense.
  - destruct (resolve_support w l fs) as [s|e]; cbn [bind]; [|split; discriminate]. apply reduce_dense; [intros; apply IH; assumption|apply matmul_dense].
  - destruct (param_value p vals) as [c|e]; cbn [bind]; [|split; discriminate]. destruct (resolve_support w l fs) as [s|e]; cbn [bind]; [|split; discriminate].
    pose proof (reduce_dense (fun o => mat_tensor w vals o (Some s)) (fun o => tensor w vals o (Some s)) jnp_matmul matmul l ltac:(intros; apply IH; assumption) matmul_dense) as R.
    split; intro E.
    + destruct (reduce_map _ jnp_matmul l) as [[t|t]|e]; cbn [bind] in E; try discriminate. rewrite (proj1 (R t) eq_refl). cbn [bind]. injection E as <-. reflexivity.
    + destruct (reduce_map _ matmul l) as [t|e]; cbn [bind] in E; try discriminate. rewrite (proj2 (R t) eq_refl). cbn [bind]. injection E as <-. reflexivity.
  - destruct (resolve_support w l fs) as [s|e]; cbn [bind]; [|split; discriminate]. apply reduce_dense; [intros; apply IH; assumption|apply add_dense].
  - destruct (resolve_support w l fs) as [s|e]; cbn [bind]; [|split; discriminate]. apply reduce_dense; [intros; apply IH; assumption|apply add_dense].
  - destruct (resolve_support w l fs) as [s|e]; cbn [bind]; [|split; discriminate]. apply reduce_dense; [intros; apply IH; assumption|apply matmul_dense].
Qed.
(** the expectation of a sparse observable in a density matrix *)
Lemma c95_density : forall w vals l a r, Forall sparse_gate (flat_map StructSpec.all_gates l) -> call w vals (OObs l) (Some (SDM a)) <> Ok r.
Proof.
  intros w vals l a r G. cbn [call]. destruct (tensor w vals (OObs l) None) as [t|e] eqn:E; cbn [bind]; [|discriminate].
  apply tensor_dense in E. apply tensor_sparse in E as [_ [b E]]; [discriminate|exact G].
Qed.
Lemma c95_refuted : exists (w : world) (o : oper) (a : arr), set_order (set_iter w) /\ Forall sparse_gate (StructSpec.all_gates o) /\
    mat_tensor w [] (with_sparse_oper false o) None = Ok (MD a) /\ mat_tensor w [] o None = Err TypeError.
Proof.
  exists ex_world, (OSeq [OGate (gX (TInt 0) no_control None true); OGate (gX (TInt 0) no_control None true)]). eexists. split; [apply ex_world_order|]. split; [|split].
  - repeat constructor; discriminate.
  - lazy -[Rplus Rmult Ropp Rminus IZR Rdiv Rinv sqrt cos sin PI]. reflexivity.
  - lazy -[Rplus Rmult Ropp Rminus IZR Rdiv Rinv sqrt cos sin PI]. reflexivity.
Qed.
