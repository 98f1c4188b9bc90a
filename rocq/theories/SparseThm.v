(** * Sparse simulation (C33, C34) *)
From Coq Require Import String List Arith Bool Reals Lia Lra Permutation.
From Verif Require Import Cplx Py PyFacts Ndarray NdFacts NdPerm OperatorUtils ApplyOperator Sparse Matrices Noise Gates Apply
  Spec SpecFacts ApplyFacts GateSpec GateFacts CircuitFacts GroupFacts NoiseThm NoiseThm2 SparseSpec SparseFacts.
Import ListNotations.
Local Open Scope nat_scope.

(** outcomes of two computations related by [R] *)
Definition rres {A B} (R : A -> B -> Prop) (r : res A) (d : res B) : Prop :=
  match r, d with Ok a, Ok b => R a b | Err e, Err e' => e = e' | _, _ => False end.
Lemma rres_bind : forall {A B A' B'} (R : A -> B -> Prop) (R' : A' -> B' -> Prop) r d f g,
    rres R r d -> (forall a b, r = Ok a -> d = Ok b -> R a b -> rres R' (f a) (g b)) -> rres R' (bind r f) (bind d g).
Proof. intros A B A' B' R R' [a|e] [b|e'] f g H K; simpl in *; try contradiction; auto. Qed.
Lemma rres_lift : forall (R : bcoo -> arr -> Prop) r d, dlift r = d -> (forall b, r = Ok b -> R b (todense b)) -> rres R r d.
Proof. intros R [b|e] d <- H; simpl; auto. Qed.
Lemma rres_mapM : forall {X Y A B} (R : A -> B -> Prop) (P : X -> Y -> Prop) f g l m,
    Forall2 P l m -> (forall x y, P x y -> rres R (f x) (g y)) -> rres (Forall2 R) (mapM f l) (mapM g m).
Proof.
  intros X Y A B R P f g l m F H; induction F as [|x y l m Hxy F IH]; simpl; [constructor|].
  apply (rres_bind R); [apply H; exact Hxy|]. intros a b _ _ Hab. apply (rres_bind (Forall2 R)); [exact IH|]. intros la lb _ _ HL. constructor; assumption.
Qed.
Lemma rres_foldM : forall {S T A B} (R : S -> T -> Prop) (P : A -> B -> Prop) f g l m s t,
    Forall2 P l m -> R s t -> (forall s t a b, R s t -> P a b -> rres R (f s a) (g t b)) -> rres R (foldM f l s) (foldM g m t).
Proof.
  intros S T A B R P f g l m s t F; revert s t; induction F as [|x y l m Hxy F IH]; intros s t Hst H; simpl; [exact Hst|].
  apply (rres_bind R); [apply H; assumption|]. intros a b _ _ Hab. apply IH; assumption.
Qed.

Definition mrel (m d : mat) : Prop := exists k u, m = MS u /\ sq k u /\ d = MD (todense u).
Definition srel (s t : state) : Prop := exists b, s = SSparse b /\ bwf b /\ t = SDense (todense b).
Definition prel (p q : placed) : Prop := let '(m, t, c) := p in let '(d, t', c') := q in mrel m d /\ t' = t /\ c' = c.

Lemma dict_square : forall nm m, operations_dict nm = Ok m -> exists k, is_matrix k m.
Proof.
  intros nm m; unfold operations_dict.
  repeat match goal with |- (if ?c then _ else _) = _ -> _ => destruct c end; intro H; try discriminate; injection H as <-;
    try (exists 1; split; reflexivity); exists 2; split; reflexivity.
Qed.
Lemma fromdense_sq : forall k a, is_matrix k a -> sq k (fromdense a).
Proof. intros k a [S W]; split; [apply fromdense_bwf|exact S]. Qed.
Lemma fromdense_mrel : forall k a, is_matrix k a -> mrel (MS (fromdense a)) (MD a).
Proof. intros k a H; exists k, (fromdense a); split; [reflexivity|split; [apply fromdense_sq; exact H|]]. rewrite todense_fromdense by apply H; reflexivity. Qed.

Lemma unitary_rel : forall w g vals, sparse_gate g -> rres mrel (unitary_of w g vals) (unitary_of w (with_sparse false g) vals).
Proof.
  intros w g vals [Sp NH]. unfold unitary_of, generator. cbn [with_sparse gclass generator_name sparse shift gparam]. rewrite Sp.
  destruct (gclass g) eqn:K; try contradiction.
  - destruct (operations_dict (generator_name g)) as [m|e] eqn:E; cbn [bind]; [|reflexivity]. destruct (dict_square _ _ E) as [k Hk].
    apply (fromdense_mrel k); exact Hk.
  - destruct (operations_dict (generator_name g)) as [m|e] eqn:E; cbn [bind]; [|reflexivity]. destruct (dict_square _ _ E) as [k Hk].
    apply (rres_bind eq).
    + unfold parse_values; cbn [gparam shift with_sparse]. destruct (match gparam g with PName s => _ | PNum x => _ end); reflexivity.
    + intros a b _ _ <-. apply (rres_bind (fun b d => d = todense b /\ sq 1 b)).
      * apply rres_lift; [rewrite unitary_commutes, todense_fromdense by apply Hk; reflexivity|]. intros u Hu; split; [reflexivity|]. split.
        -- apply (unitary_bwf _ _ _ (fromdense_bwf m) Hu).
        -- unfold b_unitary, b_sub, b_add in Hu. destruct (list_eqb _ _); [|discriminate]. injection Hu as <-. reflexivity.
      * intros u d _ _ [-> Hs]. exists 1, u; auto.
  - apply (rres_bind eq).
    + unfold parse_values; cbn [gparam shift with_sparse]. destruct (match gparam g with PName s => _ | PNum x => _ end); reflexivity.
    + intros a b _ _ <-. cbn [maybe_sparse]. apply (fromdense_mrel 1). split; [reflexivity|apply wf_build].
Qed.
Lemma dagger_sq : forall k u d, sq k u -> b_dagger u = Ok d -> sq k d.
Proof.
  intros k u d [W S] H. split; [apply (dagger_bwf _ _ H)|]. unfold b_dagger, bndim in H. rewrite S in H. cbn in H.
  unfold b_transpose, bndim in H. rewrite S in H. cbn in H. injection H as <-. cbn. reflexivity.
Qed.
Lemma operator_rel : forall w ot g vals, ot = UNITARY \/ ot = DAGGER -> sparse_gate g ->
    rres mrel (operator_of w ot g vals) (operator_of w ot (with_sparse false g) vals).
Proof.
  intros w ot g vals [->| ->] Sg; [apply unitary_rel; exact Sg|]. unfold operator_of, dagger_of.
  apply (rres_bind mrel); [apply unitary_rel; exact Sg|]. intros a b _ _ (k & u & -> & Q & ->). unfold mat_dagger.
  apply (rres_bind (fun b d => d = todense b /\ sq k b)).
  - apply rres_lift; [apply dagger_commutes, Q|]. intros d Hd; split; [reflexivity|]. apply (dagger_sq k u); assumption.
  - intros d d' _ _ [-> Hd]. exists k, d; auto.
Qed.

Lemma matmul_rel : forall m d n e, mrel m d -> mrel n e -> rres mrel (mat_matmul m n) (mat_matmul d e).
Proof.
  intros m d n e (k & u & -> & Q & ->) (l & v & -> & P & ->). unfold mat_matmul.
  apply (rres_bind (fun b d => d = todense b /\ sq k b)).
  - apply rres_lift; [apply matmul_commutes; [apply Q|apply P]|]. intros b Hb; split; [reflexivity|]. split; [apply (matmul_bwf _ _ _ Hb)|].
    destruct Q as [Qw Qs], P as [Pw Ps]. unfold b_matmul in Hb. rewrite Qs, Ps in Hb. unfold b_tensordot, bndim in Hb. rewrite Qs, Ps in Hb.
    cbn [length Nat.eqb negb forallb Nat.ltb Nat.leb andb nodupb mem existsb restrict map nth list_eqb] in Hb.
    destruct (Nat.eqb (2 ^ k) (2 ^ l)) eqn:E; cbn [andb negb] in Hb; [|discriminate]. apply Nat.eqb_eq in E. injection Hb as <-. cbn. congruence.
  - intros b d _ _ [-> Hd]. exists k, b; auto.
Qed.
Lemma merge_loop_rel : forall l m a b p q, Forall2 prel a b -> prel p q -> Forall2 prel l m ->
    rres (Forall2 prel) (merge_loop a p l) (merge_loop b q m).
Proof.
  intros l m a b p q A P F; revert a b p q A P; induction F as [|[[o t] c] [[o' t'] c'] l m (Hm & -> & ->) F IH]; intros a b [[x y] z] [[x' y'] z'] A P.
  - simpl. apply Forall2_app; [exact A|constructor; [exact P|constructor]].
  - pose proof P as (Hx & -> & ->). cbn [merge_loop]. destruct (list_eqb t y && cspec_eqb c z).
    + apply (rres_bind mrel); [apply matmul_rel; assumption|]. intros u v _ _ Huv. apply IH; [exact A|]. split; [exact Huv|split; reflexivity].
    + apply IH; [apply Forall2_app; [exact A|constructor; [exact P|constructor]]|]. split; [exact Hm|split; reflexivity].
Qed.
Lemma Forall2_rev' : forall {A B} (R : A -> B -> Prop) l m, Forall2 R l m -> Forall2 R (rev l) (rev m).
Proof. intros A B R l m F; induction F; simpl; [constructor|]. apply Forall2_app; [assumption|constructor; [assumption|constructor]]. Qed.
Lemma Forall2_length' : forall {A B} (R : A -> B -> Prop) l m, Forall2 R l m -> length l = length m.
Proof. intros A B R l m F; induction F; simpl; auto. Qed.
Lemma merge_rel : forall l m, Forall2 prel l m -> rres (Forall2 prel) (merge_operators l) (merge_operators m).
Proof.
  intros l m F. unfold merge_operators. rewrite (Forall2_length' _ _ _ F). destruct (Nat.ltb (length m) 2); [exact F|].
  pose proof (Forall2_rev' _ _ _ F) as G. destruct G as [|p q l' m' P G]; [exact F|].
  apply (rres_bind (Forall2 prel)); [apply merge_loop_rel; [constructor|exact P|exact G]|].
  intros a b _ _ H. simpl. apply Forall2_rev'; exact H.
Qed.

Lemma sort_batch_map : forall f l, (forall g, target (f g) = target g) -> sort_batch (map f l) = map f (sort_batch l).
Proof.
  intros f l H; unfold sort_batch; induction l as [|x l IH]; simpl; [reflexivity|]. rewrite IH. apply insert_by_map. intros a b; rewrite !H; reflexivity.
Qed.
Lemma group_loop_map : forall f gs S B, (forall g, target (f g) = target g) -> (forall g, control (f g) = control g) ->
    group_loop (map f S) (map f B) (map f gs) = map f (group_loop S B gs).
Proof.
  intros f gs S B HT HC; revert S B; induction gs as [|g gs IH]; intros S B; simpl.
  - destruct B as [|b B]; simpl; [reflexivity|]. change (f b :: map f B) with (map f (b :: B)). rewrite sort_batch_map, map_app by exact HT; reflexivity.
  - rewrite HC. destruct (negb (is_controlled (control g))).
    + rewrite <- IH, map_app; reflexivity.
    + destruct B as [|b B]; simpl.
      * rewrite <- (IH (S ++ [g]) []), map_app; reflexivity.
      * change (f b :: map f B) with (map f (b :: B)). rewrite sort_batch_map by exact HT.
        rewrite <- (IH ((S ++ sort_batch (b :: B)) ++ [g]) []), !map_app; reflexivity.
Qed.
Lemma group_map : forall f gs, (forall g, target (f g) = target g) -> (forall g, control (f g) = control g) ->
    group_by_index (map f gs) = map f (group_by_index gs).
Proof. intros f gs HT HC; apply (group_loop_map f gs [] []); assumption. Qed.

Definition pnrel (p q : list placed * list (option (list noise_inst))) : Prop := Forall2 prel (fst p) (fst q) /\ snd p = snd q.

Lemma prepare_rel : forall w ga vals ot gr mg, ot = UNITARY \/ ot = DAGGER -> all_gates sparse_gate ga ->
    rres pnrel (prepare_sequence_reduce w ga vals ot gr mg) (prepare_sequence_reduce w (map_gates (with_sparse false) ga) vals ot gr mg).
Proof.
  intros w [g|gs] vals ot gr mg HO HA; cbn [map_gates all_gates] in *; unfold prepare_sequence_reduce.
  - apply (rres_bind mrel); [apply operator_rel; assumption|]. intros a b _ _ Hab. split; [|reflexivity]. constructor; [split; [exact Hab|split; reflexivity]|constructor].
  - assert (HG : (if gr then group_by_index (map (with_sparse false) gs) else map (with_sparse false) gs)
              = map (with_sparse false) (if gr then group_by_index gs else gs)) by (destruct gr; [apply group_map; reflexivity|reflexivity]).
    rewrite HG; clear HG.
    assert (HA' : Forall sparse_gate (if gr then group_by_index gs else gs)).
    { destruct gr; [|exact HA]. apply (Forall_perm sparse_gate gs); [apply Permutation_sym, group_by_index_perm|exact HA]. }
    revert HA'; generalize (if gr then group_by_index gs else gs) as l; clear HA gs; intros l HA.
    apply (rres_bind (Forall2 mrel)).
    + apply (rres_mapM mrel (fun x y => sparse_gate x /\ y = with_sparse false x)).
      * induction HA; simpl; constructor; auto.
      * intros x y [Hx ->]; apply operator_rel; assumption.
    + intros ms ds _ _ F. destruct l as [|g l]; [reflexivity|]. cbn [map].
      change (noise (with_sparse false g)) with (noise g).
      assert (EN : map noise (map (with_sparse false) l) = map noise l) by (rewrite map_map; apply map_ext; reflexivity). rewrite EN; clear EN.
      assert (FP : Forall2 prel (map (fun og => (fst og, target (snd og), control (snd og))) (combine ms (g :: l)))
                     (map (fun og => (fst og, target (snd og), control (snd og))) (combine ds (map (with_sparse false) (g :: l))))).
      { clear -F. generalize (g :: l) as L. induction F as [|m d ms ds H F IH]; intros [|x L]; simpl; constructor; auto. split; [exact H|split; reflexivity]. }
      destruct (no_noise (noise g :: map noise l) && mg).
      * apply (rres_bind (Forall2 prel)); [apply merge_rel; exact FP|]. intros a b _ _ H; split; [exact H|reflexivity].
      * split; [exact FP|reflexivity].
Qed.

Lemma step_rel : forall w s t p q, srel s t -> prel p q ->
    rres srel (let '(o, ts, c) := p in apply_operator_state w s o ts c) (let '(o, ts, c) := q in apply_operator_state w t o ts c).
Proof.
  intros w s t [[o ts] c] [[o' ts'] c'] (b & -> & W & ->) ((k & u & -> & Q & ->) & -> & ->). cbn [apply_operator_state].
  apply (rres_bind (fun b d => d = todense b /\ bwf b)).
  - apply rres_lift; [apply (apply_commutes k); assumption|]. intros r Hr; split; [reflexivity|apply (apply_bwf _ _ _ _ _ Hr)].
  - intros r d _ _ [-> Hr]. exists r; auto.
Qed.

Lemma prepare_noise : forall w ga vals ot gr mg pn, prepare_sequence_reduce w ga vals ot gr mg = Ok pn ->
    no_noise (snd pn) = true <-> all_gates noiseless ga.
Proof.
  intros w [g|gs] vals ot gr mg pn; cbn [all_gates]; unfold prepare_sequence_reduce.
  - intro H; apply bind_ok in H. destruct H as (o & _ & H). injection H as <-. cbn [snd]. unfold no_noise, noiseless; simpl. destruct (noise g); split; try discriminate; auto.
  - intro H; apply bind_ok in H. destruct H as (o & _ & H).
    assert (E : snd pn = map noise (if gr then group_by_index gs else gs)).
    { destruct (if gr then group_by_index gs else gs) as [|g l]; [discriminate|]. destruct (no_noise _ && mg).
      - apply bind_ok in H. destruct H as (pl & _ & H). injection H as <-. reflexivity.
      - injection H as <-. reflexivity. }
    rewrite E, no_noise_spec. destruct gr; [|reflexivity]. split; intro F.
    + apply (Forall_perm _ (group_by_index gs)); [apply group_by_index_perm|exact F].
    + apply (Forall_perm _ gs); [apply Permutation_sym, group_by_index_perm|exact F].
Qed.

Lemma c34_agree : forall w b ga vals ot group merge,
    is_bcoo b -> ot = UNITARY \/ ot = DAGGER -> all_gates sparse_gate ga -> all_gates noiseless ga ->
    same_outcome (apply_gates w (SSparse b) ga vals ot group merge)
                 (apply_gates w (SDense (todense b)) (map_gates (with_sparse false) ga) vals ot group merge).
Proof.
  intros w b ga vals ot gr mg W HO HS HN. unfold apply_gates.
  assert (G : rres srel (apply_gates w (SSparse b) ga vals ot gr mg) (apply_gates w (SDense (todense b)) (map_gates (with_sparse false) ga) vals ot gr mg)).
  { unfold apply_gates. apply (rres_bind pnrel); [apply prepare_rel; assumption|]. intros p q Ep Eq [H1 H2].
    apply prepare_noise in Ep. apply Ep in HN. rewrite <- H2, HN. cbn [negb].
    apply (rres_foldM srel prel); [exact H1|exists b; auto|]. intros s t x y; apply step_rel. }
  unfold apply_gates in G. revert G. match goal with |- rres srel ?r ?d -> _ => destruct r as [s|e], d as [t|e'] end; simpl; auto; try contradiction.
  intros (b' & -> & _ & ->). reflexivity.
Qed.

(** ** dense matrices on a sparse state *)
Lemma operator_dense : forall w ot g vals m, dense_matrix_gate g -> operator_of w ot g vals = Ok m -> exists a, m = MD a.
Proof.
  assert (GD : forall g m, sparse g = false -> generator g = Ok m -> exists a, m = MD a).
  { intros g m S H; unfold generator in H. rewrite S in H. apply bind_ok in H. destruct H as (x & _ & H). injection H as <-; eauto. }
  assert (UD : forall w g vals m, dense_matrix_gate g -> unitary_of w g vals = Ok m -> exists a, m = MD a).
  { intros w g vals m D; unfold unitary_of. destruct (gclass g) eqn:K.
    - apply GD; destruct D; congruence.
    - intro H; apply bind_ok in H. destruct H as (x & E & H). apply GD in E; [|destruct D; congruence]. destruct E as [a ->].
      apply bind_ok in H. destruct H as (th & _ & H). apply bind_ok in H. destruct H as (u & _ & H). injection H as <-; eauto.
    - intro H; apply bind_ok in H. destruct H as (th & _ & H). injection H as <-. destruct D as [->|D]; [simpl; eauto|congruence].
    - intro H; apply bind_ok in H. destruct H as (t & _ & H). apply bind_ok in H. destruct H as (x & _ & H). apply bind_ok in H. destruct H as (h & _ & H).
      destruct h; try discriminate. injection H as <-; eauto. }
  intros w ot g vals m D H. destruct ot; cbn [operator_of] in H.
  - apply (UD w g vals); assumption.
  - apply bind_ok in H. destruct H as (u & Hu & H). apply (UD w g vals u D) in Hu. destruct Hu as [a ->]. cbn [mat_dagger] in H.
    apply bind_ok in H. destruct H as (d & _ & H). injection H as <-; eauto.
  - unfold jacobian_of in H. destruct (gclass g) eqn:K; try discriminate.
    + apply bind_ok in H. destruct H as (x & E & H). apply GD in E; [|destruct D; congruence]. destruct E as [a ->].
      apply bind_ok in H. destruct H as (th & _ & H). apply bind_ok in H. destruct H as (u & _ & H). injection H as <-; eauto.
    + apply bind_ok in H. destruct H as (th & _ & H). injection H as <-. destruct D as [->|D]; [simpl; eauto|congruence].
Qed.
Definition pdense (p : placed) : Prop := exists a t c, p = (MD a, t, c).
Lemma merge_loop_dense : forall l a p r, Forall pdense l -> Forall pdense a -> pdense p -> merge_loop a p l = Ok r -> Forall pdense r /\ r <> [].
Proof.
  induction l as [|[[o t] c] l IH]; intros a p r FL FA (x & y & z & ->) H.
  - simpl in H. injection H as <-. split; [|destruct a; discriminate]. apply Forall_app; split; [exact FA|]. constructor; [unfold pdense; eauto|constructor].
  - inversion FL as [|? ? (o' & t' & c' & E) FL']; subst. injection E as -> -> ->. cbn [merge_loop] in H. destruct (list_eqb t' y && cspec_eqb c' z).
    + apply bind_ok in H. destruct H as (m & Hm & H). cbn [mat_matmul] in Hm. apply bind_ok in Hm. destruct Hm as (u & _ & Hm). injection Hm as <-.
      apply (IH _ _ _ FL' FA) in H; [exact H|unfold pdense; eauto].
    + apply (IH _ _ _ FL') in H; [exact H| |unfold pdense; eauto]. apply Forall_app; split; [exact FA|]. constructor; [unfold pdense; eauto|constructor].
Qed.
Lemma merge_dense : forall l r, Forall pdense l -> l <> [] -> merge_operators l = Ok r -> Forall pdense r /\ r <> [].
Proof.
  intros l r F NE; unfold merge_operators. destruct (Nat.ltb (length l) 2); [intro H; injection H as <-; auto|].
  destruct (rev l) as [|p l'] eqn:E; [intro H; injection H as <-; auto|]. apply Forall_rev in F. rewrite E in F. inversion F; subst.
  intro H; apply bind_ok in H. destruct H as (m & Hm & H). injection H as <-. apply merge_loop_dense in Hm; auto. destruct Hm as [Hm NEm]. split; [apply Forall_rev; exact Hm|].
  intro Z. apply NEm. rewrite <- (rev_involutive m), Z; reflexivity.
Qed.
Lemma prepare_dense : forall w ga vals ot gr mg pn, all_gates dense_matrix_gate ga ->
    prepare_sequence_reduce w ga vals ot gr mg = Ok pn -> Forall pdense (fst pn) /\ fst pn <> [].
Proof.
  intros w [g|gs] vals ot gr mg pn HA; cbn [all_gates] in HA; unfold prepare_sequence_reduce; intro H; apply bind_ok in H; destruct H as (o & Ho & H).
  - injection H as <-. destruct (operator_dense _ _ _ _ _ HA Ho) as [a ->]. cbn [fst]. split; [|discriminate]. constructor; [unfold pdense; eauto|constructor].
  - assert (HA' : Forall dense_matrix_gate (if gr then group_by_index gs else gs)).
    { destruct gr; [|exact HA]. apply (Forall_perm _ gs); [apply Permutation_sym, group_by_index_perm|exact HA]. }
    destruct (if gr then group_by_index gs else gs) as [|g l]; [discriminate|].
    assert (FP : forall L os, Forall dense_matrix_gate L -> mapM (fun g => operator_of w ot g vals) L = Ok os ->
       Forall pdense (map (fun og => (fst og, target (snd og), control (snd og))) (combine os L)) /\ length os = length L).
    { induction L as [|x L IHL]; intros os FL E; simpl in E; [injection E as <-; split; [constructor|reflexivity]|].
      apply bind_ok in E. destruct E as (m & Em & E). apply bind_ok in E. destruct E as (ms & Ems & E). injection E as <-.
      inversion FL; subst. destruct (operator_dense _ _ _ _ _ H2 Em) as [a ->]. destruct (IHL _ H3 Ems) as [I1 I2].
      split; [simpl; constructor; [unfold pdense; simpl; eauto|exact I1]|simpl; congruence]. }
    destruct (FP _ _ HA' Ho) as [F L]. destruct o as [|o os]; [discriminate|].
    destruct (no_noise _ && mg).
    + apply bind_ok in H. destruct H as (pl & Hp & H). injection H as <-. cbn [fst]. apply (merge_dense _ _ F) in Hp; [exact Hp|discriminate].
    + injection H as <-. split; [exact F|discriminate].
Qed.
Lemma c34_dense_gates : forall w b ga vals ot group merge,
    all_gates dense_matrix_gate ga -> all_gates noiseless ga ->
    apply_gates w (SSparse b) ga vals ot group merge = apply_gates w (SDense (todense b)) ga vals ot group merge.
Proof.
  intros w b ga vals ot gr mg HD HN. unfold apply_gates. destruct (prepare_sequence_reduce w ga vals ot gr mg) as [pn|e] eqn:E; [|reflexivity].
  cbn [bind]. rewrite (proj2 (prepare_noise _ _ _ _ _ _ _ E) HN). cbn [negb].
  destruct (prepare_dense _ _ _ _ _ _ _ HD E) as [F NE]. destruct (fst pn) as [|p l]; [contradiction|].
  inversion F as [|? ? (a & t & c & ->) F']; subst. cbn [foldM apply_operator_state bind]. reflexivity.
Qed.

(** ** NotImplementedError is reserved to noise *)
Definition nie {A} (r : res A) : Prop := r <> Err NotImplementedError.
Lemma nie_bind : forall {A B} (r : res A) (f : A -> res B), nie r -> (forall a, nie (f a)) -> nie (bind r f).
Proof. intros A B [a|e] f H K; simpl; [apply K|]. intro E; injection E as ->; apply H; reflexivity. Qed.
Lemma nie_mapM : forall {A B} (f : A -> res B) l, (forall a, nie (f a)) -> nie (mapM f l).
Proof. intros A B f l H; induction l; simpl; [discriminate|]. apply nie_bind; [apply H|]. intro; apply nie_bind; [exact IHl|]. intro; discriminate. Qed.
Lemma nie_foldM : forall {A B} (f : B -> A -> res B) l s, (forall s a, nie (f s a)) -> nie (foldM f l s).
Proof. intros A B f l; induction l; intros s H; simpl; [discriminate|]. apply nie_bind; [apply H|]. intro; apply IHl; exact H. Qed.
Ltac nie_tac := repeat first [discriminate | match goal with |- nie (bind _ _) => apply nie_bind; [|intro] | |- nie (mapM _ _) => apply nie_mapM; intro end
  | match goal with |- nie (match ?x with _ => _ end) => destruct x | |- nie (if ?x then _ else _) => destruct x end].
Lemma nie_axes : forall c, nie (axes_of c). Proof. intro c; unfold axes_of, qidx_nat; nie_tac. Qed.
Lemma nie_transpose : forall a p, nie (transpose a p). Proof. intros; unfold transpose; nie_tac. Qed.
Lemma nie_b_transpose : forall a p, nie (b_transpose a p). Proof. intros; unfold b_transpose; nie_tac. Qed.
Lemma nie_apply : forall a o t c, nie (apply_operator a o t c).
Proof.
  intros; unfold apply_operator, prepare_operator, controlled_block, set_corner, reshape, tensordot, moveaxis.
  nie_tac; try apply nie_axes; try apply nie_transpose.
Qed.
Lemma nie_b_apply : forall a o t c, nie (b_apply_operator a o t c).
Proof.
  intros; unfold b_apply_operator, b_controlled, b_reshape, b_tensordot, b_moveaxis.
  nie_tac; try apply nie_axes; try apply nie_b_transpose.
Qed.
Lemma nie_matmul : forall m n, nie (mat_matmul m n).
Proof. intros; unfold mat_matmul, matmul, b_matmul, b_tensordot; nie_tac. Qed.
Lemma nie_parse : forall g vals, nie (parse_values g vals).
Proof.
  intros; unfold parse_values, num. nie_tac. unfold lookup.
  induction vals as [|[? ?] vals IH]; simpl; nie_tac. all: try exact IH.
Qed.
Lemma nie_lookup : forall {V} (d : list (string * V)) k, nie (lookup d k).
Proof. intros V d k; induction d as [|[k' v] d IH]; simpl; nie_tac. exact IH. Qed.
Lemma nie_dict : forall nm, nie (operations_dict nm). Proof. intro; unfold operations_dict; nie_tac. Qed.
Lemma nie_generator : forall g, nie (generator g). Proof. intro; unfold generator; nie_tac. apply nie_dict. Qed.
Lemma nie_unitary : forall w g vals, nie (unitary_of w g vals).
Proof.
  intros; unfold unitary_of, unitary_of_generator, sub, zip_arr, b_unitary, b_sub, b_add, num. nie_tac.
  all: first [apply nie_generator|apply nie_parse|apply nie_lookup|apply nie_dict|unfold num; nie_tac].
Qed.
Lemma nie_operator : forall w ot g vals, ot = UNITARY \/ ot = DAGGER -> nie (operator_of w ot g vals).
Proof.
  intros w ot g vals [->| ->]; simpl; [apply nie_unitary|]. unfold dagger_of, mat_dagger, dagger, b_dagger. nie_tac.
  all: first [apply nie_unitary|apply nie_transpose|apply nie_b_transpose].
Qed.
Lemma nie_merge_loop : forall l a p, nie (merge_loop a p l).
Proof.
  induction l as [|[[o t] c] l IH]; intros a [[x y] z]; cbn [merge_loop]; [discriminate|]. destruct (_ && _); [|apply IH].
  apply nie_bind; [apply nie_matmul|intro; apply IH].
Qed.
Lemma nie_prepare : forall w ga vals ot gr mg, ot = UNITARY \/ ot = DAGGER -> nie (prepare_sequence_reduce w ga vals ot gr mg).
Proof.
  intros w ga vals ot gr mg HO; unfold prepare_sequence_reduce, merge_operators. nie_tac.
  all: first [apply nie_operator; exact HO|apply nie_merge_loop].
Qed.
Lemma c33_clean : forall w b ga vals ot group merge,
    ot = UNITARY \/ ot = DAGGER -> all_gates noiseless ga ->
    apply_gates w (SSparse b) ga vals ot group merge <> Err NotImplementedError.
Proof.
  intros w b ga vals ot gr mg HO HN. unfold apply_gates. destruct (prepare_sequence_reduce w ga vals ot gr mg) as [pn|e] eqn:E.
  - cbn [bind]. rewrite (proj2 (prepare_noise _ _ _ _ _ _ _ E) HN). cbn [negb]. apply nie_foldM. intros s [[o t] c]. unfold apply_operator_state.
    nie_tac; [apply nie_apply|apply nie_apply|apply nie_b_apply|].
    unfold apply_operator_dm, prepare_operator, controlled_block, set_corner, reshape, permute_basis, tensordot, dagger.
    nie_tac; try apply nie_axes; try apply nie_transpose.
  - cbn [bind]. intro H; injection H as ->. apply (nie_prepare w ga vals ot gr mg HO E).
Qed.

Lemma gate_matrix_sparse : forall vals g sp M, gate_matrix vals g M -> gate_matrix vals (with_sparse sp g) M.
Proof.
  intros vals g sp M G; destruct G as [name M' K N L I|K N L|name R_ t K N L A I|t K L A].
  - eapply gm_fixed; eauto.
  - apply gm_SWAP; auto.
  - eapply gm_rotation; eauto.
  - apply gm_PHASE; auto.
Qed.
Lemma gate_on_sparse : forall n vals g sp M cs ts, gate_on n vals g M cs ts -> gate_on n vals (with_sparse sp g) M cs ts.
Proof. intros n vals g sp M cs ts [A B D E]; split; auto. apply gate_matrix_sparse; exact A. Qed.
Lemma gate_on_class : forall n vals g M cs ts, gate_on n vals g M cs ts -> gclass g <> KHam.
Proof. intros n vals g M cs ts [G _ _ _]; destruct G; congruence. Qed.
Lemma usable_operator : forall w n vals ot g, ot = UNITARY \/ ot = DAGGER -> usable n vals g -> exists m, operator_of w ot g vals = Ok m.
Proof.
  intros w n vals ot g HO (M & cs & ts & G).
  assert (D : exists d, operator_of w ot (with_sparse false g) vals = Ok d).
  { pose proof (gate_on_sparse _ _ _ false _ _ _ G) as G'.
    destruct HO as [->| ->]; [destruct (gate_on_opk w _ _ _ _ _ _ G' eq_refl) as (u & ds & E & _)|destruct (gate_on_opk_dagger w _ _ _ _ _ _ G' eq_refl) as (u & ds & E & _)]; eauto. }
  destruct (sparse g) eqn:Sp.
  - pose proof (operator_rel w ot g vals HO (Logic.conj Sp (gate_on_class _ _ _ _ _ _ G))) as R. destruct D as [d D]. rewrite D in R.
    destruct (operator_of w ot g vals) as [m|e]; [eauto|contradiction].
  - replace (with_sparse false g) with g in D; [exact D|]. destruct g; simpl in *; subst; reflexivity.
Qed.
Lemma mapM_ok : forall {A B} (f : A -> res B) l, Forall (fun a => exists b, f a = Ok b) l -> exists r, mapM f l = Ok r.
Proof. intros A B f l F; induction F as [|x l (b & E) F (r & IH)]; simpl; [eauto|]. rewrite E; simpl. rewrite IH; simpl; eauto. Qed.

Lemma c33_noisy : forall w n b ga vals ot group merge,
    ot = UNITARY \/ ot = DAGGER -> all_gates (usable n vals) ga -> some_gate (fun g => ~ noiseless g) ga ->
    apply_gates w (SSparse b) ga vals ot group merge = Err NotImplementedError.
Proof.
  intros w n b ga vals ot gr mg HO HU HS. unfold apply_gates.
  assert (NN : ~ all_gates noiseless ga).
  { destruct ga as [g|gs]; cbn [all_gates some_gate] in *; [exact HS|]. intro F. apply Exists_exists in HS. destruct HS as (g & I & Hg). rewrite Forall_forall in F. auto. }
  assert (EP : exists pn, prepare_sequence_reduce w ga vals ot gr mg = Ok pn).
  { destruct ga as [g|gs]; cbn [all_gates some_gate] in *; unfold prepare_sequence_reduce.
    - destruct (usable_operator w n vals ot g HO HU) as [m ->]; cbn [bind]; eauto.
    - assert (NE : gs <> []) by (intros ->; inversion HS).
      assert (FU : Forall (usable n vals) (if gr then group_by_index gs else gs)).
      { destruct gr; [|exact HU]. apply (Forall_perm _ gs); [apply Permutation_sym, group_by_index_perm|exact HU]. }
      assert (NE' : (if gr then group_by_index gs else gs) <> []).
      { destruct gr; [|exact NE]. intro Z. apply NE. apply Permutation_nil. rewrite <- Z. apply group_by_index_perm. }
      assert (NN' : no_noise (map noise (if gr then group_by_index gs else gs)) = false).
      { destruct (no_noise (map noise _)) eqn:Z; [|reflexivity]. exfalso. apply NN. apply no_noise_spec in Z. destruct gr; [|exact Z].
        apply (Forall_perm _ (group_by_index gs)); [apply group_by_index_perm|exact Z]. }
      revert FU NE' NN'. generalize (if gr then group_by_index gs else gs) as l. intros l FU NE' NN'.
      destruct (mapM_ok (fun g => operator_of w ot g vals) l) as [r ->].
      { eapply Forall_impl; [|exact FU]. intros g Hg; apply (usable_operator w n vals ot g HO Hg). }
      cbn [bind]. rewrite NN'. destruct l; [contradiction|]. cbn [andb]. eauto. }
  destruct EP as [pn E]. rewrite E. cbn [bind]. destruct (no_noise (snd pn)) eqn:Z; [|reflexivity].
  exfalso. apply NN. apply (prepare_noise _ _ _ _ _ _ _ E); exact Z.
Qed.

Lemma opk_usable : forall w n vals ot g, ot = UNITARY \/ ot = DAGGER -> usable n vals g -> dense_gate g -> exists K, opk w ot vals n g K.
Proof.
  intros w n vals ot g [->| ->] (M & cs & ts & G) D; eexists; [apply gate_on_opk|apply gate_on_opk_dagger]; eassumption.
Qed.
Lemma gseq_usable : forall w n vals ot gs, ot = UNITARY \/ ot = DAGGER -> Forall (usable n vals) gs -> Forall dense_gate gs -> exists K, gseq w ot vals n gs K.
Proof.
  intros w n vals ot gs HO F; induction F as [|g gs Hg F IH]; intro D; [eexists; constructor; apply keq_refl|].
  inversion D as [|? ? D1 D2]; subst. destruct (IH D2) as [K HK]. destruct (opk_usable w n vals ot g HO Hg D1) as [K' HK'].
  eexists. econstructor; [exact HK'|exact HK|apply keq_refl].
Qed.
Lemma c33_ok : forall w n b ga vals ot group merge,
    is_bcoo b -> bshp b = repeat 2 n -> ot = UNITARY \/ ot = DAGGER -> nonempty_arg ga ->
    all_gates (usable n vals) ga -> all_gates sparse_gate ga -> all_gates noiseless ga ->
    exists b', apply_gates w (SSparse b) ga vals ot group merge = Ok (SSparse b') /\ bshp b' = repeat 2 n.
Proof.
  intros w n b ga vals ot gr mg W SH HO NE HU HS HN.
  pose proof (c34_agree w b ga vals ot gr mg W HO HS HN) as A.
  assert (IS : is_state n (todense b)) by (split; [rewrite todense_shape; exact SH|apply todense_wf]).
  assert (EX : exists r, apply_gates w (SDense (todense b)) (map_gates (with_sparse false) ga) vals ot gr mg = Ok (SDense r) /\ is_state n r).
  { destruct ga as [g|gs]; cbn [map_gates all_gates] in *.
    - assert (HU' : usable n vals (with_sparse false g)) by (destruct HU as (M & cs & ts & G); exists M, cs, ts; apply gate_on_sparse; exact G).
      destruct (opk_usable w n vals ot _ HO HU' eq_refl) as [K HK].
      destruct (apply_gate_dense w n vals ot gr mg (with_sparse false g) K (todense b) HN HK IS) as (r & E & Sr & _). eauto.
    - assert (Z : exists l, Permutation l gs /\ apply_gates w (SDense (todense b)) (GMany (map (with_sparse false) gs)) vals ot gr mg
          = apply_gates w (SDense (todense b)) (GMany (map (with_sparse false) l)) vals ot false mg).
      { destruct gr; [|exists gs; split; [apply Permutation_refl|reflexivity]]. exists (group_by_index gs); split; [apply group_by_index_perm|].
        rewrite apply_gates_group, group_map by reflexivity. reflexivity. }
      destruct Z as (l & P & ->). apply Permutation_sym in P.
      destruct (gseq_usable w n vals ot (map (with_sparse false) l) HO) as [K HK].
      + apply Forall_map. eapply Forall_impl; [|apply (Forall_perm _ _ _ P HU)]. intros g (M & cs & ts & G). exists M, cs, ts; apply gate_on_sparse; exact G.
      + apply Forall_map. apply Forall_forall; intros; reflexivity.
      + destruct (apply_gates_dense w n vals ot mg (map (with_sparse false) l) K (todense b)) as (r & E & Sr & _); auto.
        * intro Q. apply map_eq_nil in Q; subst l. apply NE. apply Permutation_sym, Permutation_nil in P. subst gs; reflexivity.
        * apply Forall_map. eapply Forall_impl; [|apply (Forall_perm _ _ _ P HN)]. intros g Hg; exact Hg.
        * eauto. }
  destruct EX as (r & E & Sr). rewrite E in A.
  destruct (apply_gates w (SSparse b) ga vals ot gr mg) as [[|b'|]|]; simpl in A; try contradiction.
  exists b'; split; [reflexivity|]. subst r. apply Sr.
Qed.
