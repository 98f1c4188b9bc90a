(** * Circuits that mix sparse and dense gates (C34) *)
From Coq Require Import String List Arith Bool Reals Lia Lra Permutation.
From Verif Require Import Cplx Py PyFacts Ndarray NdFacts NdPerm OperatorUtils ApplyOperator Sparse Matrices Noise Gates Apply
  Spec SpecFacts ApplyFacts GateSpec GateFacts CircuitFacts GroupFacts NoiseThm NoiseThm2 SparseSpec SparseFacts SparseThm.
Import ListNotations.
Local Open Scope nat_scope.

(** the first computation follows the second one, except that it may raise TypeError *)
Definition wres {A B} (R : A -> B -> Prop) (r : res A) (d : res B) : Prop :=
  match r with Ok a => exists b, d = Ok b /\ R a b | Err e => d = Err e \/ e = TypeError end.
Lemma wres_bind : forall {A B A' B'} (R : A -> B -> Prop) (R' : A' -> B' -> Prop) r d f g,
    wres R r d -> (forall a b, r = Ok a -> d = Ok b -> R a b -> wres R' (f a) (g b)) -> wres R' (bind r f) (bind d g).
Proof.
  intros A B A' B' R R' [a|e] d f g H K; cbn [wres bind] in *.
  - destruct H as (b & -> & H). apply K; auto.
  - destruct H as [->| ->]; [left|right]; reflexivity.
Qed.
Lemma wres_rres : forall {A B} (R : A -> B -> Prop) r d, rres R r d -> wres R r d.
Proof. intros A B R [a|e] [b|e'] H; cbn [rres wres] in *; try contradiction; [eauto|subst; auto]. Qed.
Lemma wres_eq : forall {A} (R : A -> A -> Prop) r, (forall a, r = Ok a -> R a a) -> wres R r r.
Proof. intros A R [a|e] H; cbn [wres]; [eauto|auto]. Qed.
Lemma wres_foldM : forall {S T A B} (R : S -> T -> Prop) (P : A -> B -> Prop) f g l m s t,
    Forall2 P l m -> R s t -> (forall s t a b, R s t -> P a b -> wres R (f s a) (g t b)) -> wres R (foldM f l s) (foldM g m t).
Proof.
  intros S T A B R P f g l m s t F; revert s t; induction F as [|x y l m Hxy F IH]; intros s t Hst H; simpl; [eauto|].
  apply (wres_bind R); [apply H; assumption|]. intros a b _ _ Hab. apply IH; assumption.
Qed.

Definition mrel2 (m d : mat) : Prop := mrel m d \/ exists a, m = MD a /\ d = MD a.
Definition prel2 (p q : placed) : Prop := let '(m, t, c) := p in let '(d, t', c') := q in mrel2 m d /\ t' = t /\ c' = c.
Definition srel2 (s t : state) : Prop := dense_form s = t /\ forall b, s = SSparse b -> bwf b.

Lemma rres_refl : forall {A} (R : A -> A -> Prop) r, (forall a, r = Ok a -> R a a) -> rres R r r.
Proof. intros A R [a|e] H; cbn [rres]; auto. Qed.
Lemma rres_sub : forall {A B} (R R' : A -> B -> Prop) r d, (forall a b, R a b -> R' a b) -> rres R r d -> rres R' r d.
Proof. intros A B R R' [a|e] [b|e'] H K; cbn [rres] in *; auto. Qed.
Lemma operator_rel2 : forall w ot g vals, ot = UNITARY \/ ot = DAGGER ->
    rres mrel2 (operator_of w ot g vals) (operator_of w ot (with_sparse false g) vals).
Proof.
  intros w ot g vals HO.
  assert (D : dense_matrix_gate g \/ sparse_gate g).
  { unfold dense_matrix_gate, sparse_gate. destruct (sparse g); [|auto]. destruct (gclass g); auto; right; split; congruence. }
  destruct D as [D|S]; [|eapply rres_sub; [|apply operator_rel; assumption]; left; assumption].
  assert (E : operator_of w ot (with_sparse false g) vals = operator_of w ot g vals).
  { destruct D as [D|D]; [destruct g; cbn in *; subst; reflexivity|].
    assert (U : unitary_of w (with_sparse false g) vals = unitary_of w g vals) by (unfold unitary_of; cbn [with_sparse gclass shift]; rewrite D; reflexivity).
    destruct HO as [->| ->]; cbn [operator_of]; [exact U|]. unfold dagger_of. rewrite U. reflexivity. }
  rewrite E. apply rres_refl. intros m Hm. destruct (operator_dense _ _ _ _ _ D Hm) as [a ->]. right; eauto.
Qed.
Lemma matmul_rel2 : forall m d n e, mrel2 m d -> mrel2 n e -> rres mrel2 (mat_matmul m n) (mat_matmul d e).
Proof.
  intros m d n e [M|(a & -> & ->)] [N|(b & -> & ->)].
  - eapply rres_sub; [|apply matmul_rel; eassumption]. left; assumption.
  - destruct M as (k & u & -> & Q & ->). cbn [mat_matmul]. apply rres_refl. intros x Hx. apply bind_ok in Hx. destruct Hx as (y & _ & Hx). injection Hx as <-. right; eauto.
  - destruct N as (k & u & -> & Q & ->). cbn [mat_matmul]. apply rres_refl. intros x Hx. apply bind_ok in Hx. destruct Hx as (y & _ & Hx). injection Hx as <-. right; eauto.
  - cbn [mat_matmul]. apply rres_refl. intros x Hx. apply bind_ok in Hx. destruct Hx as (y & _ & Hx). injection Hx as <-. right; eauto.
Qed.
Lemma merge_loop_rel2 : forall l m a b p q, Forall2 prel2 a b -> prel2 p q -> Forall2 prel2 l m ->
    rres (Forall2 prel2) (merge_loop a p l) (merge_loop b q m).
Proof.
  intros l m a b p q A P F; revert a b p q A P; induction F as [|[[o t] c] [[o' t'] c'] l m (Hm & -> & ->) F IH]; intros a b [[x y] z] [[x' y'] z'] A P.
  - simpl. apply Forall2_app; [exact A|constructor; [exact P|constructor]].
  - pose proof P as (Hx & -> & ->). cbn [merge_loop]. destruct (list_eqb t y && cspec_eqb c z).
    + apply (rres_bind mrel2); [apply matmul_rel2; assumption|]. intros u v _ _ Huv. apply IH; [exact A|]. split; [exact Huv|split; reflexivity].
    + apply IH; [apply Forall2_app; [exact A|constructor; [exact P|constructor]]|]. split; [exact Hm|split; reflexivity].
Qed.
Lemma merge_rel2 : forall l m, Forall2 prel2 l m -> rres (Forall2 prel2) (merge_operators l) (merge_operators m).
Proof.
  intros l m F. unfold merge_operators. rewrite (Forall2_length' _ _ _ F). destruct (Nat.ltb (length m) 2); [exact F|].
  pose proof (Forall2_rev' _ _ _ F) as G. destruct G as [|p q l' m' P G]; [exact F|].
  apply (rres_bind (Forall2 prel2)); [apply merge_loop_rel2; [constructor|exact P|exact G]|].
  intros a b _ _ H. simpl. apply Forall2_rev'; exact H.
Qed.
Definition pnrel2 (p q : list placed * list (option (list noise_inst))) : Prop := Forall2 prel2 (fst p) (fst q) /\ snd p = snd q.
Lemma prepare_rel2 : forall w ga vals ot gr mg, ot = UNITARY \/ ot = DAGGER ->
    rres pnrel2 (prepare_sequence_reduce w ga vals ot gr mg) (prepare_sequence_reduce w (map_gates (with_sparse false) ga) vals ot gr mg).
Proof.
  intros w [g|gs] vals ot gr mg HO; cbn [map_gates] in *; unfold prepare_sequence_reduce.
  - apply (rres_bind mrel2); [apply operator_rel2; assumption|]. intros a b _ _ Hab. split; [|reflexivity]. constructor; [split; [exact Hab|split; reflexivity]|constructor].
  - assert (HG : (if gr then group_by_index (map (with_sparse false) gs) else map (with_sparse false) gs)
              = map (with_sparse false) (if gr then group_by_index gs else gs)) by (destruct gr; [apply group_map; reflexivity|reflexivity]).
    rewrite HG; clear HG. generalize (if gr then group_by_index gs else gs) as l; clear gs; intros l.
    apply (rres_bind (Forall2 mrel2)).
    + apply (rres_mapM mrel2 (fun x y => y = with_sparse false x)).
      * induction l; simpl; constructor; auto.
      * intros x y ->; apply operator_rel2; assumption.
    + intros ms ds _ _ F. destruct l as [|g l]; [reflexivity|]. cbn [map].
      change (noise (with_sparse false g)) with (noise g).
      assert (EN : map noise (map (with_sparse false) l) = map noise l) by (rewrite map_map; apply map_ext; reflexivity). rewrite EN; clear EN.
      assert (FP : Forall2 prel2 (map (fun og => (fst og, target (snd og), control (snd og))) (combine ms (g :: l)))
                     (map (fun og => (fst og, target (snd og), control (snd og))) (combine ds (map (with_sparse false) (g :: l))))).
      { clear -F. generalize (g :: l) as L. induction F as [|m d ms ds H F IH]; intros [|x L]; simpl; constructor; auto. split; [exact H|split; reflexivity]. }
      destruct (no_noise (noise g :: map noise l) && mg).
      * apply (rres_bind (Forall2 prel2)); [apply merge_rel2; exact FP|]. intros a b _ _ H; split; [exact H|reflexivity].
      * split; [exact FP|reflexivity].
Qed.

Lemma state_rel2 : forall w s t m d ts c, srel2 s t -> mrel2 m d -> wres srel2 (apply_operator_state w s m ts c) (apply_operator_state w t d ts c).
Proof.
  intros w s t m d ts c [<- W] [(k & u & -> & Q & ->)|(a & -> & ->)]; destruct s as [x|b|x]; cbn [apply_operator_state dense_form].
  - right; reflexivity.
  - apply wres_rres. apply (rres_bind (fun b d => d = todense b /\ bwf b)).
    + apply rres_lift; [apply (apply_commutes k); [apply W; reflexivity|exact Q]|]. intros r Hr; split; [reflexivity|apply (apply_bwf _ _ _ _ _ Hr)].
    + intros r d _ _ [-> Hr]. split; [reflexivity|]. intros b' E. injection E as <-. exact Hr.
  - right; reflexivity.
  - apply wres_eq. intros r Hr. apply bind_ok in Hr. destruct Hr as (y & _ & Hr). injection Hr as <-. split; [reflexivity|discriminate].
  - apply wres_eq. intros r Hr. apply bind_ok in Hr. destruct Hr as (y & _ & Hr). injection Hr as <-. split; [reflexivity|discriminate].
  - apply wres_eq. intros r Hr. apply bind_ok in Hr. destruct Hr as (y & _ & Hr). injection Hr as <-. split; [reflexivity|discriminate].
Qed.
(** noise: a result is a density matrix or nothing changed; only dense arrays and density matrices have a number of qubits *)
Lemma noise_rel2 : forall s t ts fs n, srel2 s t -> (forall b, s <> SSparse b) -> wres (fun s t => srel2 s t /\ forall b, s <> SSparse b) (apply_noise s ts fs n) (apply_noise t ts fs n).
Proof.
  intros s t ts fs n [<- W] NS. destruct s as [x|b|x]; [|exfalso; apply (NS b eq_refl)|]; cbn [dense_form]; apply wres_eq; intros r Hr;
    apply bind_ok in Hr; destruct Hr as (ks & _ & Hr); apply bind_ok in Hr; destruct Hr as (es & _ & Hr); [discriminate|].
  apply bind_ok in Hr. destruct Hr as (y & _ & Hr). injection Hr as <-. split; [split; [reflexivity|discriminate]|discriminate].
Qed.
Lemma noisy_rel2 : forall w s t m d ts c ns, (forall b, s <> SSparse b) -> srel2 s t -> mrel2 m d ->
    wres (fun s t => srel2 s t /\ forall b, s <> SSparse b) (apply_operator_with_noise w s m ts c ns) (apply_operator_with_noise w t d ts c ns).
Proof.
  intros w s t m d ts c ns NS S M. unfold apply_operator_with_noise.
  apply (wres_bind srel2); [apply state_rel2; assumption|]. intros a b Ea _ Sab.
  assert (NA : forall x, a <> SSparse x).
  { intros x ->. destruct s as [y|y|y]; [|apply (NS y eq_refl)|]; destruct m; cbn [apply_operator_state] in Ea; try discriminate;
      apply bind_ok in Ea; destruct Ea as (z & _ & Ea); discriminate. }
  destruct ns as [l|]; [|exists b; auto].
  apply (wres_bind eq).
  { destruct Sab as [<- _]. destruct a as [y|y|y]; [| |]; cbn [dense_form num_qubits]; [exists (num_qubits_array y); auto|exfalso; apply (NA y eq_refl)|exists (num_qubits_dm y); auto]. }
  intros n n' _ _ <-. eapply (wres_foldM _ eq).
  - clear. induction l; constructor; auto.
  - split; assumption.
  - intros s0 t0 x y [H1 H2] <-. apply noise_rel2; assumption.
Qed.

Lemma c34_mixed : forall w s ga vals ot group merge,
    (forall b, s = SSparse b -> is_bcoo b) -> ot = UNITARY \/ ot = DAGGER ->
    match apply_gates w s ga vals ot group merge with
    | Ok r => apply_gates w (dense_form s) (map_gates (with_sparse false) ga) vals ot group merge = Ok (dense_form r)
    | Err e => apply_gates w (dense_form s) (map_gates (with_sparse false) ga) vals ot group merge = Err e \/ e = TypeError \/
               ((exists b, s = SSparse b) /\ some_gate (fun g => ~ noiseless g) ga /\ e = NotImplementedError)
    end.
Proof.
  intros w s ga vals ot gr mg W HO.
  assert (FD : forall w (l l' : list placed) (ns : list (option (list noise_inst))) s t, Forall2 prel2 l l' -> srel2 s t -> (forall b, s <> SSparse b) ->
     wres (fun s t => srel2 s t /\ forall b, s <> SSparse b)
       (foldM (fun s pn => let '(o, t, c, n) := pn in apply_operator_with_noise w s o t c n) (combine l ns) s)
       (foldM (fun s pn => let '(o, t, c, n) := pn in apply_operator_with_noise w s o t c n) (combine l' ns) t)).
  { clear. intros w l l' ns s t F S NS. apply (wres_foldM _ (fun x y => prel2 (fst x) (fst y) /\ snd x = snd y)).
    - revert ns. induction F as [|p q l l' P F IH]; intros [|n ns]; cbn [combine]; constructor; auto.
    - split; assumption.
    - intros s0 t0 [[[m ts] c] n] [[[m' ts'] c'] n'] [H1 H2] [(M & -> & ->) E]. cbn [snd] in E. subst n'. apply noisy_rel2; assumption. }
  assert (FS : forall w (l l' : list placed) s t, Forall2 prel2 l l' -> srel2 s t ->
     wres srel2 (foldM (fun s p => let '(o, t, c) := p in apply_operator_state w s o t c) l s)
                (foldM (fun s p => let '(o, t, c) := p in apply_operator_state w s o t c) l' t)).
  { clear. intros w l l' s t F S. apply (wres_foldM _ prel2); [exact F|exact S|].
    intros s0 t0 [[m ts] c] [[m' ts'] c'] H (M & -> & ->). apply state_rel2; assumption. }
  assert (END : forall r d, wres srel2 r d ->
     match r with Ok r => d = Ok (dense_form r) | Err e => d = Err e \/ e = TypeError \/ ((exists b, s = SSparse b) /\ some_gate (fun g => ~ noiseless g) ga /\ e = NotImplementedError) end).
  { intros [r|e] d H; cbn [wres] in H; [destruct H as (t & -> & [<- _]); reflexivity|destruct H as [H|H]; auto]. }
  assert (WW : forall r d, wres (fun s t => srel2 s t /\ forall b, s <> SSparse b) r d -> wres srel2 r d).
  { intros [r|e] d H; cbn [wres] in *; [destruct H as (t & E & [H _]); eauto|exact H]. }
  pose proof (prepare_rel2 w ga vals ot gr mg HO) as PR. unfold apply_gates. 
  destruct (prepare_sequence_reduce w ga vals ot gr mg) as [pn|e] eqn:EP; destruct (prepare_sequence_reduce w (map_gates (with_sparse false) ga) vals ot gr mg) as [pn'|e'];
    cbn [rres] in PR; try contradiction; [|subst; left; reflexivity].
  destruct PR as [F N]. cbn [bind]. destruct s as [a|b|a]; cbn [dense_form]; rewrite <- N.
  - destruct (negb (no_noise (snd pn))).
    + apply END. apply (wres_bind eq); [apply wres_eq; reflexivity|]. intros rho rho' _ _ <-. apply WW, FD; [exact F|split; [reflexivity|discriminate]|discriminate].
    + apply END, FS; [exact F|split; [reflexivity|discriminate]].
  - destruct (no_noise (snd pn)) eqn:Z; cbn [negb].
    + apply END, FS; [exact F|split; [reflexivity|]]. intros b' E. injection E as <-. apply (W b eq_refl).
    + right; right. split; [eauto|]. split; [|reflexivity]. pose proof (prepare_noise _ _ _ _ _ _ _ EP) as PN.
      assert (NN : ~ all_gates noiseless ga) by (intro X; apply PN in X; congruence). clear -NN. destruct ga as [g|gs]; cbn [all_gates some_gate] in *; [exact NN|].
      apply neg_Forall_Exists_neg; [|exact NN]. intro g. unfold noiseless. destruct (noise g); [right; discriminate|left; reflexivity].
  - apply END, WW, FD; [exact F|split; [reflexivity|discriminate]|discriminate].
Qed.
