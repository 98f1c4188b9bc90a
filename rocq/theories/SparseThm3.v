(** * Sparse programs: runs and expectations *)
From Coq Require Import String List Arith Bool Reals Lia Lra Permutation ZArith.
From Verif Require Import Cplx Py PyFacts Ndarray NdFacts NdPerm OperatorUtils ApplyOperator Sparse Matrices Noise Gates Apply Composite Conversion Shots Gpsr Api SparseTensor
  Spec SpecFacts ApplyFacts GateSpec GateFacts CircuitFacts ExpandFacts ExpectSpec StructSpec SampleThm SparseSpec SparseSpec2 SparseFacts SparseThm SparseThm2 Examples.
Import ListNotations.
Local Open Scope nat_scope.

(** the inner product *)
Lemma data_todense : forall b, data (todense b) = map (fun k => coef b (unravel (bshp b) k)) (seq 0 (prod (bshp b))).
Proof. intro b. rewrite todense_coef. unfold build; cbn [data]. rewrite indices_unravel, map_map. reflexivity. Qed.
Lemma combine_map2 : forall {A B D} (f : A -> B) (g : A -> D) l, combine (map f l) (map g l) = map (fun x => (f x, g x)) l.
Proof. intros A B D f g l; induction l as [|x l IH]; [reflexivity|]. cbn [map combine]. rewrite IH. reflexivity. Qed.
Lemma b_inner_commutes : forall a b, b_inner a b = inner (todense a) (todense b).
Proof.
  intros a b. unfold b_inner, inner, vdot. rewrite map_length, !data_todense, !map_length, !seq_length.
  destruct (Nat.eqb_spec (prod (bshp a)) (prod (bshp b))) as [E|E]; [|reflexivity]. f_equal. rewrite <- E, map_map, combine_map2, csum_map. cbn [fst snd].
  transitivity (csum (seq 0 (prod (bshp a))) (fun k => csum (bent a) (fun e => csum (bent b) (fun f =>
    Cmul (if list_eqb (fst e) (unravel (bshp a) k) then Cconj (snd e) else C0) (if list_eqb (fst f) (unravel (bshp b) k) then snd f else C0))))).
  2:{ apply csum_ext; intros k _. unfold coef. rewrite csum_conj, <- csum_scale_r. apply csum_ext; intros e _. rewrite <- csum_scale_l. apply csum_ext; intros f _.
      destruct (list_eqb (fst e) _); [reflexivity|]. replace (Cconj C0) with C0 by (apply C_ext; simpl; lra). reflexivity. }
  symmetry. rewrite csum_swap. apply csum_ext; intros e _. rewrite csum_swap. apply csum_ext; intros f _.
  destruct (in_shape (bshp a) (fst e)) eqn:Ie; cbn [andb].
  - apply in_shape_inb in Ie. pose proof (ravel_lt _ _ Ie) as Le.
    rewrite (csum_single _ (ravel (bshp a) (fst e))).
    + rewrite unravel_ravel by exact Ie. rewrite list_eqb_refl. destruct (in_shape (bshp b) (fst f)) eqn:If; cbn [andb].
      * apply in_shape_inb in If. destruct (Nat.eqb_spec (ravel (bshp a) (fst e)) (ravel (bshp b) (fst f))) as [X|X].
        -- rewrite X, unravel_ravel by exact If. rewrite list_eqb_refl. reflexivity.
        -- destruct (list_eqb (fst f) _) eqn:Y; [|ring]. apply list_eqb_eq in Y. exfalso; apply X. rewrite Y, ravel_unravel by lia. reflexivity.
      * destruct (list_eqb (fst f) _) eqn:Y; [|ring]. apply list_eqb_eq in Y. assert (If' : inb (bshp b) (fst f)) by (rewrite Y; apply unravel_inb; lia).
        apply in_shape_inb in If'. congruence.
    + apply seq_NoDup.
    + apply in_seq; lia.
    + intros k Hk Nk. apply in_seq in Hk. destruct (list_eqb (fst e) (unravel (bshp a) k)) eqn:Y; [|ring]. apply list_eqb_eq in Y. exfalso; apply Nk. rewrite Y, ravel_unravel by lia. reflexivity.
  - apply csum_zero; intros k Hk. apply in_seq in Hk. destruct (list_eqb (fst e) (unravel (bshp a) k)) eqn:Y; [|ring]. apply list_eqb_eq in Y.
    assert (X : inb (bshp a) (fst e)) by (rewrite Y; apply unravel_inb; lia). apply in_shape_inb in X. congruence.
Qed.
Definition orel (s t : option state) : Prop := exists a b, s = Some a /\ t = Some b /\ srel a b.
Lemma real_inner_rel : forall s t p q, srel s t -> orel p q -> real_inner s p = real_inner t q.
Proof.
  intros s t p q (b & -> & _ & ->) (p' & q' & -> & -> & (c & -> & _ & ->)). cbn [real_inner]. rewrite b_inner_commutes. reflexivity.
Qed.
(** gates *)
Lemma gates_rel : forall w ga vals ot gr mg s t, ot = UNITARY \/ ot = DAGGER -> SparseSpec.all_gates sparse_gate ga -> SparseSpec.all_gates noiseless ga -> srel s t ->
    rres srel (apply_gates w s ga vals ot gr mg) (apply_gates w t (map_gates (SparseSpec.with_sparse false) ga) vals ot gr mg).
Proof.
  intros w ga vals ot gr mg s t HO HS HN (b & -> & W & ->). unfold apply_gates. apply (rres_bind pnrel); [apply prepare_rel; assumption|]. intros p q Ep Eq [H1 H2].
  apply prepare_noise in Ep. apply Ep in HN. rewrite <- H2, HN. cbn [negb]. apply (rres_foldM srel prel); [exact H1|exists b; auto|]. intros s t x y; apply step_rel.
Qed.
Lemma add_state_rel : forall m m' d d', orel m d -> orel m' d' -> rres orel (add_state m m') (add_state d d').
Proof.
  intros m m' d d' (s & t & -> & -> & (b & -> & W & ->)) (s' & t' & -> & -> & (b' & -> & W' & ->)). cbn [add_state].
  apply (rres_bind (fun b a => a = todense b /\ bwf b)).
  - apply rres_lift; [apply add_commutes|]. intros r E; split; [reflexivity|]. eapply add_bwf; [exact W|exact W'|exact E].
  - intros r d _ _ [-> Hr]. exists (SSparse r), (SDense (todense r)). split; [reflexivity|]. split; [reflexivity|]. exists r; auto.
Qed.
Lemma scale_state_rel : forall c m d, orel m d -> rres orel (scale_state c m) (scale_state c d).
Proof.
  intros c m d (s & t & -> & -> & (b & -> & W & ->)). cbn [scale_state]. simpl. do 2 eexists. split; [reflexivity|]. split; [reflexivity|].
  exists (b_scale (RtoC c) b). split; [reflexivity|]. split; [|rewrite scale_commutes; reflexivity].
  unfold bwf, b_scale in *; cbn [bent bndim bshp]; apply Forall_map; eapply Forall_impl; [|exact W]; intros e H; exact H.
Qed.
Definition call_rel_at (w : world) (vals : values) (o : oper) : Prop :=
  forall s t, orel s t -> rres orel (call w vals o s) (call w vals (with_sparse_oper false o) t).
Lemma reduce_call_rel : forall w vals l s t, Forall (call_rel_at w vals) l -> orel s t ->
    rres orel (reduce_map (fun o => call w vals o s) add_state l) (reduce_map (fun o => call w vals o t) add_state (map (with_sparse_oper false) l)).
Proof.
  intros w vals l s t F R. destruct F as [|o l H F]; [reflexivity|]. cbn [map reduce_map]. eapply rres_bind; [apply H; exact R|]. intros m d _ _ R1.
  eapply (rres_foldM orel (fun o o' => rres orel (call w vals o s) (call w vals o' t))); [|exact R1|].
  - clear -F R. induction F; cbn [map]; constructor; auto.
  - intros s' t' a b Rs Ra. eapply rres_bind; [exact Ra|]. intros m' d' _ _ R'. apply add_state_rel; assumption.
Qed.
Lemma seq_call_rel : forall w vals l s t, Forall (call_rel_at w vals) l -> orel s t ->
    rres orel (foldM (fun s o => call w vals o s) l s) (foldM (fun s o => call w vals o s) (map (with_sparse_oper false) l) t).
Proof.
  intros w vals l s t F R. eapply (rres_foldM orel (fun o o' => forall s t, orel s t -> rres orel (call w vals o s) (call w vals o' t))); [|exact R|].
  - clear -F. induction F; cbn [map]; constructor; auto.
  - intros s' t' a b Rs Ra. apply Ra; exact Rs.
Qed.
Lemma call_rel : forall w vals o, Forall sparse_gate (StructSpec.all_gates o) -> Forall noiseless (StructSpec.all_gates o) -> no_observable o -> call_rel_at w vals o.
Proof.
  intros w vals o. assert (L : forall l, Forall (fun o => Forall sparse_gate (StructSpec.all_gates o) -> Forall noiseless (StructSpec.all_gates o) -> no_observable o -> call_rel_at w vals o) l ->
      Forall sparse_gate (flat_map StructSpec.all_gates l) -> Forall noiseless (flat_map StructSpec.all_gates l) -> Forall no_observable l -> Forall (call_rel_at w vals) l).
  { intros l H G N P. rewrite Forall_flat_map in G, N. rewrite Forall_forall in *. intros x Ix. apply H; auto. }
  induction o as [g|l IH|l p IH|l IH|l IH|n l fp IH] using oper_ind'; intros G N P s t R; inversion P; subst; cbn [call with_sparse_oper StructSpec.all_gates] in *.
  - destruct R as (s' & t' & -> & -> & R). cbn [bind]. inversion G; inversion N; subst. eapply rres_bind; [apply (gates_rel w (GOne g)); eauto|].
    intros r d _ _ R'. simpl. exists r, d; auto.
  - apply seq_call_rel; auto.
  - apply (rres_bind eq); [destruct (param_value p vals); reflexivity|]. intros c c' _ _ <-. eapply rres_bind; [apply seq_call_rel; eauto|]. intros r d _ _ R'. apply scale_state_rel; exact R'.
  - apply reduce_call_rel; auto.
  - apply seq_call_rel; auto.
Qed.
Lemma srel_of : forall b, is_bcoo b -> srel (SSparse b) (SDense (todense b)).
Proof. intros b H. exists b; auto. Qed.
Lemma c96_run : forall w vals o b, is_bcoo b -> Forall sparse_gate (StructSpec.all_gates o) -> Forall noiseless (StructSpec.all_gates o) -> no_observable o ->
    same_run (run w o (SSparse b) vals) (run w (with_sparse_oper false o) (SDense (todense b)) vals).
Proof.
  intros w vals o b B G N P. unfold run. assert (R : orel (Some (SSparse b)) (Some (SDense (todense b)))) by (do 2 eexists; split; [reflexivity|]; split; [reflexivity|]; apply srel_of; exact B).
  pose proof (call_rel w vals o G N P _ _ R) as K. unfold same_run. destruct (call w vals o _) as [r|e], (call w vals (with_sparse_oper false o) _) as [d|e']; simpl in K; try contradiction; [|exact K].
  destruct K as (r' & d' & -> & -> & (c & -> & W & ->)). split; [exact W|reflexivity].
Qed.
(** expectations *)
Lemma gates_of_sparse : forall l, gates_of (map (with_sparse_oper false) l) = match gates_of l with Ok gs => Ok (map (SparseSpec.with_sparse false) gs) | Err e => Err e end.
Proof.
  induction l as [|o l IH]; [reflexivity|]. cbn [map]. destruct o; try reflexivity. cbn [with_sparse_oper gates_of]. rewrite IH. destruct (gates_of l); reflexivity.
Qed.
Lemma flatten_sparse : forall o, flatten (with_sparse_oper false o) = map (with_sparse_oper false) (flatten o).
Proof.
  assert (L : forall l, Forall (fun o => flatten (with_sparse_oper false o) = map (with_sparse_oper false) (flatten o)) l ->
      flat_map flatten (map (with_sparse_oper false) l) = map (with_sparse_oper false) (flat_map flatten l)).
  { induction 1 as [|o l H _ IH]; [reflexivity|]. cbn [map flat_map]. rewrite H, IH, map_app. reflexivity. }
  induction o as [g|l IH|l p IH|l IH|l IH|n l fp IH] using oper_ind'; cbn [with_sparse_oper flatten]; try (apply L; exact IH). reflexivity.
Qed.
Lemma iter_sparse : forall o, iter (with_sparse_oper false o) = map (with_sparse_oper false) (iter o).
Proof.
  intro o. destruct o as [g|l|l p|l|l|n l fp]; try reflexivity; exact (flatten_sparse (OSeq l)).
Qed.
Lemma gates_of_in : forall l gs g, gates_of l = Ok gs -> In g gs -> In (OGate g) l.
Proof.
  induction l as [|o l IH]; intros gs g E I; [injection E as <-; destruct I|]. destruct o; try discriminate. cbn [gates_of] in E.
  destruct (gates_of l) as [gs'|e]; cbn [bind] in E; [|discriminate]. injection E as <-. destruct I as [<-|I]; [left; reflexivity|right; eapply IH; [reflexivity|exact I]].
Qed.
Lemma flatten_in : forall o g, In (OGate g) (flatten o) -> In g (StructSpec.all_gates o).
Proof.
  assert (L : forall l g, Forall (fun o => forall g, In (OGate g) (flatten o) -> In g (StructSpec.all_gates o)) l -> In (OGate g) (flat_map flatten l) -> In g (flat_map StructSpec.all_gates l)).
  { intros l g F I. apply in_flat_map in I as (o & Io & I). rewrite Forall_forall in F. apply in_flat_map. exists o; auto. }
  induction o as [g|l IH|l p IH|l IH|l IH|n l fp IH] using oper_ind'; intros g' I; cbn [flatten StructSpec.all_gates] in *; try (apply L; assumption).
  destruct I as [I|[]]. injection I as <-. left; reflexivity.
Qed.
Lemma iter_in : forall o g, In (OGate g) (iter o) -> In g (StructSpec.all_gates o).
Proof.
  intros o g I. destruct o as [g'|l|l p|l|l|n l fp]; try (exact (flatten_in (OSeq l) g I)); destruct I as [I|[]]; [injection I as <-; left; reflexivity|discriminate].
Qed.
Lemma flat_gates : forall o gs (P : gate -> Prop), Forall P (StructSpec.all_gates o) -> gates_of (iter o) = Ok gs -> Forall P gs.
Proof.
  intros o gs P F E. rewrite Forall_forall in *. intros g I. apply F, iter_in. eapply gates_of_in; eassumption.
Qed.
Definition sparse_program (o : oper) : Prop := Forall sparse_gate (StructSpec.all_gates o) /\ Forall noiseless (StructSpec.all_gates o).
Lemma single_agree : forall w vals l s t, Forall sparse_gate (flat_map StructSpec.all_gates l) -> Forall noiseless (flat_map StructSpec.all_gates l) -> Forall no_observable l -> srel s t ->
    (let! p := forward w vals l (Some s) in real_inner s p) = (let! p := forward w vals (map (with_sparse_oper false) l) (Some t) in real_inner t p) /\
    ad_single w s l vals = ad_single w t (map (with_sparse_oper false) l) vals.
Proof.
  intros w vals l s t G N P R. assert (K : (let! p := forward w vals l (Some s) in real_inner s p) = (let! p := forward w vals (map (with_sparse_oper false) l) (Some t) in real_inner t p)).
  { assert (F : Forall (call_rel_at w vals) l) by (rewrite Forall_flat_map in G, N; rewrite Forall_forall in *; intros x Ix; apply call_rel; auto).
    assert (O : orel (Some s) (Some t)) by (exists s, t; auto). pose proof (reduce_call_rel w vals l _ _ F O) as K. unfold forward.
    destruct (reduce_map _ add_state l) as [p|e], (reduce_map _ add_state (map _ l)) as [q|e']; simpl in K; try contradiction; cbn [bind]; [|rewrite K; reflexivity].
    apply real_inner_rel; assumption. }
  split; [exact K|]. destruct R as (b & -> & _ & ->). exact K.
Qed.
Lemma rres_eq_bind : forall {A B S} (R : A -> B -> Prop) r d (f : A -> res S) (g : B -> res S), rres R r d -> (forall a b, R a b -> f a = g b) -> bind r f = bind d g.
Proof. intros A B S R [a|e] [b|e'] f g H K; simpl in *; try contradiction; [apply K; exact H|rewrite H; reflexivity]. Qed.
Lemma mapM_agree : forall {A B S} (f : A -> res S) (g : B -> res S) (h : A -> B) l, (forall x, In x l -> f x = g (h x)) -> mapM f l = mapM g (map h l).
Proof.
  intros A B S f g h l H. induction l as [|x l IH]; [reflexivity|]. cbn [map mapM]. rewrite H by (left; reflexivity). rewrite IH by (intros; apply H; right; assumption). reflexivity.
Qed.
Lemma c96_expectation : forall w b circuit obs vals mode key, is_bcoo b ->
    Forall sparse_gate (StructSpec.all_gates circuit) -> Forall noiseless (StructSpec.all_gates circuit) ->
    Forall (fun l => Forall sparse_gate (flat_map StructSpec.all_gates l) /\ Forall noiseless (flat_map StructSpec.all_gates l) /\ Forall no_observable l) obs ->
    expectation w (SSparse b) circuit obs vals mode 0 key =
    expectation w (SDense (todense b)) (with_sparse_oper false circuit) (map (map (with_sparse_oper false)) obs) vals mode 0 key.
Proof.
  intros w b circuit obs vals mode key B G N HO. rewrite Forall_forall in HO.
  assert (FLAT : forall v, rres srel (run_flat w (SSparse b) circuit v) (run_flat w (SDense (todense b)) (with_sparse_oper false circuit) v)).
  { intro v. unfold run_flat. rewrite iter_sparse, gates_of_sparse. destruct (gates_of (iter circuit)) as [gs|e] eqn:E; cbn [bind]; [|reflexivity].
    apply (gates_rel w (GMany gs)); [auto| | |apply srel_of; exact B]; eapply flat_gates; eassumption. }
  unfold expectation. destruct mode; [| | |reflexivity].
  - cbn [Z.ltb Z.eqb Z.compare]. unfold ad_expectation. destruct (values_processing vals) as [co|e]; cbn [bind]; [|reflexivity].
    f_equal. apply mapM_agree. intros l I. destruct (HO l I) as (G' & N' & P'). eapply rres_eq_bind; [apply FLAT|]. intros s t R. apply single_agree; assumption.
  - unfold adjoint_expectation. f_equal. apply mapM_agree. intros l I. destruct (HO l I) as (G' & N' & P'). unfold adjoint_single. eapply rres_eq_bind; [apply FLAT|].
    intros s t R. apply single_agree; assumption.
  - cbn [Z.ltb Z.eqb Z.compare]. rewrite iter_sparse, gates_of_sparse. destruct (gates_of (iter circuit)) as [gs|e] eqn:E; cbn [bind]; [|reflexivity].
    unfold analytical_expectation. f_equal. apply mapM_agree. intros l I. destruct (HO l I) as (G' & N' & P'). eapply rres_eq_bind.
    + apply (gates_rel w (GMany gs)); [auto| | |apply srel_of; exact B]; eapply flat_gates; eassumption.
    + intros s t R. apply single_agree; assumption.
Qed.
(** an Observable called on a sparse state *)
Lemma c96_observable : forall w b l vals, is_bcoo b ->
    Forall sparse_gate (flat_map StructSpec.all_gates l) -> Forall noiseless (flat_map StructSpec.all_gates l) -> Forall no_observable l ->
    run w (OObs l) (SSparse b) vals = run w (with_sparse_oper false (OObs l)) (SDense (todense b)) vals.
Proof.
  intros w b l vals B G N P. unfold run. cbn [call with_sparse_oper]. destruct (single_agree w vals l _ _ G N P (srel_of b B)) as [K _]. unfold forward in K.
  destruct (reduce_map _ add_state l) as [p|e], (reduce_map _ add_state (map _ l)) as [q|e']; cbn [bind] in *.
  - rewrite K. reflexivity.
  - rewrite K. reflexivity.
  - rewrite <- K. reflexivity.
  - injection K as ->. reflexivity.
Qed.
(** sparse states cannot be sampled *)
Lemma sparse_out : forall w s t ga vals ot gr mg r, ot = UNITARY \/ ot = DAGGER -> SparseSpec.all_gates sparse_gate ga -> SparseSpec.all_gates noiseless ga -> srel s t ->
    apply_gates w s ga vals ot gr mg = Ok r -> exists c, r = SSparse c.
Proof.
  intros w s t ga vals ot gr mg r HO HS HN R E. pose proof (gates_rel w ga vals ot gr mg s t HO HS HN R) as K. rewrite E in K. simpl in K.
  destruct (apply_gates w t _ _ _ _ _); [|contradiction]. destruct K as (c & -> & _). eauto.
Qed.
Lemma c97_sample : forall w b circuit vals n r, is_bcoo b ->
    Forall sparse_gate (StructSpec.all_gates circuit) -> Forall noiseless (StructSpec.all_gates circuit) -> no_observable circuit -> fst (sample w (SSparse b) circuit vals n) <> Ok r.
Proof.
  intros w b circuit vals n r B G N P. unfold sample. destruct (Z.ltb n 1); [discriminate|].
  assert (R : orel (Some (SSparse b)) (Some (SDense (todense b)))) by (do 2 eexists; split; [reflexivity|]; split; [reflexivity|]; apply srel_of; exact B).
  pose proof (call_rel w vals circuit G N P _ _ R) as K. destruct (call w vals circuit _) as [o|e]; [|discriminate]. simpl in K.
  destruct (call w vals (with_sparse_oper false circuit) _); [|contradiction]. destruct K as (r' & d' & -> & _ & (c & -> & _)). discriminate.
Qed.
Lemma shots_fail : forall w b gs obs vals n key r, is_bcoo b -> Forall sparse_gate gs -> Forall noiseless gs -> finite_shots w (SSparse b) (GMany gs) obs vals n key <> Ok r.
Proof.
  intros w b gs obs vals n key r B G N. unfold finite_shots. destruct (apply_gates w (SSparse b) (GMany gs) vals UNITARY false true) as [s|e] eqn:E; cbn [bind]; [|discriminate].
  apply (sparse_out w _ _ (GMany gs) _ _ _ _ _ (or_introl eq_refl) G N (srel_of b B)) in E as [c ->]. discriminate.
Qed.
Lemma c97_shots : forall w b circuit obs vals mode n key r, is_bcoo b -> mode <> ADJOINT -> (0 < n)%Z ->
    Forall sparse_gate (StructSpec.all_gates circuit) -> Forall noiseless (StructSpec.all_gates circuit) -> expectation w (SSparse b) circuit obs vals mode n key <> Ok r.
Proof.
  intros w b circuit obs vals mode n key r B M Hn G N. assert (L : Z.ltb n 0 = false) by (apply Z.ltb_ge; lia). assert (Q : Z.eqb n 0 = false) by (apply Z.eqb_neq; lia).
  unfold expectation. rewrite L, Q. destruct mode; [|contradiction| |discriminate].
  - destruct (gates_of (iter circuit)) as [gs|e] eqn:E; cbn [bind]; [|discriminate]. apply shots_fail; [exact B| |]; eapply flat_gates; eassumption.
  - destruct (gates_of (iter circuit)) as [gs|e] eqn:E; cbn [bind]; [|discriminate]. apply shots_fail; [exact B| |]; eapply flat_gates; eassumption.
Qed.
