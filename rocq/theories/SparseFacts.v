(** * Sparse arrays: every sparse primitive commutes with conversion to dense *)
From Coq Require Import String List Arith Bool Reals Lia Lra Permutation.
From Verif Require Import Cplx Py PyFacts Ndarray NdFacts NdPerm OperatorUtils ApplyOperator Sparse Matrices Noise Gates Apply
  Spec SpecFacts ApplyFacts GateFacts.
Import ListNotations.
Local Open Scope nat_scope.

(** every index has one coordinate per axis (the index array of a BCOO has shape (nse, ndim)) *)
Definition bwf (b : bcoo) : Prop := Forall (fun e => length (fst e) = bndim b) (bent b).
Definition coef (b : bcoo) (v : list nat) : C := csum (bent b) (fun e => if list_eqb (fst e) v then snd e else C0).
Lemma todense_coef : forall b, todense b = build (bshp b) (coef b).
Proof. reflexivity. Qed.
Lemma todense_shape : forall b, shape (todense b) = bshp b.
Proof. reflexivity. Qed.
Lemma todense_ndim : forall b, ndim (todense b) = bndim b.
Proof. reflexivity. Qed.
Lemma todense_wf : forall b, wf (todense b).
Proof. intro b; apply wf_build. Qed.
Lemma get_todense : forall b v, inb (bshp b) v -> get (todense b) v = coef b v.
Proof. intros b v H; apply get_build; exact H. Qed.

Lemma csum_filter : forall {A} (p : A -> bool) (l : list A) f, csum (filter p l) f = csum l (fun x => if p x then f x else C0).
Proof.
  intros A p l f; induction l as [|x l IH]; simpl; [reflexivity|]. destruct (p x); simpl; rewrite IH; [reflexivity|ring].
Qed.
Lemma list_eqb_sym_iff : forall a b c d : list nat, (a = b <-> c = d) -> list_eqb a b = list_eqb c d.
Proof.
  intros a b c d H. destruct (list_eqb a b) eqn:E1, (list_eqb c d) eqn:E2; auto.
  - apply list_eqb_eq in E1. apply H in E1. apply list_eqb_eq in E1. congruence.
  - apply list_eqb_eq in E2. apply H in E2. apply list_eqb_eq in E2. congruence.
Qed.
Lemma in_shape_inb : forall s v, in_shape s v = true <-> inb s v.
Proof.
  intros s v; rewrite inb_nth. revert v; induction s as [|d s IH]; intros [|i v]; simpl.
  - split; [intros _; split; [reflexivity|intros; lia]|reflexivity].
  - split; [discriminate|intros [H _]; discriminate].
  - split; [discriminate|intros [H _]; discriminate].
  - rewrite andb_true_iff, Nat.ltb_lt, IH. split.
    + intros [H1 [H2 H3]]; split; [congruence|]. intros [|k] Hk; [exact H1|apply H3; lia].
    + intros [H1 H2]; split; [apply (H2 0); lia|split; [congruence|]]. intros k Hk; apply (H2 (S k)); lia.
Qed.

Definition dlift (r : res bcoo) : res arr := bind r (fun b => Ok (todense b)).

Lemma transpose_commutes : forall b p, bwf b -> dlift (b_transpose b p) = transpose (todense b) p.
Proof.
  intros b p W; unfold b_transpose, transpose, dlift. rewrite todense_ndim. destruct (permb (bndim b) p) eqn:E; [|reflexivity].
  cbn [bind]. f_equal. rewrite todense_coef; cbn [bshp]. rewrite todense_shape. apply build_ext; intros v Hv.
  apply permb_is_perm in E.
  assert (Lv : length v = bndim b).
  { rewrite (inb_length _ _ Hv), restrict_length; apply is_perm_length; exact E. }
  rewrite get_todense by (apply inb_place; auto).
  unfold coef; cbn [bent]. rewrite csum_map. apply csum_ext; intros e He; cbn [fst snd].
  unfold bwf in W; rewrite Forall_forall in W; specialize (W e He).
  rewrite (list_eqb_sym_iff _ _ (fst e) (place p v)); [reflexivity|]. split; intro H.
  - rewrite <- H, (place_restrict (bndim b)); auto.
  - rewrite H, (restrict_place (bndim b)); auto.
Qed.
Lemma transpose_bwf : forall b p r, b_transpose b p = Ok r -> bwf r.
Proof.
  intros b p r; unfold b_transpose. destruct (permb _ _); [|discriminate]. intro H; injection H as <-.
  unfold bwf, bndim; cbn [bshp bent]. apply Forall_forall; intros e He. apply in_map_iff in He. destruct He as (x & <- & _); cbn [fst].
  rewrite !restrict_length; reflexivity.
Qed.
Lemma moveaxis_commutes : forall b s d, bwf b -> dlift (b_moveaxis b s d) = moveaxis (todense b) s d.
Proof.
  intros b s d W; unfold b_moveaxis, moveaxis. rewrite todense_ndim.
  destruct (negb _); [reflexivity|]. destruct (negb _); [reflexivity|]. apply transpose_commutes; exact W.
Qed.
Lemma moveaxis_bwf : forall b s d r, b_moveaxis b s d = Ok r -> bwf r.
Proof.
  intros b s d r; unfold b_moveaxis. destruct (negb _); [discriminate|]. destruct (negb _); [discriminate|]. apply transpose_bwf.
Qed.

Lemma reshape_commutes : forall b s, dlift (b_reshape b s) = reshape (todense b) s.
Proof.
  intros b s; unfold b_reshape, reshape, dlift. rewrite todense_shape. destruct (Nat.eqb (prod s) (prod (bshp b))) eqn:E; [|reflexivity].
  apply Nat.eqb_eq in E. cbn [bind]. f_equal. apply arr_ext; [apply wf_build| |reflexivity|].
  - unfold wf; cbn [shape data]. rewrite E. apply todense_wf.
  - intros v Hv. cbn [shape todense build bshp] in Hv. rewrite get_todense by exact Hv.
    unfold get at 1; cbn [shape data]. unfold todense, build; cbn [data].
    pose proof (ravel_lt _ _ Hv) as Lv. rewrite E in Lv.
    rewrite nth_map_lt with (d' := []) by (rewrite indices_length; exact Lv).
    change (nth (ravel s v) (indices (bshp b)) []) with (unravel (bshp b) (ravel s v)).
    unfold coef; cbn [bent]. rewrite csum_map, csum_filter. apply csum_ext; intros e He; cbn [fst snd].
    destruct (in_shape (bshp b) (fst e)) eqn:I.
    + apply in_shape_inb in I. rewrite (list_eqb_sym_iff _ _ (fst e) (unravel (bshp b) (ravel s v))); [reflexivity|].
      pose proof (ravel_lt _ _ I) as Le. split; intro H.
      * rewrite <- H, ravel_unravel by lia. symmetry; apply unravel_ravel; exact I.
      * rewrite H, ravel_unravel by lia. apply unravel_ravel; exact Hv.
    + destruct (list_eqb (fst e) (unravel (bshp b) (ravel s v))) eqn:L; [|reflexivity]. apply list_eqb_eq in L.
      assert (in_shape (bshp b) (fst e) = true) by (apply in_shape_inb; rewrite L; apply unravel_inb; exact Lv). congruence.
Qed.
Lemma reshape_bwf : forall b s r, b_reshape b s = Ok r -> bwf r.
Proof.
  intros b s r; unfold b_reshape. destruct (Nat.eqb _ _) eqn:E; [|discriminate]. apply Nat.eqb_eq in E.
  intro H; injection H as <-. apply Forall_forall; intros e He; cbn [bent] in He. apply in_map_iff in He. destruct He as (x & <- & Hx).
  apply filter_In in Hx. destruct Hx as [_ I]. apply in_shape_inb in I. cbn [fst]. unfold bndim; cbn [bshp].
  apply inb_length, unravel_inb. rewrite E. apply ravel_lt; exact I.
Qed.

Lemma csum_const_if : forall {A} (l : list A) (c : bool) f, csum l (fun x => if c then f x else C0) = if c then csum l f else C0.
Proof. intros A l [|] f; [reflexivity|]. apply csum_zero; auto. Qed.
Lemma place_decomp : forall n f a u c e, is_perm n (f ++ a) -> length e = n -> length u = length f -> length c = length a ->
    (e = place (f ++ a) (u ++ c) <-> restrict e f = u /\ restrict e a = c).
Proof.
  intros n f a u c e P Le Lu Lc.
  assert (Lfa : length (u ++ c) = n) by (rewrite app_length, Lu, Lc, <- app_length; apply is_perm_length; exact P). split.
  - intros ->. assert (H := restrict_place n (f ++ a) (u ++ c) P Lfa). rewrite restrict_app in H.
    apply app_inv_len in H; [exact H|]. rewrite restrict_length; auto.
  - intros [<- <-]. rewrite <- restrict_app. symmetry; apply (place_restrict n); auto.
Qed.
Lemma list_eqb_app : forall a b u z, length a = length u -> list_eqb (a ++ b) (u ++ z) = list_eqb a u && list_eqb b z.
Proof.
  induction a as [|x a IH]; intros b [|y u] z L; simpl in L; try discriminate; [reflexivity|]. simpl.
  rewrite IH by congruence. apply andb_assoc.
Qed.
Lemma andb_conj : forall e p q a b : bool, (e = true <-> a = true /\ b = true) -> e = a && b.
Proof. intros [|] p q [|] [|] H; simpl; try reflexivity; exfalso; destruct H as [H1 H2]; try (specialize (H1 eq_refl); destruct H1; congruence); specialize (H2 (Logic.conj eq_refl eq_refl)); congruence. Qed.

Lemma tensordot_commutes : forall a b axa axb, bwf a -> bwf b -> dlift (b_tensordot a b axa axb) = tensordot (todense a) (todense b) axa axb.
Proof.
  intros a b axa axb Wa Wb; unfold b_tensordot, tensordot, dlift. rewrite !todense_ndim, !todense_shape.
  destruct (negb (Nat.eqb (length axa) (length axb))) eqn:E1; [reflexivity|].
  destruct (negb (_ && _)) eqn:E2; [reflexivity|].
  destruct (negb (nodupb axa && nodupb axb)) eqn:E3; [reflexivity|].
  destruct (negb (list_eqb _ _)) eqn:E4; [reflexivity|].
  apply negb_false_iff in E1, E2, E3, E4. apply Nat.eqb_eq in E1. apply andb_true_iff in E2, E3. destruct E2 as [E2 E2'], E3 as [E3 E3'].
  apply nodupb_NoDup in E3, E3'. apply list_eqb_eq in E4.
  rewrite forallb_forall in E2, E2'.
  assert (Ba : forall x, In x axa -> x < bndim a) by (intros x Hx; apply Nat.ltb_lt, E2; exact Hx).
  assert (Bb : forall x, In x axb -> x < bndim b) by (intros x Hx; apply Nat.ltb_lt, E2'; exact Hx).
  set (fa := free_axes (bndim a) axa). set (fb := free_axes (bndim b) axb).
  cbn [bind]. f_equal. rewrite todense_coef; cbn [bshp]. apply build_ext; intros v Hv.
  apply inb_app_inv in Hv. destruct Hv as (u & z & -> & Hu & Hz).
  assert (Lu : length u = length fa) by (rewrite (inb_length _ _ Hu); apply restrict_length).
  assert (Lz : length z = length fb) by (rewrite (inb_length _ _ Hz); apply restrict_length).
  rewrite <- Lu. rewrite firstn_app_exact, skipn_app_exact by reflexivity.
  assert (Pa : is_perm (bndim a) (fa ++ axa)) by (apply is_perm_free_l; auto).
  assert (Pb : is_perm (bndim b) (axb ++ fb)) by (apply is_perm_free; auto).
  unfold coef; cbn [bent]. rewrite csum_flat_map.
  transitivity (csum (indices (restrict (bshp a) axa)) (fun c =>
     csum (bent a) (fun ea => csum (bent b) (fun eb =>
       if list_eqb (fst ea) (place (fa ++ axa) (u ++ c)) then if list_eqb (fst eb) (place (axb ++ fb) (c ++ z)) then Cmul (snd ea) (snd eb) else C0 else C0)))).
  - rewrite csum_swap. apply csum_ext; intros ea Hea. rewrite csum_swap. rewrite csum_map, csum_filter. apply csum_ext; intros eb Heb. cbn [fst snd].
    unfold bwf in Wa, Wb; rewrite Forall_forall in Wa, Wb; specialize (Wa ea Hea); specialize (Wb eb Heb).
    rewrite list_eqb_app by (rewrite restrict_length; auto).
    set (cond := list_eqb (restrict (fst ea) fa) u && list_eqb (restrict (fst eb) fb) z).
    assert (PA : forall c, In c (indices (restrict (bshp a) axa)) ->
        (if list_eqb (fst ea) (place (fa ++ axa) (u ++ c)) then if list_eqb (fst eb) (place (axb ++ fb) (c ++ z)) then Cmul (snd ea) (snd eb) else C0 else C0)
        = if list_eqb c (restrict (fst ea) axa) then if cond && list_eqb (restrict (fst ea) axa) (restrict (fst eb) axb) then Cmul (snd ea) (snd eb) else C0 else C0).
    { intros c Hc. apply indices_In in Hc. assert (Lc : length c = length axa) by (rewrite (inb_length _ _ Hc); apply restrict_length).
      pose proof (place_decomp _ fa axa u c (fst ea) Pa Wa Lu Lc) as DA.
      pose proof (place_decomp _ axb fb c z (fst eb) Pb Wb (eq_trans Lc E1) Lz) as DB.
      destruct (list_eqb (fst ea) (place (fa ++ axa) (u ++ c))) eqn:Q1.
      - apply list_eqb_eq in Q1. apply DA in Q1. destruct Q1 as [Q1 Q1'].
        assert (T1 : list_eqb c (restrict (fst ea) axa) = true) by (apply list_eqb_eq; auto). rewrite T1.
        unfold cond. rewrite (proj2 (list_eqb_eq _ _) Q1). cbn [andb].
        rewrite (andb_conj (list_eqb (fst eb) (place (axb ++ fb) (c ++ z))) true true (list_eqb (restrict (fst eb) fb) z) (list_eqb (restrict (fst ea) axa) (restrict (fst eb) axb))); [reflexivity|].
        rewrite !list_eqb_eq, DB. rewrite Q1'. split; intros [? ?]; split; congruence.
      - destruct (list_eqb c (restrict (fst ea) axa)) eqn:T1; [|reflexivity]. apply list_eqb_eq in T1.
        unfold cond. destruct (list_eqb (restrict (fst ea) fa) u) eqn:T2; [|reflexivity]. apply list_eqb_eq in T2.
        assert (list_eqb (fst ea) (place (fa ++ axa) (u ++ c)) = true) by (apply list_eqb_eq, DA; auto). congruence. }
    rewrite (csum_ext _ _ _ PA). clear PA.
    rewrite <- (csum_ext (indices (restrict (bshp a) axa))
       (fun c => Cmul (if list_eqb c (restrict (fst ea) axa) then C1 else C0) (if cond && list_eqb (restrict (fst ea) axa) (restrict (fst eb) axb) then Cmul (snd ea) (snd eb) else C0))).
    2: { intros c _. destruct (list_eqb c (restrict (fst ea) axa)); [apply Cmul_1_l|ring]. }
    rewrite csum_scale_r.
    destruct (in_shape (bshp a) (fst ea)) eqn:Ia; cbn [andb].
    + apply in_shape_inb in Ia.
      assert (J : inb (restrict (bshp a) axa) (restrict (fst ea) axa)) by (apply inb_restrict; auto).
      rewrite (csum_single _ (restrict (fst ea) axa)).
      * rewrite (proj2 (list_eqb_eq _ _) eq_refl), Cmul_1_l.
        destruct (in_shape (bshp b) (fst eb)) eqn:Ib; cbn [andb].
        -- rewrite andb_comm. destruct (list_eqb (restrict (fst ea) axa) (restrict (fst eb) axb)); cbn [andb]; [reflexivity|]. reflexivity.
        -- destruct (cond && list_eqb (restrict (fst ea) axa) (restrict (fst eb) axb)) eqn:Q; [|reflexivity]. exfalso.
           apply andb_true_iff in Q. destruct Q as [Q1 Q2]. unfold cond in Q1. apply andb_true_iff in Q1. destruct Q1 as [Q0 Q1].
           apply list_eqb_eq in Q1, Q2.
           assert (in_shape (bshp b) (fst eb) = true); [|congruence]. apply in_shape_inb.
           rewrite <- (place_restrict (bndim b) (axb ++ fb) (fst eb) Pb Wb). apply inb_place; [exact Pb|].
           rewrite !restrict_app. apply inb_app; [rewrite <- Q2, <- E4; exact J|rewrite Q1; exact Hz].
      * apply indices_NoDup.
      * apply indices_In; exact J.
      * intros c _ Hc. destruct (list_eqb c (restrict (fst ea) axa)) eqn:Q; [apply list_eqb_eq in Q; congruence|reflexivity].
    + destruct (cond && list_eqb (restrict (fst ea) axa) (restrict (fst eb) axb)) eqn:Q; [|ring].
      rewrite csum_zero; [ring|]. intros c Hc. destruct (list_eqb c (restrict (fst ea) axa)) eqn:Q2; [|reflexivity]. exfalso.
      apply list_eqb_eq in Q2. apply andb_true_iff in Q. destruct Q as [Q _]. unfold cond in Q. apply andb_true_iff in Q. destruct Q as [Q _].
      apply list_eqb_eq in Q. apply indices_In in Hc.
      assert (in_shape (bshp a) (fst ea) = true); [|congruence]. apply in_shape_inb.
      rewrite <- (place_restrict (bndim a) (fa ++ axa) (fst ea) Pa Wa). apply inb_place; [exact Pa|].
      rewrite !restrict_app. apply inb_app; [rewrite Q; exact Hu|rewrite <- Q2; exact Hc].
  - apply csum_ext; intros c Hc. apply indices_In in Hc. assert (Lc : length c = length axa) by (rewrite (inb_length _ _ Hc); apply restrict_length).
    rewrite !get_todense.
    + unfold coef. rewrite <- csum_scale_r. apply csum_ext; intros ea _. destruct (list_eqb (fst ea) _); [|rewrite csum_zero; [ring|auto]].
      rewrite <- csum_scale_l. apply csum_ext; intros eb _. destruct (list_eqb (fst eb) _); [reflexivity|ring].
    + apply inb_place; [exact Pb|]. rewrite restrict_app. apply inb_app; [rewrite <- E4; exact Hc|exact Hz].
    + apply inb_place; [exact Pa|]. rewrite restrict_app. apply inb_app; [exact Hu|exact Hc].
Qed.
Lemma tensordot_bwf : forall a b x y r, b_tensordot a b x y = Ok r -> bwf r.
Proof.
  intros a b x y r; unfold b_tensordot. do 4 (destruct (negb _); [discriminate|]). intro H; injection H as <-.
  apply Forall_forall; intros e He; cbn [bent] in He. apply in_flat_map in He. destruct He as (ea & _ & He).
  apply in_map_iff in He. destruct He as (eb & <- & _). cbn [fst]. unfold bndim at 3; cbn [bshp].
  rewrite !app_length, !restrict_length; reflexivity.
Qed.

Lemma map_commutes : forall f b, f C0 = C0 -> (forall x y, f (Cadd x y) = Cadd (f x) (f y)) ->
    todense (b_map f b) = map_arr f (todense b).
Proof.
  intros f b H0 HA. apply arr_ext; [apply todense_wf|apply wf_map_arr, todense_wf|reflexivity|].
  intros v Hv; rewrite todense_shape in Hv; cbn [b_map bshp] in Hv.
  rewrite get_todense by exact Hv. rewrite get_map_arr by (try apply todense_wf; exact Hv). rewrite get_todense by exact Hv.
  unfold coef, b_map; cbn [bent]. rewrite csum_map; cbn [fst snd].
  induction (bent b) as [|e l IH]; simpl; [auto|]. rewrite HA, IH. destruct (list_eqb (fst e) v); [reflexivity|rewrite H0; reflexivity].
Qed.
Lemma map_bwf : forall f b, bwf b -> bwf (b_map f b).
Proof. intros f b W. unfold bwf, b_map, bndim in *; cbn [bshp bent]. rewrite Forall_map. exact W. Qed.
Lemma scale_commutes : forall c b, todense (b_scale c b) = scale c (todense b).
Proof. intros; apply map_commutes; intros; ring. Qed.
Lemma conj_commutes : forall b, todense (b_conj b) = conj (todense b).
Proof.
  intros; apply map_commutes; [|intros [a b'] [c d]]; unfold Cconj, C0, Cadd; cbn; f_equal; lra.
Qed.
Lemma add_commutes : forall a b, dlift (b_add a b) = add (todense a) (todense b).
Proof.
  intros a b; unfold b_add, dlift. destruct (list_eqb (bshp a) (bshp b)) eqn:E.
  - apply list_eqb_eq in E. unfold add. rewrite zip_arr_eq by (try apply todense_wf; exact E). cbn [bind]. f_equal.
    rewrite todense_coef; cbn [bshp]. apply build_ext; intros v Hv. rewrite !get_todense by (try rewrite <- E; exact Hv).
    unfold coef; cbn [bent]. apply csum_app.
  - unfold add, zip_arr. rewrite !todense_shape, E. reflexivity.
Qed.
Lemma add_bwf : forall a b r, bwf a -> bwf b -> b_add a b = Ok r -> bwf r.
Proof.
  intros a b r A B; unfold b_add. destruct (list_eqb (bshp a) (bshp b)) eqn:E; [|discriminate]. apply list_eqb_eq in E.
  intro H; injection H as <-. unfold bwf, bndim in *; cbn [bshp bent]. apply Forall_app; split; [exact A|]. rewrite E; exact B.
Qed.
Lemma sub_commutes : forall a b, dlift (b_sub a b) = sub (todense a) (todense b).
Proof.
  intros a b; unfold b_sub. rewrite add_commutes, map_commutes by (intros; ring).
  unfold add, sub, zip_arr. cbn [map_arr shape data]. destruct (list_eqb _ _); [|reflexivity]. f_equal. f_equal.
  generalize (data (todense a)) as x, (data (todense b)) as y. induction x as [|p x IH]; intros [|q y]; simpl; auto.
  rewrite IH. reflexivity.
Qed.
Lemma sub_bwf : forall a b r, bwf a -> bwf b -> b_sub a b = Ok r -> bwf r.
Proof. intros a b r A B; unfold b_sub; apply add_bwf; [exact A|apply map_bwf; exact B]. Qed.
Lemma eye_commutes : forall n, todense (b_eye n) = eye n.
Proof.
  intro n. apply arr_ext; [apply todense_wf|apply wf_build|reflexivity|]. intros v Hv. rewrite get_todense by exact Hv.
  unfold eye. rewrite get_build by exact Hv. destruct v as [|i [|j [|? ?]]]; try (apply inb_length in Hv; discriminate).
  assert (Hi : i < n) by (apply inb_nth in Hv; destruct Hv as [_ Hv]; apply (Hv 0); simpl; lia).
  assert (Hj : j < n) by (apply inb_nth in Hv; destruct Hv as [_ Hv]; apply (Hv 1); simpl; lia).
  unfold coef, b_eye; cbn [bent]. rewrite csum_map; cbn [fst snd nth].
  destruct (Nat.eqb i j) eqn:E.
  - apply Nat.eqb_eq in E; subst j. rewrite (csum_single _ i).
    + rewrite list_eqb_refl; reflexivity.
    + apply seq_NoDup.
    + apply in_seq; lia.
    + intros k _ Hk. destruct (list_eqb [k; k] [i; i]) eqn:Q; [|reflexivity]. apply list_eqb_eq in Q. congruence.
  - apply csum_zero; intros k _. destruct (list_eqb [k; k] [i; j]) eqn:Q; [|reflexivity]. apply list_eqb_eq in Q.
    apply Nat.eqb_neq in E. congruence.
Qed.
Lemma eye_bwf : forall n, bwf (b_eye n).
Proof. intro n; unfold bwf, b_eye; cbn [bent]. apply Forall_forall; intros e He. apply in_map_iff in He. destruct He as (i & <- & _). reflexivity. Qed.
Lemma fromdense_bwf : forall a, bwf (fromdense a).
Proof.
  intro a; unfold bwf, fromdense; cbn [bent bndim bshp]. apply Forall_forall; intros e He. apply in_map_iff in He. destruct He as (v & <- & Hv).
  apply filter_In in Hv. destruct Hv as [Hv _]. apply indices_In in Hv. apply inb_length; exact Hv.
Qed.
Lemma todense_fromdense : forall a, wf a -> todense (fromdense a) = a.
Proof.
  intros a W. apply arr_ext; [apply todense_wf|exact W|reflexivity|]. intros v Hv. rewrite get_todense by exact Hv.
  cbn [todense fromdense bshp shape build] in Hv.
  unfold coef, fromdense; cbn [bent]. rewrite csum_map, csum_filter; cbn [fst snd].
  rewrite (csum_single _ v).
  - destruct (C_eq_dec (get a v) C0) as [E|E]; [auto|]. rewrite list_eqb_refl; reflexivity.
  - apply indices_NoDup.
  - apply indices_In; exact Hv.
  - intros x _ Hx. destruct (C_eq_dec (get a x) C0); [reflexivity|]. destruct (list_eqb x v) eqn:Q; [|reflexivity]. apply list_eqb_eq in Q; congruence.
Qed.

Lemma dagger_commutes : forall b, bwf b -> dlift (b_dagger b) = dagger (todense b).
Proof.
  intros b W; unfold b_dagger, dagger. rewrite todense_ndim. destruct (Nat.ltb 2 (bndim b)).
  - rewrite <- conj_commutes. apply transpose_commutes. apply map_bwf; exact W.
  - rewrite <- transpose_commutes by exact W. unfold dlift. destruct (b_transpose b _); [|reflexivity]. cbn [bind]. rewrite conj_commutes; reflexivity.
Qed.
Lemma dagger_bwf : forall b r, b_dagger b = Ok r -> bwf r.
Proof.
  intros b r; unfold b_dagger. destruct (Nat.ltb 2 (bndim b)).
  - apply transpose_bwf.
  - destruct (b_transpose b _) as [t|] eqn:E; [|discriminate]. intro H; injection H as <-. apply map_bwf. apply (transpose_bwf _ _ _ E).
Qed.
Lemma unitary_commutes : forall b theta, dlift (b_unitary b theta) = unitary_of_generator (todense b) theta.
Proof. intros; unfold b_unitary, unitary_of_generator. rewrite sub_commutes, !scale_commutes, eye_commutes. reflexivity. Qed.
Lemma unitary_bwf : forall b theta r, bwf b -> b_unitary b theta = Ok r -> bwf r.
Proof. intros b theta r W; unfold b_unitary; apply sub_bwf; apply map_bwf; [apply eye_bwf|exact W]. Qed.

Lemma matmul_tensordot : forall a b n m m' k, shape a = [n; m] -> shape b = [m'; k] -> matmul a b = tensordot a b [1] [0].
Proof.
  intros a b n m m' k Sa Sb; unfold matmul, tensordot, ndim. rewrite Sa, Sb.
  cbn [length negb Nat.eqb forallb Nat.ltb Nat.leb andb nodupb mem existsb restrict map nth list_eqb].
  destruct (Nat.eqb m m') eqn:E; cbn [andb negb]; [|reflexivity].
  cbn. f_equal. apply build_ext; intros v Hv. destruct v as [|i [|j [|? ?]]]; try (apply inb_length in Hv; discriminate).
  cbn [firstn skipn nth]. rewrite csum_flat_map. apply csum_ext; intros c _. cbn. unfold place; cbn. ring.
Qed.
Lemma matmul_commutes : forall a b, bwf a -> bwf b -> dlift (b_matmul a b) = matmul (todense a) (todense b).
Proof.
  intros a b Wa Wb. unfold b_matmul. destruct (bshp a) as [|n [|m [|? ?]]] eqn:Sa; try (unfold matmul; rewrite todense_shape, Sa; reflexivity).
  destruct (bshp b) as [|m' [|k [|? ?]]] eqn:Sb; try (unfold matmul; rewrite !todense_shape, Sa, Sb; reflexivity).
  rewrite tensordot_commutes by assumption. symmetry; apply (matmul_tensordot _ _ n m m' k); rewrite todense_shape; assumption.
Qed.
Lemma matmul_bwf : forall a b r, b_matmul a b = Ok r -> bwf r.
Proof.
  intros a b r; unfold b_matmul. destruct (bshp a) as [|n [|m [|? ?]]]; try discriminate. destruct (bshp b) as [|m' [|k [|? ?]]]; try discriminate.
  apply tensordot_bwf.
Qed.

(** ** the block-diagonal embedding of a square operator *)
Definition sq (k : nat) (b : bcoo) : Prop := bwf b /\ bshp b = [2 ^ k; 2 ^ k].

Lemma sq_entry : forall k b e, sq k b -> In e (bent b) -> exists i j, fst e = [i; j].
Proof.
  intros k b e [W S] He. unfold bwf in W; rewrite Forall_forall in W. specialize (W e He). unfold bndim in W; rewrite S in W.
  destruct (fst e) as [|i [|j [|? ?]]]; try discriminate. eauto.
Qed.
Lemma controlled_commutes : forall k b nc, sq k b -> dlift (b_controlled b nc) = controlled_block (todense b) nc.
Proof.
  intros k b nc Q. pose proof Q as [W S]. unfold b_controlled, controlled_block. rewrite todense_shape, S.
  rewrite log2_pow. unfold set_corner. cbn [shape eye build]. rewrite todense_shape, S, list_eqb_refl.
  unfold dlift; cbn [bind]. f_equal. rewrite todense_coef; cbn [bshp]. apply build_ext; intros v Hv.
  destruct v as [|i [|j [|? ?]]]; try (apply inb_length in Hv; discriminate). cbn [nth].
  assert (P : 2 ^ k <= 2 ^ (nc + k)) by (apply Nat.pow_le_mono_r; lia). set (ce := 2 ^ (nc + k) - 2 ^ k) in *.
  assert (Hi : i < 2 ^ (nc + k)) by (apply inb_nth in Hv; destruct Hv as [_ Hv]; apply (Hv 0); simpl; lia).
  assert (Hj : j < 2 ^ (nc + k)) by (apply inb_nth in Hv; destruct Hv as [_ Hv]; apply (Hv 1); simpl; lia).
  unfold coef; cbn [bent]. rewrite csum_app.
  assert (E1 : csum (bent (b_eye ce)) (fun e => if list_eqb (fst e) [i; j] then snd e else C0) = if Nat.eqb i j && Nat.ltb i ce then C1 else C0).
  { unfold b_eye; cbn [bent]. rewrite csum_map; cbn [fst snd]. destruct (Nat.eqb i j && Nat.ltb i ce) eqn:B.
    - apply andb_true_iff in B. destruct B as [B1 B2]. apply Nat.eqb_eq in B1. apply Nat.ltb_lt in B2. subst j. rewrite (csum_single _ i).
      + rewrite list_eqb_refl; reflexivity.
      + apply seq_NoDup.
      + apply in_seq; lia.
      + intros q _ Hq. destruct (list_eqb [q; q] [i; i]) eqn:T; [|reflexivity]. apply list_eqb_eq in T; congruence.
    - apply csum_zero. intros q Hq. destruct (list_eqb [q; q] [i; j]) eqn:T; [|reflexivity]. apply list_eqb_eq in T. injection T as -> ->.
      apply in_seq in Hq. rewrite Nat.eqb_refl in B. apply Nat.ltb_ge in B. lia. }
  rewrite E1. rewrite csum_map; cbn [fst snd].
  destruct (Nat.leb ce i && Nat.leb ce j) eqn:B.
  - apply andb_true_iff in B. destruct B as [B1 B2]. apply Nat.leb_le in B1, B2.
    replace (Nat.ltb i ce) with false by (symmetry; apply Nat.ltb_ge; lia). rewrite andb_false_r.
    rewrite get_todense by (rewrite S; apply inb_nth; split; [reflexivity|]; intros [|[|q]] Hq; cbn [nth length] in *; lia).
    unfold coef. rewrite (csum_ext (bent b) _ (fun e => if list_eqb (fst e) [i - ce; j - ce] then snd e else C0)); [ring|].
    intros e He. destruct (sq_entry k b e Q He) as (p & q & ->). cbn [map].
    rewrite (list_eqb_sym_iff [ce + p; ce + q] [i; j] [p; q] [i - ce; j - ce]); [reflexivity|]. split; intro H; injection H as H1 H2; f_equal; try lia; f_equal; lia.
  - rewrite csum_zero.
    + unfold eye. rewrite get_build by exact Hv. cbn [nth]. destruct (Nat.eqb i j) eqn:T; cbn [andb]; [|ring].
      apply Nat.eqb_eq in T; subst j. rewrite andb_diag in B. apply Nat.leb_gt in B. replace (Nat.ltb i ce) with true by (symmetry; apply Nat.ltb_lt; lia). ring.
    + intros e He. destruct (sq_entry k b e Q He) as (p & q & ->). cbn [map]. destruct (list_eqb [ce + p; ce + q] [i; j]) eqn:T; [|reflexivity].
      apply list_eqb_eq in T. injection T as <- <-. exfalso.
      rewrite (proj2 (Nat.leb_le ce (ce + p))), (proj2 (Nat.leb_le ce (ce + q))) in B by lia. discriminate.
Qed.
Lemma controlled_sq : forall k b nc r, sq k b -> b_controlled b nc = Ok r -> sq (nc + k) r.
Proof.
  intros k b nc r Q. pose proof Q as [W S]. unfold b_controlled. rewrite S, log2_pow. intro H; injection H as <-. split; [|reflexivity].
  unfold bwf, bndim; cbn [bshp bent]. apply Forall_app; split; [exact (eye_bwf _)|]. rewrite Forall_map. apply Forall_forall; intros e He; cbn [fst].
  destruct (sq_entry k b e Q He) as (p & q & ->). reflexivity.
Qed.

Lemma dlift_inv : forall r a, dlift r = Ok a -> exists b, r = Ok b /\ a = todense b.
Proof. intros [b|e] a H; [|discriminate]. injection H as <-. eauto. Qed.

Lemma apply_commutes : forall k st o t c, bwf st -> sq k o -> dlift (b_apply_operator st o t c) = apply_operator (todense st) (todense o) t c.
Proof.
  intros k st o t c Ws Q. unfold b_apply_operator, apply_operator, prepare_operator.
  assert (J : forall o' k' dims, sq k' o' ->
     dlift (match bshp o' with
            | _ :: d1 :: _ => let! op := b_reshape o' (repeat 2 (2 * Nat.log2 d1)) in
               let! state := b_tensordot op st (seq (bndim op / 2) (bndim op - bndim op / 2)) dims in
               b_moveaxis state (seq 0 (length dims)) dims
            | _ => Err IndexError end)
     = (let! od := match shape (todense o') with
            | _ :: d1 :: _ => let! op := reshape (todense o') (repeat 2 (2 * Nat.log2 d1)) in Ok (op, dims)
            | _ => Err IndexError end in
        let! state := tensordot (fst od) (todense st) (seq (ndim (fst od) / 2) (ndim (fst od) - ndim (fst od) / 2)) (snd od) in
        moveaxis state (seq 0 (length (snd od))) (snd od))).
  { intros o' k' dims [W' S']. rewrite todense_shape, S'. rewrite <- reshape_commutes. unfold dlift at 2.
    destruct (b_reshape o' _) as [op|e] eqn:E; [|reflexivity]. cbn [bind fst snd]. apply reshape_bwf in E.
    rewrite todense_ndim. rewrite <- tensordot_commutes by assumption. unfold dlift at 2.
    destruct (b_tensordot op st _ dims) as [x|e] eqn:E2; [|reflexivity]. cbn [bind]. apply tensordot_bwf in E2. apply moveaxis_commutes; exact E2. }
  destruct (is_controlled c).
  - rewrite <- (controlled_commutes k) by exact Q. unfold dlift at 2. destruct (b_controlled o (clen c)) as [o'|e] eqn:E; [|reflexivity].
    cbn [bind]. destruct (axes_of c) as [cs|e]; [|reflexivity]. cbn [bind fst snd]. apply (J o' (clen c + k)). apply (controlled_sq k o); assumption.
  - cbn [bind fst snd]. apply (J o k); exact Q.
Qed.
Lemma bind_ok : forall {A B} (r : res A) (f : A -> res B) b, bind r f = Ok b -> exists a, r = Ok a /\ f a = Ok b.
Proof. intros A B [a|e] f b H; [eauto|discriminate]. Qed.
Lemma apply_bwf : forall st o t c r, b_apply_operator st o t c = Ok r -> bwf r.
Proof.
  intros st o t c r; unfold b_apply_operator. intro H. apply bind_ok in H. destruct H as (od & _ & H).
  destruct (bshp (fst od)) as [|? [|d1 ?]]; try discriminate. apply bind_ok in H. destruct H as (op & _ & H).
  apply bind_ok in H. destruct H as (s & _ & H). apply (moveaxis_bwf _ _ _ _ H).
Qed.
