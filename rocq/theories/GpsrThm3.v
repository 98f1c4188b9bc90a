(** * Parameter-shift gradients: circuits whose gradient is wrong (C54, C55, C56) *)
From Coq Require Import String List Arith Bool Reals Lia Lra ZArith.
From Verif Require Import Cplx Py PyFacts Ndarray OperatorUtils Sparse Matrices Noise Gates Apply Composite Conversion Shots Gpsr Api
  Spec SpecFacts Deriv GateSpec PropSpec NoiseSpec SampleSpec ExpectSpec GpsrSpec GateFacts CircuitFacts GpsrFacts SeqThm ExpectThm ExpectThm2 GpsrThm GpsrThm2.
Import ListNotations.
Local Open Scope nat_scope.

Ltac ev := lazy -[Rplus Rmult Ropp Rminus IZR Rdiv Rinv sqrt cos sin PI].

Definition seq_oper (gs : list gate) : oper := OSeq (map OGate gs).
Definition plus2 : arr := mkArr [2; 2] (repeat (RtoC (1 / 2)) 4).
Definition crx : gate := RX (PName "a") (TInt 1) (IInt 0) None false.
Definition x0_obs : list oper := [OGate (gX (TInt 0) no_control None false)].
Definition z0_obs : list oper := [OGate (gZ (TInt 0) no_control None false)].

Lemma half_sq : forall t, (cos (t / 2) * cos (t / 2) + sin (t / 2) * sin (t / 2) = 1)%R.
Proof. intro t. pose proof (sin2_cos2 (t / 2)) as H. unfold Rsqr in H. lra. Qed.

Lemma eval_crx : forall w t, analytical_expectation w (SDense plus2) (GMany [crx]) [x0_obs] [("a"%string, VNum t)] = Ok [cos (t / 2)].
Proof.
  intros w t. transitivity (Ok [cos ((t + 0) / 2)]); [|rewrite Rplus_0_r; reflexivity]. ev. f_equal. f_equal. field.
Qed.
Lemma seq_sequence : forall gs, sequence_of (seq_oper gs) gs.
Proof.
  intro gs. assert (E : gs = List.concat (map (fun g => [g]) gs)) by (induction gs as [|g gs IH]; [reflexivity|cbn [map List.concat app]; rewrite <- IH; reflexivity]).
  rewrite E at 2. apply so_seq. clear E. induction gs as [|g gs IH]; [apply Forall2_nil|]. cbn [map]. apply Forall2_cons; [apply so_gate|exact IH].
Qed.
Lemma expect_eval : forall w st gs obs vals key, expectation w st (seq_oper gs) obs vals GPSR 0 key = analytical_expectation w st (GMany gs) obs vals.
Proof.
  intros w st gs obs vals key. unfold expectation. cbn [Z.ltb Z.eqb Z.compare]. rewrite (sequence_iter _ _ (seq_sequence gs)). reflexivity.
Qed.
(** a scalar expectation known in closed form *)
Lemma gradient_of : forall F name x l (f : R -> R) d, (forall t, F ((name, VNum t) :: l) = Ok [f t]) -> derivable_pt_lim f x d ->
    gradient_at F ((name, VNum x) :: l) name [d].
Proof.
  intros F name x l f d HF HD. exists (fun t => [f t]), x. split; [cbn [lookup]; rewrite String.eqb_refl; reflexivity|split].
  - intro t. unfold at_value. cbn [dict_set]. rewrite String.eqb_refl. split; [apply HF|reflexivity].
  - intros i Hi. destruct i; [exact HD|simpl in Hi; lia].
Qed.
Lemma cos_scaled_deriv : forall a b x, derivable_pt_lim (fun t => a * cos (b * t))%R x (a * (- sin (b * x) * b))%R.
Proof.
  intros a b x. apply (derivable_pt_lim_scal (fun t => cos (b * t)) a). apply (derivable_pt_lim_comp (fun t => (b * t)%R) cos).
  - pose proof (derivable_pt_lim_scal id b x 1 (derivable_pt_lim_id x)) as H. rewrite Rmult_1_r in H. exact H.
  - apply derivable_pt_lim_cos.
Qed.
Definition rxs : list gate := [RX (PName "a") (TInt 0) INone None false; RX (PName "a") (TInt 0) INone None false].
Lemma eval_rxs : forall w t l, analytical_expectation w (SDense (zero_state 1)) (GMany rxs) [z0_obs] (("a"%string, VNum t) :: l) = Ok [cos (2 * t)].
Proof.
  intros w t l.
  transitivity (Ok [((cos (t / 2) * cos (t / 2) - sin (t / 2) * sin (t / 2)) * (cos (t / 2) * cos (t / 2) - sin (t / 2) * sin (t / 2)) - 4 * (cos (t / 2) * cos (t / 2)) * (sin (t / 2) * sin (t / 2)))%R]).
  - replace (t / 2)%R with ((t + 0) / 2)%R by field. ev. f_equal. f_equal. ring.
  - f_equal. f_equal. replace (2 * t)%R with (2 * (2 * (t / 2)))%R by field. rewrite (cos_2a (2 * (t / 2))), (cos_2a (t / 2)), (sin_2a (t / 2)). ring.
Qed.
Definition plus1 : arr := mkArr [2] [RtoC (1 / 2); RtoC (1 / 2)].
Definition tilted : arr := mkArr [2] [RtoC (3 / 5); RtoC (4 / 5)].
Definition shared : list gate := [PHASE (PName "a") (TInt 0) INone None false; RZ (PName "a") (TInt 0) INone None false].
Lemma eval_shared : forall w t, analytical_expectation w (SDense tilted) (GMany shared) [x0_obs] [("a"%string, VNum t)] = Ok [24 / 25 * cos (2 * t)]%R.
Proof.
  intros w t. transitivity (Ok [24 / 25 * (cos t * cos t - sin t * sin t)]%R); [|rewrite cos_2a; reflexivity].
  transitivity (Ok [24 / 25 * ((cos (t / 2) * cos (t / 2) - sin (t / 2) * sin (t / 2)) * cos t - 2 * sin (t / 2) * cos (t / 2) * sin t)]%R).
  - transitivity (Ok [24 / 25 * ((cos ((t + 0) / 2) * cos ((t + 0) / 2) - sin ((t + 0) / 2) * sin ((t + 0) / 2)) * cos (t + 0) - 2 * sin ((t + 0) / 2) * cos ((t + 0) / 2) * sin (t + 0))]%R); [|rewrite Rplus_0_r; reflexivity].
    ev. f_equal. f_equal. field.
  - do 2 f_equal. rewrite <- cos_2a, <- sin_2a. replace (2 * (t / 2))%R with t by field. ring.
Qed.
Definition unary (i : nat) : string := string_of_list_ascii (repeat Ascii.zero i).
Lemma unary_inj : forall i j, unary i = unary j -> i = j.
Proof.
  intros i j E. apply (f_equal list_ascii_of_string) in E. unfold unary in E. rewrite !list_ascii_of_string_of_list_ascii in E. apply (f_equal (@List.length _)) in E. rewrite !repeat_length in E. exact E.
Qed.
Lemma renamed_shared : exists gs, create_renamed_operators shared ["a"%string] unary = Ok gs /\
   forall w t0 t1, analytical_expectation w (SDense tilted) (GMany gs) [x0_obs] [(unary 0, VNum t0); (unary 1, VNum t1)] = Ok [24 / 25 * cos t1]%R.
Proof.
  eexists. split; [ev; reflexivity|]. intros w t0 t1.
  transitivity (Ok [24 / 25 * ((cos (t0 / 2) * cos (t0 / 2) + sin (t0 / 2) * sin (t0 / 2)) * (cos (t1 / 2) * cos (t1 / 2) - sin (t1 / 2) * sin (t1 / 2)))]%R).
  - transitivity (Ok [24 / 25 * ((cos ((t0 + 0) / 2) * cos ((t0 + 0) / 2) + sin ((t0 + 0) / 2) * sin ((t0 + 0) / 2)) * (cos ((t1 + 0) / 2) * cos ((t1 + 0) / 2) - sin ((t1 + 0) / 2) * sin ((t1 + 0) / 2)))]%R); [|rewrite !Rplus_0_r; reflexivity].
    ev. f_equal. f_equal. field.
  - do 2 f_equal. rewrite half_sq, <- cos_2a. replace (2 * (t1 / 2))%R with t1 by field. ring.
Qed.

Ltac in_range := split; [repeat (constructor; [simpl; intuition lia|]); constructor|repeat (constructor; try lia)].
Lemma no_mix : forall psi gs, Forall (fun g => noise g = None) gs -> ~ mixes (SDense psi) gs.
Proof. intros psi gs F [(a & Q)|(g & I & N)]; [discriminate|]. rewrite Forall_forall in F. apply N, F, I. Qed.
Lemma x0_obs_on : forall w n v, 0 < n -> observable_on w n v false x0_obs (ksum [gate_op X_matrix [] [0]]).
Proof.
  intros w n v Hn. exists [gate_op X_matrix [] [0]]. split; [discriminate|split; [|reflexivity]]. constructor; [|constructor]. apply den_gate; [|reflexivity|reflexivity].
  split; [eapply gm_fixed; simpl; eauto 10|apply cq_default|reflexivity|apply valid_one; lia].
Qed.
Lemma z0_obs_on : forall w n v, 0 < n -> observable_on w n v false z0_obs (ksum [gate_op Z_matrix [] [0]]).
Proof.
  intros w n v Hn. exists [gate_op Z_matrix [] [0]]. split; [discriminate|split; [|reflexivity]]. constructor; [|constructor]. apply den_gate; [|reflexivity|reflexivity].
  split; [eapply gm_fixed; simpl; eauto 10|apply cq_default|reflexivity|apply valid_one; lia].
Qed.
Lemma c54_refuted : forall w, exists psi g obs K vals d d',
    is_state 2 psi /\ usable 2 vals g /\ dense_gate g /\ noiseless g /\ gclass g = KParam /\ control_qubits (control g) [0] /\
    (forall v, Forall2 (readable w 2 v (SDense psi) [g]) [obs] [K]) /\
    gradient_at (fun v => expectation w (SDense psi) (OSeq [OGate g]) [obs] v GPSR 0 0) vals "a"%string [d] /\
    analytical_gpsr_bwd w (SDense psi) (GMany [g]) [obs] vals = Ok [d'] /\ d <> d' /\
    (forall uuid, exists fwd, analytical_gpsr_jvp w (SDense psi) (GMany [g]) [obs] vals [1%R] uuid = Ok (fwd, [d'])).
Proof.
  intro w. exists plus2, crx, x0_obs, (ksum [gate_op X_matrix [] [0]]), [("a"%string, VNum PI)], (- (1 / 2))%R, (- (sqrt 2 / 2))%R.
  assert (R2 : (1 < sqrt 2)%R) by (rewrite <- sqrt_1 at 1; apply sqrt_lt_1; lra).
  assert (B : gpsr_branch (GMany [crx]) ["a"%string] = CaseSimple) by reflexivity.
  assert (S4 : ((cos ((PI + shift_pi2) / 2) - cos ((PI + - shift_pi2) / 2)) / 2 = - (sqrt 2 / 2))%R).
  { unfold shift_pi2. replace ((PI + PI / 2) / 2)%R with (3 * (PI / 4))%R by field. replace ((PI + - (PI / 2)) / 2)%R with (PI / 4)%R by field.
    rewrite cos_3PI4, cos_PI4. pose proof (sqrt_def 2 ltac:(lra)). field_simplify_eq; [|lra]. replace (sqrt 2 ^ 2)%R with 2%R by (simpl; lra). lra. }
  assert (J : forall f, (forall v k, f (GMany [crx]) v k = analytical_expectation w (SDense plus2) (GMany [crx]) [x0_obs] v) ->
      jvp_step f (GMany [crx]) [("a"%string, VNum PI)] no_split "a" default_gap 0 = Ok [(- (sqrt 2 / 2))%R]).
  { intros f Hf. unfold jvp_step. rewrite !(bump_ok _ "a" PI) by reflexivity. cbn [bind].
    assert (AV : forall t, at_value [("a"%string, VNum PI)] "a" t = [("a"%string, VNum t)]) by reflexivity. rewrite !AV, !Hf, !eval_crx; cbn [bind]. unfold default_gap. rewrite shift_rules_2. unfold half_diffs; cbn [combine map fst snd].
    rewrite S4. reflexivity. }
  split; [split; reflexivity|split; [|split; [reflexivity|split; [reflexivity|split; [reflexivity|split; [apply (cq_ints [0])|split]]]]]].
  - exists (RX_matrix (PI + 0)), [0], [1]. split; [eapply gm_rotation with (R_ := RX_matrix); simpl; eauto; eexists; split; reflexivity|apply (cq_ints [0])|reflexivity|in_range].
  - intro v. apply Forall2_cons; [|apply Forall2_nil]. split; [exists false; apply x0_obs_on; lia|]. intro M. exfalso. revert M. apply no_mix. apply Forall_cons; [reflexivity|apply Forall_nil].
  - split; [|split; [|split]].
    + apply (gradient_of _ "a" PI [] (fun t => (1 * cos (1 / 2 * t))%R)).
      * intro t. change (OSeq [OGate crx]) with (seq_oper [crx]). rewrite expect_eval, eval_crx. do 2 f_equal. replace (1 / 2 * t)%R with (t / 2)%R by field. ring.
      * replace (- (1 / 2))%R with (1 * (- sin (1 / 2 * PI) * (1 / 2)))%R; [apply cos_scaled_deriv|]. replace (1 / 2 * PI)%R with (PI / 2)%R by field. rewrite sin_PI2. field.
    + unfold analytical_gpsr_bwd, gpsr_bwd. cbn [map fst]. rewrite B. cbn [length seq combine mapM snd]. change (jvp_component (jitted (analytical_eval w (SDense plus2) [x0_obs])) (GMany [crx]) [("a"%string, VNum PI)] no_split "a" (no_split 0 1 (fst (0, "a"%string)))) with
        (jvp_step (jitted (analytical_eval w (SDense plus2) [x0_obs])) (GMany [crx]) [("a"%string, VNum PI)] no_split "a" default_gap 0).
      rewrite J by reflexivity. cbn [bind map fold_right]. rewrite Rplus_0_r. reflexivity.
    + lra.
    + intro uuid. eexists. unfold analytical_gpsr_jvp, gpsr_jvp. unfold analytical_eval at 1. rewrite eval_crx; cbn [bind]. unfold jvp_grads. cbn [map fst]. rewrite B. cbn [mapM num snd bind length seq combine].
      unfold no_split at 2. rewrite J by reflexivity. cbn [bind]. unfold jvp_contract. cbn [combine map fst snd fold_left]. rewrite Rmult_1_r. reflexivity.
Qed.

(** ** C55 *)
Lemma gradient_unique : forall F vals name d e, gradient_at F vals name d -> gradient_at F vals name e -> d = e.
Proof.
  intros F vals name d e (f & x & L & HF & HD) (f' & x' & L' & HF' & HD'). rewrite L in L'. injection L' as <-.
  assert (E : forall t, f t = f' t) by (intro t; destruct (HF t) as [A _], (HF' t) as [B _]; rewrite A in B; injection B as B; exact B).
  assert (LL : length d = length e) by (destruct (HF x) as [_ A], (HF' x) as [_ B]; rewrite <- A, <- B, E; reflexivity).
  apply (nth_ext d e 0%R 0%R LL). intros i Hi. eapply uniqueness_limite; [apply HD; exact Hi|]. rewrite LL in Hi.
  intros eps He. destruct (HD' i Hi eps He) as (delta & Hd). exists delta. intros h Hh Hl. rewrite !E. apply Hd; assumption.
Qed.
Lemma mapM_err : forall {A B} (f : A -> res B) l a, In a l -> (exists e, f a = Err e) -> exists e, mapM f l = Err e.
Proof.
  intros A B f l a I (e & E). induction l as [|b l IH]; [destruct I|]. cbn [mapM]. destruct (f b) as [y|e'] eqn:Fb; cbn [bind]; [|eauto].
  destruct I as [->|I]; [congruence|]. destruct (IH I) as (e' & ->). cbn [bind]; eauto.
Qed.
Lemma unused_indices : forall gs k, ~ In k (extract_gate_names gs) -> param_indices gs k = [].
Proof.
  intros gs k N. unfold param_indices. assert (F : forall l : list (nat * gate), (forall p, In p l -> In (snd p) gs) -> filter (fun ig => uses_param k (snd ig)) l = []).
  { intro l. induction l as [|[i g] l IH]; intro H; [reflexivity|]. cbn [filter snd]. rewrite IH by (intros p Hp; apply H; right; exact Hp).
    destruct (uses_param k g) eqn:U; [|reflexivity]. exfalso. apply N. unfold extract_gate_names. apply in_flat_map. exists g. split; [apply (H (i, g)); left; reflexivity|].
    unfold uses_param, is_parametric in U. destruct (gclass g); cbn in U; try discriminate; destruct (gparam g) as [s|]; cbn in U; try discriminate; apply String.eqb_eq in U; left; exact U. }
  rewrite F; [reflexivity|]. intros [i g] I. apply in_combine_r in I. exact I.
Qed.
Lemma c55_error : forall w n st gs obs vals k,
    Forall (usable n vals) gs -> In k (map fst vals) -> ~ In k (flat_map names_of_gate gs) -> length vals < length (flat_map names_of_gate gs) ->
    (exists e, analytical_gpsr_bwd w st (GMany gs) obs vals = Err e) /\
    (forall tangents uuid, exists e, analytical_gpsr_jvp w st (GMany gs) obs vals tangents uuid = Err e).
Proof.
  intros w n st gs obs vals k FU IK NU LT. pose proof (extract_names n vals gs FU) as EN.
  assert (PI0 : param_indices gs k = []) by (apply unused_indices; rewrite EN; exact NU).
  assert (B : gpsr_branch (GMany gs) (map fst vals) = CaseRepeated \/ exists e, gpsr_branch (GMany gs) (map fst vals) = CaseBroken e).
  { unfold gpsr_branch. rewrite EN, map_length. apply Nat.ltb_lt in LT. rewrite LT. destruct (map fst vals) as [|k0 ks] eqn:KE; [right; eauto|].
    destruct (Nat.ltb 1 _); [left; reflexivity|right]. unfold spectral_gap_from_gates. edestruct (mapM_err (fun n0 => match param_indices gs n0 with [] => Err (A := R) IndexError | _ :: _ => Err AttributeError end) (k0 :: ks) k IK) as (e & E); [rewrite PI0; eauto|].
    rewrite E. eauto. }
  assert (KN : map fst vals <> []) by (intro Q; rewrite Q in IK; destruct IK).
  split.
  - unfold analytical_gpsr_bwd, gpsr_bwd. destruct B as [B|(e & B)]; rewrite B; [|eauto]. destruct (map fst vals) as [|k0 ks] eqn:KE; [contradiction|].
    destruct (In_nth_error _ _ IK) as (j & Hj).
    edestruct (mapM_err (fun kn => jvp_component_repeated (jitted (analytical_eval w st obs)) gs vals no_split (snd kn) (no_split 0 (length (k0 :: ks)) (fst kn))) (combine (seq 0 (length (k0 :: ks))) (k0 :: ks)) (j, k)) as (e & E); [| |rewrite E; cbn [bind]; eauto].
    + assert (G : forall (l : list string) s j, nth_error l j = Some k -> In (s + j, k) (combine (seq s (length l)) l)).
      { clear. induction l as [|a l IH]; intros s j E; [destruct j; discriminate|]. cbn [length seq combine]. destruct j as [|j]; [left; injection E as ->; f_equal; lia|].
        right. replace (s + S j) with (S s + j) by lia. apply IH; exact E. }
      exact (G (k0 :: ks) 0 j Hj).
    + unfold jvp_component_repeated. cbn [snd]. rewrite PI0. cbn [length seq combine mapM bind]. eauto.
  - intros tangents uuid. unfold analytical_gpsr_jvp, gpsr_jvp. destruct (analytical_eval w st obs (GMany gs) vals 0) as [fwd|e0]; cbn [bind]; [|eauto].
    unfold jvp_grads. destruct B as [B|(e & B)]; rewrite B; [|cbn [bind]; eauto]. cbn [gate_list].
    destruct (create_renamed_operators gs (map fst vals) uuid) as [ng|e]; cbn [bind]; [|eauto].
    destruct (mapM _ (temp_names gs (map fst vals) uuid)) as [nv|e]; cbn [bind]; [|eauto].
    destruct (mapM _ (temp_names gs (map fst vals) uuid)) as [gaps|e]; cbn [bind]; [|eauto].
    destruct (mapM _ (combine _ gaps)) as [grads|e]; cbn [bind]; [|eauto].
    edestruct (mapM_err (fun name => match map snd (filter (fun tg : string * string * list R => String.eqb (snd (fst tg)) name) (combine (temp_names gs (map fst vals) uuid) grads)) with
              | [] => Err ValueError | g :: gs => Ok (fold_left vadd gs g) end) (map fst vals) k IK) as (e & E); [|rewrite E; cbn [bind]; eauto].
    assert (F : filter (fun tg : string * string * list R => String.eqb (snd (fst tg)) k) (combine (temp_names gs (map fst vals) uuid) grads) = []).
    { assert (T : forall p, In p (temp_names gs (map fst vals) uuid) -> snd p <> k).
      { intros p Hp Q. unfold temp_names in Hp. apply in_flat_map in Hp as (s & _ & Hp). apply in_map_iff in Hp as (i & <- & Hi). cbn [snd] in Q. subst s. rewrite PI0 in Hi. destruct Hi. }
      revert T grads. generalize (temp_names gs (map fst vals) uuid). intro l. induction l as [|p l IH]; intros T grads; [reflexivity|]. destruct grads as [|d ds]; [reflexivity|]. cbn [combine filter fst].
      destruct (String.eqb_spec (snd p) k) as [Q|_]; [exfalso; apply (T p); [left; reflexivity|exact Q]|]. apply IH. intros q Hq. apply T; right; exact Hq. }
    rewrite F. cbn [map]. eauto.
Qed.
Lemma rxs_usable : forall x l, Forall (usable 1 (("a"%string, VNum x) :: l)) rxs.
Proof.
  intros x l. assert (U : usable 1 (("a"%string, VNum x) :: l) (RX (PName "a") (TInt 0) INone None false)).
  { exists (RX_matrix (x + 0)), [], [0]. split; [eapply gm_rotation with (R_ := RX_matrix); simpl; eauto; eexists; split; reflexivity|apply cq_none|reflexivity|in_range]. }
  apply Forall_cons; [exact U|apply Forall_cons; [exact U|apply Forall_nil]].
Qed.
Lemma rxs_gradient : forall w x l, gradient_at (fun v => expectation w (SDense (zero_state 1)) (seq_oper rxs) [z0_obs] v GPSR 0 0) (("a"%string, VNum x) :: l) "a"%string [(-2 * sin (2 * x))%R].
Proof.
  intros w x l. apply (gradient_of _ "a" x l (fun t => (1 * cos (2 * t))%R)).
  - intro t. rewrite expect_eval, eval_rxs. do 2 f_equal. ring.
  - replace (-2 * sin (2 * x))%R with (1 * (- sin (2 * x) * 2))%R by ring. apply cos_scaled_deriv.
Qed.
Lemma c55_refuted : forall w x y, set_order (set_iter w) ->
    Forall (usable 1 [("a"%string, VNum x)]) rxs /\
    gradient_at (fun v => expectation w (SDense (zero_state 1)) (seq_oper rxs) [z0_obs] v GPSR 0 0) [("a"%string, VNum x)] "a"%string [(-2 * sin (2 * x))%R] /\
    gradient_at (fun v => expectation w (SDense (zero_state 1)) (seq_oper rxs) [z0_obs] v GPSR 0 0) [("a"%string, VNum x); ("b"%string, VNum y)] "a"%string [(-2 * sin (2 * x))%R] /\
    analytical_gpsr_bwd w (SDense (zero_state 1)) (GMany rxs) [z0_obs] [("a"%string, VNum x)] = Ok [(-2 * sin (2 * x))%R] /\
    analytical_gpsr_bwd w (SDense (zero_state 1)) (GMany rxs) [z0_obs] [("a"%string, VNum x); ("b"%string, VNum y)] = Ok [0%R; 0%R].
Proof.
  intros w x y SO. split; [apply rxs_usable|split; [apply rxs_gradient|split; [apply rxs_gradient|split]]].
  - destruct (c53_exact w 1 [("a"%string, VNum x)] (seq_oper rxs) rxs (SDense (zero_state 1)) [z0_obs] [ksum [gate_op Z_matrix [] [0]]] 0) as (fwd & grads & _ & LG & GR & BW & _).
    + exact SO.
    + split; [repeat constructor; intros []|]. apply Forall_cons; [eexists; reflexivity|apply Forall_nil].
    + discriminate.
    + apply seq_sequence.
    + discriminate.
    + apply rxs_usable.
    + apply Forall_cons; [reflexivity|apply Forall_cons; [reflexivity|apply Forall_nil]].
    + apply Forall_cons; [exact Logic.I|apply Forall_cons; [exact Logic.I|apply Forall_nil]].
    + split; reflexivity.
    + discriminate.
    + intro v. apply Forall2_cons; [|apply Forall2_nil]. split; [exists false; apply z0_obs_on; lia|]. intro M. exfalso. revert M. apply no_mix. repeat (apply Forall_cons; [reflexivity|]). apply Forall_nil.
    + intros g [<-|[<-|[]]] _; (split; [reflexivity|split; [left; reflexivity|apply cq_none]]).
    + intros name [<-|[]]. left; reflexivity.
    + intro ND. inversion ND as [|? ? NI _]; subst. apply NI. left; reflexivity.
    + destruct grads as [|d [|? ?]]; try discriminate. specialize (GR 0 "a"%string eq_refl). cbn [nth] in GR.
      rewrite (gradient_unique _ _ _ _ _ GR (rxs_gradient w x [])) in BW. rewrite BW; [unfold total; cbn [map rsum]; rewrite Rplus_0_r; reflexivity|].
      repeat (apply Forall_cons; [discriminate|]). apply Forall_nil.
  - set (vals := [("a"%string, VNum x); ("b"%string, VNum y)]).
    assert (EV : forall t t', analytical_expectation w (SDense (zero_state 1)) (GMany rxs) [z0_obs] [("a"%string, VNum t); ("b"%string, VNum t')] = Ok [cos (2 * t)]) by (intros; apply eval_rxs).
    unfold analytical_gpsr_bwd, gpsr_bwd. change (gpsr_branch (GMany rxs) (map fst vals)) with CaseSimple. cbn [map fst vals length seq combine mapM snd]. unfold jvp_component.
    rewrite !(bump_ok _ "a" x) by reflexivity. rewrite !(bump_ok _ "b" y) by reflexivity. cbn [bind].
    assert (A1 : forall t, at_value [("a"%string, VNum x); ("b"%string, VNum y)] "a" t = [("a"%string, VNum t); ("b"%string, VNum y)]) by reflexivity.
    assert (A2 : forall t, at_value [("a"%string, VNum x); ("b"%string, VNum y)] "b" t = [("a"%string, VNum x); ("b"%string, VNum t)]) by reflexivity.
    rewrite !A1, !A2.
    assert (JE : forall v k, jitted (analytical_eval w (SDense (zero_state 1)) [z0_obs]) (GMany rxs) v k = analytical_expectation w (SDense (zero_state 1)) (GMany rxs) [z0_obs] v) by reflexivity.
    rewrite !JE, !EV. cbn [bind]. unfold default_gap. rewrite !shift_rules_2. unfold half_diffs. cbn [combine map fst snd bind fold_right]. do 2 f_equal; [|f_equal; field].
    unfold shift_pi2. replace (2 * (x + PI / 2))%R with (2 * x + PI)%R by field. replace (2 * (x + - (PI / 2)))%R with (2 * x - PI)%R by field.
    rewrite cos_plus, cos_minus, cos_PI, sin_PI. field.
Qed.

(** ** C56 *)
Lemma c56_refuted : forall w x,
    Forall (usable 1 [("a"%string, VNum x)]) shared /\ is_state 1 tilted /\ norm2 1 (amp tilted) = 1%R /\ (forall i j, unary i = unary j -> i = j) /\
    gradient_at (fun v => expectation w (SDense tilted) (seq_oper shared) [x0_obs] v GPSR 0 0) [("a"%string, VNum x)] "a"%string [(- (48 / 25) * sin (2 * x))%R] /\
    analytical_gpsr_jvp w (SDense tilted) (GMany shared) [x0_obs] [("a"%string, VNum x)] [1%R] unary = Ok ([(24 / 25 * cos (2 * x))%R], [(- (24 / 25) * sin x)%R]).
Proof.
  intros w x. split; [|split; [split; reflexivity|split; [|split; [exact unary_inj|split]]]].
  - apply Forall_cons; [|apply Forall_cons; [|apply Forall_nil]].
    + exists (PHASE_matrix (x + 0)), [], [0]. split; [apply gm_PHASE; [reflexivity|reflexivity|eexists; split; reflexivity]|apply cq_none|reflexivity|in_range].
    + exists (RZ_matrix (x + 0)), [], [0]. split; [eapply gm_rotation with (R_ := RZ_matrix); simpl; eauto; eexists; split; reflexivity|apply cq_none|reflexivity|in_range].
  - unfold norm2. lazy -[Rplus Rmult Ropp Rminus IZR Rdiv Rinv]. field.
  - apply (gradient_of _ "a" x [] (fun t => (24 / 25 * cos (2 * t))%R)).
    + intro t. rewrite expect_eval. apply eval_shared.
    + replace (- (48 / 25) * sin (2 * x))%R with (24 / 25 * (- sin (2 * x) * 2))%R by field. apply cos_scaled_deriv.
  - destruct renamed_shared as (gs & RN & EV). unfold analytical_gpsr_jvp, gpsr_jvp. unfold analytical_eval at 1. rewrite eval_shared. cbn [bind]. unfold jvp_grads. cbn [map fst].
    change (gpsr_branch (GMany shared) ["a"%string]) with CaseRepeated. cbn [gate_list]. rewrite RN. cbn [bind].
    change (temp_names shared ["a"%string] unary) with [(unary 0, "a"%string); (unary 1, "a"%string)]. cbn [mapM snd fst].
    change (lookup [("a"%string, VNum x)] "a") with (Ok (VNum x)). cbn [bind num].
    change (param_indices shared "a") with [0; 1]. unfold last_gap. cbn [rev app].
    assert (G1 : exists g, nth_error gs 1 = Some g /\ plain_rotation g).
    { unfold create_renamed_operators in RN. revert RN. lazy -[plain_rotation nth_error unary]. intro RN. injection RN as <-. eexists. split; [reflexivity|].
      split; [reflexivity|split; [right; right; left; reflexivity|apply cq_none]]. }
    destruct G1 as (g & G1 & PR). rewrite G1, (spectral_gap_plain g PR). cbn [bind length seq combine mapM].
    unfold jvp_step. rewrite !(bump_ok _ (unary 0) x) by reflexivity. rewrite !(bump_ok _ (unary 1) x) by reflexivity. cbn [bind].
    assert (A1 : forall t, at_value [(unary 0, VNum x); (unary 1, VNum x)] (unary 0) t = [(unary 0, VNum t); (unary 1, VNum x)]) by reflexivity.
    assert (A2 : forall t, at_value [(unary 0, VNum x); (unary 1, VNum x)] (unary 1) t = [(unary 0, VNum x); (unary 1, VNum t)]) by reflexivity.
    rewrite !A1, !A2. unfold analytical_eval. rewrite !EV. cbn [bind]. rewrite !shift_rules_2. unfold half_diffs. cbn [combine map fst snd bind mapM].
    change (String.eqb "a" "a") with true. cbn [filter fst snd]. change (String.eqb "a" "a") with true. cbn [map snd fold_left bind]. unfold vadd, jvp_contract. cbn [combine map fst snd fold_left].
    do 2 f_equal. f_equal. unfold shift_pi2. rewrite cos_plus, cos_PI2, sin_PI2. replace (x + - (PI / 2))%R with (x - PI / 2)%R by ring. rewrite cos_minus, cos_PI2, sin_PI2. field.
Qed.
