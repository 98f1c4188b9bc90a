(** * Parameter-shift gradients: controlled rotations, unused values, the adjoint rule (C54, C55, C58) *)
From Coq Require Import String List Arith Bool Reals Lia Lra ZArith.
From Verif Require Import Cplx Py PyFacts Ndarray OperatorUtils Sparse Matrices Noise Gates Apply Composite Conversion Shots Gpsr Api
  Spec SpecFacts Deriv GateSpec PropSpec NoiseSpec SampleSpec ExpectSpec GpsrSpec GateFacts CircuitFacts AlgebraFacts ApplyThm GateThm EvolThm NoiseThm SeqThm SampleThm ExpectThm ExpectThm2 GpsrFacts GpsrThm.
Import ListNotations.
Local Open Scope nat_scope.

(** ** C54 *)
Lemma evolve_app : forall n vals a b r, evolve n vals (a ++ b) r = evolve n vals b (evolve n vals a r).
Proof. intros n vals a. induction a as [|g a IH]; intros b r; [reflexivity|]. cbn [app evolve]. apply IH. Qed.
Definition on (cs : list nat) (x : list nat) : bool := all_ones (bits_at x cs).
Definition r_on (cs : list nat) (r : op) : op := fun x y => if on cs x && on cs y then r x y else C0.
Definition r_off (cs : list nat) (r : op) : op := fun x y => if negb (on cs x) && negb (on cs y) then r x y else C0.
Lemma split_incoherent : forall n cs r, control_incoherent n cs r -> keq n r (kadd (r_off cs r) (r_on cs r)).
Proof.
  intros n cs r H x y Hx Hy. unfold kadd, r_off, r_on, on. specialize (H x y Hx Hy). destruct (all_ones (bits_at x cs)) eqn:E1, (all_ones (bits_at y cs)) eqn:E2; cbn [negb andb]; try ring; rewrite H by congruence; ring.
Qed.
Lemma plain_kernel_on : forall n M cs q x y, ~ In q cs -> In x (bitstrings n) -> In y (bitstrings n) -> on cs x <> on cs y -> ctrl_kernel M [] [q] x y = C0.
Proof.
  intros n M cs q x y NI Hx Hy NE. unfold ctrl_kernel. cbn [bits_at map all_ones forallb]. apply csum_zero. intros z Hz.
  assert (K : kid (overwrite x [q] z) y = C0).
  { apply kid_ne. intro E. apply NE. unfold on. rewrite <- E. rewrite bits_at_overwrite_disj; [reflexivity|].
    intros p Hp [<-|[]]; contradiction. }
  rewrite K. ring.
Qed.
Lemma ctrl_split : forall M cs ts x y, ctrl_kernel M cs ts x y = if on cs x then ctrl_kernel M [] ts x y else kid x y.
Proof. intros. reflexivity. Qed.
Lemma ctrl_off : forall n M cs q r, ~ In q cs -> keq n (kmul n (ctrl_kernel M cs [q]) (r_off cs r)) (r_off cs r).
Proof.
  intros n M cs q r NI x y Hx Hy. unfold kmul. destruct (on cs x) eqn:E.
  - rewrite csum_zero; [unfold r_off; rewrite E; reflexivity|]. intros u Hu. rewrite ctrl_split, E. destruct (on cs u) eqn:Eu.
    + unfold r_off. rewrite Eu. cbn [negb andb]. ring.
    + rewrite (plain_kernel_on n M cs q x u) by (auto; congruence). ring.
  - transitivity (csum (bitstrings n) (fun u => Cmul (kid x u) (r_off cs r u y))).
    + apply csum_ext; intros u _. rewrite ctrl_split, E. reflexivity.
    + exact (kmul_id_l n (r_off cs r) x y Hx Hy).
Qed.
Lemma ctrl_on : forall n M cs q r, ~ In q cs -> keq n (kmul n (ctrl_kernel M cs [q]) (r_on cs r)) (kmul n (ctrl_kernel M [] [q]) (r_on cs r)).
Proof.
  intros n M cs q r NI x y Hx Hy. unfold kmul. apply csum_ext. intros u Hu. rewrite ctrl_split. destruct (on cs x) eqn:E; [reflexivity|].
  destruct (on cs u) eqn:Eu.
  - rewrite (plain_kernel_on n M cs q x u) by (auto; congruence). rewrite kid_ne by congruence. ring.
  - unfold r_on. rewrite Eu. cbn [andb]. ring.
Qed.
Lemma kadj_kmul : forall n A B, keq n (kadj (kmul n A B)) (kmul n (kadj B) (kadj A)).
Proof.
  intros n A B x y _ _. unfold kadj, kmul. rewrite csum_conj. apply csum_ext. intros z _. apply C_ext; simpl; ring.
Qed.
Lemma kadj_kadj : forall n A, keq n (kadj (kadj A)) A.
Proof. intros n A x y _ _. unfold kadj. apply C_ext; simpl; ring. Qed.
Lemma r_off_adj : forall n cs r, keq n (kadj (r_off cs r)) (r_off cs (kadj r)).
Proof. intros n cs r x y _ _. unfold kadj, r_off. rewrite andb_comm. destruct (negb (on cs x) && negb (on cs y)); [reflexivity|apply C_ext; simpl; ring]. Qed.
Lemma r_on_adj : forall n cs r, keq n (kadj (r_on cs r)) (r_on cs (kadj r)).
Proof. intros n cs r x y _ _. unfold kadj, r_on. rewrite andb_comm. destruct (on cs x && on cs y); [reflexivity|apply C_ext; simpl; ring]. Qed.
Lemma off_ctrl : forall n M cs q r, ~ In q cs -> keq n (kmul n (r_off cs r) (kadj (ctrl_kernel M cs [q]))) (r_off cs r).
Proof.
  intros n M cs q r NI. eapply keq_trans; [|apply (kadj_kadj n)]. eapply keq_trans; [apply keq_sym, kadj_kadj|]. apply kadj_ext.
  eapply keq_trans; [apply kadj_kmul|]. eapply keq_trans; [apply kmul_ext; [apply kadj_kadj|apply r_off_adj]|].
  eapply keq_trans; [apply ctrl_off; exact NI|]. apply keq_sym, r_off_adj.
Qed.
Lemma on_ctrl : forall n M cs q r, ~ In q cs -> keq n (kmul n (r_on cs r) (kadj (ctrl_kernel M cs [q]))) (kmul n (r_on cs r) (kadj (ctrl_kernel M [] [q]))).
Proof.
  intros n M cs q r NI.
  assert (A : forall B, keq n (kmul n (r_on cs r) (kadj B)) (kadj (kmul n B (r_on cs (kadj r))))).
  { intro B. eapply keq_trans; [|apply keq_sym, kadj_kmul]. apply kmul_ext; [|apply keq_refl].
    eapply keq_trans; [apply keq_sym, (kadj_kadj n)|]. apply kadj_ext, r_on_adj. }
  eapply keq_trans; [apply A|]. eapply keq_trans; [|apply keq_sym, A]. apply kadj_ext, ctrl_on; exact NI.
Qed.
Lemma sandwich_incoherent : forall n M cs q r, ~ In q cs -> control_incoherent n cs r ->
    keq n (sandwiched n (ctrl_kernel M cs [q]) r) (kadd (r_off cs r) (sandwiched n (ctrl_kernel M [] [q]) (r_on cs r))).
Proof.
  intros n M cs q r NI H. eapply keq_trans; [apply sandwiched_ext; [apply keq_refl|apply (split_incoherent n cs r H)]|].
  unfold sandwiched. eapply keq_trans; [apply kmul_ext; [apply kmul_kadd_r|apply keq_refl]|]. eapply keq_trans; [apply kmul_kadd_l|]. apply kadd_ext.
  - eapply keq_trans; [apply kmul_ext; [apply ctrl_off; exact NI|apply keq_refl]|]. apply off_ctrl; exact NI.
  - eapply keq_trans; [apply kmul_ext; [apply ctrl_on; exact NI|apply keq_refl]|].
    eapply keq_trans; [apply kmul_assoc|]. eapply keq_trans; [apply kmul_ext; [apply keq_refl|apply on_ctrl; exact NI]|]. apply keq_sym, kmul_assoc.
Qed.

Lemma param_indices_app : forall a b name, param_indices (a ++ b) name = param_indices a name ++ map (fun i => length a + i) (param_indices b name).
Proof.
  induction a as [|g a IH]; intros b name; [cbn [app length]; rewrite map_id; reflexivity|]. cbn [app]. rewrite !param_indices_cons, IH, map_app, map_map, app_assoc. reflexivity.
Qed.
Lemma shift_at_app : forall a b i s, shift_at (a ++ b) (length a + i) s = a ++ shift_at b i s.
Proof. induction a as [|g a IH]; intros b i s; [reflexivity|]. cbn [app length Nat.add shift_at]. rewrite IH. reflexivity. Qed.
Lemma step_controlled : forall n vals g q cs r t, gclass g = KParam -> control_qubits (control g) cs -> target g = [q] -> q < n -> ~ In q cs -> control_incoherent n cs r -> angle_of vals g = t ->
    keq n (step n vals g r) (channels n (target g) (noise g) (kadd (r_off cs r) (trig n (gate_op (pauli (generator_name g)) [] [q]) (r_on cs r) t))).
Proof.
  intros n vals g q cs r t C CQ T Hq NI HI A. unfold step. apply (proj1 (linear_channels n (target g) (noise g))).
  rewrite (ctrl_of_spec _ _ CQ), T. unfold mat_of. rewrite C, A. eapply keq_trans; [apply sandwich_incoherent; assumption|]. apply kadd_ext; [apply keq_refl|].
  eapply keq_trans; [apply sandwiched_ext; [apply gate_op_rotk; exact Hq|apply keq_refl]|]. apply trig_spec, gate_op_adj; exact Hq.
Qed.
Lemma exact_controlled : forall n vals name g gs1 gs2 cs r, gclass g = KParam -> In name (names_of_gate g) -> control_qubits (control g) cs ->
    Forall (usable n vals) (gs1 ++ g :: gs2) -> used_once (gs1 ++ g :: gs2) -> control_incoherent n cs (evolve n vals gs1 r) -> exact_at n vals (gs1 ++ g :: gs2) name r.
Proof.
  intros n vals name g gs1 gs2 cs r C NM CQ FU ND HI x K L.
  assert (FU' := FU). apply Forall_app in FU' as [F1 F2]. inversion F2 as [|? ? U F3]; subst. assert (EU : uses_param name g = true) by (apply (uses_names n vals); assumption).
  assert (EI : param_indices gs1 name = [] /\ param_indices gs2 name = []).
  { destruct (once_indices n vals _ name FU ND) as [E|(i & E)]; rewrite param_indices_app, param_indices_cons, EU in E; cbn [app map] in E.
    - apply app_eq_nil in E as [_ E]; discriminate.
    - destruct (param_indices gs1 name); [|injection E as _ E; destruct l; discriminate]. cbn [app] in E. injection E as _ E. do 2 apply map_eq_nil in E. auto. }
  destruct EI as [E1 E2]. rewrite param_indices_app, param_indices_cons, E1, E2, EU. cbn [app map rsum]. rewrite !shift_at_app. cbn [shift_at].
  destruct (plain_target n vals g U (or_introl C)) as (q & T & Hq).
  assert (NI : ~ In q cs).
  { destruct U as (M & cs' & ts & HG). assert (Ec : cs' = cs) by (rewrite <- (ctrl_of_spec _ _ (go_control _ _ _ _ _ _ HG)); apply ctrl_of_spec; exact CQ). subst cs'.
    pose proof (go_qubits _ _ _ _ _ _ HG) as [NDq _]. rewrite <- (go_target _ _ _ _ _ _ HG), T in NDq. apply NoDup_remove_2 in NDq. rewrite app_nil_r in NDq. exact NDq. }
  set (r1 := evolve n vals gs1 r) in *. set (P := gate_op (pauli (generator_name g)) [] [q]). set (Ch := channels n (target g) (noise g)).
  set (L2 := fun a => evolve n vals gs2 (Ch a)). assert (LL : linear n L2) by (apply (linear_comp n (evolve n vals gs2) Ch); [apply linear_evolve|apply linear_channels]).
  assert (EV : forall t, mean_density n K (evolve n (at_value vals name t) (gs1 ++ g :: gs2) r) = mean_density n K (L2 (kadd (r_off cs r1) (trig n P (r_on cs r1) (t + shift g))))).
  { intro t. rewrite evolve_app. cbn [evolve]. rewrite (evolve_unused n vals gs1 name t r F1 E1), (evolve_unused n vals gs2 name t _ F3 E2). fold r1. apply mean_density_ext; [apply keq_refl|].
    apply (linear_evolve n vals gs2). apply step_controlled; try assumption. apply angle_used; exact EU. }
  assert (SH : forall s, mean_density n K (evolve n vals (gs1 ++ shiftg g s :: gs2) r) = mean_density n K (L2 (kadd (r_off cs r1) (trig n P (r_on cs r1) (x + shift g + s))))).
  { intro s. rewrite evolve_app. cbn [evolve]. fold r1. apply mean_density_ext; [apply keq_refl|]. apply (linear_evolve n vals gs2).
    apply (step_controlled n vals (shiftg g s) q cs r1); try assumption. apply (shiftg_angle vals g s name x EU L). }
  rewrite !SH. rewrite Rplus_0_r. eapply dpl_ext; [intro t; symmetry; apply EV|].
  set (B := fun t => kadd (r_off cs r1) (trig n P (r_on cs r1) t)).
  assert (DB : kderiv n (fun t => B (t + shift g)%R) x (half_diff (trig n P (r_on cs r1) (x + shift g + PI / 2)) (trig n P (r_on cs r1) (x + shift g - PI / 2)))).
  { unfold B. eapply kderiv_eq; [|apply (kderiv_add n (fun _ => r_off cs r1) (fun t => trig n P (r_on cs r1) (t + shift g))); [apply kderiv_const|apply (trig_deriv n P (fun _ => r_on cs r1) (shift g) x kzero), kderiv_const]].
    change (fun _ _ => C0) with kzero. eapply keq_trans; [apply kadd_zero_l|].
    eapply keq_trans; [apply kadd_ext; [|apply keq_refl]|apply kadd_zero_l].
    intros a b Ha Hb. unfold trig, trigA, trigB, trigD, kadd, kscale. rewrite (kmul_zero_r n P a b Ha Hb), (kmul_zero_l n P a b Ha Hb).
    assert (Z : kmul n (kmul n P kzero) P a b = C0). { unfold kmul at 1. apply csum_zero. intros z Hz. rewrite (kmul_zero_r n P a z Ha Hz). unfold kzero. ring. }
    rewrite Z. unfold kzero. ring. }
  eapply dpl_eq; [|apply mean_density_deriv, (proj2 (proj2 (proj2 LL)) (fun t => B (t + shift g)%R)); exact DB].
  rewrite (mean_density_ext n K K _ _ (keq_refl n K) (linear_half n L2 _ _ LL)), mean_density_half. f_equal.
  assert (LA : forall t, mean_density n K (L2 (kadd (r_off cs r1) (trig n P (r_on cs r1) t))) = (mean_density n K (L2 (r_off cs r1)) + mean_density n K (L2 (trig n P (r_on cs r1) t)))%R).
  { intro t. rewrite <- mean_density_add. apply mean_density_ext; [apply keq_refl|]. apply LL. }
  rewrite !LA. replace (x + shift g + - (PI / 2))%R with (x + shift g - PI / 2)%R by ring. ring.
Qed.
Lemma c54_incoherent : forall w n vals circuit gs1 g gs2 cs name st obs key k,
    set_order (set_iter w) -> numeric_values vals -> sequence_of circuit (gs1 ++ g :: gs2) ->
    Forall (usable n vals) (gs1 ++ g :: gs2) -> Forall dense_gate (gs1 ++ g :: gs2) -> Forall noise_ok (gs1 ++ g :: gs2) ->
    state_of n st -> obs <> [] -> used_once (gs1 ++ g :: gs2) ->
    (forall name t, In name (map fst vals) -> exists Ks, Forall2 (readable w n (at_value vals name t) st (gs1 ++ g :: gs2)) obs Ks) ->
    gclass g = KParam -> gparam g = PName name -> control_qubits (control g) cs ->
    (forall r, noisy_run n vals gs1 (density_of st) r -> control_incoherent n cs r) ->
    nth_error (map fst vals) k = Some name -> (exists Ks, forall t, Forall2 (readable w n (at_value vals name t) st (gs1 ++ g :: gs2)) obs Ks) ->
    exists fwd grads, expectation w st circuit obs vals GPSR 0 key = Ok fwd /\ length grads = length vals /\
      gradient_at (fun v => expectation w st circuit obs v GPSR 0 key) vals name (nth k grads []) /\
      (Forall (fun g => gclass g <> KPhase) (gs1 ++ g :: gs2) -> analytical_gpsr_bwd w st (GMany (gs1 ++ g :: gs2)) obs vals = Ok (map total grads)) /\
      (forall tangents uuid, length tangents = length vals ->
        analytical_gpsr_jvp w st (GMany (gs1 ++ g :: gs2)) obs vals tangents uuid = Ok (fwd, directional (length obs) grads tangents)).
Proof.
  intros w n vals circuit gs1 g gs2 cs name st obs key k SO NV HQ FU FD FN HS NO ND HK C P CQ HI EN EK.
  assert (NVN : vals <> []) by (intro Q; subst vals; destruct k; discriminate).
  assert (NG : gs1 ++ g :: gs2 <> []) by (intro Q; apply app_eq_nil in Q as [_ Q]; discriminate).
  destruct (c52_general w n vals circuit _ st obs key SO NV NVN HQ NG FU FD FN HS NO ND HK) as (fwd & grads & E1 & E2 & E3 & E4 & E5).
  exists fwd, grads. split; [exact E1|split; [exact E2|split; [|split; [exact E4|exact E5]]]]. apply E3; [exact EN| |exact EK].
  apply (exact_controlled n vals name g gs1 gs2 cs); try assumption.
  - unfold names_of_gate. rewrite C, P. left; reflexivity.
  - apply HI, evolve_run; [apply Forall_app in FU; apply FU|apply Forall_app in FN; apply FN].
Qed.

(** ** C55 *)
Lemma eval_agree : forall w st gs obs v v', agree_on (flat_map names_of_gate gs ++ flat_map names_of (List.concat obs)) v v' ->
    analytical_expectation w st (GMany gs) obs v = analytical_expectation w st (GMany gs) obs v'.
Proof.
  intros w st gs obs v v' AG. unfold analytical_expectation.
  rewrite (c75_unused_gates w st (GMany gs) v v' UNITARY false true) by (intros s Hs; apply AG, in_or_app; left; exact Hs).
  f_equal. apply mapM_ext_in.
  intros l Hl. destruct (apply_gates w st (GMany gs) v' UNITARY false true) as [out|e]; cbn [bind]; [|reflexivity]. apply ad_single_agree.
  intros s Hs. apply AG, in_or_app; right. apply in_flat_map in Hs as (o & Ho & Hs). apply in_flat_map. exists o; split; [|exact Hs]. apply in_concat. exists l; split; assumption.
Qed.
Lemma eval_length : forall w st ga obs v r, analytical_expectation w st ga obs v = Ok r -> length r = length obs.
Proof.
  intros w st ga obs v r E. unfold analytical_expectation in E. destruct (mapM _ obs) as [o|] eqn:M; cbn [bind] in E; [|discriminate]. apply ApplyFacts.mapM_length in M.
  destruct o; [discriminate|]. injection E as <-. exact M.
Qed.
Lemma lookup_snoc : forall (vals : values) k v s, ~ In k (map fst vals) -> lookup (vals ++ [(k, v)]) s = if String.eqb s k then Ok v else lookup vals s.
Proof.
  induction vals as [|[k' v'] vals IH]; intros k v s NI; cbn [app lookup]; [reflexivity|]. cbn [map fst] in NI. destruct (String.eqb_spec s k') as [->|N].
  - destruct (String.eqb_spec k' k) as [->|]; [exfalso; apply NI; left; reflexivity|reflexivity].
  - apply IH. intro H; apply NI; right; exact H.
Qed.
Lemma mapM_app' : forall {A B} (f : A -> res B) l m, mapM f (l ++ m) = (let! a := mapM f l in let! b := mapM f m in Ok (a ++ b)).
Proof.
  intros A B f l m. induction l as [|x l IH]; cbn [app mapM bind]; [destruct (mapM f m); reflexivity|]. destruct (f x); cbn [bind]; [|reflexivity]. rewrite IH.
  destruct (mapM f l); cbn [bind]; [|reflexivity]. destruct (mapM f m); reflexivity.
Qed.
Lemma seq_combine_snoc : forall (l : list string) x, combine (seq 0 (length (l ++ [x]))) (l ++ [x]) = combine (seq 0 (length l)) l ++ [(length l, x)].
Proof.
  intros l x. rewrite app_length. cbn [length]. rewrite Nat.add_1_r, seq_S. assert (A : forall (a : list nat) (b : list string) u v, length a = length b -> combine (a ++ [u]) (b ++ [v]) = combine a b ++ [(u, v)]).
  { clear. induction a as [|c a IH]; intros [|d b] u v E; try discriminate; [reflexivity|]. cbn [app combine]. rewrite IH by (simpl in E; lia). reflexivity. }
  apply A, seq_length.
Qed.
Lemma vadd_zero : forall a m, length a = m -> vadd a (map (fun _ => 0%R) (seq 0 m)) = a.
Proof.
  intros a m <-. rewrite (list_nth a (length a) eq_refl) at 1. unfold vadd. rewrite combine_map2, map_map. cbn [fst snd].
  transitivity (map (fun i => nth i a 0%R) (seq 0 (length a))); [|symmetry; apply list_nth; reflexivity]. apply map_ext. intro i. ring.
Qed.
Lemma half_diffs_self : forall a, half_diffs a a = map (fun _ => 0%R) (seq 0 (length a)).
Proof.
  intro a. rewrite (list_nth a (length a) eq_refl) at 1 2. rewrite half_diffs_map. apply map_ext. intro i. field.
Qed.
Lemma step_unused : forall w st gs obs vals k v name key d,
    ~ In k (map fst vals) -> ~ In k (flat_map names_of_gate gs ++ flat_map names_of (List.concat obs)) ->
    jvp_step (analytical_eval w st obs) (GMany gs) vals no_split name default_gap key = Ok d ->
    jvp_step (analytical_eval w st obs) (GMany gs) (vals ++ [(k, VNum v)]) no_split name default_gap key = Ok d.
Proof.
  intros w st gs obs vals k v name key d NK NU E. unfold jvp_step, bump in *.
  destruct (lookup vals name) as [u|] eqn:L; cbn [bind] in E; [|discriminate].
  assert (NN : name <> k).
  { intros ->. apply NK. clear -L. induction vals as [|[k' v'] vals IH]; [discriminate|]. cbn [lookup] in L. cbn [map fst].
    destruct (String.eqb_spec k k') as [->|]; [left; reflexivity|right; apply IH; exact L]. }
  assert (L' : lookup (vals ++ [(k, VNum v)]) name = Ok u).
  { rewrite lookup_snoc by exact NK. apply String.eqb_neq in NN. rewrite NN. exact L. }
  rewrite L'; cbn [bind]. destruct (num u) as [x|]; cbn [bind] in E |- *; [|discriminate].
  assert (AG : forall t, analytical_expectation w st (GMany gs) obs (dict_set (vals ++ [(k, VNum v)]) name (VNum t)) = analytical_expectation w st (GMany gs) obs (dict_set vals name (VNum t))).
  { intro t. apply eval_agree. intros s Hs. rewrite !lookup_set. destruct (String.eqb s name); [reflexivity|]. rewrite lookup_snoc by exact NK.
    destruct (String.eqb_spec s k) as [->|]; [contradiction|reflexivity]. }
  unfold analytical_eval in *. rewrite !AG. exact E.
Qed.
Lemma step_new : forall w st gs obs vals k v key fwd,
    ~ In k (map fst vals) -> ~ In k (flat_map names_of_gate gs ++ flat_map names_of (List.concat obs)) ->
    analytical_expectation w st (GMany gs) obs vals = Ok fwd ->
    jvp_step (analytical_eval w st obs) (GMany gs) (vals ++ [(k, VNum v)]) no_split k default_gap key = Ok (map (fun _ => 0%R) (seq 0 (length obs))).
Proof.
  intros w st gs obs vals k v key fwd NK NU E. unfold jvp_step, bump.
  assert (L' : lookup (vals ++ [(k, VNum v)]) k = Ok (VNum v)) by (rewrite lookup_snoc, String.eqb_refl by exact NK; reflexivity).
  rewrite L'; cbn [bind num].
  assert (AG : forall t, analytical_expectation w st (GMany gs) obs (dict_set (vals ++ [(k, VNum v)]) k (VNum t)) = Ok fwd).
  { intro t. rewrite <- E. apply eval_agree. intros s Hs. rewrite !lookup_set. destruct (String.eqb_spec s k) as [->|N]; [contradiction|]. rewrite lookup_snoc by exact NK.
    apply String.eqb_neq in N; rewrite N; reflexivity. }
  unfold analytical_eval. rewrite !AG; cbn [bind]. unfold default_gap. rewrite shift_rules_2, half_diffs_self, (eval_length _ _ _ _ _ _ E). reflexivity.
Qed.
Lemma usable_snoc : forall n vals g k v, ~ In k (map fst vals) -> usable n vals g -> usable n (vals ++ [(k, v)]) g.
Proof.
  intros n vals g k v NK (M & cs & ts & HG).
  assert (A : forall a, angle vals g a -> angle (vals ++ [(k, v)]) g a).
  { intros a H. unfold angle in *. destruct (gparam g) as [s|y]; [|exact H]. destruct H as (x & E & F). exists x; split; [|exact F].
    rewrite lookup_snoc by exact NK. destruct (String.eqb_spec s k) as [->|]; [|exact E]. exfalso; apply NK. clear -E.
    induction vals as [|[k' v'] vals IH]; [discriminate|]. cbn [lookup] in E. cbn [map fst]. destruct (String.eqb_spec k k') as [->|]; [left; reflexivity|right; apply IH; exact E]. }
  exists M, cs, ts. destruct HG as [HM HC HT HV]. constructor; try assumption.
  destruct HM as [nm M C N L I|C N L|nm R_ a C N L AN I|a C L AN]; [eapply gm_fixed; eauto|apply gm_SWAP; auto|eapply gm_rotation; eauto|eapply gm_PHASE; eauto].
Qed.
Lemma combine_app' : forall {A B} (a : list A) (b : list B) a' b', length a = length b -> combine (a ++ a') (b ++ b') = combine a b ++ combine a' b'.
Proof. induction a as [|x a IH]; intros [|y b] a' b' E; try discriminate; [reflexivity|]. cbn [app combine]. rewrite IH by (simpl in E; lia). reflexivity. Qed.
Lemma rsum_snoc : forall {A} (l : list A) x f, rsum (l ++ [x]) f = (rsum l f + f x)%R.
Proof. intros A l x f. induction l as [|y l IH]; cbn [app rsum]; [ring|rewrite IH; ring]. Qed.
Lemma directional_snoc : forall m grads ts t, length grads = length ts -> directional m (grads ++ [map (fun _ => 0%R) (seq 0 m)]) (ts ++ [t]) = directional m grads ts.
Proof.
  intros m grads ts t L. unfold directional. apply map_ext_in. intros i Hi. apply in_seq in Hi. rewrite combine_app' by exact L. cbn [combine].
  rewrite rsum_snoc. cbn [fst snd]. rewrite (nth_map_lt (fun _ => 0%R) (seq 0 m) i 0%R 0) by (rewrite seq_length; lia). ring.
Qed.
Lemma step_length : forall w st gs obs vals name gap key d, jvp_step (analytical_eval w st obs) gs vals no_split name gap key = Ok d -> length d = length obs.
Proof.
  intros w st gs obs vals name gap key d E. unfold jvp_step in E. destruct (bump vals name shift_pi2) as [u|]; cbn [bind] in E; [|discriminate].
  destruct (analytical_eval w st obs gs u _) as [fu|] eqn:EU in E; cbn [bind] in E; [|discriminate].
  destruct (bump vals name (- shift_pi2)) as [u'|]; cbn [bind] in E; [|discriminate].
  destruct (analytical_eval w st obs gs u' _) as [fd|] eqn:ED in E; cbn [bind] in E; [|discriminate].
  apply ApplyFacts.mapM_length in E. apply eval_length in EU. apply eval_length in ED. rewrite E, combine_length. lia.
Qed.

Lemma c55_once : forall w n st gs obs vals k v,
    Forall (usable n vals) gs -> used_once gs -> vals <> [] ->
    ~ In k (map fst vals) -> ~ In k (flat_map names_of_gate gs ++ flat_map names_of (List.concat obs)) ->
    (forall tangents uuid fwd d t, length tangents = length vals ->
       analytical_gpsr_jvp w st (GMany gs) obs vals tangents uuid = Ok (fwd, d) ->
       analytical_gpsr_jvp w st (GMany gs) obs (vals ++ [(k, VNum v)]) (tangents ++ [t]) uuid = Ok (fwd, d)) /\
    (forall fwd ds, analytical_expectation w st (GMany gs) obs vals = Ok fwd ->
       analytical_gpsr_bwd w st (GMany gs) obs vals = Ok ds ->
       analytical_gpsr_bwd w st (GMany gs) obs (vals ++ [(k, VNum v)]) = Ok (ds ++ [0%R])).
Proof.
  intros w n st gs obs vals k v FU ND NE NK NU.
  assert (B1 : gpsr_branch (GMany gs) (map fst vals) = CaseSimple) by (eapply once_branch; eassumption).
  assert (FU' : Forall (usable n (vals ++ [(k, VNum v)])) gs) by (eapply Forall_impl; [|exact FU]; intros; apply usable_snoc; assumption).
  assert (B2 : gpsr_branch (GMany gs) (map fst (vals ++ [(k, VNum v)])) = CaseSimple) by (eapply once_branch; eassumption).
  assert (KE : map fst (vals ++ [(k, VNum v)]) = map fst vals ++ [k]) by (rewrite map_app; reflexivity).
  assert (MM : forall fwd grads, analytical_expectation w st (GMany gs) obs vals = Ok fwd ->
     mapM (fun kn => jvp_step (analytical_eval w st obs) (GMany gs) vals no_split (snd kn) default_gap 0) (combine (seq 0 (length (map fst vals))) (map fst vals)) = Ok grads ->
     mapM (fun kn => jvp_step (analytical_eval w st obs) (GMany gs) (vals ++ [(k, VNum v)]) no_split (snd kn) default_gap 0) (combine (seq 0 (length (map fst vals ++ [k]))) (map fst vals ++ [k])) = Ok (grads ++ [map (fun _ => 0%R) (seq 0 (length obs))])).
  { intros fwd grads E M. rewrite seq_combine_snoc, mapM_app'.
    assert (M1 : mapM (fun kn => jvp_step (analytical_eval w st obs) (GMany gs) (vals ++ [(k, VNum v)]) no_split (snd kn) default_gap 0) (combine (seq 0 (length (map fst vals))) (map fst vals)) = Ok grads).
    { revert grads M. generalize (combine (seq 0 (length (map fst vals))) (map fst vals)). intro l. induction l as [|[i a] l IH]; intros grads M; [exact M|]. cbn [mapM] in M |- *.
      destruct (jvp_step (analytical_eval w st obs) (GMany gs) vals no_split (snd (i, a)) default_gap 0) as [d|] eqn:D; cbn [bind] in M; [|discriminate].
      rewrite (step_unused _ _ _ _ _ _ _ _ _ _ NK NU D); cbn [bind]. destruct (mapM _ l) as [ds|] eqn:D' in M; cbn [bind] in M; [|discriminate]. rewrite (IH _ D'). exact M. }
    rewrite M1; cbn [bind mapM snd]. rewrite (step_new _ _ _ _ _ _ _ _ _ NK NU E). reflexivity. }
  split.
  - intros tangents uuid fwd d t LT E. unfold analytical_gpsr_jvp, gpsr_jvp, jvp_grads in *. rewrite B1 in E. rewrite B2.
    assert (EV : analytical_eval w st obs (GMany gs) (vals ++ [(k, VNum v)]) 0 = analytical_eval w st obs (GMany gs) vals 0).
    { apply eval_agree. intros s Hs. rewrite lookup_snoc by exact NK. destruct (String.eqb_spec s k) as [->|]; [contradiction|reflexivity]. }
    rewrite EV. destruct (analytical_eval w st obs (GMany gs) vals 0) as [f0|] eqn:E0; cbn [bind] in E |- *; [|discriminate].
    rewrite mapM_app'. destruct (mapM (fun kv => num (snd kv)) vals) as [xs|]; cbn [bind] in E |- *; [|discriminate]. cbn [mapM num snd bind].
    rewrite KE. remember (map fst vals) as keys eqn:HK. destruct keys as [|k0 keys]; [destruct vals; [contradiction|discriminate]|].
    cbn [app]. change (k0 :: keys ++ [k]) with ((k0 :: keys) ++ [k]). unfold no_split at 2 in E. unfold no_split at 2.
    destruct (mapM _ _) as [grads|] eqn:M in E; cbn [bind] in E; [|discriminate]. rewrite (MM _ _ E0 M); cbn [bind]. injection E as <- <-. f_equal. f_equal.
    assert (LG : length grads = length vals).
    { apply ApplyFacts.mapM_length in M. rewrite M, combine_length, seq_length, Nat.min_id, HK, map_length. reflexivity. }
    assert (FL : Forall (fun d => length d = length obs) grads).
    { clear -M. revert grads M. generalize (combine (seq 0 (length (k0 :: keys))) (k0 :: keys)). intro l. induction l as [|a l IH]; intros grads M; cbn [mapM] in M.
      - injection M as <-. apply Forall_nil.
      - destruct (jvp_step _ _ _ _ _ _ _) as [d|] eqn:D in M; cbn [bind] in M; [|discriminate]. destruct (mapM _ l) as [ds|] eqn:D' in M; cbn [bind] in M; [|discriminate].
        injection M as <-. apply Forall_cons; [eapply step_length; exact D|apply IH; exact D']. }
    rewrite !(contract_spec (length obs)); try assumption.
    + apply directional_snoc. lia.
    + intros ->. destruct vals; [contradiction|discriminate].
    + lia.
    + destruct grads; discriminate.
    + rewrite !app_length. simpl; lia.
    + apply Forall_app; split; [exact FL|]. apply Forall_cons; [|apply Forall_nil]. rewrite map_length, seq_length. reflexivity.
  - intros fwd ds E0 E. unfold analytical_gpsr_bwd, gpsr_bwd in *. rewrite B1 in E. rewrite B2. rewrite KE.
    remember (map fst vals) as keys eqn:HK. destruct keys as [|k0 keys]; [destruct vals; [contradiction|discriminate]|].
    cbn [app]. change (k0 :: keys ++ [k]) with ((k0 :: keys) ++ [k]).
    destruct (forallb is_pytree gs) eqn:PT.
    + assert (J : forall vs name key, jvp_component (jitted (analytical_eval w st obs)) (GMany gs) vs no_split name key = jvp_step (analytical_eval w st obs) (GMany gs) vs no_split name default_gap 0).
      { intros. unfold jvp_component, jvp_step, jitted, gate_list, no_split. rewrite PT. reflexivity. }
      rewrite (mapM_ext_in _ (fun kn => jvp_step (analytical_eval w st obs) (GMany gs) vals no_split (snd kn) default_gap 0)) in E by (intros; apply J).
      rewrite (mapM_ext_in _ (fun kn => jvp_step (analytical_eval w st obs) (GMany gs) (vals ++ [(k, VNum v)]) no_split (snd kn) default_gap 0)) by (intros; apply J).
      destruct (mapM _ _) as [grads|] eqn:M in E; cbn [bind] in E; [|discriminate]. rewrite (MM _ _ E0 M). cbn [bind]. injection E as <-. rewrite map_app. cbn [map]. f_equal. f_equal. f_equal.
      clear. generalize 0. induction (length obs) as [|m IH]; intro s; [reflexivity|]. cbn [seq map fold_right]. rewrite IH. ring.
    + exfalso. cbn [length seq combine mapM snd] in E. unfold jvp_component at 1, jitted at 1 in E. cbn [gate_list] in E. rewrite PT in E. destruct (bump vals k0 shift_pi2); discriminate.
Qed.

(** ** C58 *)
Lemma dagger_right : forall w n vals g gr mg p, usable n vals g -> dense_gate g -> noiseless g -> is_state n p ->
    exists q, apply_gates w (SDense p) (GOne g) vals DAGGER gr mg = Ok (SDense q) /\ is_state n q /\ apply_gates w (SDense q) (GOne g) vals UNITARY gr mg = Ok (SDense p).
Proof.
  intros w n vals g gr mg p (M & cs & ts & HG) HD HN HS.
  destruct (apply_gate_dense w n vals DAGGER gr mg g _ p HN (gate_on_opk_dagger w n vals g M cs ts HG HD) HS) as (q & E1 & S1 & V1).
  destruct (apply_gate_dense w n vals UNITARY gr mg g _ q HN (gate_on_opk w n vals g M cs ts HG HD) S1) as (r & E2 & S2 & V2).
  exists q; split; [exact E1|split; [exact S1|]]. rewrite E2. do 2 f_equal. apply (state_ext n); auto.
  rewrite V2, V1, (ApplyThm.gate_op_adj n vals g M cs ts HG), <- apply_kernel_mul. destruct (gate_op_unitary n vals g M cs ts HG) as [_ H]. rewrite H. apply apply_kernel_id.
Qed.
Lemma c58_phase_step : forall w n psi p g (V : R -> values) b t gates i name tangent grads,
    is_state n psi -> is_state n p -> nth_error gates i = Some g ->
    gclass g = KPhase -> dense_gate g -> noiseless g -> List.length (target g) = 1 -> control_qubits (control g) [] -> valid_qubits n (target g) ->
    gparam g = PName name -> has_key grads name = false -> (forall s, angle (V s) g (s + b)%R) ->
    exists out p' z,
      (forall s, apply_gates w (SDense psi) (GOne g) (V s) UNITARY false true = Ok (SDense (out s))) /\
      apply_gates w (SDense p') (GOne g) (V t) UNITARY false true = Ok (SDense p) /\
      gate_bwd_apply w gates (V t) tangent i (SDense (out t), SDense p, grads) = Ok (SDense psi, SDense p', dict_set grads name (Some (tangent * z)%R)) /\
      derivable_pt_lim (fun s => (2 * re (inner_product n (amp (out s)) (amp p)))%R) t z.
Proof.
  intros w n psi p g V b t gates i name tangent grads HS HP HN K D N L HC HV GP HK A.
  destruct (c24_phase w n psi g V b t [] HS K D N L HC eq_refl HV A) as (out & dout & EU & EJ & SJ & DV).
  assert (U : usable n (V t) g) by (exists (PHASE_matrix (t + b)), [], (target g); split; auto; apply (gm_PHASE (V t) g (t + b)); auto).
  destruct (c05_dagger w n (V t) g false true psi U D N HS) as (phi & E1 & E2). rewrite EU in E1. injection E1 as E1. rewrite <- E1 in E2.
  destruct (dagger_right w n (V t) g false true p U D N HP) as (p' & E3 & _ & E4).
  exists out, p', (2 * re (inner_product n (amp dout) (amp p)))%R. split; [exact EU|split; [exact E4|split]].
  - unfold gate_bwd_apply. rewrite HN, E2. cbn [bind]. replace (is_parametric g) with true by (symmetry; unfold is_parametric; rewrite K, ?GP; reflexivity). rewrite EJ. cbn [bind real_inner].
    rewrite (inner_spec n dout p SJ HP). cbn [bind]. rewrite GP, HK. cbn [bind]. rewrite E3. cbn [bind]. do 2 f_equal. f_equal. f_equal. ring.
  - apply derivable_pt_lim_scal. assert (CD : Cderiv (fun s => inner_product n (amp (out s)) (amp p)) t (inner_product n (amp dout) (amp p))); [|apply CD].
    unfold inner_product. apply Cderiv_csum. intros x Hx. apply Cderiv_scale_r, Cderiv_conj, DV, Hx.
Qed.
