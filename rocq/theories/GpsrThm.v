(** * Parameter-shift gradients: C52, C53, C57 *)
From Coq Require Import String List Arith Bool Reals Lia Lra ZArith.
From Verif Require Import Cplx Py PyFacts Ndarray OperatorUtils Sparse Matrices Noise Gates Apply Composite Conversion Shots Gpsr Api
  Spec SpecFacts Deriv GateSpec PropSpec NoiseSpec SampleSpec ExpectSpec GpsrSpec GateFacts CircuitFacts AlgebraFacts ApplyThm GateThm NoiseThm SeqThm SampleThm ExpectThm ExpectThm2 GpsrFacts.
Import ListNotations.
Local Open Scope nat_scope.

(** ** evaluation *)
Lemma evolve_output : forall w n vals st gs, set_order (set_iter w) -> gs <> [] -> Forall (usable n vals) gs -> Forall dense_gate gs -> Forall noise_ok gs ->
    state_of n st -> exists out, apply_gates w st (GMany gs) vals UNITARY false true = Ok out /\ state_of n out /\
      (forall K, mean n K out = mean_density n K (evolve n vals gs (density_of st))) /\ (forall a, out = SDM a -> mixes st gs).
Proof.
  intros w n vals st gs SO NG FU FD FN HS. pose proof (evolve_run n vals gs FU FN (density_of st)) as HR.
  destruct st as [psi|b|rho]; [|destruct HS|].
  - destruct (noisy_or_not gs) as [NN|EX].
    + destruct (noisy_run_plain n vals gs _ _ HR NN) as (U & HC & EU).
      destruct (apply_gates_dense w n vals UNITARY true gs U psi NG NN (circuit_on_gseq w n vals gs U HC FD) HS) as (phi & E1 & S1 & V1).
      exists (SDense phi); split; [exact E1|split; [exact S1|split; [|intros a Q; discriminate]]]. intro K. cbn [mean].
      rewrite (mean_pure_ext n K _ _ V1), <- mean_pure_density. apply mean_density_ext; [apply keq_refl|]. apply keq_sym.
      eapply keq_trans; [exact EU|]. exact (sandwiched_pure n U psi).
    + destruct (c28_circuit_pure w n vals gs psi _ true SO NG FD EX HS HR) as (out & E1 & D1 & K1).
      exists (SDM out); split; [exact E1|split; [exact D1|split; [|intros a _; right; exact EX]]]. intro K. cbn [mean]. apply mean_density_ext; [apply keq_refl|exact K1].
  - destruct (c28_circuit w n vals gs rho _ true SO NG FD HS HR) as (out & E1 & D1 & K1).
    exists (SDM out); split; [exact E1|split; [exact D1|split; [|intros a _; left; exists rho; reflexivity]]]. intro K. cbn [mean]. apply mean_density_ext; [apply keq_refl|exact K1].
Qed.
Lemma eval_spec : forall w n vals st gs obs Ks, set_order (set_iter w) -> gs <> [] -> Forall (usable n vals) gs -> Forall dense_gate gs -> Forall noise_ok gs ->
    state_of n st -> obs <> [] -> Forall2 (readable w n vals st gs) obs Ks ->
    analytical_expectation w st (GMany gs) obs vals = Ok (map (fun K => mean_density n K (evolve n vals gs (density_of st))) Ks).
Proof.
  intros w n vals st gs obs Ks SO NG FU FD FN HS NO F. destruct (evolve_output w n vals st gs SO NG FU FD FN HS) as (out & E & So & M & MX).
  unfold analytical_expectation. rewrite E; cbn [bind].
  rewrite (mapM_F2 (fun l => ad_single w out l vals) (readable w n vals st gs) (fun K => mean n K out) obs Ks); [|intros l K HK|exact F].
  - cbn [bind]. rewrite (map_ext _ _ M). destruct Ks; [inversion F; subst; contradiction|]. reflexivity.
  - apply (ad_mean w n vals out l K SO So). destruct HK as [H1 H2]. destruct out as [a|b|a]; [exact H1|destruct So|apply H2, (MX a eq_refl)].
Qed.

(** ** dictionaries *)
Lemma lookup_in : forall (d : values) k, In k (map fst d) -> exists v, lookup d k = Ok v.
Proof.
  induction d as [|[k' v] d IH]; intros k []; cbn [lookup fst] in *.
  - subst k'. rewrite String.eqb_refl. eauto.
  - destruct (String.eqb k k'); eauto.
Qed.
Lemma lookup_value : forall (d : values) k v, lookup d k = Ok v -> In (k, v) d.
Proof.
  induction d as [|[k' v'] d IH]; intros k v H; cbn [lookup] in H; [discriminate|].
  destruct (String.eqb_spec k k') as [->|]; [injection H as ->; left; reflexivity|right; apply IH; exact H].
Qed.
Lemma lookup_nodup : forall (d : values) k v, NoDup (map fst d) -> In (k, v) d -> lookup d k = Ok v.
Proof.
  induction d as [|[k' v'] d IH]; intros k v ND []; cbn [lookup map fst] in *; inversion ND; subst.
  - injection H as -> ->. rewrite String.eqb_refl; reflexivity.
  - destruct (String.eqb_spec k k') as [->|]; [|auto]. exfalso. apply H2. apply (in_map fst) in H; exact H.
Qed.
Lemma numeric_lookup : forall vals name, numeric_values vals -> In name (map fst vals) -> exists x, lookup vals name = Ok (VNum x).
Proof.
  intros vals name [_ F] I. destruct (lookup_in vals name I) as (v & E). rewrite Forall_forall in F.
  destruct (F _ (lookup_value _ _ _ E)) as (x & Q). cbn [snd] in Q; subst v. eauto.
Qed.
Lemma set_same : forall (d : values) k v, lookup d k = Ok v -> dict_set d k v = d.
Proof.
  induction d as [|[k' v'] d IH]; intros k v H; cbn [lookup dict_set] in *; [discriminate|].
  destruct (String.eqb k k'); [injection H as ->; reflexivity|rewrite IH by exact H; reflexivity].
Qed.
Lemma bump_ok : forall vals name x d, lookup vals name = Ok (VNum x) -> bump vals name d = Ok (at_value vals name (x + d)).
Proof. intros vals name x d E. unfold bump. rewrite E. reflexivity. Qed.
Lemma usable_at : forall n vals g name t, usable n vals g -> usable n (at_value vals name t) g.
Proof.
  intros n vals g name t (M & cs & ts & HG).
  assert (A : forall a, angle vals g a -> exists b, angle (at_value vals name t) g b).
  { intros a H. unfold angle in *. destruct (gparam g) as [s|y]; [|eauto]. destruct H as (x & E & _). unfold at_value. rewrite lookup_set.
    destruct (String.eqb s name); eauto. }
  destruct HG as [HM HC HT HV]. destruct HM as [nm M C N L I|C N L|nm R_ a C N L AN I|a C L AN].
  - exists M, cs, ts; split; auto. eapply gm_fixed; eauto.
  - exists SWAP_matrix, cs, ts; split; auto. apply gm_SWAP; auto.
  - destruct (A a AN) as (b & AB). exists (R_ b), cs, ts; split; auto. eapply gm_rotation; eauto.
  - destruct (A a AN) as (b & AB). exists (PHASE_matrix b), cs, ts; split; auto. eapply gm_PHASE; eauto.
Qed.
(** ** the shift rule *)
Lemma shift_rule_2 : forall fu fd, shift_rule 2 fu fd = Ok ((fu - fd) / 2)%R.
Proof.
  intros fu fd. unfold shift_rule, shift_pi2. replace (2 * (PI / 2) / 2)%R with (PI / 2)%R by field. rewrite sin_PI2.
  destruct Req_EM_T as [E|_]; [exfalso; lra|]. f_equal. field.
Qed.
Definition half_diffs (fu fd : list R) : list R := map (fun ud => ((fst ud - snd ud) / 2)%R) (combine fu fd).
Lemma shift_rules_2 : forall fu fd, shift_rules 2 fu fd = Ok (half_diffs fu fd).
Proof. intros fu fd. unfold shift_rules, half_diffs. apply mapM_map. intros ud _. apply shift_rule_2. Qed.

(** ** names *)
Lemma extract_names : forall n vals gs, Forall (usable n vals) gs -> extract_gate_names gs = flat_map names_of_gate gs.
Proof.
  intros n vals gs F. unfold extract_gate_names. induction F as [|g gs U F IH]; [reflexivity|]. cbn [flat_map]. rewrite IH. f_equal.
  destruct U as (M & cs & ts & HG). unfold names_of_gate. destruct (go_matrix _ _ _ _ _ _ HG) as [? ? C|C|? ? ? C|? C]; rewrite C; destruct (gparam g); reflexivity.
Qed.
Lemma names_known : forall n vals gs name, Forall (usable n vals) gs -> In name (flat_map names_of_gate gs) -> In name (map fst vals).
Proof.
  intros n vals gs name F H. apply in_flat_map in H as (g & Hg & I). rewrite Forall_forall in F. destruct (F g Hg) as (M & cs & ts & HG).
  assert (A : forall t, angle vals g t -> In name (map fst vals)).
  { intros t AN. unfold angle in AN. unfold names_of_gate in I. destruct (go_matrix _ _ _ _ _ _ HG) as [? ? C|C|? ? ? C|? C]; rewrite C in I; try contradiction;
    (destruct (gparam g) as [s|]; [|contradiction]; destruct I as [->|[]]; destruct AN as (x & E & _); apply lookup_value in E; apply (in_map fst) in E; exact E). }
  destruct (go_matrix _ _ _ _ _ _ HG) as [? ? C|C|? ? ? C|? C].
  - unfold names_of_gate in I; rewrite C in I; contradiction.
  - unfold names_of_gate in I; rewrite C in I; contradiction.
  - eauto.
  - eauto.
Qed.
Lemma count_indices : forall n vals gs name, Forall (usable n vals) gs -> count_occ string_dec (flat_map names_of_gate gs) name = length (param_indices gs name).
Proof.
  intros n vals gs name F. induction F as [|g gs U F IH]; [reflexivity|]. rewrite param_indices_cons, app_length, map_length. cbn [flat_map]. rewrite count_occ_app, IH. f_equal.
  assert (Q : count_occ string_dec (names_of_gate g) name = if uses_param name g then 1 else 0).
  { destruct U as (M & cs & ts & HG). unfold names_of_gate, uses_param, is_parametric. destruct (go_matrix _ _ _ _ _ _ HG) as [? ? C|C|? ? ? C|? C]; rewrite C; try reflexivity;
      destruct (gparam g) as [s|x]; try reflexivity; cbn [count_occ andb]; destruct (string_dec s name) as [->|N]; rewrite ?String.eqb_refl; try reflexivity; destruct (String.eqb_spec s name); congruence. }
  rewrite Q. destruct (uses_param name g); reflexivity.
Qed.
Lemma once_branch : forall n vals gs, Forall (usable n vals) gs -> used_once gs -> gpsr_branch (GMany gs) (map fst vals) = CaseSimple.
Proof.
  intros n vals gs FU ND. unfold gpsr_branch. rewrite (extract_names n vals) by exact FU.
  assert (L : length (flat_map names_of_gate gs) <= length (map fst vals)).
  { apply NoDup_incl_length; [exact ND|]. intros s Hs. eapply names_known; eassumption. }
  destruct (Nat.ltb_spec (length (map fst vals)) (length (flat_map names_of_gate gs))); [lia|reflexivity].
Qed.
Lemma once_indices : forall n vals gs name, Forall (usable n vals) gs -> used_once gs -> param_indices gs name = [] \/ exists i, param_indices gs name = [i].
Proof.
  intros n vals gs name FU ND. assert (L : length (param_indices gs name) <= 1).
  { rewrite <- (count_indices n vals) by exact FU. apply NoDup_count_occ; exact ND. }
  destruct (param_indices gs name) as [|i [|? ?]]; [left; reflexivity|right; eauto|simpl in L; lia].
Qed.
Lemma evolve_unused : forall n vals gs name t r, Forall (usable n vals) gs -> param_indices gs name = [] -> evolve n (at_value vals name t) gs r = evolve n vals gs r.
Proof.
  intros n vals gs name t r FU. revert r. induction FU as [|g gs U FU IH]; intros r E; [reflexivity|].
  rewrite param_indices_cons in E. apply app_eq_nil in E as [E1 E2]. cbn [evolve]. rewrite (step_unused n vals g name t r U) by (destruct (uses_param name g); [discriminate|reflexivity]).
  apply IH. destruct (param_indices gs name); [reflexivity|discriminate].
Qed.
Lemma mat_shiftg : forall vals g name x s, lookup vals name = Ok (VNum x) -> uses_param name g = true -> mat_of (at_value vals name (x + s)) g = mat_of vals (shiftg g s).
Proof.
  intros vals g name x s L E. unfold mat_of. cbn [gclass generator_name shiftg].
  rewrite (angle_used vals g name _ E), (shiftg_angle vals g s name x E L). replace (x + s + shift g)%R with (x + shift g + s)%R by ring. reflexivity.
Qed.
Lemma evolve_shift_one : forall n vals gs name x s i, lookup vals name = Ok (VNum x) -> Forall (usable n vals) gs -> param_indices gs name = [i] -> forall r,
    evolve n (at_value vals name (x + s)) gs r = evolve n vals (shift_at gs i s) r.
Proof.
  intros n vals gs name x s i L FU. revert i. induction FU as [|g gs U FU IH]; intros i E r; [discriminate|].
  rewrite param_indices_cons in E. destruct (uses_param name g) eqn:EU.
  - injection E as <- E. cbn [shift_at evolve]. rewrite (evolve_unused n vals gs name _ _ FU) by (destruct (param_indices gs name); [reflexivity|discriminate]).
    f_equal. unfold step. rewrite (mat_shiftg vals g name x s L EU). reflexivity.
  - cbn [app] in E. destruct (param_indices gs name) as [|j [|? ?]] eqn:EJ; try discriminate. injection E as <-. cbn [shift_at evolve].
    rewrite (step_unused n vals g name _ r U EU). apply IH; reflexivity.
Qed.
(** derivative of the i-th expectation value *)
Lemma mean_gradient : forall n vals name x gs r K, lookup vals name = Ok (VNum x) -> Forall (usable n vals) gs -> phase_or_rotation_only gs name ->
    derivable_pt_lim (fun t => mean_density n K (evolve n (at_value vals name t) gs r)) x
      (rsum (param_indices gs name) (fun i => ((mean_density n K (evolve n vals (shift_at gs i (PI / 2)) r) - mean_density n K (evolve n vals (shift_at gs i (- (PI / 2))) r)) / 2)%R)).
Proof.
  intros n vals name x gs r K L FU RO. eapply dpl_eq; [|apply mean_density_deriv, (evolve_gradient n vals name x gs r L FU RO)].
  unfold shift_terms. rewrite mean_density_sum. apply rsum_ext; intros i _. apply mean_density_half.
Qed.

(** ** C52 *)
Lemma mapM_exists : forall {A B} (f : A -> res B) (P : A -> B -> Prop) l, (forall a, In a l -> exists b, f a = Ok b /\ P a b) ->
    exists bs, mapM f l = Ok bs /\ Forall2 P l bs.
Proof.
  intros A B f P l. induction l as [|a l IH]; intro H; [exists []; split; [reflexivity|constructor]|].
  destruct (H a (or_introl eq_refl)) as (b & E & HP). destruct IH as (bs & E' & F); [intros; apply H; right; assumption|].
  exists (b :: bs). cbn [mapM]. rewrite E; cbn [bind]. rewrite E'. split; [reflexivity|constructor; assumption].
Qed.
Lemma F2_len : forall {A B} {P : A -> B -> Prop} {l l'}, Forall2 P l l' -> length l = length l'.
Proof. intros A B P l l' F. induction F; cbn [length]; lia. Qed.
Lemma combine_fst : forall {A B} (l : list A) (l' : list B), length l = length l' -> map fst (combine l l') = l.
Proof. induction l as [|a l IH]; intros [|b l'] H; try discriminate; [reflexivity|]. cbn [combine map fst]. rewrite IH by (simpl in H; lia). reflexivity. Qed.
Lemma combine_snd : forall {A B} (l : list A) (l' : list B), length l = length l' -> map snd (combine l l') = l'.
Proof. induction l as [|a l IH]; intros [|b l'] H; try discriminate; [reflexivity|]. cbn [combine map snd]. rewrite IH by (simpl in H; lia). reflexivity. Qed.
Lemma F2_map_l : forall {A B D} (g : A -> D) (P : D -> B -> Prop) l l', Forall2 (fun a b => P (g a) b) l l' -> Forall2 P (map g l) l'.
Proof. intros A B D g P l l' F. induction F; constructor; assumption. Qed.
Lemma F2_nth : forall {A B} (P : A -> B -> Prop) l l' d, Forall2 P l l' -> forall k a, nth_error l k = Some a -> P a (nth k l' d).
Proof. intros A B P l l' d F. induction F; intros [|k] a E; cbn in E; try discriminate; [injection E as <-; assumption|cbn [nth]; auto]. Qed.
Lemma half_diffs_map : forall {A} (f g : A -> R) l, half_diffs (map f l) (map g l) = map (fun a => ((f a - g a) / 2)%R) l.
Proof. intros A f g l. unfold half_diffs. rewrite combine_map2, map_map. reflexivity. Qed.
Lemma half_diffs_length : forall a b, length a = length b -> length (half_diffs a b) = length a.
Proof. intros a b E. unfold half_diffs. rewrite map_length, combine_length. lia. Qed.

Lemma seq_snd : forall (keys : list string), map snd (combine (seq 0 (length keys)) keys) = keys.
Proof. intro keys. apply combine_snd. apply seq_length. Qed.
Lemma total_fold : forall d, fold_right Rplus 0%R d = total d.
Proof. intro d. unfold total. induction d as [|x d IH]; [reflexivity|]. cbn [fold_right rsum]. rewrite IH; reflexivity. Qed.
Lemma vadd_nth : forall a b i, length a = length b -> nth i (vadd a b) 0%R = (nth i a 0 + nth i b 0)%R.
Proof.
  unfold vadd. induction a as [|x a IH]; intros [|y b] i E; try discriminate; [destruct i; simpl; ring|].
  destruct i; cbn [combine map nth fst snd]; [reflexivity|]. apply IH. simpl in E; lia.
Qed.
Lemma vadd_length : forall a b, length a = length b -> length (vadd a b) = length a.
Proof. intros a b E. unfold vadd. rewrite map_length, combine_length. lia. Qed.
Lemma fold_vadd : forall gs g m, length g = m -> Forall (fun d => length d = m) gs ->
    length (fold_left vadd gs g) = m /\ forall i, nth i (fold_left vadd gs g) 0%R = (nth i g 0 + rsum gs (fun d => nth i d 0))%R.
Proof.
  induction gs as [|d gs IH]; intros g m L F; cbn [fold_left rsum]; [split; [exact L|intro; ring]|].
  inversion F as [|? ? L1 F1]; subst. destruct (IH (vadd g d) (length g)) as [E1 E2]; [apply vadd_length; lia|exact F1|].
  split; [exact E1|]. intro i. rewrite E2, vadd_nth by lia. ring.
Qed.
Lemma list_nth : forall (l : list R) m, length l = m -> l = map (fun i => nth i l 0%R) (seq 0 m).
Proof.
  intros l m <-. induction l as [|x l IH]; [reflexivity|]. cbn [length seq map nth]. f_equal. rewrite <- seq_shift, map_map. cbn [nth]. exact IH.
Qed.
Lemma contract_spec : forall m grads tangents, grads <> [] -> length tangents = length grads -> Forall (fun d => length d = m) grads ->
    jvp_contract grads tangents = directional m grads tangents.
Proof.
  intros m grads tangents NE L F. destruct grads as [|g grads]; [contradiction|]. destruct tangents as [|t tangents]; [discriminate|].
  unfold jvp_contract, directional. cbn [combine map fst snd]. inversion F as [|? ? L1 F1]; subst.
  set (rest := map (fun gt => map (fun x => (x * snd gt)%R) (fst gt)) (combine grads tangents)).
  assert (FR : Forall (fun d => length d = length g) rest).
  { apply Forall_forall. intros d Hd. apply in_map_iff in Hd as ((d' & t') & <- & I). cbn [fst snd]. rewrite map_length. apply in_combine_l in I. rewrite Forall_forall in F1; auto. }
  destruct (fold_vadd rest (map (fun x => (x * t)%R) g) (length g)) as [E1 E2]; [apply map_length|exact FR|].
  rewrite (list_nth _ _ E1). apply map_ext. intro i. rewrite E2. cbn [rsum fst snd].
  assert (N : forall (d : list R) c, nth i (map (fun x => (x * c)%R) d) 0%R = (nth i d 0 * c)%R).
  { intros d c. replace 0%R with (0 * c)%R at 1 by ring. apply (map_nth (fun x => (x * c)%R)). }
  rewrite N. f_equal. unfold rest. rewrite rsum_map'. apply rsum_ext. intros x _. apply N.
Qed.
(** the half differences give the derivative with respect to [name] *)
Definition exact_at (n : nat) (vals : values) (gs : list gate) (name : string) (r : op) : Prop := forall x K, lookup vals name = Ok (VNum x) ->
    derivable_pt_lim (fun t => mean_density n K (evolve n (at_value vals name t) gs r)) x
      (rsum (param_indices gs name) (fun i => ((mean_density n K (evolve n vals (shift_at gs i (PI / 2)) r) - mean_density n K (evolve n vals (shift_at gs i (- (PI / 2))) r)) / 2)%R)).
Lemma c52_component : forall w n vals circuit gs st obs key name,
    set_order (set_iter w) -> numeric_values vals -> sequence_of circuit gs -> gs <> [] ->
    Forall (usable n vals) gs -> Forall dense_gate gs -> Forall noise_ok gs -> state_of n st -> obs <> [] -> used_once gs ->
    (forall t, exists Ks, Forall2 (readable w n (at_value vals name t) st gs) obs Ks) -> In name (map fst vals) ->
    exists d, (forall k, jvp_step (analytical_eval w st obs) (GMany gs) vals no_split name default_gap k = Ok d) /\ length d = length obs /\
      (exact_at n vals gs name (density_of st) -> (exists Ks, forall t, Forall2 (readable w n (at_value vals name t) st gs) obs Ks) ->
        gradient_at (fun v => expectation w st circuit obs v GPSR 0 key) vals name d).
Proof.
  intros w n vals circuit gs st obs key name SO NV HQ NG FU FD FN HS NO ND HK IN.
  destruct (numeric_lookup vals name NV IN) as (x & L).
  assert (FU' : forall t, Forall (usable n (at_value vals name t)) gs) by (intro t; eapply Forall_impl; [|exact FU]; intros g; apply usable_at).
  assert (EV : forall t Ks, Forall2 (readable w n (at_value vals name t) st gs) obs Ks ->
     analytical_expectation w st (GMany gs) obs (at_value vals name t) = Ok (map (fun K => mean_density n K (evolve n (at_value vals name t) gs (density_of st))) Ks)).
  { intros t Ks F. apply eval_spec; auto. }
  assert (JS : forall Ku Kd, Forall2 (readable w n (at_value vals name (x + shift_pi2)) st gs) obs Ku -> Forall2 (readable w n (at_value vals name (x + - shift_pi2)) st gs) obs Kd ->
     forall k, jvp_step (analytical_eval w st obs) (GMany gs) vals no_split name default_gap k =
       Ok (half_diffs (map (fun K => mean_density n K (evolve n (at_value vals name (x + shift_pi2)) gs (density_of st))) Ku)
                      (map (fun K => mean_density n K (evolve n (at_value vals name (x + - shift_pi2)) gs (density_of st))) Kd))).
  { intros Ku Kd Fu Fd k. unfold jvp_step, analytical_eval. rewrite !(bump_ok vals name x) by exact L. cbn [bind]. rewrite (EV _ _ Fu), (EV _ _ Fd). cbn [bind]. apply shift_rules_2. }
  destruct (HK (x + shift_pi2)%R) as (Ku & Fu). destruct (HK (x + - shift_pi2)%R) as (Kd & Fd).
  eexists. split; [apply (JS Ku Kd Fu Fd)|]. split.
  { rewrite half_diffs_length; rewrite !map_length; [symmetry; eapply F2_len; exact Fu|]. rewrite <- (F2_len Fu). eapply F2_len; exact Fd. }
  intros RO (Ks & FK). assert (Q : half_diffs (map (fun K => mean_density n K (evolve n (at_value vals name (x + shift_pi2)) gs (density_of st))) Ku)
                      (map (fun K => mean_density n K (evolve n (at_value vals name (x + - shift_pi2)) gs (density_of st))) Kd)
     = map (fun K => rsum (param_indices gs name) (fun i => ((mean_density n K (evolve n vals (shift_at gs i (PI / 2)) (density_of st)) - mean_density n K (evolve n vals (shift_at gs i (- (PI / 2))) (density_of st))) / 2)%R)) Ks).
  { assert (E := JS Ku Kd Fu Fd 0). rewrite (JS Ks Ks (FK _) (FK _) 0) in E. injection E as <-. rewrite half_diffs_map. apply map_ext; intro K.
    destruct (once_indices n vals gs name FU ND) as [EI|(i & EI)]; rewrite EI; cbn [rsum].
    - rewrite !(evolve_unused n vals gs name _ _ FU EI). field.
    - rewrite !(evolve_shift_one n vals gs name x _ i L FU EI). unfold shift_pi2. field. }
  rewrite Q. exists (fun t => map (fun K => mean_density n K (evolve n (at_value vals name t) gs (density_of st))) Ks), x. split; [exact L|split].
  - intro t. split; [|rewrite !map_length; reflexivity]. unfold expectation. cbn [Z.ltb Z.eqb Z.compare]. rewrite (sequence_iter _ _ HQ); cbn [bind]. apply EV, FK.
  - intros i Hi. rewrite map_length in Hi. destruct (nth_error Ks i) as [K|] eqn:EK; [|apply nth_error_None in EK; lia].
    assert (NM : forall (f : op -> R), nth i (map f Ks) 0%R = f K).
    { intro f. apply nth_error_nth. rewrite nth_error_map, EK. reflexivity. }
    rewrite NM. eapply dpl_ext; [intro t; symmetry; apply (NM (fun K => mean_density n K (evolve n (at_value vals name t) gs (density_of st))))|].
    apply RO; exact L.
Qed.
Lemma c52_general : forall w n vals circuit gs st obs key,
    set_order (set_iter w) -> numeric_values vals -> vals <> [] -> sequence_of circuit gs -> gs <> [] ->
    Forall (usable n vals) gs -> Forall dense_gate gs -> Forall noise_ok gs -> state_of n st -> obs <> [] -> used_once gs ->
    (forall name t, In name (map fst vals) -> exists Ks, Forall2 (readable w n (at_value vals name t) st gs) obs Ks) ->
    exists fwd grads, expectation w st circuit obs vals GPSR 0 key = Ok fwd /\ length grads = length vals /\
      (forall k name, nth_error (map fst vals) k = Some name -> exact_at n vals gs name (density_of st) ->
        (exists Ks, forall t, Forall2 (readable w n (at_value vals name t) st gs) obs Ks) ->
        gradient_at (fun v => expectation w st circuit obs v GPSR 0 key) vals name (nth k grads [])) /\
      (Forall (fun g => gclass g <> KPhase) gs -> analytical_gpsr_bwd w st (GMany gs) obs vals = Ok (map total grads)) /\
      (forall tangents uuid, length tangents = length vals ->
        analytical_gpsr_jvp w st (GMany gs) obs vals tangents uuid = Ok (fwd, directional (length obs) grads tangents)).
Proof.
  intros w n vals circuit gs st obs key SO NV NVN HQ NG FU FD FN HS NO ND HK.
  set (keys := map fst vals) in *. set (f := analytical_eval w st obs).
  destruct (mapM_exists (fun kn => jvp_step f (GMany gs) vals no_split (snd kn) default_gap (no_split 0 (length keys) (fst kn)))
     (fun kn d => (forall k, jvp_step f (GMany gs) vals no_split (snd kn) default_gap k = Ok d) /\ length d = length obs /\
        (exact_at n vals gs (snd kn) (density_of st) -> (exists Ks, forall t, Forall2 (readable w n (at_value vals (snd kn) t) st gs) obs Ks) ->
         gradient_at (fun v => expectation w st circuit obs v GPSR 0 key) vals (snd kn) d))
     (combine (seq 0 (length keys)) keys)) as (grads & EG & FG).
  { intros [k name] I. cbn [fst snd]. assert (IN : In name keys) by (apply in_combine_r in I; exact I).
    destruct (c52_component w n vals circuit gs st obs key name SO NV HQ NG FU FD FN HS NO ND (fun t => HK name t IN) IN) as (d & E1 & E2 & E3). exists d. split; [apply E1|split; [exact E1|split; [exact E2|exact E3]]]. }
  assert (HB : gpsr_branch (GMany gs) keys = CaseSimple) by exact (once_branch n vals gs FU ND).
  assert (LG : length grads = length keys).
  { rewrite <- (F2_len FG), combine_length, seq_length. lia. }
  assert (LV : length keys = length vals) by (unfold keys; apply map_length).
  assert (KN : keys <> []) by (unfold keys; destruct vals; [contradiction|discriminate]).
  assert (EF : exists fwd, expectation w st circuit obs vals GPSR 0 key = Ok fwd /\ f (GMany gs) vals 0 = Ok fwd).
  { destruct vals as [|[k0 v0] vals0] eqn:EVL; [contradiction|]. assert (I0 : In k0 keys) by (left; reflexivity).
    destruct (numeric_lookup _ k0 NV I0) as (x & L). destruct (HK k0 x I0) as (Ks & F). unfold at_value in F. rewrite (set_same _ _ _ L) in F.
    assert (E := eval_spec w n _ st gs obs Ks SO NG FU FD FN HS NO F). eexists. split; [|exact E].
    unfold expectation. cbn [Z.ltb Z.eqb Z.compare]. rewrite (sequence_iter _ _ HQ); cbn [bind]. exact E. }
  destruct EF as (fwd & EF & EF'). exists fwd, grads. split; [exact EF|split; [lia|split; [|split]]].
  - intros k name E RO EX. assert (F2 : Forall2 (fun name d => exact_at n vals gs name (density_of st) -> (exists Ks, forall t, Forall2 (readable w n (at_value vals name t) st gs) obs Ks) ->
         gradient_at (fun v => expectation w st circuit obs v GPSR 0 key) vals name d) keys grads).
    { rewrite <- (seq_snd keys). apply F2_map_l. eapply F2_impl; [|exact FG]. intros [j nm] d (_ & _ & H); exact H. }
    apply (F2_nth _ _ _ [] F2 k name E); assumption.
  - intro NP. unfold analytical_gpsr_bwd, gpsr_bwd. fold keys f. rewrite HB.
    assert (PT : forallb is_pytree gs = true).
    { apply forallb_forall. intros g Hg. rewrite Forall_forall in NP. specialize (NP g Hg). unfold is_pytree. destruct (gclass g); congruence. }
    assert (EG' : mapM (fun kn => jvp_component (jitted f) (GMany gs) vals no_split (snd kn) (no_split 0 (length keys) (fst kn))) (combine (seq 0 (length keys)) keys) = Ok grads).
    { rewrite <- EG. apply ExpectThm2.mapM_ext_in. intros [k name] _. cbn [fst snd]. unfold jvp_component, jvp_step, jitted. cbn [gate_list]. rewrite PT. reflexivity. }
    destruct keys; [contradiction|]. rewrite EG'; cbn [bind]. f_equal. apply map_ext. intro d; apply total_fold.
  - intros tangents uuid LT. unfold analytical_gpsr_jvp, gpsr_jvp. fold f. rewrite EF'; cbn [bind]. unfold jvp_grads. fold keys. rewrite HB.
    assert (NU : exists xs, mapM (fun kv => num (snd kv)) vals = Ok xs).
    { destruct (mapM_exists (fun kv : string * pyval => num (snd kv)) (fun _ _ => True) vals) as (xs & E & _); [|eauto].
      intros kv I. destruct NV as [_ FV]. rewrite Forall_forall in FV. destruct (FV kv I) as (x & Ex). rewrite Ex. exists x; split; [reflexivity|exact Logic.I]. }
    destruct NU as (xs & ->); cbn [bind]. destruct keys as [|k0 ks] eqn:EK; [contradiction|]. rewrite EG; cbn [bind]. f_equal. f_equal.
    apply contract_spec; [destruct grads; [discriminate|discriminate]|lia|].
    clear -FG. induction FG as [|a d l gr (_ & L & _) FG IH]; constructor; assumption.
Qed.

(** ** C57: shifting a gate *)
Lemma plain_param : forall g, plain_rotation g -> gclass g = KParam.
Proof. intros g (C & _); exact C. Qed.
Lemma to_shift_param : forall g s, gclass g = KParam -> to_shift g s = Ok (shiftg g s).
Proof.
  intros g s C. unfold to_shift, gate_flatten. rewrite C. unfold gate_unflatten, shiftg, base_aux_of. cbn [ax_name ax_target ax_control ax_noise ax_sparse parse_target]. rewrite C.
  destruct (control g); reflexivity.
Qed.
Lemma shift_at_split : forall gs i s g, nth_error gs i = Some g -> shift_at gs i s = firstn i gs ++ [shiftg g s] ++ skipn (i + 1) gs.
Proof.
  induction gs as [|h gs IH]; intros [|i] s g E; cbn in E; try discriminate; cbn [shift_at firstn Nat.add skipn app].
  - injection E as ->. reflexivity.
  - f_equal. apply IH; exact E.
Qed.
Lemma alter_param : forall gs i s g, nth_error gs i = Some g -> gclass g = KParam -> alter_gate_sequence gs i s = Ok (shift_at gs i s).
Proof.
  intros gs i s g E C. unfold alter_gate_sequence. rewrite E, (to_shift_param _ _ C); cbn [bind]. rewrite (shift_at_split _ _ _ _ E).
  assert (i < length gs) by (apply nth_error_Some; congruence). rewrite Nat.min_l by lia. reflexivity.
Qed.
Lemma usable_shiftg : forall n vals g s, usable n vals g -> usable n vals (shiftg g s).
Proof.
  intros n vals g s (M & cs & ts & HG). destruct HG as [HM HC HT HV].
  assert (A : forall a, angle vals g a -> angle vals (shiftg g s) (a + s)).
  { intros a H. unfold angle in *; cbn [gparam shiftg shift]. destruct (gparam g) as [m|y]; [destruct H as (x & E & ->); exists x; split; [exact E|ring]|subst a; ring]. }
  destruct HM as [nm M C N L I|C N L|nm R_ a C N L AN I|a C L AN].
  - exists M, cs, ts; split; auto. eapply gm_fixed; eauto.
  - exists SWAP_matrix, cs, ts; split; auto. apply gm_SWAP; auto.
  - exists (R_ (a + s)%R), cs, ts; split; auto. eapply gm_rotation; eauto.
  - exists (PHASE_matrix (a + s)), cs, ts; split; auto. eapply gm_PHASE; eauto.
Qed.
Lemma shift_at_Forall : forall (P : gate -> Prop) s, (forall g, P g -> P (shiftg g s)) -> forall gs i, Forall P gs -> Forall P (shift_at gs i s).
Proof.
  intros P s H gs. induction gs as [|g gs IH]; intros i F; [constructor|]. inversion F; subst. destruct i; cbn [shift_at]; constructor; auto.
Qed.
Lemma shift_at_in : forall gs i s g', In g' (shift_at gs i s) -> exists g, In g gs /\ (g' = g \/ g' = shiftg g s).
Proof.
  induction gs as [|g gs IH]; intros [|i] s g' H; cbn [shift_at] in H; try contradiction.
  - destruct H as [<-|H]; [exists g; split; [left; reflexivity|right; reflexivity]|exists g'; split; [right; exact H|left; reflexivity]].
  - destruct H as [<-|H]; [exists g; split; [left; reflexivity|left; reflexivity]|]. destruct (IH i s g' H) as (h & Hh & Q). exists h; split; [right; exact Hh|exact Q].
Qed.
Lemma shift_at_mixes : forall st gs i s, mixes st (shift_at gs i s) -> mixes st gs.
Proof.
  intros st gs i s [H|(g' & I & N)]; [left; exact H|right]. destruct (shift_at_in _ _ _ _ I) as (g & Hg & [-> | ->]); exists g; split; auto.
Qed.
Lemma readable_mixes : forall w n v st gs gs' l K, (mixes st gs' -> mixes st gs) -> readable w n v st gs l K -> readable w n v st gs' l K.
Proof. intros w n v st gs gs' l K H [H1 H2]. split; auto. Qed.
Lemma shift_at_nonempty : forall gs i s, gs <> [] -> shift_at gs i s <> [].
Proof. intros [|g gs] [|i] s H; try contradiction; discriminate. Qed.
Lemma param_indices_in : forall gs name i, In i (param_indices gs name) -> exists g, nth_error gs i = Some g /\ uses_param name g = true.
Proof.
  induction gs as [|g gs IH]; intros name i H; [contradiction|]. rewrite param_indices_cons in H. apply in_app_or in H as [H|H].
  - destruct (uses_param name g) eqn:E; [|contradiction]. destruct H as [<-|[]]. exists g; split; [reflexivity|exact E].
  - apply in_map_iff in H as (j & <- & H). apply IH; exact H.
Qed.
Lemma uses_in_names : forall n vals g name, usable n vals g -> uses_param name g = true -> names_of_gate g = [name].
Proof.
  intros n vals g name (M & cs & ts & HG) E. unfold uses_param, is_parametric in E. unfold names_of_gate.
  destruct (go_matrix _ _ _ _ _ _ HG) as [? ? C|C|? ? ? C|? C]; rewrite C in *; try discriminate E;
    (destruct (gparam g) as [s|]; [|discriminate E]; cbn [andb] in E; apply String.eqb_eq in E; subst; reflexivity).
Qed.
Lemma unique_gap : unique2 [0; 0; 2; 0]%R = Ok (0, 2)%R.
Proof.
  unfold unique2, rmin. cbn [fold_left]. assert (M1 : Rmin 0 0 = 0%R) by (apply Rmin_left; lra). assert (M2 : Rmin 0 2 = 0%R) by (apply Rmin_left; lra).
  rewrite ?M1, ?M2, ?M1. cbn [filter]. destruct (Req_EM_T 0 0) as [_|Q]; [|exfalso; apply Q; reflexivity]. destruct (Req_EM_T 2 0) as [Q|_]; [exfalso; lra|]. reflexivity.
Qed.
Lemma is_controlled_no : forall c, control_qubits c [] -> is_controlled c = false.
Proof. intros c H. inversion H; subst; try reflexivity; congruence. Qed.
Lemma spectral_gap_plain : forall g, plain_rotation g -> spectral_gap g = Ok 2%R.
Proof.
  intros g (_ & I & CQ). unfold spectral_gap, eigenvals_generator. rewrite (is_controlled_no _ CQ).
  assert (E : String.eqb (generator_name g) "X" || String.eqb (generator_name g) "Y" || String.eqb (generator_name g) "Z" = true).
  { destruct I as [<-|[<-|[<-|[]]]]; reflexivity. }
  rewrite E; cbn [bind length seq flat_map map app nth Nat.leb].
  replace (Rabs (-1 - -1))%R with 0%R by (replace (-1 - -1)%R with 0%R by ring; symmetry; apply Rabs_R0).
  replace (Rabs (-1 - 1))%R with 2%R by (replace (-1 - 1)%R with (- (2))%R by ring; rewrite Rabs_Ropp, Rabs_right; lra).
  replace (Rabs (1 - 1))%R with 0%R by (replace (1 - 1)%R with 0%R by ring; symmetry; apply Rabs_R0).
  rewrite unique_gap; cbn [bind fst snd]. destruct (Req_EM_T 0 0) as [_|Q]; [|exfalso; apply Q; reflexivity]. destruct (Req_EM_T 2 0) as [Q|_]; [exfalso; lra|reflexivity].
Qed.

(** ** C53 *)
Definition all_rotations (gs : list gate) : Prop := forall g, In g gs -> names_of_gate g <> [] -> plain_rotation g.
Lemma all_rotation_only : forall gs name, all_rotations gs -> phase_or_rotation_only gs name.
Proof. intros gs name H g I N. left. apply H; [exact I|]. intro E; rewrite E in N; contradiction. Qed.
Lemma repeated_branch : forall n vals gs, Forall (usable n vals) gs -> vals <> [] -> NoDup (map fst vals) ->
    (forall name, In name (map fst vals) -> In name (flat_map names_of_gate gs)) -> ~ used_once gs -> gpsr_branch (GMany gs) (map fst vals) = CaseRepeated.
Proof.
  intros n vals gs FU NV ND ALL NU. unfold gpsr_branch. rewrite (extract_names n vals) by exact FU.
  destruct (Nat.ltb_spec (length (map fst vals)) (length (flat_map names_of_gate gs))) as [L|L].
  2: { exfalso. apply NU. unfold used_once. eapply NoDup_incl_NoDup; [exact ND|exact L|exact ALL]. }
  destruct (map fst vals) as [|k ks] eqn:EK; [destruct vals; [contradiction|discriminate]|]. rewrite <- EK in *. clear k ks EK.
  destruct (Nat.ltb_spec 1 (list_max (map (fun n0 => length (param_indices gs n0)) (map fst vals)))) as [_|M]; [reflexivity|].
  exfalso. apply NU. unfold used_once. rewrite (NoDup_count_occ string_dec). intro name. rewrite (count_indices n vals) by exact FU.
  apply list_max_le in M. rewrite Forall_forall in M. destruct (in_dec string_dec name (map fst vals)) as [I|I].
  - apply M, in_map_iff. exists name; split; [reflexivity|exact I].
  - assert (Z : count_occ string_dec (flat_map names_of_gate gs) name = 0).
    { apply count_occ_not_In. intro H; apply I. eapply names_known; eassumption. }
    rewrite (count_indices n vals) in Z by exact FU. lia.
Qed.
Lemma sum_vectors : forall (F : nat -> op -> R) inds Ks, inds <> [] ->
    match map (fun i => map (F i) Ks) inds with [] => Err ValueError | g :: gs' => Ok (fold_left vadd gs' g) end = Ok (map (fun K => rsum inds (fun i => F i K)) Ks).
Proof.
  intros F [|i inds] Ks H; [contradiction|]. cbn [map]. f_equal.
  destruct (fold_vadd (map (fun i => map (F i) Ks) inds) (map (F i) Ks) (length Ks)) as [E1 E2]; [apply map_length| |].
  { apply Forall_forall. intros d I. apply in_map_iff in I as (j & <- & _). apply map_length. }
  rewrite (list_nth _ _ E1), (list_nth (map (fun K => rsum (i :: inds) (fun i => F i K)) Ks) (length Ks)) by apply map_length.
  apply map_ext_in. intros k Hk. apply in_seq in Hk. rewrite E2. destruct (nth_error Ks k) as [K|] eqn:EK; [|apply nth_error_None in EK; lia].
  assert (NM : forall (f : op -> R), nth k (map f Ks) 0%R = f K) by (intro f; apply nth_error_nth; rewrite nth_error_map, EK; reflexivity).
  rewrite !NM, rsum_map'. cbn [rsum]. f_equal. apply rsum_ext; intros j _. apply NM.
Qed.
Lemma mapM_ok : forall {A B} (f : A -> res B) (h : A -> B) l, (forall a, In a l -> f a = Ok (h a)) -> mapM f l = Ok (map h l).
Proof. intros A B f h l H. apply mapM_map. exact H. Qed.

(** gradient contribution of gate [i] *)
Definition gate_diff (n : nat) (vals : values) (gs : list gate) (r : op) (i : nat) (K : op) : R :=
  ((mean_density n K (evolve n vals (shift_at gs i (PI / 2)) r) - mean_density n K (evolve n vals (shift_at gs i (- (PI / 2))) r)) / 2)%R.
Lemma shift_jvp_ok : forall w n vals gs st obs Ks i g k, set_order (set_iter w) -> gs <> [] -> Forall (usable n vals) gs -> Forall dense_gate gs -> Forall noise_ok gs ->
    state_of n st -> obs <> [] -> Forall2 (readable w n vals st gs) obs Ks -> nth_error gs i = Some g -> plain_rotation g ->
    shift_jvp (analytical_eval w st obs) gs vals no_split i k = Ok (map (gate_diff n vals gs (density_of st) i) Ks).
Proof.
  intros w n vals gs st obs Ks i g k SO NG FU FD FN HS NO F E PR. unfold shift_jvp. rewrite E, (spectral_gap_plain g PR); cbn [bind].
  rewrite !(alter_param gs i _ g E (plain_param g PR)); cbn [bind]. unfold analytical_eval.
  assert (EV : forall s, analytical_expectation w st (GMany (shift_at gs i s)) obs vals = Ok (map (fun K => mean_density n K (evolve n vals (shift_at gs i s) (density_of st))) Ks)).
  { intro s. apply eval_spec; try assumption.
    - apply shift_at_nonempty; exact NG.
    - apply shift_at_Forall; [intro h; apply usable_shiftg|exact FU].
    - apply shift_at_Forall; [intros h Hh; exact Hh|exact FD].
    - apply shift_at_Forall; [intros h Hh; exact Hh|exact FN].
    - eapply F2_impl; [|exact F]. intros l K. apply readable_mixes, shift_at_mixes. }
  rewrite !EV; cbn [bind]. rewrite shift_rules_2, half_diffs_map. reflexivity.
Qed.
Lemma combine_mapM : forall {B} (f : nat -> nat -> res B) (h : nat -> B) l, (forall k i, In i l -> f k i = Ok (h i)) ->
    mapM (fun ki => f (fst ki) (snd ki)) (combine (seq 0 (length l)) l) = Ok (map h l).
Proof.
  intros B f h l H. rewrite (mapM_ok _ (fun ki => h (snd ki))).
  - f_equal. rewrite <- map_map. f_equal. apply combine_snd, seq_length.
  - intros [k i] I. cbn [fst snd]. apply H. apply in_combine_r in I; exact I.
Qed.

(** renaming *)
Definition renamed (g : gate) (nm : string) : gate :=
  mkGate (gclass g) (generator_name g) (target g) (control g) (noise g) (sparse g) (PName nm) (shift g).
Lemma new_named_ok : forall g nm, gclass g = KParam -> new_named_parametric g nm = Ok (renamed g nm).
Proof.
  intros g nm C. unfold new_named_parametric, gate_flatten. rewrite C. unfold gate_unflatten, renamed, base_aux_of. cbn [ax_name ax_target ax_control ax_noise ax_sparse parse_target]. rewrite C.
  destruct (control g); reflexivity.
Qed.
Definition indexed (gs : list gate) : list (nat * gate) := combine (seq 0 (length gs)) gs.
Definition rename_at (keys : list string) (uuid : nat -> string) (ig : nat * gate) : gate :=
  if in_names keys (snd ig) then renamed (snd ig) (uuid (fst ig)) else snd ig.
Lemma indexed_in : forall gs i g, In (i, g) (indexed gs) -> nth_error gs i = Some g.
Proof.
  intros gs i g H. unfold indexed in H. apply (In_nth_error) in H as (k & H).
  assert (A : forall (l : list nat) (m : list gate) k i g, nth_error (combine l m) k = Some (i, g) -> nth_error l k = Some i /\ nth_error m k = Some g).
  { clear. induction l as [|a l IH]; intros [|b m] [|k] i g H; cbn in H; try discriminate; [injection H as <- <-; split; reflexivity|exact (IH m k i g H)]. }
  apply A in H as [H1 H2]. assert (k < length gs) by (apply nth_error_Some; congruence).
  assert (i = k). { apply (nth_error_nth _ _ 0) in H1. rewrite seq_nth in H1 by assumption. lia. } subst; exact H2.
Qed.
Lemma indexed_snd : forall gs, map snd (indexed gs) = gs.
Proof. intro gs. apply combine_snd, seq_length. Qed.
Lemma shift_at_indexed : forall gs i s, shift_at gs i s = map (fun ig => if Nat.eqb (fst ig) i then shiftg (snd ig) s else snd ig) (indexed gs).
Proof.
  assert (A : forall gs k i s, shift_at gs i s = map (fun ig => if Nat.eqb (fst ig) (k + i) then shiftg (snd ig) s else snd ig) (combine (seq k (length gs)) gs)).
  { induction gs as [|g gs IH]; intros k i s; [destruct i; reflexivity|]. cbn [length seq combine map fst snd]. destruct i as [|i]; cbn [shift_at].
    - rewrite Nat.add_0_r, Nat.eqb_refl. f_equal. transitivity (map snd (combine (seq (S k) (length gs)) gs)); [symmetry; apply combine_snd, seq_length|].
      apply map_ext_in. intros [j h] I. cbn [fst snd]. apply in_combine_l in I. apply in_seq in I. destruct (Nat.eqb_spec j k); [lia|reflexivity].
    - destruct (Nat.eqb_spec k (k + S i)); [lia|]. f_equal. rewrite (IH (S k) i s). replace (S k + i) with (k + S i) by lia. reflexivity. }
  intros gs i s. exact (A gs 0 i s).
Qed.
Lemma evolve_map : forall {A} n v v' (f h : A -> gate) l, (forall a, In a l -> forall r, step n v (f a) r = step n v' (h a) r) ->
    forall r, evolve n v (map f l) r = evolve n v' (map h l) r.
Proof.
  intros A n v v' f h l. induction l as [|a l IH]; intros H r; [reflexivity|]. cbn [map evolve]. rewrite H by (left; reflexivity). apply IH. intros b I. apply H; right; exact I.
Qed.
Lemma in_names_spec : forall keys g, in_names keys g = true -> exists name, uses_param name g = true /\ In name keys.
Proof.
  intros keys g E. unfold in_names in E. apply andb_prop in E as [E1 E2]. unfold uses_param. rewrite E1. destruct (gparam g) as [s|]; [|discriminate].
  exists s. rewrite String.eqb_refl. split; [reflexivity|]. apply existsb_exists in E2 as (x & I & Q). apply String.eqb_eq in Q; subst x; exact I.
Qed.
Lemma in_names_false : forall n vals g, usable n vals g -> in_names (map fst vals) g = false -> names_of_gate g = [].
Proof.
  intros n vals g U E. pose proof U as (M & cs & ts & HG). destruct (names_of_gate g) as [|name l] eqn:EN; [reflexivity|exfalso].
  assert (IN : In name (map fst vals)). { apply (names_known n vals [g]); [constructor; [exact U|constructor]|]. cbn [flat_map]. rewrite EN; left; reflexivity. }
  unfold in_names, is_parametric in E. unfold names_of_gate in EN.
  destruct (go_matrix _ _ _ _ _ _ HG) as [? ? C|C|? ? ? C|? C]; rewrite C in *; try discriminate EN;
  (destruct (gparam g) as [s|]; [|discriminate EN]; injection EN as -> _; cbn [andb] in E;
   assert (Q : existsb (String.eqb name) (map fst vals) = true) by (apply existsb_exists; exists name; split; [exact IN|apply String.eqb_refl]); congruence).
Qed.
Lemma unnamed_mat : forall n vals v g, usable n vals g -> names_of_gate g = [] -> mat_of v g = mat_of vals g.
Proof.
  intros n vals v g (M & cs & ts & HG) E. unfold mat_of, angle_of. unfold names_of_gate in E.
  destruct (go_matrix _ _ _ _ _ _ HG) as [? ? C|C|? ? ? C|? C]; rewrite C in *; try reflexivity; (destruct (gparam g); [discriminate E|reflexivity]).
Qed.
Lemma unnamed_usable : forall n vals v g, usable n vals g -> names_of_gate g = [] -> usable n v g.
Proof.
  intros n vals v g (M & cs & ts & HG) E. exists M, cs, ts. destruct HG as [HM HC HT HV]. split; auto. unfold names_of_gate in E.
  assert (A : forall a, (match gparam g with PName _ => False | PNum _ => True end) -> angle vals g a -> angle v g a) by (intros a H; unfold angle; destruct (gparam g); [contradiction|auto]).
  destruct HM as [nm M C N L I|C N L|nm R_ a C N L AN I|a C L AN].
  - eapply gm_fixed; eauto.
  - apply gm_SWAP; auto.
  - eapply gm_rotation; eauto. apply A; [|exact AN]. rewrite C in E. destruct (gparam g); [discriminate E|exact Logic.I].
  - eapply gm_PHASE; eauto. apply A; [|exact AN]. rewrite C in E. destruct (gparam g); [discriminate E|exact Logic.I].
Qed.
Lemma renamed_usable : forall n vals v g nm x, usable n vals g -> gclass g = KParam -> lookup v nm = Ok (VNum x) -> usable n v (renamed g nm).
Proof.
  intros n vals v g nm x (M & cs & ts & HG) C L. destruct HG as [HM HC HT HV].
  assert (AN : angle v (renamed g nm) (x + shift g)) by (unfold angle; cbn [gparam renamed shift]; exists x; split; [exact L|reflexivity]).
  destruct HM as [nm' M C' N L' I|C' N L'|nm' R_ a C' N L' _ I|a C' L' _]; try congruence.
  exists (R_ (x + shift g)%R), cs, ts. split; auto. eapply gm_rotation; eauto.
Qed.

(** the temporary dictionary *)
Definition temp_inds (gs : list gate) (keys : list string) : list (nat * string) := flat_map (fun p => map (fun i => (i, p)) (param_indices gs p)) keys.
Lemma temp_names_inds : forall gs keys uuid, temp_names gs keys uuid = map (fun ip => (uuid (fst ip), snd ip)) (temp_inds gs keys).
Proof.
  intros gs keys uuid. unfold temp_names, temp_inds. induction keys as [|k keys IH]; [reflexivity|]. cbn [flat_map]. rewrite map_app, IH, map_map. reflexivity.
Qed.
Lemma temp_inds_in : forall gs keys i p, In (i, p) (temp_inds gs keys) <-> In p keys /\ In i (param_indices gs p).
Proof.
  intros gs keys i p. unfold temp_inds. rewrite in_flat_map. split.
  - intros (q & Hq & H). apply in_map_iff in H as (j & E & Hj). injection E as -> ->. auto.
  - intros [H1 H2]. exists p; split; [exact H1|]. apply in_map_iff. exists i; auto.
Qed.
Lemma param_indices_nodup : forall gs p, NoDup (param_indices gs p).
Proof.
  induction gs as [|g gs IH]; intro p; [constructor|]. rewrite param_indices_cons. assert (H : NoDup (map S (param_indices gs p))) by (apply FinFun.Injective_map_NoDup; [intros a b E; lia|apply IH]).
  destruct (uses_param p g); cbn [app]; [|exact H]. constructor; [|exact H]. intro I. apply in_map_iff in I as (j & E & _). discriminate.
Qed.
Lemma uses_unique : forall g p q, uses_param p g = true -> uses_param q g = true -> p = q.
Proof.
  intros g p q E1 E2. unfold uses_param in *. apply andb_prop in E1 as [_ E1]; apply andb_prop in E2 as [_ E2]. destruct (gparam g); [|discriminate].
  apply String.eqb_eq in E1, E2. congruence.
Qed.
Lemma temp_inds_nodup : forall gs keys, NoDup keys -> NoDup (map fst (temp_inds gs keys)).
Proof.
  intros gs keys ND. induction ND as [|k keys NI ND IH]; [constructor|]. unfold temp_inds. cbn [flat_map]. rewrite map_app, map_map. cbn [fst]. rewrite map_id.
  fold (temp_inds gs keys).
  assert (A : forall l m : list nat, NoDup l -> NoDup m -> (forall x, In x l -> ~ In x m) -> NoDup (l ++ m)).
  { clear. induction l as [|a l IH]; intros m H1 H2 H; [exact H2|]. inversion H1; subst. cbn [app]. constructor.
    - intro I. apply in_app_or in I as [I|I]; [contradiction|]. apply (H a); [left; reflexivity|exact I].
    - apply IH; auto. intros x I. apply H; right; exact I. }
  apply A; [apply param_indices_nodup|exact IH|]. intros i H1 H2. apply in_map_iff in H2 as ([j p] & E & H2). cbn [fst] in E; subst j.
  apply temp_inds_in in H2 as [H2 H3]. apply param_indices_in in H1 as (g & E1 & U1). apply param_indices_in in H3 as (g' & E3 & U3).
  rewrite E1 in E3; injection E3 as <-. rewrite (uses_unique g k p U1 U3) in NI. contradiction.
Qed.
Lemma temp_inds_filter : forall gs keys name, NoDup keys -> In name keys ->
    filter (fun ip => String.eqb (snd ip) name) (temp_inds gs keys) = map (fun i => (i, name)) (param_indices gs name).
Proof.
  intros gs keys name ND. induction ND as [|k keys NI ND IH]; intro H; [contradiction|]. unfold temp_inds. cbn [flat_map]. rewrite filter_app. fold (temp_inds gs keys).
  assert (A : forall p l, filter (fun ip : nat * string => String.eqb (snd ip) name) (map (fun i => (i, p)) l) = if String.eqb p name then map (fun i => (i, p)) l else []).
  { intros p l. induction l as [|i l IHl]; [destruct (String.eqb p name); reflexivity|]. cbn [map filter snd]. rewrite IHl. destruct (String.eqb p name); reflexivity. }
  rewrite A. destruct (String.eqb_spec k name) as [->|N].
  - assert (E : filter (fun ip : nat * string => String.eqb (snd ip) name) (temp_inds gs keys) = []).
    { clear -NI. assert (B : forall ip, In ip (temp_inds gs keys) -> String.eqb (snd ip) name = false).
      { intros [i p] I. cbn [snd]. apply temp_inds_in in I as [I _]. destruct (String.eqb_spec p name) as [->|]; [contradiction|reflexivity]. }
      induction (temp_inds gs keys) as [|a l IHl]; [reflexivity|]. cbn [filter]. rewrite B by (left; reflexivity). apply IHl. intros ip I; apply B; right; exact I. }
    rewrite E, app_nil_r. reflexivity.
  - destruct H as [->|H]; [contradiction|]. apply IH; exact H.
Qed.

Section Repeated.
  Variables (w : world) (n : nat) (vals : values) (gs : list gate) (st : state) (obs : list (list oper)) (Ks : list op) (uuid : nat -> string).
  Hypothesis SO : set_order (set_iter w).
  Hypothesis NV : numeric_values vals.
  Hypothesis NG : gs <> [].
  Hypothesis FU : Forall (usable n vals) gs.
  Hypothesis FD : Forall dense_gate gs.
  Hypothesis FN : Forall noise_ok gs.
  Hypothesis HS : state_of n st.
  Hypothesis NO : obs <> [].
  Hypothesis AR : all_rotations gs.
  Hypothesis FK : forall v, Forall2 (readable w n v st gs) obs Ks.
  Hypothesis ALL : forall name, In name (map fst vals) -> In name (flat_map names_of_gate gs).
  Hypothesis UI : forall i j, uuid i = uuid j -> i = j.
  Let keys := map fst vals.
  Let valof (p : string) : R := match lookup vals p with Ok (VNum x) => x | _ => 0%R end.
  Let nv : values := map (fun ip => (uuid (fst ip), VNum (valof (snd ip)))) (temp_inds gs keys).
  Let ng : list gate := map (rename_at keys uuid) (indexed gs).

  Lemma rp_named : forall i g name, In (i, g) (indexed gs) -> uses_param name g = true -> plain_rotation g /\ In i (param_indices gs name).
  Proof.
    intros i g name I E. assert (Ig : In g gs) by (rewrite <- (indexed_snd gs); apply in_map_iff; exists (i, g); split; [reflexivity|exact I]). split.
    - apply AR; [exact Ig|]. rewrite Forall_forall in FU. rewrite (uses_in_names n vals g name (FU g Ig) E). discriminate.
    - unfold param_indices. apply in_map_iff. exists (i, g); split; [reflexivity|]. apply filter_In. split; [exact I|exact E].
  Qed.
  Lemma rp_usable : forall i g, In (i, g) (indexed gs) -> usable n vals g.
  Proof. intros i g I. rewrite Forall_forall in FU. apply FU. rewrite <- (indexed_snd gs). apply in_map_iff; exists (i, g); split; [reflexivity|exact I]. Qed.
  Lemma rp_renamed : create_renamed_operators gs keys uuid = Ok ng.
  Proof.
    unfold create_renamed_operators, ng. apply mapM_ok. intros [i g] I. cbn [fst snd]. unfold rename_at; cbn [fst snd]. destruct (in_names keys g) eqn:E; [|reflexivity].
    apply in_names_spec in E as (name & U & _). destruct (rp_named i g name I U) as [PR _]. apply new_named_ok, plain_param, PR.
  Qed.
  Lemma rp_values : mapM (fun tp => let! v := lookup vals (snd tp) in let! x := num v in Ok (fst tp, VNum x)) (temp_names gs keys uuid) = Ok nv.
  Proof.
    rewrite temp_names_inds, (mapM_ok _ (fun tp => (fst tp, VNum (valof (snd tp))))); [rewrite map_map; reflexivity|].
    intros tp I. apply in_map_iff in I as ([i p] & <- & I). cbn [fst snd]. apply temp_inds_in in I as [I _].
    destruct (numeric_lookup vals p NV I) as (x & E). unfold valof. rewrite E. reflexivity.
  Qed.
  Lemma rp_lookup : forall i p, In p keys -> In i (param_indices gs p) -> lookup nv (uuid i) = Ok (VNum (valof p)).
  Proof.
    intros i p Hp Hi. apply lookup_nodup.
    - unfold nv. rewrite map_map. cbn [fst]. rewrite <- (map_map fst uuid). apply FinFun.Injective_map_NoDup; [intros a b; apply UI|].
      apply temp_inds_nodup. destruct NV as [ND _]; exact ND.
    - unfold nv. apply in_map_iff. exists (i, p). split; [reflexivity|]. apply temp_inds_in. auto.
  Qed.
  Lemma rp_nth : forall i g, nth_error gs i = Some g -> nth_error ng i = Some (rename_at keys uuid (i, g)).
  Proof.
    intros i g E. unfold ng. rewrite nth_error_map. assert (L : i < length gs) by (apply nth_error_Some; congruence).
    assert (Q : nth_error (indexed gs) i = Some (i, g)).
    { destruct (nth_error (indexed gs) i) as [[j h]|] eqn:Q.
      - assert (A : forall (l : list nat) (m : list gate) k i g, nth_error (combine l m) k = Some (i, g) -> nth_error l k = Some i /\ nth_error m k = Some g).
        { clear. induction l as [|a l IH]; intros [|b m] [|k] i g H; cbn in H; try discriminate; [injection H as <- <-; split; reflexivity|exact (IH m k i g H)]. }
        apply A in Q as [Q1 Q2]. rewrite E in Q2; injection Q2 as <-. apply (nth_error_nth _ _ 0) in Q1. rewrite seq_nth in Q1 by exact L. cbn in Q1. subst j; reflexivity.
      - exfalso. apply nth_error_None in Q. unfold indexed in Q. rewrite combine_length, seq_length in Q. lia. }
    rewrite Q. reflexivity.
  Qed.
  Lemma rp_gaps : mapM (fun tp => last_gap ng (param_indices gs (snd tp))) (temp_names gs keys uuid) = Ok (map (fun _ => 2%R) (temp_names gs keys uuid)).
  Proof.
    apply mapM_ok. intros tp I. rewrite temp_names_inds in I. apply in_map_iff in I as ([i p] & <- & I). cbn [fst snd]. apply temp_inds_in in I as [Ip Ii].
    unfold last_gap. destruct (rev (param_indices gs p)) as [|j js] eqn:E.
    - apply (f_equal (@rev nat)) in E. rewrite rev_involutive in E. rewrite E in Ii; contradiction.
    - assert (Ij : In j (param_indices gs p)) by (apply in_rev; rewrite E; left; reflexivity).
      destruct (param_indices_in gs p j Ij) as (g & En & U). rewrite (rp_nth j g En).
      assert (Ig : In g gs) by (eapply nth_error_In; exact En).
      assert (PR : plain_rotation g). { apply AR; [exact Ig|]. rewrite Forall_forall in FU. rewrite (uses_in_names n vals g p (FU g Ig) U). discriminate. }
      apply spectral_gap_plain. unfold rename_at; cbn [fst snd]. destruct (in_names keys g); [|exact PR]. destruct PR as (P1 & P2 & P3). split; [exact P1|split; [exact P2|exact P3]].
  Qed.
  Lemma rp_mixes : mixes st ng -> mixes st gs.
  Proof.
    intros [H|(g' & I & N)]; [left; exact H|right]. unfold ng in I. apply in_map_iff in I as ([i g] & <- & I). exists g. split.
    - rewrite <- (indexed_snd gs). apply in_map_iff; exists (i, g); split; [reflexivity|exact I].
    - unfold rename_at in N; cbn [fst snd] in N. destruct (in_names keys g); exact N.
  Qed.
  Lemma rp_bumped : forall i p s, In p keys -> In i (param_indices gs p) ->
      analytical_expectation w st (GMany ng) obs (at_value nv (uuid i) (valof p + s)) = Ok (map (fun K => mean_density n K (evolve n vals (shift_at gs i s) (density_of st))) Ks).
  Proof.
    intros i p s Hp Hi. set (nv' := at_value nv (uuid i) (valof p + s)).
    assert (LK : forall j g q, In (j, g) (indexed gs) -> uses_param q g = true -> In q keys -> lookup nv' (uuid j) = Ok (VNum (valof q + if Nat.eqb j i then s else 0))).
    { intros j g q I U Hq. unfold nv', at_value. rewrite lookup_set. destruct (rp_named j g q I U) as [_ Ij]. destruct (Nat.eqb_spec j i) as [->|N].
      - rewrite String.eqb_refl. destruct (param_indices_in gs p i Hi) as (h & E & Uh). apply indexed_in in I. rewrite I in E; injection E as <-. rewrite (uses_unique g q p U Uh). reflexivity.
      - destruct (String.eqb_spec (uuid j) (uuid i)) as [Q|_]; [apply UI in Q; contradiction|]. rewrite (rp_lookup j q Hq Ij), Rplus_0_r. reflexivity. }
    rewrite (eval_spec w n nv' st ng obs Ks SO).
    - f_equal. apply map_ext. intro K. f_equal. rewrite shift_at_indexed. unfold ng. apply evolve_map. intros [j g] I r. cbn [fst snd]. unfold rename_at; cbn [fst snd].
      pose proof (rp_usable j g I) as U. destruct (in_names keys g) eqn:E.
      + apply in_names_spec in E as (q & Uq & Hq). specialize (LK j g q I Uq Hq). destruct (rp_named j g q I Uq) as [(C & _) Ij].
        assert (A : forall h, gclass h = gclass g -> generator_name h = generator_name g -> target h = target g -> control h = control g -> noise h = noise g ->
            angle_of vals h = (valof q + (if Nat.eqb j i then s else 0) + shift g)%R -> step n nv' (renamed g (uuid j)) r = step n vals h r).
        { intros h H1 H2 H3 H4 H5 H6. unfold step, mat_of. rewrite H1, H2, H3, H4, H5, H6. unfold renamed; cbn [gclass generator_name target control noise]. rewrite C.
          unfold angle_of; cbn [gparam shift]. rewrite LK. reflexivity. }
        assert (PQ : gparam g = PName q). { unfold uses_param in Uq. apply andb_prop in Uq as [_ Uq]. destruct (gparam g); [apply String.eqb_eq in Uq; congruence|discriminate]. }
        assert (VQ : lookup vals q = Ok (VNum (valof q))). { destruct (numeric_lookup vals q NV Hq) as (x & E). unfold valof. rewrite E. reflexivity. }
        destruct (Nat.eqb j i); apply A; try reflexivity; unfold angle_of; cbn [gparam shiftg shift]; rewrite PQ, VQ; ring.
      + assert (EN : names_of_gate g = []) by (apply (in_names_false n vals g U E)).
        destruct (Nat.eqb_spec j i) as [->|N].
        * exfalso. destruct (param_indices_in gs p i Hi) as (h & Eh & Uh). apply indexed_in in I. rewrite I in Eh; injection Eh as <-. rewrite (uses_in_names n vals g p U Uh) in EN. discriminate.
        * unfold step. rewrite (unnamed_mat n vals nv' g U EN). reflexivity.
    - unfold ng. intro Q. apply map_eq_nil in Q. apply NG. rewrite <- (indexed_snd gs), Q. reflexivity.
    - apply Forall_forall. intros g' I. unfold ng in I. apply in_map_iff in I as ([j g] & <- & I). unfold rename_at; cbn [fst snd]. pose proof (rp_usable j g I) as U. destruct (in_names keys g) eqn:E.
      + apply in_names_spec in E as (q & Uq & Hq). eapply renamed_usable; [exact U|apply plain_param; apply (rp_named j g q I Uq)|exact (LK j g q I Uq Hq)].
      + apply (unnamed_usable n vals); [exact U|]. apply (in_names_false n vals g U E).
    - apply Forall_forall. intros g' I. unfold ng in I. apply in_map_iff in I as ([j g] & <- & I). rewrite Forall_forall in FD. assert (D : dense_gate g).
      { apply FD. rewrite <- (indexed_snd gs). apply in_map_iff; exists (j, g); split; [reflexivity|exact I]. }
      unfold rename_at; cbn [fst snd]. destruct (in_names keys g); exact D.
    - apply Forall_forall. intros g' I. unfold ng in I. apply in_map_iff in I as ([j g] & <- & I). rewrite Forall_forall in FN. assert (D : noise_ok g).
      { apply FN. rewrite <- (indexed_snd gs). apply in_map_iff; exists (j, g); split; [reflexivity|exact I]. }
      unfold rename_at; cbn [fst snd]. destruct (in_names keys g); exact D.
    - exact HS.
    - exact NO.
    - eapply F2_impl; [|apply (FK nv')]. intros l K. apply readable_mixes, rp_mixes.
  Qed.
  Lemma rp_step : forall i p k, In p keys -> In i (param_indices gs p) ->
      jvp_step (analytical_eval w st obs) (GMany ng) nv no_split (uuid i) 2 k = Ok (map (gate_diff n vals gs (density_of st) i) Ks).
  Proof.
    intros i p k Hp Hi. unfold jvp_step, analytical_eval. rewrite !(bump_ok nv (uuid i) (valof p)) by (apply rp_lookup; assumption). cbn [bind]. rewrite !(rp_bumped i p) by assumption. cbn [bind].
    rewrite shift_rules_2, half_diffs_map. reflexivity.
  Qed.
  Lemma rp_indices : forall name, In name keys -> param_indices gs name <> [].
  Proof.
    intros name H E. apply ALL in H. apply (count_occ_In string_dec) in H. rewrite (count_indices n vals) in H by exact FU. rewrite E in H. simpl in H; lia.
  Qed.
  Definition rp_grad (name : string) : list R := map (fun K => rsum (param_indices gs name) (fun i => gate_diff n vals gs (density_of st) i K)) Ks.
  Lemma rp_grads_gen : forall (f : evaluator) (D : nat -> op -> R), (forall i p k, In p keys -> In i (param_indices gs p) -> jvp_step f (GMany ng) nv no_split (uuid i) 2 k = Ok (map (D i) Ks)) ->
      gpsr_branch (GMany gs) keys = CaseRepeated -> jvp_grads f (GMany gs) vals uuid no_split 0 = Ok (map (fun name => map (fun K => rsum (param_indices gs name) (fun i => D i K)) Ks) keys).
  Proof.
    intros f D HJ HB. unfold jvp_grads. fold keys. rewrite HB. cbn [gate_list]. rewrite rp_renamed; cbn [bind]. rewrite rp_values; cbn [bind]. rewrite rp_gaps; cbn [bind].
    set (tn := temp_names gs keys uuid).
    assert (EG : mapM (fun ktg => let '(k, (t, _), gap) := ktg in jvp_step f (GMany ng) nv no_split t gap (no_split 0 (length tn) k))
        (combine (combine (seq 0 (length tn)) tn) (map (fun _ => 2%R) tn)) = Ok (map (fun ip => map (D (fst ip)) Ks) (temp_inds gs keys))).
    { set (l := temp_inds gs keys). assert (Q : combine (combine (seq 0 (length tn)) tn) (map (fun _ => 2%R) tn) = map (fun kip => (fst kip, (uuid (fst (snd kip)), snd (snd kip)), 2%R)) (combine (seq 0 (length l)) l)).
      { unfold tn. rewrite temp_names_inds. fold l. rewrite map_length, map_map. generalize (seq 0 (length l)) as sq. intro sq. generalize l as l0. induction sq as [|a sq IH]; intros [|b l0]; try reflexivity. cbn [combine map fst snd]. rewrite IH. reflexivity. }
      rewrite Q. assert (MM : forall {A B E} (f : A -> B) (h : B -> res E) (l : list A), mapM h (map f l) = mapM (fun a => h (f a)) l).
      { clear. intros A B E f h l. induction l as [|a l IH]; [reflexivity|]. cbn [map mapM]. rewrite IH. reflexivity. }
      rewrite MM. rewrite (mapM_ok _ (fun kip => map (D (fst (snd kip))) Ks)).
      - f_equal. rewrite <- (map_map snd (fun ip => map (D (fst ip)) Ks)). f_equal. apply combine_snd, seq_length.
      - intros [k [i p]] I. cbn [fst snd]. apply in_combine_r in I. apply temp_inds_in in I as [Hp Hi]. apply (HJ i p); assumption. }
    rewrite EG; cbn [bind]. apply mapM_ok. intros name Hn.
    assert (Q : map snd (filter (fun tg => String.eqb (snd (fst tg)) name) (combine tn (map (fun ip => map (D (fst ip)) Ks) (temp_inds gs keys))))
       = map (fun i => map (D i) Ks) (param_indices gs name)).
    { unfold tn. rewrite temp_names_inds, combine_map2.
      assert (FM : forall {A B} (f : A -> B) (b : B -> bool) l, filter b (map f l) = map f (filter (fun a => b (f a)) l)).
      { clear. intros A B f b l. induction l as [|a l IH]; [reflexivity|]. cbn [map filter]. rewrite IH. destruct (b (f a)); reflexivity. }
      rewrite FM. cbn [fst snd]. rewrite temp_inds_filter; [|destruct NV as [ND _]; exact ND|exact Hn]. rewrite !map_map. reflexivity. }
    rewrite Q. apply (sum_vectors D). apply rp_indices; exact Hn.
  Qed.
  Lemma rp_grads : gpsr_branch (GMany gs) keys = CaseRepeated -> jvp_grads (analytical_eval w st obs) (GMany gs) vals uuid no_split 0 = Ok (map rp_grad keys).
  Proof. intro HB. apply (rp_grads_gen (analytical_eval w st obs) (gate_diff n vals gs (density_of st))); [intros i p k; apply rp_step|exact HB]. Qed.
End Repeated.

Lemma c53_exact : forall w n vals circuit gs st obs Ks key,
    set_order (set_iter w) -> numeric_values vals -> vals <> [] -> sequence_of circuit gs -> gs <> [] ->
    Forall (usable n vals) gs -> Forall dense_gate gs -> Forall noise_ok gs -> state_of n st -> obs <> [] ->
    (forall v, Forall2 (readable w n v st gs) obs Ks) ->
    (forall g, In g gs -> names_of_gate g <> [] -> plain_rotation g) ->
    (forall name, In name (map fst vals) -> In name (flat_map names_of_gate gs)) -> ~ used_once gs ->
    exists fwd grads, expectation w st circuit obs vals GPSR 0 key = Ok fwd /\ length grads = length vals /\
      (forall k name, nth_error (map fst vals) k = Some name ->
        gradient_at (fun v => expectation w st circuit obs v GPSR 0 key) vals name (nth k grads [])) /\
      (Forall (fun g => gclass g <> KPhase) gs -> analytical_gpsr_bwd w st (GMany gs) obs vals = Ok (map total grads)) /\
      (forall tangents uuid, length tangents = length vals -> (forall i j, uuid i = uuid j -> i = j) ->
        analytical_gpsr_jvp w st (GMany gs) obs vals tangents uuid = Ok (fwd, directional (length obs) grads tangents)).
Proof.
  intros w n vals circuit gs st obs Ks key SO NV NVN HQ NG FU FD FN HS NO FK AR ALL NU.
  pose proof (repeated_branch n vals gs FU NVN (proj1 NV) ALL NU) as HB.
  assert (EV : forall v, Forall (usable n v) gs -> analytical_expectation w st (GMany gs) obs v = Ok (map (fun K => mean_density n K (evolve n v gs (density_of st))) Ks)) by (intros v Fv; apply eval_spec; auto).
  assert (EE : forall v, expectation w st circuit obs v GPSR 0 key = analytical_expectation w st (GMany gs) obs v).
  { intro v. unfold expectation. cbn [Z.ltb Z.eqb Z.compare]. rewrite (sequence_iter _ _ HQ); cbn [bind]. reflexivity. }
  exists (map (fun K => mean_density n K (evolve n vals gs (density_of st))) Ks), (map (rp_grad n vals gs st Ks) (map fst vals)).
  split; [rewrite EE; apply EV, FU|split; [rewrite !map_length; reflexivity|split; [|split]]].
  - intros k name E. assert (IN : In name (map fst vals)) by (eapply nth_error_In; exact E). destruct (numeric_lookup vals name NV IN) as (x & L).
    assert (Q : nth k (map (rp_grad n vals gs st Ks) (map fst vals)) [] = rp_grad n vals gs st Ks name) by (apply nth_error_nth; rewrite nth_error_map, E; reflexivity).
    rewrite Q. exists (fun t => map (fun K => mean_density n K (evolve n (at_value vals name t) gs (density_of st))) Ks), x. split; [exact L|split].
    + intro t. split; [|unfold rp_grad; rewrite !map_length; reflexivity]. rewrite EE. apply EV. eapply Forall_impl; [|exact FU]. intros g; apply usable_at.
    + intros i Hi. unfold rp_grad in *. rewrite map_length in Hi. destruct (nth_error Ks i) as [K|] eqn:EK; [|apply nth_error_None in EK; lia].
      assert (NM : forall (f : op -> R), nth i (map f Ks) 0%R = f K) by (intro f; apply nth_error_nth; rewrite nth_error_map, EK; reflexivity).
      rewrite NM. eapply dpl_ext; [intro t; symmetry; apply (NM (fun K => mean_density n K (evolve n (at_value vals name t) gs (density_of st))))|].
      apply mean_gradient; [assumption|assumption|apply all_rotation_only; exact AR].
  - intro NP. unfold analytical_gpsr_bwd, gpsr_bwd. rewrite HB.
    assert (PT : forall l, (forall g, In g l -> gclass g <> KPhase) -> forallb is_pytree l = true).
    { intros l H. apply forallb_forall. intros g Hg. specialize (H g Hg). unfold is_pytree. destruct (gclass g); congruence. }
    rewrite Forall_forall in NP.
    assert (EG : mapM (fun kn => jvp_component_repeated (jitted (analytical_eval w st obs)) gs vals no_split (snd kn) (no_split 0 (length (map fst vals)) (fst kn)))
        (combine (seq 0 (length (map fst vals))) (map fst vals)) = Ok (map (rp_grad n vals gs st Ks) (map fst vals))).
    { rewrite (mapM_ok _ (fun kn => rp_grad n vals gs st Ks (snd kn))).
      - f_equal. rewrite <- (map_map snd (rp_grad n vals gs st Ks)). f_equal. apply seq_snd.
      - intros [k name] I. apply in_combine_r in I. cbn [fst snd]. unfold jvp_component_repeated.
        rewrite (combine_mapM (fun k i => shift_jvp (jitted (analytical_eval w st obs)) gs vals no_split i (no_split (no_split 0 (length (map fst vals)) k) (length (param_indices gs name)) k)) (fun i => map (gate_diff n vals gs (density_of st) i) Ks)).
        + cbn [bind]. apply sum_vectors. apply (rp_indices n vals gs FU ALL); exact I.
        + intros k' i Hi. destruct (param_indices_in gs name i Hi) as (g & En & U). assert (Ig : In g gs) by (eapply nth_error_In; exact En).
          assert (PR : plain_rotation g). { apply AR; [exact Ig|]. rewrite Forall_forall in FU. rewrite (uses_in_names n vals g name (FU g Ig) U). discriminate. }
          rewrite <- (shift_jvp_ok w n vals gs st obs Ks i g (no_split (no_split 0 (length (map fst vals)) k') (length (param_indices gs name)) k') SO NG FU FD FN HS NO (FK vals) En PR).
          unfold shift_jvp. rewrite En, (spectral_gap_plain g PR); cbn [bind]. rewrite !(alter_param gs i _ g En (plain_param g PR)); cbn [bind]. unfold jitted; cbn [gate_list].
          rewrite !PT; [reflexivity| |]; intros h Hh; apply shift_at_in in Hh as (h' & Hh' & [-> | ->]); cbn [gclass shiftg]; apply NP; exact Hh'. }
    destruct (map fst vals) as [|k0 ks] eqn:EK; [destruct vals; [contradiction|discriminate]|]. rewrite <- EK in *. rewrite EG; cbn [bind]. f_equal. apply map_ext. intro d; apply total_fold.
  - intros tangents uuid LT UI. unfold analytical_gpsr_jvp, gpsr_jvp. unfold analytical_eval at 1. rewrite (EV vals FU); cbn [bind].
    rewrite (rp_grads w n vals gs st obs Ks uuid SO NV NG FU FD FN HS NO AR FK ALL UI HB); cbn [bind]. f_equal. f_equal. apply contract_spec.
    + intro Q. apply map_eq_nil in Q. destruct vals; [contradiction|discriminate].
    + rewrite !map_length. exact LT.
    + apply Forall_forall. intros d Hd. apply in_map_iff in Hd as (name & <- & _). unfold rp_grad. rewrite map_length. symmetry. apply (F2_len (FK vals)).
Qed.

(** ** C52, C56, C57, C58 *)
Lemma c52_exact : forall w n vals circuit gs st obs key,
    set_order (set_iter w) -> numeric_values vals -> vals <> [] -> sequence_of circuit gs -> gs <> [] ->
    Forall (usable n vals) gs -> Forall dense_gate gs -> Forall noise_ok gs -> state_of n st -> obs <> [] -> used_once gs ->
    (forall name t, In name (map fst vals) -> exists Ks, Forall2 (readable w n (at_value vals name t) st gs) obs Ks) ->
    exists fwd grads, expectation w st circuit obs vals GPSR 0 key = Ok fwd /\ length grads = length vals /\
      (forall k name, nth_error (map fst vals) k = Some name -> rotation_only gs name ->
        (exists Ks, forall t, Forall2 (readable w n (at_value vals name t) st gs) obs Ks) ->
        gradient_at (fun v => expectation w st circuit obs v GPSR 0 key) vals name (nth k grads [])) /\
      (Forall (fun g => gclass g <> KPhase) gs -> analytical_gpsr_bwd w st (GMany gs) obs vals = Ok (map total grads)) /\
      (forall tangents uuid, length tangents = length vals ->
        analytical_gpsr_jvp w st (GMany gs) obs vals tangents uuid = Ok (fwd, directional (length obs) grads tangents)).
Proof.
  intros w n vals circuit gs st obs key SO NV NVN HQ NG FU FD FN HS NO ND HK.
  destruct (c52_general w n vals circuit gs st obs key SO NV NVN HQ NG FU FD FN HS NO ND HK) as (fwd & grads & E1 & E2 & E3 & E4 & E5).
  exists fwd, grads. split; [exact E1|split; [exact E2|split; [|split; [exact E4|exact E5]]]]. intros k name E RO. apply E3; [exact E|]. intros x K L. apply mean_gradient; [exact L|exact FU|]. intros g I N; left; apply RO; assumption.
Qed.
Lemma c56_once : forall w n vals circuit gs st obs key,
    set_order (set_iter w) -> numeric_values vals -> vals <> [] -> sequence_of circuit gs -> gs <> [] ->
    Forall (usable n vals) gs -> Forall dense_gate gs -> Forall noise_ok gs -> state_of n st -> obs <> [] -> used_once gs ->
    (forall name t, In name (map fst vals) -> exists Ks, Forall2 (readable w n (at_value vals name t) st gs) obs Ks) ->
    exists fwd grads, expectation w st circuit obs vals GPSR 0 key = Ok fwd /\ length grads = length vals /\
      (forall k name, nth_error (map fst vals) k = Some name -> phase_or_rotation_only gs name ->
        (exists Ks, forall t, Forall2 (readable w n (at_value vals name t) st gs) obs Ks) ->
        gradient_at (fun v => expectation w st circuit obs v GPSR 0 key) vals name (nth k grads [])) /\
      (forall tangents uuid, length tangents = length vals ->
        analytical_gpsr_jvp w st (GMany gs) obs vals tangents uuid = Ok (fwd, directional (length obs) grads tangents)).
Proof.
  intros w n vals circuit gs st obs key SO NV NVN HQ NG FU FD FN HS NO ND HK.
  destruct (c52_general w n vals circuit gs st obs key SO NV NVN HQ NG FU FD FN HS NO ND HK) as (fwd & grads & E1 & E2 & E3 & E4 & E5).
  exists fwd, grads. split; [exact E1|split; [exact E2|split; [|exact E5]]]. intros k name E RO. apply E3; [exact E|]. intros x K L. apply mean_gradient; assumption.
Qed.
Lemma c56_reverse : forall w n vals gs st obs g, numeric_values vals -> vals <> [] -> Forall (usable n vals) gs -> used_once gs ->
    In g gs -> gclass g = KPhase -> analytical_gpsr_bwd w st (GMany gs) obs vals = Err TypeError.
Proof.
  intros w n vals gs st obs g NV NVN FU ND I C. unfold analytical_gpsr_bwd, gpsr_bwd. rewrite (once_branch n vals gs FU ND).
  destruct vals as [|[k v] vals']; [contradiction|]. set (vals := (k, v) :: vals') in *. change (map fst vals) with (k :: map fst vals'). cbn [length seq combine mapM fst snd].
  destruct (numeric_lookup vals k NV (or_introl eq_refl)) as (x & L). unfold jvp_component. rewrite (bump_ok vals k x _ L). cbn [bind]. unfold jitted at 1; cbn [gate_list].
  assert (P : forallb is_pytree gs = false).
  { destruct (forallb is_pytree gs) eqn:E; [|reflexivity]. rewrite forallb_forall in E. specialize (E g I). unfold is_pytree in E. rewrite C in E. discriminate. }
  rewrite P. reflexivity.
Qed.
Lemma operator_shifted : forall w ot g g' vals vals', gclass g' = gclass g -> gclass g = KParam -> generator_name g' = generator_name g -> sparse g' = sparse g ->
    parse_values g' vals' = parse_values g vals -> operator_of w ot g' vals' = operator_of w ot g vals.
Proof.
  intros w ot g g' vals vals' C K N S P. unfold operator_of, dagger_of, unitary_of, jacobian_of, generator. rewrite C, K, N, S, P. reflexivity.
Qed.
Lemma c57_shift : forall g s, gclass g = KParam ->
    exists g', to_shift g s = Ok g' /\ gclass g' = KParam /\ generator_name g' = generator_name g /\ gparam g' = gparam g /\
      target g' = target g /\ control g' = control g /\ noise g' = noise g /\ sparse g' = sparse g /\
      (forall name, gparam g = PName name -> forall w st vals x ot group merge, lookup vals name = Ok (VNum x) ->
         apply_gates w st (GOne g') vals ot group merge = apply_gates w st (GOne g) (at_value vals name (x + s)) ot group merge) /\
      (forall x, gparam g = PNum x -> forall w st vals ot group merge,
         apply_gates w st (GOne g') vals ot group merge =
         apply_gates w st (GOne (mkGate KParam (generator_name g) (target g) (control g) (noise g) (sparse g) (PNum (x + s)) (shift g))) vals ot group merge).
Proof.
  intros g s C. exists (shiftg g s). split; [apply to_shift_param; exact C|]. do 7 (split; [first [reflexivity|exact C]|]). split.
  - intros name P w st vals x ot group merge L. unfold apply_gates, prepare_sequence_reduce. cbn [target control noise shiftg].
    rewrite (operator_shifted w ot g (shiftg g s) (at_value vals name (x + s)) vals); try reflexivity; [exact C|].
    unfold parse_values; cbn [gparam shiftg shift]. rewrite P, L. unfold at_value. rewrite lookup_set, String.eqb_refl. cbn [bind num]. f_equal. ring.
  - intros x P w st vals ot group merge. unfold apply_gates, prepare_sequence_reduce. cbn [target control noise shiftg].
    rewrite (operator_shifted w ot (mkGate KParam (generator_name g) (target g) (control g) (noise g) (sparse g) (PNum (x + s)) (shift g)) (shiftg g s) vals vals); try reflexivity; [exact C|].
    unfold parse_values; cbn [gparam shiftg shift]. rewrite P. f_equal. ring.
Qed.
Lemma c57_alter : forall gs i s g, nth_error gs i = Some g -> gclass g = KParam ->
    exists gs' g', alter_gate_sequence gs i s = Ok gs' /\ to_shift g s = Ok g' /\ length gs' = length gs /\
      forall j, nth_error gs' j = if Nat.eqb j i then Some g' else nth_error gs j.
Proof.
  intros gs i s g E C. exists (shift_at gs i s), (shiftg g s). split; [eapply alter_param; eassumption|split; [apply to_shift_param; exact C|]]. clear C. revert i E.
  induction gs as [|h gs IH]; intros [|i] E; try discriminate; cbn [shift_at length].
  - injection E as ->. split; [reflexivity|]. intros [|j]; reflexivity.
  - destruct (IH i E) as [L N]. split; [lia|]. intros [|j]; [reflexivity|]. exact (N j).
Qed.

Lemma c58_no_gradient : forall w out p g gs vals tangent,
    adjoint_bwd w (out, Some p, g :: gs, vals) tangent = Ok (map (fun kv => (fst kv, None)) vals).
Proof.
  intros. unfold adjoint_bwd, fori_loop. cbn [length]. replace (0 - (S (length gs) - 1)) with 0 by lia. reflexivity.
Qed.
