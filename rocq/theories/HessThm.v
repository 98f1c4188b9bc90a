(** * Second derivatives through the GPSR rule (C106) *)
From Coq Require Import String List Arith Bool Reals Lia Lra ZArith Permutation.
From Verif Require Import Cplx Py PyFacts Ndarray OperatorUtils ApplyOperator Sparse Matrices Noise Gates Apply Composite Conversion Shots Gpsr GpsrSecond Api
  Spec SpecFacts Deriv GateSpec PropSpec NoiseSpec SampleSpec ExpectSpec GpsrSpec HessSpec GateFacts SampleThm SeqThm ShotsThm2 ExpectThm2 ExpectThm ExpectThm GpsrFacts GpsrThm.
Import ListNotations.
Local Open Scope nat_scope.

(** ** the dictionary *)
Lemma set_keys : forall (d : values) k v, In k (map fst d) -> map fst (dict_set d k v) = map fst d.
Proof.
  induction d as [|[k' v'] d IH]; intros k v H; [contradiction|]. cbn [dict_set]. destruct (String.eqb_spec k k') as [->|N]; [reflexivity|].
  cbn [map fst]. rewrite IH; [reflexivity|]. destruct H as [E|H]; [cbn [fst] in E; congruence|exact H].
Qed.
Lemma numeric_at : forall vals name t, numeric_values vals -> In name (map fst vals) -> numeric_values (at_value vals name t).
Proof.
  intros vals name t [ND F] I. split; [unfold at_value; rewrite set_keys by exact I; exact ND|]. unfold at_value. clear ND. induction F as [|[k v] d E F IH]; [contradiction|].
  cbn [dict_set]. destruct (String.eqb_spec name k) as [->|N]; [constructor; [exists t; reflexivity|exact F]|]. constructor; [exact E|]. apply IH. destruct I as [Q|I]; [cbn [fst] in Q; congruence|exact I].
Qed.
Lemma usable_at_all : forall n vals gs name t, Forall (usable n vals) gs -> Forall (usable n (at_value vals name t)) gs.
Proof. intros n vals gs name t F. eapply Forall_impl; [|exact F]. intros g; apply usable_at. Qed.

(** ** shifts *)
Lemma uses_shiftg : forall name g s, uses_param name (shiftg g s) = uses_param name g.
Proof. reflexivity. Qed.
Lemma param_indices_shift : forall gs i s name, param_indices (shift_at gs i s) name = param_indices gs name.
Proof.
  induction gs as [|g gs IH]; intros [|i] s name; try reflexivity; cbn [shift_at]; rewrite !param_indices_cons; [reflexivity|]. rewrite IH. reflexivity.
Qed.
Lemma shiftg_shiftg : forall g s t, shiftg (shiftg g s) t = shiftg (shiftg g t) s.
Proof. intros g s t. unfold shiftg. cbn [gclass generator_name target control noise sparse gparam shift]. f_equal. ring. Qed.
Lemma shift_at_comm : forall gs i j s t, shift_at (shift_at gs i s) j t = shift_at (shift_at gs j t) i s.
Proof.
  induction gs as [|g gs IH]; intros [|i] [|j] s t; try reflexivity; cbn [shift_at]; [rewrite shiftg_shiftg; reflexivity|]. rewrite IH. reflexivity.
Qed.
Lemma rotation_shift : forall gs i s name, phase_or_rotation_only gs name -> phase_or_rotation_only (shift_at gs i s) name.
Proof. intros gs i s name RO g' I N. apply shift_at_in in I as (g & I & [-> | ->]); [exact (RO g I N)|]. exact (RO g I N). Qed.
Lemma usable_shift_at : forall n vals gs i s, Forall (usable n vals) gs -> Forall (usable n vals) (shift_at gs i s).
Proof. intros n vals gs i s F. apply shift_at_Forall; [intros g; apply usable_shiftg|exact F]. Qed.

(** ** sums *)
Lemma dpl_rsum : forall {A} (l : list A) (f : A -> R -> R) (d : A -> R) x, (forall a, In a l -> derivable_pt_lim (f a) x (d a)) ->
    derivable_pt_lim (fun t => rsum l (fun a => f a t)) x (rsum l d).
Proof.
  intros A l f d x. induction l as [|a l IH]; intro H; cbn [rsum]; [apply derivable_pt_lim_const|].
  apply (derivable_pt_lim_plus (f a) (fun t => rsum l (fun a => f a t))); [apply H; left; reflexivity|apply IH; intros b I; apply H; right; exact I].
Qed.
Lemma rsum_swap : forall {A B} (l : list A) (m : list B) f, rsum l (fun a => rsum m (fun b => f a b)) = rsum m (fun b => rsum l (fun a => f a b)).
Proof.
  intros A B l m f. induction l as [|a l IH]; cbn [rsum]; [rewrite rsum_const; ring|]. rewrite IH, rsum_add. reflexivity.
Qed.
Lemma rsum_diff2 : forall {A} (l : list A) (f g : A -> R), ((rsum l f - rsum l g) / 2 = rsum l (fun a => (f a - g a) / 2))%R.
Proof. intros A l f g. induction l as [|a l IH]; cbn [rsum]; [field|]. rewrite <- IH. field. Qed.
Lemma rsum_mul_r : forall {A} (l : list A) (f : A -> R) c, (rsum l f * c = rsum l (fun a => f a * c))%R.
Proof. intros A l f c. induction l as [|a l IH]; cbn [rsum]; [ring|]. rewrite <- IH. ring. Qed.
Lemma nth_map_op : forall {A} (f : A -> R) l i a, nth_error l i = Some a -> nth i (map f l) 0%R = f a.
Proof. intros A f l i a E. apply nth_error_nth. rewrite nth_error_map, E. reflexivity. Qed.
Lemma directional_map : forall {A B} (F : A -> B -> R) (keys : list A) (Ks : list B) ts, length ts = length keys ->
    directional (length Ks) (map (fun a => map (F a) Ks) keys) ts = map (fun K => rsum (combine keys ts) (fun kt => (F (fst kt) K * snd kt)%R)) Ks.
Proof.
  intros A B F keys Ks ts L. unfold directional. rewrite (list_nth (map (fun K => rsum (combine keys ts) (fun kt => (F (fst kt) K * snd kt)%R)) Ks) (length Ks)) by apply map_length.
  apply map_ext_in. intros i Hi. apply in_seq in Hi. destruct (nth_error Ks i) as [K|] eqn:EK; [|apply nth_error_None in EK; lia].
  rewrite (nth_map_op _ _ _ _ EK). assert (Q : combine (map (fun a => map (F a) Ks) keys) ts = map (fun kt => (map (F (fst kt)) Ks, snd kt)) (combine keys ts)).
  { clear. revert ts. induction keys as [|k keys IH]; intros [|t ts]; try reflexivity. cbn [map combine fst snd]. rewrite IH. reflexivity. }
  rewrite Q, rsum_map'. apply rsum_ext. intros kt _. cbn [fst snd]. rewrite (nth_map_op _ _ _ _ EK). reflexivity.
Qed.

(** ** the formula of the Hessian *)
Definition gate_diff2 (n : nat) (vals : values) (gs : list gate) (r : op) (j i : nat) (K : op) : R :=
  ((gate_diff n vals (shift_at gs j (PI / 2)) r i K - gate_diff n vals (shift_at gs j (- (PI / 2))) r i K) / 2)%R.
Definition hess_entry (n : nat) (vals : values) (gs : list gate) (r : op) (Ks : list op) (a b : string) : list R :=
  map (fun K => rsum (param_indices gs a) (fun i => rsum (param_indices gs b) (fun j => gate_diff2 n vals gs r j i K))) Ks.
Lemma gate_diff2_comm : forall n vals gs r j i K, gate_diff2 n vals gs r j i K = gate_diff2 n vals gs r i j K.
Proof. intros. unfold gate_diff2, gate_diff. rewrite !(shift_at_comm gs i j). field. Qed.
Lemma hess_symmetric : forall n vals gs r Ks a b, hess_entry n vals gs r Ks a b = hess_entry n vals gs r Ks b a.
Proof.
  intros. unfold hess_entry. apply map_ext. intro K. rewrite rsum_swap. apply rsum_ext; intros j _. apply rsum_ext; intros i _. apply gate_diff2_comm.
Qed.
Lemma grad_deriv : forall n vals gs r K a b x, lookup vals a = Ok (VNum x) -> Forall (usable n vals) gs -> phase_or_rotation_only gs a ->
    derivable_pt_lim (fun t => rsum (param_indices gs b) (fun j => gate_diff n (at_value vals a t) gs r j K)) x
      (rsum (param_indices gs a) (fun i => rsum (param_indices gs b) (fun j => gate_diff2 n vals gs r j i K))).
Proof.
  intros n vals gs r K a b x L FU RO. rewrite rsum_swap. apply dpl_rsum. intros j _. unfold gate_diff.
  assert (A : forall s, derivable_pt_lim (fun t => mean_density n K (evolve n (at_value vals a t) (shift_at gs j s) r)) x
     (rsum (param_indices gs a) (fun i => gate_diff n vals (shift_at gs j s) r i K))).
  { intro s. rewrite <- (param_indices_shift gs j s a). apply mean_gradient; [exact L|apply usable_shift_at; exact FU|apply rotation_shift; exact RO]. }
  eapply dpl_eq; [|eapply dpl_ext; [|apply (derivable_pt_lim_scal _ (/ 2) _ _ (derivable_pt_lim_minus _ _ _ _ _ (A (PI / 2)%R) (A (- (PI / 2))%R)))]].
  - unfold gate_diff2. rewrite <- rsum_diff2. field.
  - intro t. unfold mult_real_fct, minus_fct. field.
Qed.

(** ** the expectation has these second derivatives *)
Lemma grad_at : forall w n circuit gs st obs Ks key,
    set_order (set_iter w) -> sequence_of circuit gs -> gs <> [] -> Forall dense_gate gs -> Forall noise_ok gs -> state_of n st -> obs <> [] ->
    (forall v, Forall2 (readable w n v st gs) obs Ks) -> forall v b x, Forall (usable n v) gs -> phase_or_rotation_only gs b -> lookup v b = Ok (VNum x) ->
    gradient_at (fun v => expectation w st circuit obs v GPSR 0 key) v b (rp_grad n v gs st Ks b).
Proof.
  intros w n circuit gs st obs Ks key SO HQ NG FD FN HS NO FK v b x FU RO L.
  exists (fun t => map (fun K => mean_density n K (evolve n (at_value v b t) gs (density_of st))) Ks), x. split; [exact L|split].
  - intro t. split; [|unfold rp_grad; rewrite !map_length; reflexivity]. unfold expectation. cbn [Z.ltb Z.eqb Z.compare]. rewrite (sequence_iter _ _ HQ); cbn [bind].
    apply eval_spec; auto. apply usable_at_all; exact FU.
  - intros i Hi. unfold rp_grad in *. rewrite map_length in Hi. destruct (nth_error Ks i) as [K|] eqn:EK; [|apply nth_error_None in EK; lia].
    rewrite (nth_map_op _ _ _ _ EK). eapply dpl_ext; [intro t; symmetry; apply (nth_map_op (fun K => mean_density n K (evolve n (at_value v b t) gs (density_of st))) _ _ _ EK)|].
    apply mean_gradient; assumption.
Qed.
Lemma second_at : forall w n vals circuit gs st obs Ks key a b,
    set_order (set_iter w) -> numeric_values vals -> sequence_of circuit gs -> gs <> [] -> Forall (usable n vals) gs -> Forall dense_gate gs -> Forall noise_ok gs ->
    state_of n st -> obs <> [] -> (forall v, Forall2 (readable w n v st gs) obs Ks) -> In a (map fst vals) -> In b (map fst vals) ->
    phase_or_rotation_only gs a -> phase_or_rotation_only gs b ->
    second_derivative_at (fun v => expectation w st circuit obs v GPSR 0 key) vals a b (hess_entry n vals gs (density_of st) Ks a b).
Proof.
  intros w n vals circuit gs st obs Ks key a b SO NV HQ NG FU FD FN HS NO FK Ia Ib Ra Rb. destruct (numeric_lookup vals a NV Ia) as (x & L).
  exists (fun t => rp_grad n (at_value vals a t) gs st Ks b), x. split; [exact L|split].
  - intro t. split; [|unfold rp_grad, hess_entry; rewrite !map_length; reflexivity].
    assert (LB : exists y, lookup (at_value vals a t) b = Ok (VNum y)).
    { apply numeric_lookup; [apply numeric_at; assumption|]. unfold at_value. rewrite set_keys by exact Ia. exact Ib. }
    destruct LB as (y & LB). eapply grad_at; eauto. apply usable_at_all; exact FU.
  - intros i Hi. unfold hess_entry in *. rewrite map_length in Hi. destruct (nth_error Ks i) as [K|] eqn:EK; [|apply nth_error_None in EK; lia].
    rewrite (nth_map_op _ _ _ _ EK). eapply dpl_ext; [intro t; symmetry; apply (nth_map_op (fun K => rsum (param_indices gs b) (fun j => gate_diff n (at_value vals a t) gs (density_of st) j K)) _ _ _ EK)|].
    apply grad_deriv; assumption.
Qed.

(** ** programs in which no name is shared *)
Section Once.
  Variables (w : world) (n : nat) (gs : list gate) (st : state) (obs : list (list oper)) (Ks : list op).
  Hypothesis SO : set_order (set_iter w).
  Hypothesis NG : gs <> [].
  Hypothesis FD : Forall dense_gate gs.
  Hypothesis FN : Forall noise_ok gs.
  Hypothesis HS : state_of n st.
  Hypothesis NO : obs <> [].
  Hypothesis FK : forall v, Forall2 (readable w n v st gs) obs Ks.
  Hypothesis ND : used_once gs.
  Let r := density_of st.

  Lemma once_evolve : forall vals name x s hs, lookup vals name = Ok (VNum x) -> Forall (usable n vals) hs -> (forall m, param_indices hs m = param_indices gs m) -> Forall (usable n vals) gs -> forall q,
      evolve n (at_value vals name (x + s)) hs q = match param_indices gs name with i :: _ => evolve n vals (shift_at hs i s) q | [] => evolve n vals hs q end.
  Proof.
    intros vals name x s hs L FH EI FU q. destruct (once_indices n vals gs name FU ND) as [E|(i & E)]; rewrite E.
    - apply evolve_unused; [exact FH|rewrite EI; exact E].
    - apply (evolve_shift_one n vals hs name x s i L FH). rewrite EI; exact E.
  Qed.
  Lemma once_step : forall vals name k, numeric_values vals -> Forall (usable n vals) gs -> In name (map fst vals) ->
      jvp_step (analytical_eval w st obs) (GMany gs) vals no_split name 2 k = Ok (rp_grad n vals gs st Ks name).
  Proof.
    intros vals name k NV FU I. destruct (numeric_lookup vals name NV I) as (x & L). unfold jvp_step, analytical_eval. rewrite !(bump_ok vals name x) by exact L. cbn [bind].
    assert (EV : forall t, analytical_expectation w st (GMany gs) obs (at_value vals name t) = Ok (map (fun K => mean_density n K (evolve n (at_value vals name t) gs r)) Ks)).
    { intro t. apply eval_spec; auto. apply usable_at_all; exact FU. }
    rewrite !EV. cbn [bind]. rewrite shift_rules_2, half_diffs_map. f_equal. apply map_ext. intro K. rewrite !(once_evolve vals name x _ gs L FU (fun _ => eq_refl) FU).
    destruct (once_indices n vals gs name FU ND) as [E|(i & E)]; rewrite E; cbn [rsum]; [field|]. unfold gate_diff, shift_pi2. fold r. field.
  Qed.
  Lemma once_grads : forall (f : evaluator) (G : string -> list R) vals uuid key, numeric_values vals -> vals <> [] -> Forall (usable n vals) gs ->
      (forall name k, In name (map fst vals) -> jvp_step f (GMany gs) vals no_split name 2 k = Ok (G name)) ->
      jvp_grads f (GMany gs) vals uuid no_split key = Ok (map G (map fst vals)).
  Proof.
    intros f G vals uuid key NV NVN FU HJ. unfold jvp_grads. rewrite (once_branch n vals gs FU ND).
    destruct (mapM_exists (fun kv : string * pyval => num (snd kv)) (fun _ _ => True) vals) as (xs & -> & _).
    { intros kv I. destruct NV as [_ FV]. rewrite Forall_forall in FV. destruct (FV kv I) as (x & Ex). rewrite Ex. exists x; split; [reflexivity|exact Logic.I]. }
    cbn [bind]. rewrite (mapM_ok _ (fun kn => G (snd kn))).
    - rewrite <- (map_map snd G), seq_snd. destruct vals; [contradiction|reflexivity].
    - intros [k name] I. apply in_combine_r in I. cbn [fst snd]. apply HJ; exact I.
  Qed.
  Lemma once_tangent : forall vals t2 uuid k, numeric_values vals -> vals <> [] -> Forall (usable n vals) gs -> length t2 = length vals ->
      tangent_eval (analytical_eval w st obs) t2 uuid no_split (GMany gs) vals k =
      Ok (map (fun K => rsum (combine (map fst vals) t2) (fun bt => (rsum (param_indices gs (fst bt)) (fun j => gate_diff n vals gs r j K) * snd bt)%R)) Ks).
  Proof.
    intros vals t2 uuid k NV NVN FU L2. unfold tangent_eval, gpsr_jvp. unfold analytical_eval at 1. rewrite (eval_spec w n vals st gs obs Ks) by auto. cbn [bind].
    rewrite (once_grads (analytical_eval w st obs) (rp_grad n vals gs st Ks)); auto; [|intros name k' I; apply once_step; assumption].
    cbn [bind snd]. f_equal. rewrite (contract_spec (length Ks)).
    - unfold rp_grad. apply (directional_map (fun name K => rsum (param_indices gs name) (fun i => gate_diff n vals gs (density_of st) i K))). rewrite map_length. exact L2.
    - destruct vals; [contradiction|discriminate].
    - rewrite !map_length. exact L2.
    - apply Forall_forall. intros d Hd. apply in_map_iff in Hd as (name & <- & _). unfold rp_grad. apply map_length.
  Qed.
  Lemma once_second_step : forall vals t2 uuid a k, numeric_values vals -> Forall (usable n vals) gs -> length t2 = length vals -> In a (map fst vals) ->
      jvp_step (tangent_eval (analytical_eval w st obs) t2 uuid no_split) (GMany gs) vals no_split a 2 k =
      Ok (map (fun K => rsum (combine (map fst vals) t2) (fun bt => (rsum (param_indices gs a) (fun i => rsum (param_indices gs (fst bt)) (fun j => gate_diff2 n vals gs r j i K)) * snd bt)%R)) Ks).
  Proof.
    intros vals t2 uuid a k NV FU L2 I. destruct (numeric_lookup vals a NV I) as (x & L). unfold jvp_step. rewrite !(bump_ok vals a x) by exact L. cbn [bind].
    assert (KE : forall t, map fst (at_value vals a t) = map fst vals) by (intro t; unfold at_value; apply set_keys; exact I).
    assert (NE : forall t, at_value vals a t <> []). { intros t Q. specialize (KE t). rewrite Q in KE. destruct vals; [contradiction|discriminate]. }
    assert (LE : forall t, length t2 = length (at_value vals a t)) by (intro t; rewrite L2, <- (map_length fst vals), <- (KE t), map_length; reflexivity).
    rewrite !once_tangent; auto using numeric_at, usable_at_all. cbn [bind]. rewrite shift_rules_2, half_diffs_map, !KE. f_equal. apply map_ext. intro K.
    rewrite rsum_diff2. apply rsum_ext. intros [b t] _. cbn [fst snd].
    assert (GD : forall s j, gate_diff n (at_value vals a (x + s)) gs r j K = match param_indices gs a with
        | i :: _ => ((mean_density n K (evolve n vals (shift_at (shift_at gs j (PI / 2)) i s) r) - mean_density n K (evolve n vals (shift_at (shift_at gs j (- (PI / 2))) i s) r)) / 2)%R
        | [] => gate_diff n vals gs r j K end).
    { intros s j. unfold gate_diff. rewrite !(once_evolve vals a x s (shift_at gs j _) L (usable_shift_at _ _ _ _ _ FU) (fun m => param_indices_shift gs j _ m) FU).
      destruct (param_indices gs a); reflexivity. }
    rewrite !(rsum_ext (param_indices gs b) _ _ (fun j _ => GD _ j)).
    destruct (once_indices n vals gs a FU ND) as [E|(i & E)]; rewrite E; cbn [rsum]; [field|].
    rewrite Rplus_0_r. replace (rsum (param_indices gs b) (fun j => gate_diff2 n vals gs r j i K)) with
      ((rsum (param_indices gs b) (fun j => ((mean_density n K (evolve n vals (shift_at (shift_at gs j (PI / 2)) i shift_pi2) r) - mean_density n K (evolve n vals (shift_at (shift_at gs j (- (PI / 2))) i shift_pi2) r)) / 2)) -
        rsum (param_indices gs b) (fun j => ((mean_density n K (evolve n vals (shift_at (shift_at gs j (PI / 2)) i (- shift_pi2)) r) - mean_density n K (evolve n vals (shift_at (shift_at gs j (- (PI / 2))) i (- shift_pi2)) r)) / 2))) / 2)%R; [field|].
    rewrite rsum_diff2. apply rsum_ext. intros j _. unfold gate_diff2, gate_diff, shift_pi2. field.
  Qed.
End Once.

(** ** programs with shared names: the renamed gates and the temporary dictionary *)
Section Shared.
  Variables (w : world) (n : nat) (vals : values) (gs : list gate) (st : state) (obs : list (list oper)) (Ks : list op) (uuid uuid2 : nat -> string) (t2 : list R).
  Hypothesis SO : set_order (set_iter w).
  Hypothesis NV : numeric_values vals.
  Hypothesis NVN : vals <> [].
  Hypothesis NG : gs <> [].
  Hypothesis FU : Forall (usable n vals) gs.
  Hypothesis FD : Forall dense_gate gs.
  Hypothesis FN : Forall noise_ok gs.
  Hypothesis HS : state_of n st.
  Hypothesis NO : obs <> [].
  Hypothesis AR : all_rotations gs.
  Hypothesis FK : forall v, Forall2 (readable w n v st gs) obs Ks.
  Hypothesis ALL : forall name, In name (map fst vals) -> In name (flat_map names_of_gate gs).
  Hypothesis UI : forall i j, uuid i = uuid j -> i = j.
  Hypothesis LT : length t2 = length vals.
  Let keys := map fst vals.
  Let r := density_of st.
  Let valof (p : string) : R := match lookup vals p with Ok (VNum x) => x | _ => 0%R end.
  Let nv : values := map (fun ip => (uuid (fst ip), VNum (valof (snd ip)))) (temp_inds gs keys).
  Let ng : list gate := map (rename_at keys uuid) (indexed gs).

  (** a gate and its renamed version *)
  Definition rel (g' g : gate) : Prop :=
    (exists nm p, g' = renamed g nm /\ gclass g = KParam /\ gparam g = PName p /\ lookup nv nm = Ok (VNum (valof p)) /\ lookup vals p = Ok (VNum (valof p))) \/
    (g' = g /\ usable n vals g /\ names_of_gate g = []).
  Lemma rel_shift : forall g' g s, rel g' g -> rel (shiftg g' s) (shiftg g s).
  Proof.
    intros g' g s [(nm & p & -> & C & P & L1 & L2)|(-> & U & E)].
    - left. exists nm, p. repeat split; assumption.
    - right. split; [reflexivity|split; [apply usable_shiftg; exact U|exact E]].
  Qed.
  Lemma rel_step : forall g' g q, rel g' g -> step n nv g' q = step n vals g q.
  Proof.
    intros g' g q [(nm & p & -> & C & P & L1 & L2)|(-> & U & E)].
    - unfold step, mat_of, renamed. cbn [gclass generator_name target control noise]. rewrite C. unfold angle_of. cbn [gparam shift]. rewrite P, L1, L2. reflexivity.
    - unfold step. rewrite (unnamed_mat n vals nv g U E). reflexivity.
  Qed.
  Lemma rel_evolve : forall l' l, Forall2 rel l' l -> forall q, evolve n nv l' q = evolve n vals l q.
  Proof. intros l' l F. induction F as [|g' g l' l H F IH]; intro q; [reflexivity|]. cbn [evolve]. rewrite (rel_step g' g q H). apply IH. Qed.
  Lemma rel_shift_at : forall l' l i s, Forall2 rel l' l -> Forall2 rel (shift_at l' i s) (shift_at l i s).
  Proof.
    intros l' l i s F. revert i. induction F as [|g' g l' l H F IH]; intros [|i]; cbn [shift_at]; constructor; auto using rel_shift.
  Qed.
  Lemma valof_ok : forall p, In p keys -> lookup vals p = Ok (VNum (valof p)).
  Proof. intros p Hp. destruct (numeric_lookup vals p NV Hp) as (x & E). unfold valof. rewrite E. reflexivity. Qed.
  Lemma nv_lookup : forall i p, In p keys -> In i (param_indices gs p) -> lookup nv (uuid i) = Ok (VNum (valof p)).
  Proof. intros i p Hp Hi. apply (rp_lookup vals gs uuid NV UI i p Hp Hi). Qed.
  Lemma ng_rel : Forall2 rel ng gs.
  Proof.
    assert (G : forall l, (forall i g, In (i, g) l -> In (i, g) (indexed gs)) -> Forall2 rel (map (rename_at keys uuid) l) (map snd l)).
    { induction l as [|[i g] l IH]; intro H; [constructor|]. cbn [map snd]. constructor; [|apply IH; intros; apply H; right; assumption].
      assert (I : In (i, g) (indexed gs)) by (apply H; left; reflexivity). pose proof (rp_usable n vals gs FU i g I) as U. unfold rename_at; cbn [fst snd].
      destruct (in_names keys g) eqn:E.
      - left. apply in_names_spec in E as (p & Up & Hp). destruct (rp_named n vals gs FU AR i g p I Up) as [PR Ii]. exists (uuid i), p. split; [reflexivity|split; [apply plain_param; exact PR|]].
        split; [|split; [apply nv_lookup; assumption|apply valof_ok; exact Hp]].
        unfold uses_param in Up. apply andb_prop in Up as [_ Up]. destruct (gparam g); [apply String.eqb_eq in Up; congruence|discriminate].
      - right. split; [reflexivity|split; [exact U|apply (in_names_false n vals g U E)]]. }
    specialize (G (indexed gs) (fun i g I => I)). rewrite indexed_snd in G. exact G.
  Qed.
  Lemma ng_usable : Forall (usable n nv) ng.
  Proof.
    apply Forall_forall. intros g' I. unfold ng in I. apply in_map_iff in I as ([j g] & <- & I). unfold rename_at; cbn [fst snd]. pose proof (rp_usable n vals gs FU j g I) as U.
    destruct (in_names keys g) eqn:E.
    - apply in_names_spec in E as (q & Uq & Hq). destruct (rp_named n vals gs FU AR j g q I Uq) as [PR Ij]. eapply renamed_usable; [exact U|apply plain_param; exact PR|apply nv_lookup; eassumption].
    - apply (unnamed_usable n vals); [exact U|]. apply (in_names_false n vals g U E).
  Qed.
  Lemma ng_dense : Forall dense_gate ng.
  Proof.
    apply Forall_forall. intros g' I. unfold ng in I. apply in_map_iff in I as ([j g] & <- & I). rewrite Forall_forall in FD. assert (D : dense_gate g).
    { apply FD. rewrite <- (indexed_snd gs). apply in_map_iff; exists (j, g); split; [reflexivity|exact I]. }
    unfold rename_at; cbn [fst snd]. destruct (in_names keys g); exact D.
  Qed.
  Lemma ng_noise : Forall noise_ok ng.
  Proof.
    apply Forall_forall. intros g' I. unfold ng in I. apply in_map_iff in I as ([j g] & <- & I). rewrite Forall_forall in FN. assert (D : noise_ok g).
    { apply FN. rewrite <- (indexed_snd gs). apply in_map_iff; exists (j, g); split; [reflexivity|exact I]. }
    unfold rename_at; cbn [fst snd]. destruct (in_names keys g); exact D.
  Qed.
  Lemma ng_nonempty : ng <> [].
  Proof. unfold ng. intro Q. apply map_eq_nil in Q. apply NG. rewrite <- (indexed_snd gs), Q. reflexivity. Qed.
  Lemma ng_readable : forall v, Forall2 (readable w n v st ng) obs Ks.
  Proof. intro v. eapply F2_impl; [|apply (FK v)]. intros l K. apply readable_mixes. apply (rp_mixes vals gs st uuid). Qed.
  Lemma ng_nth : forall i g, nth_error gs i = Some g -> nth_error ng i = Some (rename_at keys uuid (i, g)).
  Proof. intros i g E. apply (rp_nth vals gs uuid i g E). Qed.
  Lemma ng_index : forall i name, In i (param_indices ng name) -> name = uuid i.
  Proof.
    intros i name H. destruct (param_indices_in ng name i H) as (g' & E & U). destruct (nth_error gs i) as [g|] eqn:EG.
    - rewrite (ng_nth i g EG) in E. injection E as <-. unfold rename_at in U; cbn [fst snd] in U. destruct (in_names keys g) eqn:EN.
      + unfold uses_param, renamed in U. cbn [gparam] in U. apply andb_prop in U as [_ U]. apply String.eqb_eq in U. symmetry; exact U.
      + exfalso. assert (IG : In g gs) by (eapply nth_error_In; exact EG). pose proof FU as F. rewrite Forall_forall in F. specialize (F g IG).
        pose proof (in_names_false n vals g F EN) as Q. rewrite (uses_in_names n vals g name F U) in Q. discriminate.
    - exfalso. apply nth_error_None in EG. assert (Q : i < length ng) by (apply nth_error_Some; congruence). unfold ng, indexed in Q. rewrite map_length, combine_length, seq_length in Q. lia.
  Qed.
  Lemma ng_short : forall name, length (param_indices ng name) <= 1.
  Proof.
    intro name. pose proof (param_indices_nodup ng name) as NDI. assert (H : forall i, In i (param_indices ng name) -> name = uuid i) by (intro i; apply ng_index).
    destruct (param_indices ng name) as [|i [|j l]]; cbn [length]; try lia. exfalso. inversion NDI as [|? ? NI _]; subst. apply NI. left.
    apply UI. rewrite <- (H i (or_introl eq_refl)). symmetry. apply H. right; left; reflexivity.
  Qed.
  Lemma ng_indices : forall i p, In p keys -> In i (param_indices gs p) -> param_indices ng (uuid i) = [i].
  Proof.
    intros i p Hp Hi. destruct (param_indices_in gs p i Hi) as (g & E & U). pose proof (ng_nth i g E) as E'.
    assert (IN : In i (param_indices ng (uuid i))).
    { assert (G : forall hs k h name, nth_error hs k = Some h -> uses_param name h = true -> In k (param_indices hs name)).
      { clear. induction hs as [|h0 hs IH]; intros [|k] h name E U; try discriminate; rewrite param_indices_cons; apply in_or_app.
        - injection E as ->. rewrite U. left; left; reflexivity.
        - right. apply in_map. eapply IH; eassumption. }
      eapply G; [exact E'|]. unfold rename_at; cbn [fst snd]. assert (EN : in_names keys g = true).
      { unfold in_names. unfold uses_param in U. apply andb_prop in U as [U1 U2]. rewrite U1. destruct (gparam g) as [s|]; [|discriminate]. apply String.eqb_eq in U2; subst s.
        apply existsb_exists. exists p. split; [exact Hp|apply String.eqb_refl]. }
      rewrite EN. unfold uses_param, renamed. cbn [gparam]. rewrite String.eqb_refl. unfold is_parametric. cbn [gclass gparam].
      unfold uses_param, is_parametric in U. apply andb_prop in U as [U1 _]. destruct (gclass g); try discriminate U1; reflexivity. }
    pose proof (ng_short (uuid i)) as S1. destruct (param_indices ng (uuid i)) as [|j [|? ?]]; [contradiction| |simpl in S1; lia]. destruct IN as [->|[]]; reflexivity.
  Qed.
  Lemma ng_once : used_once ng.
  Proof. apply (NoDup_count_occ string_dec). intro name. rewrite (count_indices n nv ng name ng_usable). apply ng_short. Qed.
  Lemma nv_keys : map fst nv = map (fun ip => uuid (fst ip)) (temp_inds gs keys).
  Proof. unfold nv. rewrite map_map. reflexivity. Qed.
  Lemma nv_numeric : numeric_values nv.
  Proof.
    split.
    - rewrite nv_keys, <- (map_map fst uuid). apply FinFun.Injective_map_NoDup; [intros a b; apply UI|]. apply temp_inds_nodup. destruct NV as [ND _]; exact ND.
    - apply Forall_forall. intros kv I. unfold nv in I. apply in_map_iff in I as (ip & <- & _). eexists; reflexivity.
  Qed.
  Lemma nv_nonempty : nv <> [].
  Proof.
    assert (H : exists p, In p keys) by (unfold keys; destruct vals as [|[k v] l]; [contradiction|exists k; left; reflexivity]). destruct H as (p & Hp).
    pose proof (rp_indices n vals gs FU ALL p Hp) as NE. destruct (param_indices gs p) as [|i l] eqn:E; [contradiction|].
    assert (I : In (i, p) (temp_inds gs keys)) by (apply temp_inds_in; split; [exact Hp|rewrite E; left; reflexivity]).
    unfold nv. destruct (temp_inds gs keys); [contradiction|discriminate].
  Qed.
  Definition tan_of (p : string) : R := match lookup (combine keys t2) p with Ok x => x | Err _ => 0%R end.
  Lemma t2_map : combine keys t2 = map (fun p => (p, tan_of p)) keys.
  Proof.
    unfold tan_of. assert (ND : NoDup keys) by (destruct NV as [ND _]; exact ND). assert (L : length t2 = length keys) by (unfold keys; rewrite map_length; exact LT).
    revert ND L. generalize t2. induction keys as [|k l IH]; intros [|t ts] ND L; try discriminate; [reflexivity|]. inversion ND as [|? ? NI ND']; subst. cbn [combine map lookup].
    rewrite String.eqb_refl. f_equal. rewrite (IH ts ND') at 1 by (cbn in L; lia). apply map_ext_in. intros p Hp. destruct (String.eqb_spec p k) as [->|N]; [contradiction|reflexivity].
  Qed.
  Lemma tan_lookup : forall p, In p keys -> lookup (combine keys t2) p = Ok (tan_of p).
  Proof.
    intros p Hp. rewrite t2_map. generalize tan_of. intro f. induction keys as [|k l IH]; [contradiction|]. cbn [map lookup]. destruct (String.eqb_spec p k) as [->|N]; [reflexivity|].
    destruct Hp as [Q|Hp]; [congruence|]. apply IH; exact Hp.
  Qed.
  Lemma tt_ok : temp_tangents gs keys t2 uuid = Ok (map (fun ip => tan_of (snd ip)) (temp_inds gs keys)).
  Proof.
    unfold temp_tangents. rewrite temp_names_inds, (mapM_ok _ (fun tp => tan_of (snd tp))); [rewrite map_map; reflexivity|].
    intros tp I. apply in_map_iff in I as ([i p] & <- & I). cbn [fst snd]. apply temp_inds_in in I as [I _]. apply tan_lookup; exact I.
  Qed.
  Lemma rsum_temp : forall (F : nat -> string -> R), rsum (temp_inds gs keys) (fun ip => F (fst ip) (snd ip)) = rsum keys (fun p => rsum (param_indices gs p) (fun i => F i p)).
  Proof.
    intro F. unfold temp_inds. induction keys as [|k l IH]; [reflexivity|]. cbn [flat_map rsum]. rewrite rsum_app, IH, rsum_map'. reflexivity.
  Qed.
  Lemma shared_step : forall i p k, In p keys -> In i (param_indices gs p) ->
      jvp_step (tangent_eval (analytical_eval w st obs) (map (fun ip => tan_of (snd ip)) (temp_inds gs keys)) uuid2 no_split) (GMany ng) nv no_split (uuid i) 2 k =
      Ok (map (fun K => rsum (combine keys t2) (fun bt => (rsum (param_indices gs (fst bt)) (fun j => gate_diff2 n vals gs r j i K) * snd bt)%R)) Ks).
  Proof.
    intros i p k Hp Hi. set (nt := map (fun ip => tan_of (snd ip)) (temp_inds gs keys)).
    assert (IK : In (uuid i) (map fst nv)) by (rewrite nv_keys; apply in_map_iff; exists (i, p); split; [reflexivity|apply temp_inds_in; auto]).
    rewrite (once_second_step w n ng st obs Ks SO ng_nonempty ng_dense ng_noise HS NO ng_readable ng_once nv nt uuid2 (uuid i) k nv_numeric ng_usable); [|unfold nt, nv; rewrite !map_length; reflexivity|exact IK].
    f_equal. apply map_ext. intro K. rewrite (ng_indices i p Hp Hi). cbn [rsum]. rewrite nv_keys. unfold nt. rewrite combine_map2, rsum_map', t2_map, rsum_map'. cbn [fst snd].
    transitivity (rsum (temp_inds gs keys) (fun jq => (gate_diff2 n vals gs r (fst jq) i K * tan_of (snd jq))%R)).
    - apply rsum_ext. intros [j q] I. cbn [fst snd]. apply temp_inds_in in I as [Iq Ij]. rewrite (ng_indices j q Iq Ij). cbn [rsum]. rewrite !Rplus_0_r. f_equal.
      unfold gate_diff2, gate_diff. fold r. rewrite !(rel_evolve _ _ (rel_shift_at _ _ _ _ (rel_shift_at _ _ _ _ ng_rel))). reflexivity.
    - rewrite (rsum_temp (fun j q => (gate_diff2 n vals gs r j i K * tan_of q)%R)). apply rsum_ext. intros q _. symmetry. apply rsum_mul_r.
  Qed.
  Lemma shared_grads : gpsr_branch (GMany gs) keys = CaseRepeated ->
      jvp_grads (tangent_eval (analytical_eval w st obs) (map (fun ip => tan_of (snd ip)) (temp_inds gs keys)) uuid2 no_split) (GMany gs) vals uuid no_split 0 =
      Ok (map (fun a => map (fun K => rsum (combine keys t2) (fun bt => (rsum (param_indices gs a) (fun i => rsum (param_indices gs (fst bt)) (fun j => gate_diff2 n vals gs r j i K)) * snd bt)%R)) Ks) keys).
  Proof.
    intro HB. rewrite (rp_grads_gen n vals gs Ks uuid NV FU AR ALL _ (fun i K => rsum (combine keys t2) (fun bt => (rsum (param_indices gs (fst bt)) (fun j => gate_diff2 n vals gs r j i K) * snd bt)%R)) (fun i p k => shared_step i p k) HB).
    f_equal. apply map_ext. intro a. apply map_ext. intro K. rewrite rsum_swap. apply rsum_ext. intros bt _. symmetry. apply rsum_mul_r.
  Qed.
End Shared.

Lemma c106_hessian : forall w n vals circuit gs st obs Ks key,
    set_order (set_iter w) -> numeric_values vals -> vals <> [] -> sequence_of circuit gs -> gs <> [] ->
    Forall (usable n vals) gs -> Forall dense_gate gs -> Forall noise_ok gs -> state_of n st -> obs <> [] ->
    (forall v, Forall2 (readable w n v st gs) obs Ks) ->
    (forall g, In g gs -> names_of_gate g <> [] -> plain_rotation g) ->
    used_once gs \/ (forall name, In name (map fst vals) -> In name (flat_map names_of_gate gs)) ->
    exists H : string -> string -> list R,
      (forall a b, In a (map fst vals) -> In b (map fst vals) ->
        second_derivative_at (fun v => expectation w st circuit obs v GPSR 0 key) vals a b (H a b) /\ H a b = H b a) /\
      forall t1 t2 uuid uuid2, length t1 = length vals -> length t2 = length vals -> (forall i j, uuid i = uuid j -> i = j) ->
        analytical_gpsr_second w st (GMany gs) obs vals t1 t2 uuid uuid2 =
        Ok (second_directional (length obs) (map (fun a => map (H a) (map fst vals)) (map fst vals)) t1 t2).
Proof.
  intros w n vals circuit gs st obs Ks key SO NV NVN HQ NG FU FD FN HS NO FK AR CASES. set (r := density_of st). set (keys := map fst vals).
  exists (hess_entry n vals gs r Ks). split.
  - intros a b Ia Ib. split; [|apply hess_symmetric]. apply second_at; auto; intros g I N; left; apply AR; auto; intro Q; rewrite Q in N; contradiction.
  - intros t1 t2 uuid uuid2 L1 L2 UI. unfold analytical_gpsr_second, gpsr_second. fold keys.
    assert (EG : forall inner, match gpsr_branch (GMany gs) keys with CaseRepeated => temp_tangents gs keys t2 uuid | _ => Ok t2 end = Ok inner ->
       jvp_grads (tangent_eval (analytical_eval w st obs) inner uuid2 no_split) (GMany gs) vals uuid no_split 0 =
       Ok (map (fun a => map (fun K => rsum (combine keys t2) (fun bt => (rsum (param_indices gs a) (fun i => rsum (param_indices gs (fst bt)) (fun j => gate_diff2 n vals gs r j i K)) * snd bt)%R)) Ks) keys)
       ).
    { intros inner EI. assert (DEC : used_once gs \/ ~ used_once gs).
      { unfold used_once. destruct (ListDec.NoDup_dec string_dec (flat_map names_of_gate gs)); auto. }
      destruct DEC as [ND|ND].
      - unfold keys in EI. rewrite (once_branch n vals gs FU ND) in EI. injection EI as <-.
        apply (once_grads n gs ND (tangent_eval (analytical_eval w st obs) t2 uuid2 no_split)); auto.
        intros name k I. apply (once_second_step w n gs st obs Ks); auto.
      - destruct CASES as [C|ALL]; [contradiction|]. pose proof (repeated_branch n vals gs FU NVN (proj1 NV) ALL ND) as HB. unfold keys in EI. rewrite HB in EI.
        rewrite (tt_ok vals gs uuid t2 NV L2) in EI. injection EI as <-.
        apply (shared_grads w n vals gs st obs Ks uuid uuid2 t2); auto. }
    assert (EI : exists inner, match gpsr_branch (GMany gs) keys with CaseRepeated => temp_tangents gs keys t2 uuid | _ => Ok t2 end = Ok inner).
    { destruct (gpsr_branch (GMany gs) keys); eauto. eexists. apply (tt_ok vals gs uuid t2 NV L2). }
    destruct EI as (inner & EI). rewrite EI. cbn [bind]. rewrite (EG inner EI). cbn [bind]. f_equal. rewrite (contract_spec (length Ks)).
    + rewrite (directional_map (fun a K => rsum (combine keys t2) (fun bt => (rsum (param_indices gs a) (fun i => rsum (param_indices gs (fst bt)) (fun j => gate_diff2 n vals gs r j i K)) * snd bt)%R))) by (unfold keys; rewrite map_length; exact L1).
      unfold second_directional. rewrite (F2_len (FK vals)).
      rewrite (list_nth (map (fun K => rsum (combine keys t1) (fun kt => (rsum (combine keys t2) (fun bt => (rsum (param_indices gs (fst kt)) (fun i => rsum (param_indices gs (fst bt)) (fun j => gate_diff2 n vals gs r j i K)) * snd bt)%R) * snd kt)%R)) Ks) (length Ks)) by apply map_length.
      apply map_ext_in. intros i Hi. apply in_seq in Hi. destruct (nth_error Ks i) as [K|] eqn:EK; [|apply nth_error_None in EK; lia]. rewrite (nth_map_op _ _ _ _ EK).
      assert (CM : forall {A B} (f : A -> B) (l : list A) (ts : list R), combine (map f l) ts = map (fun kt => (f (fst kt), snd kt)) (combine l ts)).
      { clear. intros A B f l. induction l as [|k l IH]; intros [|t ts]; try reflexivity. cbn [map combine fst snd]. rewrite IH. reflexivity. }
      rewrite CM, rsum_map'. apply rsum_ext. intros [a ta] _. cbn [fst snd]. rewrite CM, rsum_map'. f_equal. apply rsum_ext. intros [b tb] _. cbn [fst snd].
      unfold hess_entry. rewrite (nth_map_op _ _ _ _ EK). reflexivity.
    + unfold keys. destruct vals; [contradiction|discriminate].
    + unfold keys. rewrite !map_length. exact L1.
    + apply Forall_forall. intros d Hd. apply in_map_iff in Hd as (name & <- & _). apply map_length.
Qed.
